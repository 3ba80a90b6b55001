(** Tarskian semantics of formulas, and syntactic notions stated independently of the model's
    functions.

    Symbols are interpreted by their index (two identifiers with the same index are the same
    symbol for the prover), type constructors by their name, bound variables by their index,
    bound type variables by their name.  There is one non-empty domain [D] of individuals and one
    non-empty domain [T] of type values: a variable declared with type $tType ranges over [T], any
    other variable over [D] (the sorts of individual variables are erased). *)
From Coq Require Import ZArith List Bool String.
From Verif Require Import Ast_Model.
Import ListNotations.
Open Scope Z_scope.

Record interp : Type := mkInterp {
  D : Type; T : Type;
  fn : Z -> list T -> list D -> D;       (* function symbols *)
  pr : Z -> list T -> list D -> Prop;    (* predicate symbols *)
  tcon : string -> list T -> T;          (* type constructors *)
  tsch : string -> T;                    (* variables of type schemes *)
  tprod : list T -> T;
  tfunc : T -> T -> T;
  tpi : list string -> T -> T
}.

(** Valuations: bound variables, metavariables, bound type variables, type metavariables. *)
Record val (I : interp) : Type := mkVal {
  bv : Z -> D I; mv : Z -> D I; tbv : string -> T I; tmv : string -> Z -> T I }.
Arguments bv {I}. Arguments mv {I}. Arguments tbv {I}. Arguments tmv {I}. Arguments mkVal {I}.

Definition upd {B} (f : Z -> B) (i : Z) (b : B) : Z -> B := fun j => if j =? i then b else f j.
Definition upds {B} (f : string -> B) (i : string) (b : B) : string -> B :=
  fun j => if String.eqb j i then b else f j.

Definition set_bv {I} (v : val I) i d := mkVal (upd (bv v) i d) (mv v) (tbv v) (tmv v).
Definition set_mv {I} (v : val I) i d := mkVal (bv v) (upd (mv v) i d) (tbv v) (tmv v).
Definition set_tbv {I} (v : val I) s t := mkVal (bv v) (mv v) (upds (tbv v) s t) (tmv v).
Definition set_tmv {I} (v : val I) s i t :=
  mkVal (bv v) (mv v) (tbv v) (fun s' j => if String.eqb s' s && (j =? i) then t else tmv v s' j).

Fixpoint evty {I} (v : val I) (t : ty) : T I :=
  match t with
  | TyVar s => tsch I s
  | TyBound n _ => tbv v n
  | TyMeta n i _ => tmv v n i
  | TyConstr s args => tcon I s (map (evty v) args)
  | TyProd args => tprod I (map (evty v) args)
  | TyFunc a b => tfunc I (evty v a) (evty v b)
  | TyPi vs b => tpi I vs (evty v b)
  end.

Fixpoint ev {I} (v : val I) (t : term) : D I :=
  match t with
  | TId i => fn I (id_index i) [] []
  | Fun p tys args => fn I (id_index p) (map (evty v) tys) (map (ev v) args)
  | Var i _ => bv v i
  | Meta m => mv v (m_index m)
  end.

Fixpoint forall_vars {I} (vs : list tvar) (k : val I -> Prop) (v : val I) : Prop :=
  match vs with
  | [] => k v
  | x :: r => if is_ttype (tv_ty x)
              then forall t, forall_vars r k (set_tbv v (tv_name x) t)
              else forall d, forall_vars r k (set_bv v (tv_index x) d)
  end.
Fixpoint exists_vars {I} (vs : list tvar) (k : val I -> Prop) (v : val I) : Prop :=
  match vs with
  | [] => k v
  | x :: r => if is_ttype (tv_ty x)
              then exists t, exists_vars r k (set_tbv v (tv_name x) t)
              else exists d, exists_vars r k (set_bv v (tv_index x) d)
  end.

Fixpoint holds {I} (f : form) (v : val I) {struct f} : Prop :=
  match f with
  | All _ vs g => forall_vars vs (holds g) v
  | Ex _ vs g => exists_vars vs (holds g) v
  | Or _ fs => fold_right (fun g P => holds g v \/ P) False fs
  | And _ fs => fold_right (fun g P => holds g v /\ P) True fs
  | Equ _ a b => holds a v <-> holds b v
  | Imp _ a b => holds a v -> holds b v
  | Not _ g => ~ holds g v
  | Pred _ p tys args => pr I (id_index p) (map (evty v) tys) (map (ev v) args)
  | Top _ => True
  | Bot _ => False
  end.

(** Logical equivalence: same truth value in every interpretation and valuation. *)
Definition equiv (f g : form) : Prop := forall I (v : val I), holds f v <-> holds g v.

(** A formula has a model. *)
Definition satisfiable (f : form) : Prop := exists I (v : val I), holds f v.

(** Occurrence of a metavariable (identified by its index) in a term / formula, outside types. *)
Inductive occ_meta (i : Z) : term -> Prop :=
| occ_here m : m_index m = i -> occ_meta i (Meta m)
| occ_fun p tys args t : In t args -> occ_meta i t -> occ_meta i (Fun p tys args).

Inductive focc_meta (i : Z) : form -> Prop :=
| focc_all x vs f : focc_meta i f -> focc_meta i (All x vs f)
| focc_ex x vs f : focc_meta i f -> focc_meta i (Ex x vs f)
| focc_or x fs f : In f fs -> focc_meta i f -> focc_meta i (Or x fs)
| focc_and x fs f : In f fs -> focc_meta i f -> focc_meta i (And x fs)
| focc_equ1 x f g : focc_meta i f -> focc_meta i (Equ x f g)
| focc_equ2 x f g : focc_meta i g -> focc_meta i (Equ x f g)
| focc_imp1 x f g : focc_meta i f -> focc_meta i (Imp x f g)
| focc_imp2 x f g : focc_meta i g -> focc_meta i (Imp x f g)
| focc_not x f : focc_meta i f -> focc_meta i (Not x f)
| focc_pred x p tys args t : In t args -> occ_meta i t -> focc_meta i (Pred x p tys args).

(** Identity of terms up to what the prover looks at: the same shape with the same indices. *)
Inductive same_ty : ty -> ty -> Prop :=
| same_tyvar s : same_ty (TyVar s) (TyVar s)
| same_tybound n i j : same_ty (TyBound n i) (TyBound n j)
| same_tymeta n i f g : same_ty (TyMeta n i f) (TyMeta n i g)
| same_tyconstr s l1 l2 : Forall2 same_ty l1 l2 -> same_ty (TyConstr s l1) (TyConstr s l2)
| same_typrod l1 l2 : Forall2 same_ty l1 l2 -> same_ty (TyProd l1) (TyProd l2)
| same_tyfunc a1 a2 b1 b2 : same_ty a1 a2 -> same_ty b1 b2 -> same_ty (TyFunc a1 b1) (TyFunc a2 b2)
| same_typi vs t1 t2 : same_ty t1 t2 -> same_ty (TyPi vs t1) (TyPi vs t2).

Inductive same_term : term -> term -> Prop :=
| same_id i j : id_index i = id_index j -> same_term (TId i) (TId j)
| same_fun p q t1 t2 l1 l2 : id_index p = id_index q -> Forall2 same_ty t1 t2 ->
    Forall2 same_term l1 l2 -> same_term (Fun p t1 l1) (Fun q t2 l2)
| same_var i n n' : same_term (Var i n) (Var i n')
| same_meta m n : m_index m = m_index n -> same_term (Meta m) (Meta n).

(** Textbook replacement of every occurrence of metavariable [i] by [u]. *)
Fixpoint msubst (i : Z) (u : term) (t : term) : term :=
  match t with
  | Meta m => if m_index m =? i then u else t
  | Fun p tys args => Fun p tys (map (msubst i u) args)
  | _ => t
  end.
Fixpoint fmsubst (i : Z) (u : term) (f : form) : form :=
  match f with
  | All x vs g => All x vs (fmsubst i u g)
  | Ex x vs g => Ex x vs (fmsubst i u g)
  | Or x fs => Or x (map (fmsubst i u) fs)
  | And x fs => And x (map (fmsubst i u) fs)
  | Equ x a b => Equ x (fmsubst i u a) (fmsubst i u b)
  | Imp x a b => Imp x (fmsubst i u a) (fmsubst i u b)
  | Not x g => Not x (fmsubst i u g)
  | Pred x p tys args => Pred x p tys (map (msubst i u) args)
  | Top _ | Bot _ => f
  end.

(** Number of occurrences of metavariable [i] in a term. *)
Fixpoint mcount (i : Z) (t : term) : nat :=
  match t with
  | Meta m => if m_index m =? i then 1%nat else 0%nat
  | Fun _ _ args => list_sum (map (mcount i) args)
  | _ => 0%nat
  end.

(** Every argument of every atom of the formula satisfies [P]. *)
Inductive all_atom_args (P : term -> Prop) : form -> Prop :=
| aaa_all i vs f : all_atom_args P f -> all_atom_args P (All i vs f)
| aaa_ex i vs f : all_atom_args P f -> all_atom_args P (Ex i vs f)
| aaa_or i fs : Forall (all_atom_args P) fs -> all_atom_args P (Or i fs)
| aaa_and i fs : Forall (all_atom_args P) fs -> all_atom_args P (And i fs)
| aaa_equ i f g : all_atom_args P f -> all_atom_args P g -> all_atom_args P (Equ i f g)
| aaa_imp i f g : all_atom_args P f -> all_atom_args P g -> all_atom_args P (Imp i f g)
| aaa_not i f : all_atom_args P f -> all_atom_args P (Not i f)
| aaa_pred i p tys args : Forall P args -> all_atom_args P (Pred i p tys args)
| aaa_top i : all_atom_args P (Top i)
| aaa_bot i : all_atom_args P (Bot i).

(** Simultaneous substitution of metavariables given by an association list. *)
Fixpoint assoc (i : Z) (s : list (meta * term)) : option term :=
  match s with
  | [] => None
  | (m, u) :: r => if m_index m =? i then Some u else assoc i r
  end.
Fixpoint ssubst (s : list (meta * term)) (t : term) : term :=
  match t with
  | Meta m => match assoc (m_index m) s with Some u => u | None => t end
  | Fun p tys args => Fun p tys (map (ssubst s) args)
  | _ => t
  end.
