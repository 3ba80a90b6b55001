(** Occurrences: which variables, function symbols, type variables and binders a formula contains. *)
From Coq Require Import ZArith List Bool String.
From Verif Require Import Ast_Model Sem_Spec.
Import ListNotations.
Open Scope Z_scope.

(** names of the bound type variables occurring in a type *)
Fixpoint ty_tyvars (t : ty) : list string :=
  match t with
  | TyBound n _ => [n]
  | TyVar _ | TyMeta _ _ _ => []
  | TyConstr _ l | TyProd l => flat_map ty_tyvars l
  | TyFunc a b => ty_tyvars a ++ ty_tyvars b
  | TyPi _ b => ty_tyvars b
  end.

(** indices of the variables occurring in a term *)
Fixpoint t_vars (t : term) : list Z :=
  match t with
  | Var i _ => [i]
  | Fun _ _ l => flat_map t_vars l
  | _ => []
  end.
(** indices of the function symbols occurring in a term *)
Fixpoint t_funs (t : term) : list Z :=
  match t with
  | Fun p _ l => id_index p :: flat_map t_funs l
  | _ => []
  end.
(** names of the type variables occurring in a term *)
Fixpoint t_tyvars (t : term) : list string :=
  match t with
  | Fun _ tys l => flat_map ty_tyvars tys ++ flat_map t_tyvars l
  | _ => []
  end.
(** indices of the metavariables of a term *)
Fixpoint t_metas (t : term) : list Z :=
  match t with
  | Meta m => [m_index m]
  | Fun _ _ l => flat_map t_metas l
  | _ => []
  end.
(** a bare identifier is never a term of a formula built by the parser *)
Fixpoint t_noid (t : term) : bool :=
  match t with
  | TId _ => false
  | Fun _ _ l => forallb t_noid l
  | _ => true
  end.

Section Form.
Context {A : Type}.
Variable atom : ident -> list ty -> list term -> list A.
(** collect something from the atoms of a formula *)
Fixpoint f_collect (f : form) : list A :=
  match f with
  | All _ _ g | Ex _ _ g | Not _ g => f_collect g
  | Or _ fs | And _ fs => flat_map f_collect fs
  | Equ _ a b | Imp _ a b => f_collect a ++ f_collect b
  | Pred _ p tys args => atom p tys args
  | Top _ | Bot _ => []
  end.
End Form.

Definition f_vars : form -> list Z := f_collect (fun _ _ args => flat_map t_vars args).
Definition f_funs : form -> list Z := f_collect (fun _ _ args => flat_map t_funs args).
Definition f_preds : form -> list Z := f_collect (fun p _ _ => [id_index p]).
Definition f_tyvars : form -> list string :=
  f_collect (fun _ tys args => flat_map ty_tyvars tys ++ flat_map t_tyvars args).
Definition f_metas : form -> list Z := f_collect (fun _ _ args => flat_map t_metas args).
Definition f_noid (f : form) : Prop :=
  forall b, In b (f_collect (fun _ _ args => map t_noid args) f) -> b = true.

(** all variables bound somewhere in the formula *)
Fixpoint f_binders (f : form) : list tvar :=
  match f with
  | All _ vs g | Ex _ vs g => vs ++ f_binders g
  | Not _ g => f_binders g
  | Or _ fs | And _ fs => flat_map f_binders fs
  | Equ _ a b | Imp _ a b => f_binders a ++ f_binders b
  | Pred _ _ _ _ | Top _ | Bot _ => []
  end.

(** In each quantifier, no variable is listed twice, a type variable is not used as a term of the
    body and a term variable is not used as a type of the body. *)
Fixpoint sorted_use (f : form) : Prop :=
  match f with
  | All _ vs g | Ex _ vs g =>
    NoDup (map tv_index vs) /\ NoDup (map tv_name vs) /\
    (forall x, In x vs -> if is_ttype (tv_ty x) then ~ In (tv_index x) (f_vars g)
                          else ~ In (tv_name x) (f_tyvars g)) /\
    sorted_use g
  | Not _ g => sorted_use g
  | Or _ fs | And _ fs => fold_right (fun g P => sorted_use g /\ P) True fs
  | Equ _ a b | Imp _ a b => sorted_use a /\ sorted_use b
  | Pred _ _ _ _ | Top _ | Bot _ => True
  end.
