(** Free variables, type metavariables, well-formed formulas of a branch, change of the meaning of
    function symbols. *)
From Coq Require Import ZArith List Bool String.
From Verif Require Import Ast_Model Sem_Spec Occ_Spec.
Import ListNotations.
Open Scope Z_scope.

(** variables of [A] that a quantifier on [x] leaves free *)
Definition unbind (x : tvar) (A : list Z) : list Z :=
  if is_ttype (tv_ty x) then A else filter (fun i => negb (i =? tv_index x)) A.
Definition unbind_ty (x : tvar) (A : list string) : list string :=
  if is_ttype (tv_ty x) then filter (fun s => negb (String.eqb s (tv_name x))) A else A.

(** indices of the free variables *)
Fixpoint fv (f : form) : list Z :=
  match f with
  | All _ vs g | Ex _ vs g => fold_right unbind (fv g) vs
  | Not _ g => fv g
  | Or _ fs | And _ fs => flat_map fv fs
  | Equ _ a b | Imp _ a b => fv a ++ fv b
  | Pred _ _ _ args => flat_map t_vars args
  | Top _ | Bot _ => []
  end.
(** names of the free type variables *)
Fixpoint ftv (f : form) : list string :=
  match f with
  | All _ vs g | Ex _ vs g => fold_right unbind_ty (ftv g) vs
  | Not _ g => ftv g
  | Or _ fs | And _ fs => flat_map ftv fs
  | Equ _ a b | Imp _ a b => ftv a ++ ftv b
  | Pred _ _ tys args => flat_map ty_tyvars tys ++ flat_map t_tyvars args
  | Top _ | Bot _ => []
  end.

(** type metavariables *)
Fixpoint ty_tymetas (t : ty) : list (string * Z) :=
  match t with
  | TyMeta n i _ => [(n, i)]
  | TyBound _ _ | TyVar _ => []
  | TyConstr _ l | TyProd l => flat_map ty_tymetas l
  | TyFunc a b => ty_tymetas a ++ ty_tymetas b
  | TyPi _ b => ty_tymetas b
  end.
Fixpoint t_tymetas (t : term) : list (string * Z) :=
  match t with
  | Fun _ tys l => flat_map ty_tymetas tys ++ flat_map t_tymetas l
  | _ => []
  end.
Definition f_tymetas : form -> list (string * Z) :=
  f_collect (fun _ tys args => flat_map ty_tymetas tys ++ flat_map t_tymetas args).

(** What holds of every formula of a branch when the search starts from a renamed closed formula:
    no free variable, no variable bound twice, indices of variables and function symbols apart, all
    indices drawn. *)
Record wff (g : gen) (f : form) : Prop := {
  wf_noid : f_noid f;
  wf_fv : fv f = [];
  wf_ftv : ftv f = [];
  wf_nd : NoDup (map tv_index (f_binders f));
  wf_ndn : NoDup (map tv_name (f_binders f));
  wf_bf : forall x, In x (f_binders f) -> ~ In (tv_index x) (f_funs f);
  wf_lt : forall i, In i (f_funs f) \/ In i (f_metas f) \/ In i (map tv_index (f_binders f)) -> i < cpt_term g }.

(** the same interpretation with other functions *)
Definition refn (I : interp) (F : Z -> list (T I) -> list (D I) -> D I) : interp :=
  mkInterp (D I) (T I) F (pr I) (tcon I) (tsch I) (tprod I) (tfunc I) (tpi I).
Definition revalF {I} F (v : val I) : val (refn I F) :=
  @mkVal (refn I F) (bv v) (mv v) (tbv v) (tmv v).
(** [F] differs from the functions of [I] on symbol [s] only *)
Definition only_at (I : interp) (s : Z) (F : Z -> list (T I) -> list (D I) -> D I) : Prop :=
  forall i, i <> s -> forall ts ds, F i ts ds = fn I i ts ds.
