(** What a contradiction found by the search should be. *)
From Coq Require Import ZArith List Bool String.
From Verif Require Import LibSet_Model Ast_Model Rules_Model Sem_Spec Occ_Spec Tableau_Spec Unif_Spec Closure_Model.
Import ListNotations.
Open Scope list_scope.
Open Scope Z_scope.

(** literals whose arguments are first-order terms of the signature, without type arguments; other formulas are ignored by
    the search *)
Definition first_order (ar : signature) (f : form) : Prop :=
  match f with
  | Pred _ p tys args | Not _ (Pred _ p tys args) => tys = [] /\ well ar (Fun p [] args)
  | _ => True
  end.
(** no type metavariable and no polymorphic symbol *)
Definition monomorphic (ar : signature) (ty_arity : string -> nat) : Prop :=
  (forall m, known ar m -> is_ttype (m_ty m) = false) /\ forall x, ty_arity x = O.

(** the branch made of these formulas *)
Definition branch_with (fs : list form) : branch := mkBr (map (fun f => mkFat f []) fs) Leaf Leaf.

(** [s] satisfies the equations of [s'] *)
Definition extends (s s' : list (meta * term)) : Prop :=
  forall k t, In (k, t) s' -> same_term (ssubst s (Meta k)) (ssubst s t).

(** [s] is one of the forbidden substitutions, or a part of one *)
Definition retried (forb : list (list (meta * term))) (s : list (meta * term)) : Prop :=
  exists f, In f forb /\ forall k v, In (k, v) s -> exists k' v', In (k', v') f /\ m_index k' = m_index k /\ same_term v v'.
