(** What a substitution applied to a branch should do, independently of how it is applied (C146, C147). *)
From Coq Require Import ZArith List.
From Verif Require Import Ast_Model Occ_Spec Sem_Spec Unif_Model Unif_Spec Closure_Model.
Import ListNotations.
Open Scope list_scope.
Open Scope Z_scope.

(** the values of the metavariables obey the substitution *)
Definition obeys {I} (v : val I) (s : list mixed) : Prop :=
  (forall k t, In (MTerm k t) s -> mv v (m_index k) = ev v t) /\ forall n i fo u, In (MTy n i fo u) s -> tmv v n i = evty v u.
(** no bound variable occurs in the terms and the types; no type is the one of the types *)
Definition unbound_subst (s : list mixed) : Prop :=
  (forall k t, In (MTerm k t) s -> t_vars t = [] /\ t_tyvars t = []) /\ forall n i fo u, In (MTy n i fo u) s -> ty_tyvars u = [] /\ is_ttype u = false.
(** no type is bound, and the terms are first-order, without a bound variable *)
Definition plain_subst (ar : signature) (s : list mixed) : Prop :=
  (forall x i f u, ~ In (MTy x i f u) s) /\ forall k t, In (MTerm k t) s -> well ar t.
