(** What a node with children should tell its father, independently of how it is computed (C136-C140). *)
From Coq Require Import ZArith List.
From Verif Require Import Ast_Model Sem_Spec Unif_Model Unif_Spec UnifLoss_Model Closure_Model Select_Model Select_Spec Restrict_Model Restrict_Spec Leaf_Spec.
Import ListNotations.
Open Scope list_scope.
Open Scope Z_scope.

(** the substitution [s] of the children, together with the one applied at the node, is [c] for the father *)
Definition seen (restr : list mixed -> list meta -> out (list mixed)) (mg : list mixed -> list mixed -> out (list mixed)) (mm : list meta) (applied s : saf) (c : list mixed) : Prop :=
  exists m, merge_saf mg s applied = Ok m /\ restr (fst m) mm = Ok c.

(** ** C136: each solution of what is sent extends to a solution of a substitution of the children and of the one of the node *)
Definition honest (mm : list meta) (applied : saf) (l : list saf) (t : saf) : Prop :=
  forall A v, solves A v (binds (fst t)) -> closable mm (fst applied) (map fst l) A v.
(** the merges with the substitution of the node and the restrictions that C36 and C39 do not spoil *)
Definition clean (ar : signature) (n fe : nat) (mm : list meta) (applied : saf) (l : list saf) : Prop :=
  okS ar (binds (fst applied)) /\
  forall s, In s l -> okS ar (binds (fst s)) /\
    merge fe (add_unif_s true n fe) (binds (fst s)) (binds (fst applied)) <> Out /\
    forall m, merge_saf (merge_mixed n fe) s applied = Ok m -> sane ar n fe mm (fst m).

(** ** C138: one entry for each substitution the father sees, with the formulas of all those that give it *)
Definition gathers (see : saf -> list mixed -> Prop) (l r : list saf) : Prop :=
  distinct_substs (map fst r) /\
  (forall e, In e r -> fst e <> [] /\ (exists s, In s l /\ see s (fst e)) /\
     forall f, In f (snd e) -> exists s c, In s l /\ see s c /\ same_bindings (fst e) c /\ In f (snd s)) /\
  (forall s c, In s l -> see s c -> c <> [] -> exists e, In e r /\ same_bindings (fst e) c /\
     forall f, In f (snd s) -> exists f', In f' (snd e) /\ form_eqb f' f = true).

(** ** C139: the formulas of the metavariables bound by what the father sees, and those that were there *)
Definition reintroduces (see : saf -> list mixed -> Prop) (l : list saf) (before after : list Z) : Prop :=
  (forall i, In i after <-> In i before \/ exists s c k v, In s l /\ see s c /\ In (MTerm k v) c /\ m_formula k = i) /\
  (NoDup before -> NoDup after).
