(** What the answer of a branch that closes should be, independently of how it is computed (C118-C122). *)
From Coq Require Import ZArith List Sorting.Sorted.
From Verif Require Import Ast_Model Occ_Spec Sem_Spec Unif_Model Unif_Spec UnifLoss_Model Closure_Model Select_Model Select_Spec Restrict_Model Restrict_Spec.
Import ListNotations.
Open Scope list_scope.
Open Scope Z_scope.

(** the metavariable of index i occurs in a binding of a term of the substitution *)
Definition occurs (s : list mixed) (i : Z) : Prop := exists k t, In (MTerm k t) s /\ (i = m_index k \/ In i (t_metas t)).
(** it has nothing to do with the metavariables of the parent *)
Definition apart (s : list mixed) (mm : list meta) : Prop :=
  (forall n i f v, ~ In (MTy n i f v) s) /\ forall m, In m mm -> ~ occurs s (m_index m).

(** ** C118: the lists of DispatchSubst.  [rs] is the restriction to the metavariables of the parent. *)
(** up to the way they are written, the members of w are the values of [rs] that are not empty, each once *)
Definition distinct_substs (l : list (list mixed)) : Prop := ForallOrdPairs (fun s t => ~ same_bindings s t) l.
Definition is_image (rs : list mixed -> out (list mixed)) (l w : list (list mixed)) : Prop :=
  distinct_substs w /\
  (forall r, In r w -> r <> [] /\ exists s, In s l /\ rs s = Ok r) /\
  (forall s r, In s l -> rs s = Ok r -> r <> [] -> exists r', In r' w /\ same_bindings r r').
(** the members of n are those with an empty value *)
Definition is_kernel (rs : list mixed -> out (list mixed)) (l n : list (list mixed)) : Prop :=
  distinct_substs n /\ (forall s, In s n -> In s l /\ rs s = Ok []) /\
  (forall s, In s l -> rs s = Ok [] -> exists s', In s' n /\ same_bindings s s').
(** at each place, the restriction of the second list is the member of the first *)
Definition paired (rs : list mixed -> out (list mixed)) (w u : list (list mixed)) : Prop :=
  forall i r s, nth_error w i = Some r -> nth_error u i = Some s -> rs s = Ok r.
(** different substitutions have different restrictions, and conversely; equal substitutions have equal restrictions *)
Definition faithful (rs : list mixed -> out (list mixed)) (l : list (list mixed)) : Prop :=
  forall s s' r r', In s l -> In s' l -> rs s = Ok r -> rs s' = Ok r' -> r <> [] -> r' <> [] -> (same_bindings s s' <-> same_bindings r r').
Definition congruent (rs : list mixed -> out (list mixed)) (l : list (list mixed)) : Prop :=
  forall s s' r r', In s l -> In s' l -> rs s = Ok r -> rs s' = Ok r' -> same_bindings s s' -> same_bindings r r'.

(** ** C119, C120: the answer.  The value [v] of the metavariables of the parent closes the branch: it extends, with other
    values for the local metavariables, to a solution of one of the closing substitutions and of the one applied there. *)
Definition closable (mm : list meta) (ap : list mixed) (l : list (list mixed)) (A : alg) (v : Z -> dom A) : Prop :=
  exists s v', In s l /\ agree mm v v' /\ solves A v' (binds s) /\ solves A v' (binds ap).

(** a closing substitution that the restriction of C39 does not spoil *)
Definition sane (ar : signature) (n fe : nat) (mm : list meta) (s : list mixed) : Prop :=
  (forall x i f v, ~ In (MTy x i f v) s) /\ okS ar (binds s) /\ solved (binds s) /\ ~ shared mm (binds s) /\
  restrict fe (add_unif_s true n fe) (binds s) mm <> Out.

(** ** C121: an increasing list without repetition, with exactly these members *)
Definition sorted_set (P : Z -> Prop) (l : list Z) : Prop := StronglySorted Z.lt l /\ forall i, In i l <-> P i.
