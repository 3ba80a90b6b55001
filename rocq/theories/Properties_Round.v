(** C142, C143: a round of answers from the leaves of a tree of processes to its root. *)
From Coq Require Import ZArith List Bool String.
From Verif Require Import Ast_Model Occ_Spec Sem_Spec Unif_Model Unif_Spec UnifLoss_Model Unif_Witness Closure_Model Select_Model Select_Spec Select_Final GlobUnif_Model Restrict_Model Restrict_Spec
  Leaf_Model Leaf_Spec Leaf_Witness Up_Model Up_Spec Round_Model Round_Spec Round_Proofs Round_Final Round_Witness.
From Verif Require Select_Witness.
Import ListNotations.
Open Scope list_scope.
Open Scope Z_scope.

(** C142 refuted: the leaves are as they should be, the root has three children and reports that all is closed, and no value of the
    metavariables closes the three branches. *)
Theorem C142_refuted : exists ar n fe ch A, (forall c, In c ch -> good ar n fe c) /\ report n fe (PNode [] ([], []) ([], []) [] ch) = Ok (Some []) /\
  typeless A /\ forall v, ~ closes A (PNode [] ([], []) ([], []) [] ch) v.
Proof.
  exact (ex_intro _ war (ex_intro _ 30%nat (ex_intro _ 30%nat (ex_intro _ [pl ka; pl kb; pl ka] (ex_intro _ Select_Witness.symbols
    (conj aba_leaves (conj aba_report (conj symbols_typeless aba_open)))))))).
Qed.
Print Assumptions C142_refuted.
(** C142 (partial): otherwise, at each process of a tree of any depth, what it reports is true: the solutions of each substitution that
    it sends close all the branches under it, and all the values do when it sends none.  Missing: as in C27 (more than two children that
    ask), C36 and C39. *)
Theorem C142_partial : forall ar n fe A, typeless A -> forall p, good ar n fe p -> forall l, report n fe p = Ok (Some l) ->
  (l = [] -> forall v, closes A p v) /\ forall t, In t l -> forall v, solves A v (binds (fst t)) -> closes A p v.
Proof. exact round_told. Qed.
Print Assumptions C142_partial.
(** C142 (partial): a root that reports asks for nothing, and all its branches close. *)
Theorem C142_root_partial : forall ar n fe ap cur again ch l, good ar n fe (PNode [] ap cur again ch) -> report n fe (PNode [] ap cur again ch) = Ok (Some l) ->
  l = [] /\ forall A, typeless A -> forall v, closes A (PNode [] ap cur again ch) v.
Proof. exact root_closes. Qed.
Print Assumptions C142_root_partial.
Example C142_case : good war 30 30 p_ok /\ report 30 30 p_ok = Ok (Some []) /\ good war 30 30 p_deep /\ report 30 30 p_deep = Ok (Some [(x1 kb, [f0])]).
Proof. exact (conj ok_good (conj ok_report deep_all)). Qed.

Example C142_back_case : good war 30 30 p_back /\ report 30 30 p_back = Ok (Some []) /\ report 30 30 (PKept p_two h_b) = Ok (Some [(x1 kb, [f0])]).
Proof. exact (conj back_good (conj back_report eq_refl)). Qed.

(** C143 (partial): when the children share only metavariables known to their father, one value of all the metavariables closes all the
    branches at once.  Missing: as in C142. *)
Theorem C143_partial : forall ar n fe ap cur again ch l, good ar n fe (PNode [] ap cur again ch) -> scoped (PNode [] ap cur again ch) ->
  report n fe (PNode [] ap cur again ch) = Ok (Some l) -> forall A, typeless A -> inhabited (dom A) -> exists w, closed_by A w (PNode [] ap cur again ch).
Proof. exact round_one. Qed.
Print Assumptions C143_partial.
(** C143 (partial): values that close the branches one by one give one for all. *)
Theorem C143_glue_partial : forall A p, scoped p -> forall v, closes A p v -> exists w, (forall i, In i (mother p) -> v i = w i) /\ closed_by A w p.
Proof. exact one_for_all. Qed.
Print Assumptions C143_glue_partial.
Example C143_case : good war 30 30 p_ok /\ scoped p_ok /\ report 30 30 p_ok = Ok (Some []).
Proof. exact (conj ok_good (conj ok_scoped ok_report)). Qed.
Example C143_back_case : good war 30 30 p_back /\ scoped p_back /\ report 30 30 p_back = Ok (Some []).
Proof. exact (conj back_good (conj back_scoped back_report)). Qed.
