(** C32 - C36, C38: substitutions and unification of terms. *)
From Coq Require Import ZArith List Bool String.
From Verif Require Import Ast_Model Sem_Spec Occ_Spec Unif_Model Unif_Spec UnifLoss_Model Elim_Proofs UnifRun_Proofs UnifLoss_Proofs Unif_Final Unif_Witness.
Import ListNotations.
Open Scope Z_scope.

(** C32 refuted: unification of two terms that have no unifier succeeds. *)
Theorem C32_unifier_refuted :
  exists ar t1 t2 n s', well ar t1 /\ well ar t2 /\ add_unif n n t1 t2 [] = Ok s' /\ is_failure s' = false /\
  ~ same_term (ssubst s' t1) (ssubst s' t2) /\ forall w, ~ same_term (tsub w t1) (tsub w t2).
Proof.
  exact (ex_intro _ war (ex_intro _ t_lost (ex_intro _ q_lost (ex_intro _ 30%nat (ex_intro _ s_lost
    (conj (proj1 lost_well) (conj (proj2 lost_well) (conj (proj1 lost_result) (conj (proj2 lost_result)
    (conj lost_not_unifier lost_not_unifiable)))))))))).
Qed.
Print Assumptions C32_unifier_refuted.

(** C32 (partial): when computeSubstitutions drops no equation, the result is a unifier, it satisfies the
    bindings that were given, and it is in solved form.  Missing: the runs that drop one (refuted above),
    symbols with several arities, type arguments left in the terms. *)
Theorem C32_unifier_partial :
  forall ar n fe t1 t2 s s', okS ar s -> well ar t1 -> well ar t2 ->
  add_unif_s true n fe t1 t2 s <> Out -> add_unif n fe t1 t2 s = Ok s' -> is_failure s' = false ->
  same_term (ssubst s' t1) (ssubst s' t2) /\ (forall k t, In (k, t) s -> same_term (ssubst s' (Meta k)) (ssubst s' t)) /\ solved s'.
Proof. exact add_unifies. Qed.
Print Assumptions C32_unifier_partial.
(** [add_unif_s] is the same function with the test for dropped equations. *)
Theorem C32_strict_is_real_partial :
  forall n fe t1 t2 s, add_unif_s false n fe t1 t2 s = add_unif n fe t1 t2 s /\
  (add_unif_s true n fe t1 t2 s = Out \/ add_unif_s true n fe t1 t2 s = add_unif n fe t1 t2 s).
Proof. exact (fun n fe t1 t2 s => conj (lax_is_real n fe t1 t2 s) (strict_refines n fe t1 t2 s)). Qed.
Print Assumptions C32_strict_is_real_partial.
Example C32_hypotheses_met :
  okS war [] /\ well war t_ok /\ well war q_ok /\ add_unif_s true 30 30 t_ok q_ok [] <> Out /\
  add_unif 30 30 t_ok q_ok [] = Ok s_ok /\ is_failure s_ok = false /\ t_ok <> q_ok.
Proof.
  exact (conj (ok_nil war) (conj (proj1 ok_well) (conj (proj2 ok_well) (conj (proj2 (proj2 ok_result)) (conj (proj1 ok_result)
    (conj (proj1 (proj2 ok_result)) ok_differ)))))).
Qed.

(** C33 refuted: unifiable terms, reported as not unifiable. *)
Theorem C33_complete_refuted :
  exists ar t1 t2 n, well ar t1 /\ well ar t2 /\ (exists w, same_term (tsub w t1) (tsub w t2)) /\ add_unif n n t1 t2 [] = Ok failure.
Proof.
  exact (ex_intro _ war (ex_intro _ t_cyc (ex_intro _ q_cyc (ex_intro _ 30%nat
    (conj (proj1 cyc_well) (conj (proj2 cyc_well) (conj cyc_unifiable cyc_fails))))))).
Qed.
Print Assumptions C33_complete_refuted.
(** also when the metavariables of the two terms are not shared *)
Theorem C33_apart_refuted :
  exists ar t1 t2 n, well ar t1 /\ well ar t2 /\ (forall b, In b (t_metas t1) -> ~ In b (t_metas t2)) /\
  (exists w, same_term (tsub w t1) (tsub w t2)) /\ add_unif n n t1 t2 [] = Ok failure.
Proof.
  exact (ex_intro _ war (ex_intro _ t_cyc2 (ex_intro _ q_cyc2 (ex_intro _ 30%nat
    (conj (proj1 cyc2_well) (conj (proj2 cyc2_well) (conj
      apart2 (conj cyc2_unifiable cyc2_fails)))))))).
Qed.
Print Assumptions C33_apart_refuted.
(** C33 (partial): elimination loses no solution of a system without cycle, in particular of a solvable
    system of bindings to applications.  Missing: cycles made of metavariables (refuted above), the steps
    that produce the system. *)
Theorem C33_eliminate_partial :
  forall s, NoDup (keys s) -> proper s -> acyclic s ->
  exists n0, forall n, (n0 <= n)%nat -> exists s', eliminate n s = Some s' /\ is_failure s' = false /\ solved s' /\
    keys s' = keys s /\ forall A w, solves A w s' <-> solves A w s.
Proof. exact eliminate_complete. Qed.
Print Assumptions C33_eliminate_partial.
Theorem C33_solvable_partial :
  forall s w, unifies w s -> (forall k t, In (k, t) s -> is_fun t = true) -> acyclic s.
Proof. exact unifiable_acyclic. Qed.
Print Assumptions C33_solvable_partial.
Example C33_hypotheses_met : NoDup (keys s_acyc) /\ proper s_acyc /\ (exists w, unifies w s_acyc) /\ (forall k t, In (k, t) s_acyc -> is_fun t = true).
Proof.
  exact (conj (proj1 s_acyc_hyps) (conj (proj1 (proj2 s_acyc_hyps)) (conj s_acyc_unif (proj2 (proj2 s_acyc_hyps))))).
Qed.

(** C34: whatever the bindings, a non-failing result of Eliminate is in solved form. *)
Theorem C34_eliminate_solved :
  forall n s s', proper s -> eliminate n s = Some s' -> s' = failure \/ solved s'.
Proof. exact eliminate_solved. Qed.
Print Assumptions C34_eliminate_solved.
(** C34: and the loops of Eliminate end. *)
Theorem C34_eliminate_terminates :
  forall s, NoDup (keys s) -> proper s -> exists n0, forall n, (n0 <= n)%nat -> elim_loop n s <> None.
Proof. exact elim_loop_total. Qed.
Print Assumptions C34_eliminate_terminates.
(** C34: EliminateMeta before it changes no solution. *)
Theorem C34_eliminate_meta :
  forall s, NoDup (keys s) -> incl (eliminate_meta s) s /\ NoDup (keys (eliminate_meta s)) /\
  forall A w, solves A w (eliminate_meta s) <-> solves A w s.
Proof. exact eliminate_meta_ok. Qed.
Print Assumptions C34_eliminate_meta.
Example C34_hypotheses_met : proper s_acyc /\ exists s', eliminate 30 s_acyc = Some s' /\ s' <> failure /\ s' <> s_acyc.
Proof. exact (conj (proj1 (proj2 s_acyc_hyps)) s_acyc_result). Qed.

(** C35 refuted: Set does not change a key that is bound; Equals does not compare the bindings. *)
Theorem C35_set_refuted :
  exists s k v, NoDup (keys s) /\ 0 <= m_index k /\ exists u i, sget (sset s k v) k = Some (u, i) /\ ~ same_term u v.
Proof.
  exact set_old.
Qed.
Print Assumptions C35_set_refuted.
Theorem C35_equals_refuted :
  exists s1 s2, substs_eqb s1 s2 = true /\ ~ same_map s1 s2.
Proof.
  exact equals_dup.
Qed.
Print Assumptions C35_equals_refuted.
(** C35 (partial): on a key that is not bound, Set is the update of a finite map; Get is the lookup, Remove
    the deletion, and Equals the equality of maps, when each key is bound once. *)
Theorem C35_set_partial :
  forall s k v i, ~ In (m_index k) (keys s) -> assoc i (sset s k v) = if m_index k =? i then Some v else assoc i s.
Proof.
  exact set_new.
Qed.
Print Assumptions C35_set_partial.
Theorem C35_get_partial : forall s k, m_index k <> -1 -> option_map fst (sget s k) = assoc (m_index k) s.
Proof. exact sget_assoc. Qed.
Print Assumptions C35_get_partial.
Theorem C35_remove_partial :
  forall s j k v i, NoDup (keys s) -> nth_error s j = Some (k, v) ->
  assoc i (sremove s j) = if m_index k =? i then None else assoc i s.
Proof. exact sremove_assoc. Qed.
Print Assumptions C35_remove_partial.
Theorem C35_equals_partial :
  forall s1 s2, NoDup (keys s1) -> NoDup (keys s2) -> (substs_eqb s1 s2 = true <-> same_map s1 s2).
Proof. exact substs_eqb_same. Qed.
Print Assumptions C35_equals_partial.
Example C35_hypotheses_met :
  NoDup (keys s_acyc) /\ ~ In (m_index (mX 9)) (keys s_acyc) /\ nth_error s_acyc 1 = Some (mX 2, fn 20 [vX 3]) /\ m_index (mX 2) <> -1.
Proof. exact maps_hyps. Qed.

(** C36 refuted: a merge that succeeds on two incompatible substitutions. *)
Theorem C36_merge_refuted :
  exists ar s1 s2 n r, okS ar s1 /\ okS ar s2 /\ merge n (add_unif n n) s1 s2 = Ok r /\ is_failure r = false /\
  forall w, ~ (unifies w s1 /\ unifies w s2).
Proof.
  exact (ex_intro _ war (ex_intro _ m1_lost (ex_intro _ m2_lost (ex_intro _ 30%nat (ex_intro _ m_lost
    (conj (proj1 m_lost_ok) (conj (proj2 m_lost_ok)
    (conj (proj1 merge_lost) (conj (proj2 merge_lost) merge_incompatible))))))))).
Qed.
Print Assumptions C36_merge_refuted.
(** C36 (partial): when nothing is dropped a successful merge satisfies the equations of both; a failure of one of the
    two always propagates. *)
Theorem C36_merge_partial :
  forall ar fe n s1 s2 s', okS ar s1 -> okS ar s2 ->
  merge fe (add_unif_s true n fe) s1 s2 <> Out -> merge fe (add_unif n fe) s1 s2 = Ok s' -> is_failure s' = false ->
  forall A w, solves A w s' -> solves A w s1 /\ solves A w s2.
Proof. exact merge_sound. Qed.
Print Assumptions C36_merge_partial.
Theorem C36_failure_partial :
  forall ar fe n s1 s2 s', okS ar s1 -> is_failure s2 = true ->
  (merge fe (add_unif n fe) s1 s2 = Ok s' -> is_failure s' = true) /\ (merge fe (add_unif n fe) s2 s1 = Ok s' -> is_failure s' = true).
Proof. exact (fun ar fe n s1 s2 s' O F => conj (merge_failure_r ar fe _ s1 s2 s' O F) (merge_failure_l ar fe _ s2 s1 s' O F)). Qed.
Print Assumptions C36_failure_partial.
Example C36_hypotheses_met :
  okS war m1_ok /\ okS war m2_ok /\ merge 30 (add_unif_s true 30 30) m1_ok m2_ok <> Out /\
  merge 30 (add_unif 30 30) m1_ok m2_ok = Ok m_ok /\ is_failure m_ok = false.
Proof.
  exact (conj m1_ok_ok (conj m2_ok_ok
    (conj (proj2 (proj2 merge_ok_result)) (conj (proj1 merge_ok_result) (proj1 (proj2 merge_ok_result)))))).
Qed.

(** C38 refuted: a symbol used with two arities makes the machine crash. *)
Theorem C38_arity_refuted : exists t1 t2 n, add_unif n n t1 t2 [] = Crash.
Proof. exact (ex_intro _ (fn 20 [ka]) (ex_intro _ (fn 20 []) (ex_intro _ 30%nat arity_crash))). Qed.
Print Assumptions C38_arity_refuted.
(** C38 (partial): with one arity per symbol unification and merging never crash; the result is the failure or a proper
    substitution, in solved form for unification. *)
Theorem C38_terms_partial :
  forall ar n fe t1 t2 s, okS ar s -> well ar t1 -> well ar t2 ->
  add_unif n fe t1 t2 s <> Crash /\ forall s', add_unif n fe t1 t2 s = Ok s' -> is_failure s' = true \/ (okS ar s' /\ solved s').
Proof.
  exact add_no_crash.
Qed.
Print Assumptions C38_terms_partial.
Theorem C38_merge_partial :
  forall ar n fe s1 s2, okS ar s1 -> okS ar s2 -> merge fe (add_unif n fe) s1 s2 <> Crash.
Proof.
  exact merge_no_crash.
Qed.
Print Assumptions C38_merge_partial.
