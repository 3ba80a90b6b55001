(** C39, and the generality of unification for C33 and C36. *)
From Coq Require Import ZArith List Bool String.
From Verif Require Import Ast_Model Sem_Spec Occ_Spec Unif_Model Unif_Spec UnifLoss_Model Unif_Witness UnifMgu_Proofs
  Restrict_Model Restrict_Spec Restrict_Proofs Restrict_Final Restrict_Witness.
Import ListNotations.
Open Scope Z_scope.

(** C33 (partial): unification adds no constraint.  Whatever it drops, a solution of the given bindings that equates the
    two terms satisfies the bindings that come out.  Missing: the failures on unifiable terms (C33_complete_refuted). *)
Theorem C33_general_partial :
  forall ar n fe t1 t2 s s', okS ar s -> well ar t1 -> well ar t2 -> add_unif n fe t1 t2 s = Ok s' -> is_failure s' = false ->
  forall A w, injective A -> solves A w s -> tev A w t1 = tev A w t2 -> solves A w s'.
Proof. exact add_general. Qed.
Print Assumptions C33_general_partial.
(** ... so that it is most general: every unifier is an instance of it *)
Theorem C33_most_general_partial :
  forall ar n fe t1 t2 s s' v, okS ar s -> well ar t1 -> well ar t2 -> add_unif n fe t1 t2 s = Ok s' -> is_failure s' = false ->
  (forall i, well ar (v i)) -> unifies v s -> same_term (tsub v t1) (tsub v t2) -> unifies v s'.
Proof. exact add_most_general. Qed.
Print Assumptions C33_most_general_partial.
(** the unifier X1 := g(a), X2 := X3 := a of f(X1, g(X2)) and f(g(X3), X1) *)
Example C33_general_case :
  let v := fun i => if (i =? 1) then fn 20 [ka] else ka in
  okS war [] /\ well war t_ok /\ well war q_ok /\ add_unif 30 30 t_ok q_ok [] = Ok s_ok /\ is_failure s_ok = false /\
  (forall i, well war (v i)) /\ same_term (tsub v t_ok) (tsub v q_ok).
Proof.
  exact (conj (ok_nil war) (conj (proj1 ok_well) (conj (proj2 ok_well) (conj (proj1 ok_result) (conj (proj1 (proj2 ok_result)) general_case))))).
Qed.
(** C36 (partial): merging adds no constraint to those of the two substitutions. *)
Theorem C36_general_partial :
  forall ar n fe s1 s2 s', okS ar s1 -> okS ar s2 -> merge fe (add_unif n fe) s1 s2 = Ok s' -> is_failure s' = false ->
  forall A w, injective A -> solves A w s1 -> solves A w s2 -> solves A w s'.
Proof. exact merge_general. Qed.
Print Assumptions C36_general_partial.

(** C39 refuted: a unifier in which two metavariables of the parent are bound to a local one; its restriction to the
    parent is empty, and the equality of the two is forgotten. *)
Theorem C39_restrict_refuted :
  exists ar t1 t2 s mm n r, add_unif n n t1 t2 [] = Ok s /\ okS ar s /\ solved s /\ restrict n (add_unif n n) s mm = Ok r /\ ~ keeps mm s r.
Proof.
  exact (ex_intro _ war (ex_intro _ t_sh (ex_intro _ q_sh (ex_intro _ s_sh (ex_intro _ mm_sh (ex_intro _ 30%nat (ex_intro _ []
    (conj sh_unif (conj (proj1 sh_ok) (conj (proj2 sh_ok) (conj sh_restrict sh_loses))))))))))).
Qed.
Print Assumptions C39_restrict_refuted.
(** C39 (partial): without such a pair nothing is lost: every solution of the restriction agrees, on the metavariables of
    the parent, with a solution of the whole.  Missing: the pairs, and the runs whose merge drops an equation (C36). *)
Theorem C39_keeps_partial :
  forall ar n fe s mm r, okS ar s -> solved s -> ~ shared mm s ->
  restrict fe (add_unif_s true n fe) s mm <> Out -> restrict fe (add_unif n fe) s mm = Ok r -> keeps mm s r.
Proof. exact restrict_keeps. Qed.
Print Assumptions C39_keeps_partial.
(** C39 (partial): the pairs are the exact cause: each of them loses its equation. *)
Theorem C39_exact_partial :
  forall ar n fe s mm r, okS ar s -> solved s -> restrict fe (add_unif n fe) s mm = Ok r -> shared mm s -> ~ keeps mm s r.
Proof. exact shared_loses. Qed.
Print Assumptions C39_exact_partial.
(** C39 (partial): nothing is added, in any case. *)
Theorem C39_invents_nothing_partial :
  forall ar n fe s mm r, okS ar s -> solved s -> restrict fe (add_unif n fe) s mm = Ok r -> invents_nothing s r.
Proof. exact restrict_invents_nothing. Qed.
Print Assumptions C39_invents_nothing_partial.
(** C39 (partial): the search for the relevant metavariables ends. *)
Theorem C39_terminates_partial : forall s mm, rounds (S (List.length s)) s (mkR mm [] []) <> None.
Proof. exact loop_ends. Qed.
Print Assumptions C39_terminates_partial.
Example C39_case :
  okS war s_kp /\ solved s_kp /\ ~ shared mm_kp s_kp /\ restrict 30 (add_unif_s true 30 30) s_kp mm_kp <> Out /\
  restrict 30 (add_unif 30 30) s_kp mm_kp = Ok r_kp /\ r_kp <> s_kp.
Proof.
  exact (conj (proj1 kp_ok) (conj (proj2 kp_ok) (conj kp_not_shared (conj (proj1 (proj2 kp_restrict)) (conj (proj1 kp_restrict) (proj2 (proj2 kp_restrict))))))).
Qed.
Example C39_shared_case : shared mm_sh s_sh /\ okS war s_sh /\ solved s_sh /\ restrict 30 (add_unif 30 30) s_sh mm_sh = Ok [].
Proof. exact (conj sh_shared (conj (proj1 sh_ok) (conj (proj2 sh_ok) sh_restrict))). Qed.
