(** The equality reasoning (C42). *)
From Coq Require Import ZArith List Bool String.
From Verif Require Import Ast_Model Unif_Model Unif_Spec UnifLoss_Model UnifTree_Model UnifTree_Final Bse_Model Bse_Spec Bse_Proofs Bse_Final Bse_Witness.
Import ListNotations.
Open Scope list_scope.
Open Scope Z_scope.

(** C42 fails: from a = b the prover accepts c = g(b), with the empty substitution.  A right rule on the second side of the
    goal puts the old and the new second side in the place of both sides. *)
Theorem C42_goal_refuted :
  exists name_id n fe E s t l, answer name_id (unify_real name_id n fe) (add_unif n fe) (fun _ => true) (mkEP E s t empty_c) None true l /\
  In [] l /\ ~ solution E s t [].
Proof. exact (ex_intro _ nid (ex_intro _ 30%nat (ex_intro _ 30%nat (ex_intro _ _ (ex_intro _ _ (ex_intro _ _ (ex_intro _ [[]] (conj goal_answer (conj (or_introl eq_refl) goal_wrong))))))))). Qed.
Print Assumptions C42_goal_refuted.
(** C42 fails, even without the rules above and without lost equations: the right-hand sides of the equalities are looked up by the
    string of the left-hand side, and the string of a metavariable is its name.  From g(X1) = a and g(X2) = b, where both
    metavariables are called X, the prover accepts g(c) = b with X1 := c. *)
Theorem C42_names_refuted :
  exists name_id n fe E s t l sg, answer name_id (unify_real name_id n fe) (add_unif_s true n fe) kept (mkEP E s t empty_c) None true l /\
  answer name_id (unify_real name_id n fe) (add_unif n fe) (fun _ => true) (mkEP E s t empty_c) None true l /\ In sg l /\ ~ solution E s t sg.
Proof.
  exact (ex_intro _ nid (ex_intro _ 30%nat (ex_intro _ 30%nat (ex_intro _ _ (ex_intro _ _ (ex_intro _ _ (ex_intro _ [s_names] (ex_intro _ s_names
    (conj names_answer (conj (proj1 (strict_runs nid 30 30) _ _ _ _ names_answer) (conj (or_introl eq_refl) names_wrong))))))))))).
Qed.
Print Assumptions C42_names_refuted.
(** C42 fails, even with distinct names and without the rules above: the unification loses equations. *)
Theorem C42_loss_refuted :
  exists ar name_id n fe E s t l sg, distinct_names ar /\ wellE ar E /\ well ar s /\ well ar t /\
  answer name_id (unify_real name_id n fe) (add_unif n fe) kept (mkEP E s t empty_c) None true l /\ In sg l /\ ~ solution E s t sg.
Proof.
  exact (ex_intro _ sar (ex_intro _ nid (ex_intro _ 30%nat (ex_intro _ 30%nat (ex_intro _ _ (ex_intro _ _ (ex_intro _ _ (ex_intro _ [s_loss] (ex_intro _ s_loss
    (conj sar_names (conj (proj1 loss_well) (conj (proj1 (proj2 loss_well)) (conj (proj2 (proj2 loss_well)) (conj loss_answer (conj (or_introl eq_refl) loss_wrong))))))))))))))).
Qed.
Print Assumptions C42_loss_refuted.

(** One step: under the bindings of the new constraints the equalities still hold, and when the new goal holds the old one does, except
    after a right rule on the second side.  [add_unif_s true] is the unification that stops where it would lose an equation. *)
Theorem C42_step_partial :
  forall ar name_id n fe ep rs u ep' last, distinct_names ar -> goodP ar ep ->
  right_rules name_id (unify_real name_id n fe) ep = Ok rs \/ (exists i, left_rules name_id (unify_real name_id n fe) ep i = Ok rs) -> In u rs ->
  apply_rule (add_unif_s true n fe) u ep = Ok (Some (ep', last)) ->
  goodP ar ep' /\ entails (c_sub (p_c ep')) (c_sub (p_c ep)) /\
  forall A v, solves A v (c_sub (p_c ep')) -> eqs A v (p_E ep) -> eqs A v (p_E ep') /\
    (kept u = true -> tev A v (p_s ep') = tev A v (p_t ep') -> tev A v (p_s ep) = tev A v (p_t ep)).
Proof. exact step_sound. Qed.
Print Assumptions C42_step_partial.
(** Whatever the schedule, the substitutions of an answer are solutions: for distinct names, when no equation is lost and the
    answer comes through no right rule on the second side. *)
Theorem C42_partial :
  forall ar name_id n fe E s t b l, distinct_names ar -> wellE ar E -> well ar s -> well ar t ->
  answer name_id (unify_real name_id n fe) (add_unif_s true n fe) kept (mkEP E s t empty_c) None b l ->
  forall sg, In sg l -> solution E s t sg.
Proof. exact answer_sound. Qed.
Print Assumptions C42_partial.
(** The same for several goals: each substitution solves all of them. *)
Theorem C42_goals_partial :
  forall ar name_id n fe E gs l, distinct_names ar -> wellE ar E -> wellE ar gs ->
  goals name_id (unify_real name_id n fe) (add_unif_s true n fe) fe kept (problems E gs) [] l ->
  forall sg, In sg l -> forall s t, In (s, t) gs -> solution E s t sg.
Proof. exact goals_sound. Qed.
Print Assumptions C42_goals_partial.
(** These answers are answers of the prover. *)
Theorem C42_runs_partial :
  forall name_id n fe,
  (forall ep last b l, answer name_id (unify_real name_id n fe) (add_unif_s true n fe) kept ep last b l ->
     answer name_id (unify_real name_id n fe) (add_unif n fe) (fun _ => true) ep last b l) /\
  (forall eps sl l, goals name_id (unify_real name_id n fe) (add_unif_s true n fe) fe kept eps sl l ->
     goals name_id (unify_real name_id n fe) (add_unif n fe) fe (fun _ => true) eps sl l).
Proof. exact strict_runs. Qed.
Print Assumptions C42_runs_partial.
(** The strings by which the equalities are looked up identify the terms when the names are distinct. *)
Theorem C42_show_partial :
  forall ar t u, distinct_names ar -> well ar t -> well ar u -> show t = show u -> Sem_Spec.same_term t u.
Proof. exact (fun ar t u D => show_inj ar D t u). Qed.
Print Assumptions C42_show_partial.

Example C42_case :
  distinct_names sar /\ wellE sar E_good /\ wellE sar gs_good /\
  answer nid Q strict kept (mkEP E_good (g cc) ca empty_c) None true [s_good] /\
  goals nid Q strict 30 kept (problems E_good gs_good) [] [s_both].
Proof. exact (conj sar_names (conj (proj1 good_well) (conj (proj2 good_well) (conj good_answer good_goals)))). Qed.
Example C42_show_case : show (h3 (g ca) (Meta (mX 1)) cb) = "h(g(a), X, b)"%string /\ show (Meta (mX 1)) = show (Meta (mX 2)).
Proof. exact (conj eq_refl eq_refl). Qed.
Example C42_step_case : exists rs u ep', right_rules nid Q (mkEP E_good (g cc) ca empty_c) = Ok rs /\ In u rs /\
  apply_rule strict u (mkEP E_good (g cc) ca empty_c) = Ok (Some (ep', None)) /\ p_s ep' = ca /\ c_sub (p_c ep') = s_good.
Proof. exact step_case. Qed.
