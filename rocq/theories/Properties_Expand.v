(** C53, C54: whole runs of the expansion of ProofSearch. *)
From Coq Require Import ZArith List Bool String.
From Verif Require Import LibSet_Model Ast_Model Problem_Model Rules_Model Sem_Spec Occ_Spec Free_Spec Rules_Spec Skolem_Spec
  Tableau_Spec Skolem_Witness Tableau_Witness Expand_Model Expand_Spec Expand_Proofs Expand_Final Expand_Witness.
Import ListNotations.
Open Scope Z_scope.

(** C53 (partial): whatever the order in which the branches of ProofSearch are expanded and whatever the
    limit, if one substitution closes all the branches reached, the formula has no model in which "=" is
    reflexive.  Missing: quantification on types (false, see below), the substitutions applied to the
    branches by the closure rules, equality reasoning, deduction modulo. *)
Theorem C53_run_sound_partial :
  forall same n g k f F s eqi, wf_start g f -> grows same (plant n g k f) F ->
  (forall st, In st (fo_leaves F) -> closes eqi s (branch_of st)) ->
  forall I (v : val I), eq_refl_in eqi I -> ~ holds f v.
Proof. exact grown_unsat. Qed.
Print Assumptions C53_run_sound_partial.

Example C53_hypotheses_met : forall k, wf_start gS wF /\ exists F s, grows same0 (plant 2 gS k wF) F /\
  (List.length (fo_leaves F) = 2)%nat /\ forall st, In st (fo_leaves F) -> closes 0 s (branch_of st).
Proof.
  exact (fun k => conj wF_start (match wF_end_closed k with conj L (ex_intro _ s C) =>
    ex_intro _ (wF_end k) (ex_intro _ s (conj (run_grows _ _) (conj L C))) end)).
Qed.

(** C53 refuted with quantification on types: a run closes a satisfiable formula. *)
Theorem C53_types_refuted :
  forall k, exists F, grows same0 (plant 3 gS k tF) F /\ fo_leaves F <> [] /\
  (forall st, In st (fo_leaves F) -> closes 0 [] (branch_of st)) /\
  wff gS tF /\ f_metas tF = [] /\ f_tymetas tF = [] /\ exists I (v : val I), eq_refl_in 0 I /\ holds tF v.
Proof. exact tF_end_closed. Qed.
Print Assumptions C53_types_refuted.

(** C54: no run of the expansion goes on for ever, whatever the limit and the order. *)
Theorem C54_run_terminates :
  forall same n g k f, Acc (fun F' F => grow same F F') (plant n g k f).
Proof. exact plant_acc. Qed.
Print Assumptions C54_run_terminates.

(** C54: on a formula the parser can produce (each quantifier binds a variable), no expansion crashes. *)
Theorem C54_run_no_crash :
  forall same n g k f F, f_noid f -> binds f -> grows same (plant n g k f) F ->
  forall st s g', In st (fo_leaves F) -> expand same st s g' <> None.
Proof. exact grown_no_crash. Qed.
Print Assumptions C54_run_no_crash.

(** C54: so there is a run that ends with branches all closed at sight or saturated. *)
Theorem C54_run_ends :
  forall same n g k f, f_noid f -> binds f -> exists F, grows same (plant n g k f) F /\
  forall st, In st (fo_leaves F) ->
    expand same st (fo_sko F) (fo_gen F) = Some Obvious \/ expand same st (fo_sko F) (fo_gen F) = Some Saturated.
Proof. exact plant_ends. Qed.
Print Assumptions C54_run_ends.

(** C54: a branch is declared saturated exactly when no rule is left: its new formulas are literals, its
    queues are empty and it has no universal formula left or has spent the limit. *)
Theorem C54_saturated :
  forall same st s g, expand same st s g = Some Saturated <->
  Forall quiet (q_lf (st_q st)) /\ q_alpha (st_q st) = [] /\ q_beta (st_q st) = [] /\ q_delta (st_q st) = [] /\
  q_gamma (st_q st) = [] /\ (st_mg st = [] \/ st_n st <= 0).
Proof. exact saturated_iff. Qed.
Print Assumptions C54_saturated.

(** The formula of the run above meets the hypotheses, and the run ends in a saturated branch. *)
Example C54_hypotheses_met :
  (f_noid wF /\ binds wF) /\
  exists F st, grows same0 (plant 2 gS Outer wF) F /\ In st (fo_leaves F) /\ st_mg st <> [] /\
    expand same0 st (fo_sko F) (fo_gen F) = Some Saturated.
Proof. exact (conj wF_plain sat_spent). Qed.
