(** C103-C105: the proof found, once the final substitution is applied. *)
From Coq Require Import ZArith String List Bool Lia.
From Verif Require Import LibSet_Model Ast_Model Sem_Spec Occ_Spec Subst_Model Unif_Model GsTerm_Spec GsProof_Model GsProof_Spec GsProof_Fresh GsProof_Witness PrfSubst_Model PrfSubst_Spec PrfSubst_Proofs PrfSubst_Final PrfSubst_Witness.
Import ListNotations.
Open Scope list_scope.
Open Scope Z_scope.

(** C103 is false: of a metavariable that occurs twice in an argument, one occurrence is replaced, and the branch is not closed any more *)
Theorem C103_refuted : exists s Gamma proof, vtab s fresh_delta Gamma proof /\ ~ utab same any_delta (map (full_form s) Gamma) (fst (final_proof s proof)).
Proof. exact (ex_intro _ tw_s (ex_intro _ [tw_root] (ex_intro _ tw (conj tw_vtab tw_not)))). Qed.
Print Assumptions C103_refuted.
(** elsewhere the proof printed is a closed tableau; the formulas a rule is applied to are in the branch up to their indices *)
Theorem C103_partial s ok Gamma proof : antitone ok -> vtab s ok Gamma proof -> (forall f, in_proof f proof -> stays_linear s f) ->
  utab same ok (map (full_form s) Gamma) (fst (final_proof s proof)).
Proof. exact (final_same s ok Gamma proof). Qed.
Print Assumptions C103_partial.
Example C103_case : antitone fresh_delta /\ vtab rep_s fresh_delta [ps_form rep_first] (rep_first :: rep_rest) /\ (forall f, in_proof f (rep_first :: rep_rest) -> stays_linear rep_s f).
Proof. exact (conj fresh_antitone (conj rep_vtab rep_linear)). Qed.
(** it is only up to indices: a formula that becomes equal to another result of the rule is dropped, and used after *)
Theorem C103_repeated_refuted : exists s Gamma proof, vtab s fresh_delta Gamma proof /\ (forall f, in_proof f proof -> stays_linear s f) /\
  ~ tab any_delta (map (full_form s) Gamma) (fst (final_proof s proof)).
Proof. exact (ex_intro _ rep_s (ex_intro _ [ps_form rep_first] (ex_intro _ (rep_first :: rep_rest) (conj rep_vtab (conj rep_linear rep_not))))). Qed.
Print Assumptions C103_repeated_refuted.
Theorem C103_exact_partial s ok Gamma proof : antitone ok -> vtab s ok Gamma proof -> (forall f, in_proof f proof -> stays_linear s f) ->
  (forall fs, generated fs proof -> distinct (map (full_form s) fs)) -> tab ok (map (full_form s) Gamma) (fst (final_proof s proof)).
Proof. exact (final_exact s ok Gamma proof). Qed.
Print Assumptions C103_exact_partial.
Example C103_exact_case : vtab good_s fresh_delta [ps_form good_first] (good_first :: good_rest) /\ (forall f, in_proof f (good_first :: good_rest) -> stays_linear good_s f) /\
  (forall fs, generated fs (good_first :: good_rest) -> distinct (map (full_form good_s) fs)).
Proof. exact (conj good_vtab (conj good_linear good_distinct)). Qed.

(** C104: the metavariables given to the printers are those that occur in the proof printed *)
Theorem C104 s proof : exists x, snd (final_proof s proof) = Some x /\
  forall m, find meta_eqb meta_ltb x m = true <-> exists f, in_proof f (fst (final_proof s proof)) /\ focc_meta (m_index m) f.
Proof. exact (final_metas s proof). Qed.
Print Assumptions C104.
Example C104_case : exists x x', snd (final_proof [MTerm MX sk] (good_first :: good_rest)) = Some x /\ find meta_eqb meta_ltb x MY = true /\ find meta_eqb meta_ltb x MX = false /\
  snd (final_proof [] (good_first :: good_rest)) = Some x' /\ find meta_eqb meta_ltb x' MX = true.
Proof. exact good_metas. Qed.

(** C105 is false: when one occurrence of two is replaced, the translation stops on the gamma rule *)
Theorem C105_refuted : exists s first rest, vtab s fresh_delta [ps_form first] (first :: rest) /\ make_gs3 eq0 false 5 None (fst (final_proof s (first :: rest))) = Crash.
Proof. exact (ex_intro _ tw_s (ex_intro _ (hd (PS eq0 0 0 "" [] []) tw) (ex_intro _ (tl tw) (conj tw_vtab tw_crash)))). Qed.
Print Assumptions C105_refuted.
(** elsewhere a tableau closed by the substitution gives a sequent proof of its root *)
Theorem C105_partial empty_eq preinner s first rest n :
  vtab s fresh_delta [ps_form first] (first :: rest) -> (forall f, in_proof f (first :: rest) -> stays_linear s f) ->
  (forall fs, generated fs (first :: rest) -> distinct (map (full_form s) fs)) -> (pdepth (first :: rest) < n)%nat ->
  exists sq, make_gs3 empty_eq preinner n None (fst (final_proof s (first :: rest))) = Ok sq /\ gs3 [full_form s (ps_form first)] sq.
Proof. exact (final_gs3 empty_eq preinner s first rest n). Qed.
Print Assumptions C105_partial.
Example C105_case : vtab good_s fresh_delta [ps_form good_first] (good_first :: good_rest) /\ (forall f, in_proof f (good_first :: good_rest) -> stays_linear good_s f) /\
  (forall fs, generated fs (good_first :: good_rest) -> distinct (map (full_form good_s) fs)) /\ pdepth (good_first :: good_rest) = 2%nat /\
  full_form good_s (ps_form good_first) = ps_form good_first.
Proof. exact (conj good_vtab (conj good_linear (conj good_distinct (conj eq_refl eq_refl)))). Qed.
