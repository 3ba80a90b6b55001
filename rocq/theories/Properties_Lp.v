(** C124-C129: a GS3 proof printed as a Lambdapi script. *)
From Coq Require Import ZArith String List Bool Lia.
From Verif Require Import Ast_Model Sem_Spec Occ_Spec Unif_Model GsTerm_Spec GsProof_Model GsProof_Spec GsProof_Witness Tptp_Model Tptp_Witness Rocq_Spec Rocq_Witness
  Lp_Model Lp_Spec Lp_Proofs Lp_Final Lp_Witness.
Import ListNotations.
Open Scope list_scope.
Open Scope Z_scope.

(** C124 is false: a branch closed by equality is printed with a variable that has no name *)
Theorem C124_scope_refuted : exists s f, s_rule s = AX /\ target s f /\ (forall I (v : val I), real_eq 1 I -> ~ holds f v) /\
  exists sc st, make_script s no_names = Ok (sc, st) /\ ~ in_scope [(sc_var sc, Some (sc_formula sc))] (sc_proof sc).
Proof. exact (ex_intro _ unequal_root (ex_intro _ unequal (conj eq_refl (conj eq_refl (conj unequal_false unequal_script))))). Qed.
Print Assumptions C124_scope_refuted.
(** elsewhere a variable is in scope and stands for the hypothesis it is used as, whatever scripts were made before *)
Theorem C124_scope_partial s f st sc st' : target s f -> printed_well [f] s -> reachable st -> make_script s st = Ok (sc, st') ->
  sc_formula sc = f /\ in_scope [(sc_var sc, Some f)] (sc_proof sc).
Proof. exact (scope_made s f st sc st'). Qed.
Print Assumptions C124_scope_partial.
Example C124_scope_case : target good_root (And 0 G0) /\ printed_well [And 0 G0] good_root /\ reachable no_names /\
  exists sc st, make_script good_root no_names = Ok (sc, st) /\ sc_var sc = 0%nat /\ counter st = 13%nat.
Proof. exact (conj eq_refl (conj good_printed (conj R_start good_made))). Qed.

(** C125 is false: a conjunction of three formulas *)
Theorem C125_accepted_refuted : exists c s, gs3 [neg c] s /\ target s (neg c) /\
  exists sc st, make_script s no_names = Ok (sc, st) /\ in_scope [(sc_var sc, Some (sc_formula sc))] (sc_proof sc) /\ ~ accepted sc.
Proof. exact (ex_intro _ three (ex_intro _ three_root (conj three_gs3 (conj eq_refl three_script)))). Qed.
Print Assumptions C125_accepted_refuted.
(** without quantifiers and with connectives of two components, the script of a conjecture without axioms is accepted *)
Theorem C125_accepted_partial s i c st : target s (Not i c) -> propositional [Not i c] s -> reachable st ->
  exists sc st', make_script s st = Ok (sc, st') /\ accepted sc.
Proof. exact (accepted_final s i c st). Qed.
Print Assumptions C125_accepted_partial.
(** what is accepted proves that the statement has no model *)
Theorem C125_checker_partial sc : accepted sc -> unsat (sc_statement sc).
Proof. exact (checker_final sc). Qed.
Print Assumptions C125_checker_partial.
Example C125_case : target peirce_root (no peirce) /\ propositional [no peirce] peirce_root /\ reachable no_names /\
  exists sc st, make_script peirce_root no_names = Ok (sc, st) /\ accepted sc /\ unsat (no peirce).
Proof.
  split; [reflexivity|]. split; [exact peirce_prop|]. split; [exact R_start|]. destruct (accepted_final peirce_root 0 peirce no_names eq_refl peirce_prop R_start) as (sc & st & E & A).
  exists sc, st. split; [exact E|]. split; [exact A|]. pose proof (checker_final sc A) as U. vm_compute in E. injection E as <- _. exact U.
Qed.

(** C126 is false: the statement of a conjecture with axioms is that the axioms imply the negated conjecture *)
Theorem C126_statement_refuted : exists f s, gs3 [f] s /\ target s f /\
  exists sc st, make_script s no_names = Ok (sc, st) /\ sc_formula sc = f /\ ~ unsat (sc_statement sc).
Proof. exact (ex_intro _ both (ex_intro _ both_root (conj both_gs3 (conj eq_refl both_script)))). Qed.
Print Assumptions C126_statement_refuted.
(** what the statement says, in each case *)
Theorem C126_statement_partial s st sc st' : make_script s st = Ok (sc, st') ->
  (forall i c, sc_formula sc = Not i c -> same (sc_statement sc) (sc_formula sc)) /\
  (forall j axs i c, sc_formula sc = And j (axs ++ [Not i c]) ->
     (forall I (v : val I), holds (sc_statement sc) v <-> ((forall a, In a axs -> holds a v) -> ~ holds c v)) /\
     (unsat (sc_statement sc) <-> forall I (v : val I), (forall a, In a axs -> ~ ~ holds a v) /\ ~ ~ holds c v)) /\
  (has_conjecture (sc_formula sc) -> (forall j l, sc_formula sc <> And j l) -> (forall i c, sc_formula sc <> Not i c) ->
     forall I (v : val I), holds (sc_statement sc) v <-> ~ holds (sc_formula sc) v).
Proof. exact (statement_final s st sc st'). Qed.
Print Assumptions C126_statement_partial.
Example C126_statement_case : exists sc st, make_script good_root no_names = Ok (sc, st) /\ sc_formula sc = And 0 ([ax1; ax2] ++ [Not 0 Tptp_Witness.goal]) /\
  sc_statement sc = Imp 0 ax1 (Imp 0 ax2 (Not 0 Tptp_Witness.goal)).
Proof. eexists _, _. split; [vm_compute; reflexivity|]. split; reflexivity. Qed.

(** C127: the symbols of the formula, and of the axioms registered by dmt, are declared, each of them once *)
Theorem C127_declarations id_eq show registered f metas :
  let c := context_of id_eq show registered f metas in
  NoDup (fst c) /\ (forall d, In d (fst c) <-> exists g x, (g = f \/ exists l, registered = Some l /\ In g l) /\ In x (f_symbols id_eq g) /\ d = show x) /\
  snd c = map (fun m => (m_name m ++ "_" ++ dec (m_index m))%string) metas.
Proof. exact (declarations_final id_eq show registered f metas). Qed.
Print Assumptions C127_declarations.
Example C127_case : let f := And 0 [All 0 [vx] (Imp 0 (p1 X) (q1 X)); p1 a0; no (q1 a0); Pred 0 (mkId 1 "=") [] [a0; sk]] in
  fst (context_of 1 (fun x => x) None f []) = ["d"; "q"; "a"; "skolem@y@0"]%string /\
  fst (context_of 1 (fun x => x) (Some [Equ 0 (p1 sk) (q1 a0)]) f []) = ["d"; "skolem@y@0"; "q"; "a"]%string.
Proof. split; reflexivity. Qed.

(** C128 is false: the body of a quantifier is printed with the variable of the problem, the lambda with a fresh name *)
Theorem C128_names_refuted : exists f s, gs3 [f] s /\ target s f /\
  exists sc st, make_script s no_names = Ok (sc, st) /\ free_names 1 (sc_formula sc) = ["d"; "d"; "a"]%string /\ declared_for (sc_formula sc) = ["d"; "a"]%string /\
    ~ script_meant 1 (declared_for (sc_formula sc)) sc.
Proof. exact (ex_intro _ _ (ex_intro _ every_root (conj every_gs3 (conj eq_refl every_script)))). Qed.
Print Assumptions C128_names_refuted.
(** a symbol of the problem has the name of a variable of the script *)
Theorem C128_hidden_refuted : exists f s, gs3 [f] s /\ target s f /\ without_quantifiers 1 [f] s /\
  exists sc st, make_script s no_names = Ok (sc, st) /\ ~ script_meant 1 (declared_for (sc_formula sc)) sc.
Proof. exact (ex_intro _ _ (ex_intro _ hidden_root (conj hidden_gs3 (conj eq_refl (conj hidden_without hidden_script))))). Qed.
Print Assumptions C128_hidden_refuted.
(** elsewhere every name in the text is declared, and not hidden *)
Theorem C128_names_partial id_eq s f metas st sc st' : target s f -> without_quantifiers id_eq [f] s ->
  (forall x, In x (free_names id_eq f) -> In x (f_symbols id_eq f) \/ exists m, In m metas /\ x = (m_name m ++ "_" ++ dec (m_index m))%string) ->
  (forall x n, In x (free_names id_eq f) -> x <> var_name n) ->
  make_script s st = Ok (sc, st') ->
  let c := context_of id_eq (fun x => x) None f metas in script_meant id_eq (fst c ++ snd c) sc.
Proof. exact (names_final id_eq s f metas st sc st'). Qed.
Print Assumptions C128_names_partial.
Example C128_names_case : target peirce_root (no peirce) /\ without_quantifiers 1 [no peirce] peirce_root /\
  ((forall x, In x (free_names 1 (no peirce)) -> In x (f_symbols 1 (no peirce)) \/ exists m, In m (@nil meta) /\ x = (m_name m ++ "_" ++ dec (m_index m))%string) /\
   (forall x n, In x (free_names 1 (no peirce)) -> x <> var_name n)) /\ exists sc st, make_script peirce_root no_names = Ok (sc, st).
Proof. split; [reflexivity|]. split; [exact peirce_without|]. split; [exact peirce_names|]. destruct peirce_made as (sc & st & E & _). eauto. Qed.

(** C129 is false: the proof of a tableau where rules are applied again has weakenings, which stop the printer *)
Theorem C129_weakening_refuted : tab any_delta [d0] GsProof_Witness.drinker /\ has_conjecture d0 /\
  exists s, make_gs3 eq0 false 20 None GsProof_Witness.drinker = Ok s /\ make_script s no_names = Crash.
Proof. exact (conj drinker_tab (conj Logic.I drinker_stops)). Qed.
Print Assumptions C129_weakening_refuted.
(** a quantifier whose variable does not occur has no term *)
Theorem C129_term_refuted : tab any_delta [idle_and] idle_steps /\ has_conjecture idle_and /\
  exists s, make_gs3 eq0 false 20 None idle_steps = Ok s /\ make_script s no_names = Crash.
Proof. exact (conj idle_tab (conj idle_conjecture idle_stops)). Qed.
Print Assumptions C129_term_refuted.
(** a problem without a conjecture *)
Theorem C129_axioms_refuted : exists f s, gs3 [f] s /\ target s f /\ make_script s no_names = Crash.
Proof. exact (ex_intro _ _ (ex_intro _ axioms_root (conj axioms_gs3 (conj eq_refl axioms_crash)))). Qed.
Print Assumptions C129_axioms_refuted.
Theorem C129_ends_partial s f st : target s f -> has_conjecture f -> printed_well [f] s -> reachable st -> exists sc st', make_script s st = Ok (sc, st').
Proof. exact (ends_final s f st). Qed.
Print Assumptions C129_ends_partial.
Example C129_ends_case : target good_root (And 0 G0) /\ has_conjecture (And 0 G0) /\ printed_well [And 0 G0] good_root /\ reachable no_names.
Proof. exact (conj eq_refl (conj good_conjecture (conj good_printed R_start))). Qed.
