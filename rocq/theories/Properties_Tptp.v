(** C96-C98: a GS3 proof printed in TPTP format. *)
From Coq Require Import ZArith String List Bool Lia.
From Verif Require Import Ast_Model Sem_Spec Occ_Spec Unif_Model GsTerm_Spec GsProof_Model GsProof_Spec GsProof_Witness Tptp_Model Tptp_Spec Tptp_Order Tptp_Proofs Tptp_Sound Tptp_Witness.
Import ListNotations.
Open Scope list_scope.
Open Scope Z_scope.

(** C96 is false: a weakening is printed with fewer hypotheses than its premise *)
Theorem C96_refuted : exists c s, gs3 [neg c] s /\ target s (neg c) /\ bad s.
Proof. exact (ex_intro _ self (ex_intro _ weak_root (conj weak_gs3 (conj eq_refl weak_bad)))). Qed.
Print Assumptions C96_refuted.
(** without weakening: a branch closed on $false *)
Theorem C96_false_refuted : exists c s, gs3 [neg c] s /\ target s (neg c) /\ every (fun k => s_rule k <> W) s /\ bad s.
Proof.
  exists (Imp 0 (Bot 0) A0), false_root. split; [exact false_gs3|]. split; [reflexivity|]. split; [|exact false_bad].
  repeat (constructor; [discriminate|]). constructor; [|constructor]. constructor; [discriminate|constructor].
Qed.
Print Assumptions C96_false_refuted.
(** a constant that is created has the name of a constant of the problem *)
Theorem C96_name_refuted : exists c s, gs3 [neg c] s /\ target s (neg c) /\ every (fun k => s_rule k <> W) s /\ ok is_sk [] [neg c] s /\ bad s.
Proof. exact (ex_intro _ drinker (ex_intro _ clash_root (conj clash_gs3 (conj eq_refl (conj clash_no_weaken (conj clash_ok clash_bad)))))). Qed.
Print Assumptions C96_name_refuted.
(** a Skolem term twice in a term *)
Theorem C96_term_refuted : exists c s, gs3 [neg c] s /\ target s (neg c) /\ every (fun k => s_rule k <> W) s /\ bad s.
Proof. exact (ex_intro _ twice (ex_intro _ twice_root (conj twice_gs3 (conj eq_refl (conj twice_no_weaken twice_bad))))). Qed.
Print Assumptions C96_term_refuted.
(** elsewhere the steps printed are a derivation of the conjecture from the axioms *)
Theorem C96_partial sk id_eq prefix dm n s axs c k st : started s axs c k -> ok sk [] (axs ++ [neg c]) k -> wf_seq sk (old_symbol prefix (ids st)) s ->
  (seq_depth s < n)%nat -> 0 <= cnt st -> orig st = [] -> (forall i, sk i -> i < ids st) -> NoDup (map form_index axs) ->
  exists ls st', tptp id_eq prefix (Fun dm [] []) n s st = Ok (ls, st') /\ derivation ls = true /\ axioms_of ls = axs /\ concludes ls c.
Proof. exact (tptp_good sk id_eq prefix dm n s axs c k st). Qed.
Print Assumptions C96_partial.
Example C96_case : started good_root [ax1; ax2] goal k0 /\ ok is_sk [] ([ax1; ax2] ++ [neg goal]) k0 /\ wf_seq is_sk (old_symbol "sko_" 100) good_root /\
  (seq_depth good_root < 9)%nat /\ (forall i, is_sk i -> i < 100) /\ NoDup (map form_index [ax1; ax2]) /\
  exists ls st, print good_root = Ok (ls, st) /\ derivation ls = true /\ List.length ls = 14%nat.
Proof. exact (conj good_started (conj good_ok (conj good_wf good_rest))). Qed.

(** a weakening is printed with the sequent of its premise *)
Theorem C96_weaken_partial id_eq prefix dm s f hyps h cur st l hs s' c' st' : s_rule s = W -> s_term s = None -> target s f -> dropped f hyps h ->
  make_step id_eq prefix dm s hyps cur st = Ok (l, hs, s', c', st') ->
  hs = [h] /\ exists n i, index_of f hyps = Some i /\ l = [LStep (mkStep n h [] "leftWeaken" (Some i) None [SF c' []])].
Proof. exact (weaken_printed id_eq prefix dm s f hyps h cur st l hs s' c' st'). Qed.
Print Assumptions C96_weaken_partial.
Example C96_weaken_case : let s := sq_of [no self; A0; no A0] W 0 None [] [] in
  target s (no self) /\ dropped (no self) [no self; A0; no A0] [A0; no A0] /\
  exists r, make_step 1 "sko_" (Fun goeland_I [] []) s [no self; A0; no A0] (-1) (mkTst 0 [] [] 100) = Ok r.
Proof. split; [reflexivity|]. split; [apply Drop_here; reflexivity|]. vm_compute. eexists. reflexivity. Qed.

(** a derivation of a conjecture from axioms is a proof: the conjecture is true wherever the axioms are *)
Theorem C96_sound ls c : derivation ls = true -> concludes ls c -> forall I (v : val I), (forall f, In f (axioms_of ls) -> holds f v) -> holds c v.
Proof. exact (derivation_sound ls c). Qed.
Print Assumptions C96_sound.
Example C96_sound_case : exists ls st, print good_root = Ok (ls, st) /\ derivation ls = true /\ concludes ls goal /\ axioms_of ls = [ax1; ax2].
Proof. exact good_concludes. Qed.

(** C97 is false: a branch closed on a negation and its negation *)
Theorem C97_refuted : exists c s, gs3 [neg c] s /\ target s (neg c) /\ stops s.
Proof. exact (ex_intro _ nn (ex_intro _ nn_root (conj nn_gs3 (conj eq_refl nn_stops)))). Qed.
Print Assumptions C97_refuted.
(** an equivalence with a negated side *)
Theorem C97_equivalence_refuted : exists c s, gs3 [neg c] s /\ target s (neg c) /\ stops s /\ every (fun k => s_rule k = AX -> exists f, target k f /\ index_pos f (s_hyps k) 0 <> Crash) s.
Proof. exact (ex_intro _ eqv_c (ex_intro _ eqv_root (conj eqv_gs3 (conj eq_refl (conj eqv_stops eqv_closes))))). Qed.
Print Assumptions C97_equivalence_refuted.
(** a quantifier whose variable does not occur *)
Theorem C97_vacuous_refuted : exists v b c s, ~ In (tv_index v) (f_vars b) /\ gs3 [neg (Imp 0 (Ex 0 [v] b) c)] s /\ target s (neg (Imp 0 (Ex 0 [v] b) c)) /\ stops s.
Proof.
  exists vx, (p1 a0), (p1 a0), vac_root. split; [cbn; tauto|]. exact (conj vac_gs3 (conj eq_refl vac_stops)).
Qed.
Print Assumptions C97_vacuous_refuted.
(** a weakening below a delta rule *)
Theorem C97_weaken_refuted : exists c s, gs3 [neg c] s /\ target s (neg c) /\ stops s.
Proof. exact (ex_intro _ wd_c (ex_intro _ wd_root (conj wd_gs3 (conj eq_refl wd_stops)))). Qed.
Print Assumptions C97_weaken_refuted.
(** a branch closed by equality reasoning, whose target is the equality without arguments *)
Theorem C97_equality_refuted : exists s k, s_kids s = [k] /\ s_rule k = AX /\ s_kids k = [] /\ target k eq0 /\ In ab (s_hyps k) /\ In (neg ba) (s_hyps k) /\ stops s.
Proof. do 2 eexists. split; [exact (eq_refl (s_kids equality_root))|]. split; [reflexivity|]. split; [reflexivity|]. split; [reflexivity|]. split; [cbn; auto|]. split; [cbn; auto|]. exact equality_stops. Qed.
Print Assumptions C97_equality_refuted.
Theorem C97_partial sk id_eq prefix dm n s axs c k st : started s axs c k -> ok sk [] (axs ++ [neg c]) k -> wf_seq sk (old_symbol prefix (ids st)) s ->
  (seq_depth s < n)%nat -> 0 <= cnt st -> orig st = [] -> (forall i, sk i -> i < ids st) -> NoDup (map form_index axs) ->
  exists ls st', tptp id_eq prefix (Fun dm [] []) n s st = Ok (ls, st').
Proof. exact (tptp_ends sk id_eq prefix dm n s axs c k st). Qed.
Print Assumptions C97_partial.
Example C97_case : started good_root [ax1; ax2] goal k0 /\ ok is_sk [] ([ax1; ax2] ++ [neg goal]) k0 /\ wf_seq is_sk (old_symbol "sko_" 100) good_root /\
  (seq_depth good_root < 9)%nat /\ (forall i, is_sk i -> i < 100) /\ NoDup (map form_index [ax1; ax2]).
Proof. destruct good_rest as (A & B & C & _). exact (conj good_started (conj good_ok (conj good_wf (conj A (conj B C))))). Qed.

(** C98 is false: the weakening of a term is not a step, and the step above it has it as premise *)
Theorem C98_refuted : exists c s, gs3 [neg c] s /\ target s (neg c) /\ exists ls st, print s = Ok (ls, st) /\ ordered [] ls = false.
Proof. exact (ex_intro _ self (ex_intro _ forget_root (conj forget_gs3 (conj eq_refl forget_unordered)))). Qed.
Print Assumptions C98_refuted.
(** every other tree, correct or not *)
Theorem C98_partial id_eq prefix dummy n s st ls st' : tptp id_eq prefix dummy n s st = Ok (ls, st') -> 0 <= cnt st -> plain s ->
  (forall j l, target s (And j l) -> NoDup (map form_index l)) -> ordered [] ls = true.
Proof. exact (tptp_ordered id_eq prefix dummy n s st ls st'). Qed.
Print Assumptions C98_partial.
(** a tree with weakenings whose printing is not a derivation has its steps in order *)
Example C98_case : plain weak_root /\ (forall j l, target weak_root (And j l) -> NoDup (map form_index l)) /\
  exists ls st, print weak_root = Ok (ls, st) /\ ordered [] ls = true /\ derivation ls = false.
Proof. exact (conj weak_plain (conj weak_target weak_ordered)). Qed.
