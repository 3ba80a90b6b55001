(** C148: the proof recorded by a process that its father answers several times. *)
From Coq Require Import ZArith List Bool String.
From Verif Require Import LibSet_Model Ast_Model Rules_Model Subst_Model GsProof_Model PrfSubst_Model Expand_Model Ast_Proofs Skolem_Witness Tableau_Witness Expand_Witness
  Unif_Witness UnifTree_Witness Closure_Witness GsProof_Witness Record_Model Record_Spec Record_Proofs Record_Witness Record_Print.
Import ListNotations.
Open Scope list_scope.
Open Scope Z_scope.

(** C148 refuted: two answers; the proof of each round is a tableau above the branch with its answer applied, and the recorded
    proof is none above the branch with the last answer applied: a step of the abandoned round is kept. *)
Theorem C148_refuted : exists br lst c1 c2 s1 s2 l, ps_name lst <> "Rewrite"%string /\
  tableau (subst_proof s1 c1) (map (apply_substs_on_form s1) br) /\ tableau (subst_proof s2 c2) (map (apply_substs_on_form s2) br) /\
  answered [lst] lst [c1; c2] = Some l /\ ~ tableau (subst_proof s2 l) (map (apply_substs_on_form s2) br).
Proof.
  exact (ex_intro _ r_br (ex_intro _ (close (Meta mX30)) (ex_intro _ round1 (ex_intro _ round2 (ex_intro _ s1 (ex_intro _ s2 (ex_intro _ [alpha cc; close bb]
    (conj r_plain (conj r1_ok (conj r2_ok (conj r_kept r_not))))))))))).
Qed.
Print Assumptions C148_refuted.

(** and the printing of the proof stops: two processes below a disjunction, each answered twice; the proof of each round can be printed
    with its answer, the one recorded with the last answer cannot. The answers and the rounds are given; no run that leads to them is built. *)
Theorem C148_print_refuted : exists lst c1 c2 s1 s2 l, prints s1 (whole c1 c1) /\ prints s2 (whole c2 c2) /\
  answered [lst] lst [c1; c2] = Some l /\ stops s2 (whole l l).
Proof.
  exact (ex_intro _ (close (Meta mX30)) (ex_intro _ round1 (ex_intro _ round2 (ex_intro _ s1 (ex_intro _ s2 (ex_intro _ [alpha cc; close bb]
    (conj w1_prints (conj w2_prints (conj r_kept w_stops))))))))).
Qed.
Print Assumptions C148_print_refuted.

(** C148 (partial): if every round before the last one closed in one step, the recorded proof is a tableau above the branch.
    Missing: longer rounds before the last one (refuted). *)
Theorem C148_partial : forall s pre lst cur cs cn br br', ps_name lst <> "Rewrite"%string -> (forall c, In c cs -> one_step c) ->
  leads (subst_proof s pre) br br' -> tableau (subst_proof s cn) br' ->
  exists l, answered (pre ++ [lst]) cur (cs ++ [cn]) = Some l /\ tableau (subst_proof s l) br.
Proof. exact recorded. Qed.
Print Assumptions C148_partial.
Example C148_case : (forall c, In c [round2] -> one_step c) /\ leads (subst_proof s1 [lead1]) (map (apply_substs_on_form s1) g_br) (map (apply_substs_on_form s1) g_br ++ [pX 7 cc]) /\
  tableau (subst_proof s1 round1) (map (apply_substs_on_form s1) g_br ++ [pX 7 cc]) /\
  answered [lead1; close (Meta mX30)] (close (Meta mX30)) [round2; round1] = Some [lead1; alpha cc; close cc].
Proof. exact (conj g_one (conj g_leads (conj g_round g_kept))). Qed.

(** what is recorded when the rounds end with a step that is no rewriting: the steps of the abandoned rounds but their last ones are kept *)
Theorem C148_kept_partial : forall cs pre lst cur cn, ps_name lst <> "Rewrite"%string -> (forall c, In c cs -> ends_plain c) ->
  answered (pre ++ [lst]) cur (cs ++ [cn]) = Some (pre ++ List.concat (map (@removelast pstep) cs) ++ cn).
Proof. exact answered_all. Qed.
Print Assumptions C148_kept_partial.
Example C148_kept_case : answered [close (Meta mX30)] (close (Meta mX30)) [round1; round2] = Some [alpha cc; close bb].
Proof. exact r_kept. Qed.

(** the same after a rewriting step: it is kept above the proof of the last round *)
Theorem C148_rewrite_partial : forall s pre f d i rs ch cur cs c0 c br b1 br', (forall c, In c cs -> one_step c) ->
  (cs = [] -> ps_name c0 = "Rewrite"%string -> ps_node c0 <> i) ->
  leads (subst_proof s pre) br b1 -> leads [subst_step s (PS f d i "Rewrite" rs [])] b1 br' -> tableau (subst_proof s (c0 :: c)) br' ->
  exists l, answered (pre ++ [PS f d i "Rewrite" rs ch]) cur (cs ++ [c0 :: c]) = Some l /\ tableau (subst_proof s l) br.
Proof. exact recorded_rewrite. Qed.
Print Assumptions C148_rewrite_partial.
Example C148_rewrite_case : (forall c, In c [[close cc]] -> one_step c) /\
  leads [subst_step s2 rw_0] (map (apply_substs_on_form s2) r_br) (map (apply_substs_on_form s2) r_br ++ [Not 8 (Not 8 (pX 7 bb))]) /\
  tableau (subst_proof s2 round2) (map (apply_substs_on_form s2) r_br ++ [Not 8 (Not 8 (pX 7 bb))]) /\ answered [rw] rw [[close cc]; round2] = Some [rw_0; close bb].
Proof. exact (conj rw_one (conj rw_leads (conj rw_round rw_kept))). Qed.
(** a child that begins with the rewriting of the same node takes its place *)
Theorem C148_again_partial : forall s pre lst cur c0 c br br', ps_name lst = "Rewrite"%string -> ps_name c0 = "Rewrite"%string -> ps_node c0 = ps_node lst ->
  leads (subst_proof s pre) br br' -> tableau (subst_proof s (c0 :: c)) br' ->
  answered (pre ++ [lst]) cur [c0 :: c] = Some (pre ++ c0 :: c) /\ tableau (subst_proof s (pre ++ c0 :: c)) br.
Proof. exact recorded_again. Qed.
Print Assumptions C148_again_partial.
Example C148_again_case : ps_name rw = "Rewrite"%string /\ ps_name rw_b = "Rewrite"%string /\ ps_node rw_b = ps_node rw /\
  leads (subst_proof s2 []) (map (apply_substs_on_form s2) r_br) (map (apply_substs_on_form s2) r_br) /\
  tableau (subst_proof s2 [rw_b]) (map (apply_substs_on_form s2) r_br).
Proof. exact (conj eq_refl (conj eq_refl (conj eq_refl (conj eq_refl rw_b_tab)))). Qed.

(** a node whose children answered in the first round: its step has their proofs as children *)
Theorem C148_node_partial : forall pre cur ch br br', leads pre br br' -> present (ps_form cur) br' -> ch <> [] ->
  Forall2 (fun r c => tableau c (br' ++ r)) (ps_results cur) ch ->
  exists l, update_proof false pre cur ch = Some l /\ tableau l br.
Proof. exact recorded_node. Qed.
Print Assumptions C148_node_partial.
Example C148_node_case : present (ps_form fork) f_br /\ Forall2 (fun r c => tableau c (f_br ++ r)) (ps_results fork) [[close bb]; [close cc]].
Proof. exact (conj f_present f_children). Qed.
