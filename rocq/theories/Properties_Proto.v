(** Properties C65 to C70: the processes of the destructive search. *)
Require Import Coq.Lists.List Coq.Arith.PeanoNat Coq.Bool.Bool Coq.micromega.Lia.
From Verif Require Import Proto_Model Proto_Spec Proto_Proofs Proto_Progress Proto_Closed
  Proto_Slots Proto_Witness.
Import ListNotations.

(** C65: as long as the search has not ended, something happens. *)
Theorem C65_no_deadlock : forall complete dmt g,
  reach complete dmt g -> c_crash g = false -> c_main g <> MDone ->
  moves complete dmt g.
Proof. exact progress. Qed.
Print Assumptions C65_no_deadlock.
(** Beside it: in the middle of the first round; after a backtrack. *)
Example C65_first_round_case : exists g, reach true true g /\ c_crash g = false /\ c_main g <> MDone
  /\ c_n g = 3.
Proof.
  running (run true true (start 0) two_run) g.
  exists g. split; [exists 0, two_run; exact Hr | split; [exact Hcr | split; [congruence | exact Hn]]].
Qed.
Example C65_backtrack_case : exists g, reach true false g /\ c_crash g = false /\ c_main g <> MDone
  /\ c_n g = 5 /\ exists w, c_ctl g 0 = SendSub None [1; 2] w.
Proof.
  running (run true false (start 0) again_run) g. at_pid Hp 0.
  exists g. split; [exists 0, again_run; exact Hr |].
  split; [exact Hcr | split; [congruence | split; [exact Hn | eexists; exact Hctl]]].
Qed.

(** C66 refuted: with deduction modulo a process can be left behind for ever. *)
Theorem C66_left_behind_refuted : forall complete, exists g,
  reach complete true g /\ c_crash g = false /\ c_main g = MDone
  /\ ~ moves complete true g /\ ~ all_over g.
Proof.
  intro complete. destruct (left_behind complete) as (g & H1 & H2 & H3 & H4 & H5 & _).
  exists g; auto.
Qed.
Print Assumptions C66_left_behind_refuted.
(** What holds: without it, when nothing moves the search is over and every process has ended. *)
Theorem C66_all_over_partial : forall complete g,
  reach complete false g -> c_crash g = false -> ~ moves complete false g -> all_over g.
Proof. exact none_left. Qed.
Print Assumptions C66_all_over_partial.
Example C66_all_over_case : forall complete, exists g,
  reach complete false g /\ c_crash g = false /\ ~ moves complete false g /\ c_n g = 3.
Proof.
  intro complete. destruct (over_ok complete false) as (g & Hr & Hc & Hn & [Hm Ho] & _).
  assert (H : reach complete false g) by (exists 0, over_run; exact Hr).
  exists g. split; [exact H | split; [exact Hc | split; [| exact Hn]]].
  apply quiet_stays; [exact (inv_reach _ _ _ H) | exact Hm | intros p Hp; left; exact (Ho p Hp)].
Qed.
(** And with it, a process that has not ended waits for an answer of its father. *)
Theorem C66_end_shape_partial : forall complete dmt g,
  reach complete dmt g -> c_crash g = false -> ~ moves complete dmt g ->
  c_main g = MDone /\
  forall p, p < c_n g -> c_ctl g p = Dead \/ exists gv, c_ctl g p = WaitFather gv.
Proof. exact end_shape. Qed.
Print Assumptions C66_end_shape_partial.
Example C66_end_shape_case : forall complete, exists g,
  reach complete true g /\ c_crash g = false /\ ~ moves complete true g
  /\ exists gv, c_ctl g 3 = WaitFather gv.
Proof.
  intro complete. destruct (left_behind complete) as (g & H1 & H2 & _ & H4 & _ & H6).
  exists g; auto.
Qed.

(** C67: a closed answer is given for children that have all answered closed, or again. *)
Theorem C67_closed_answers : forall complete dmt g,
  reach complete dmt g -> all_justified (c_log g).
Proof. exact answers_justified. Qed.
Print Assumptions C67_closed_answers.
(** So a closed answer rests on a finite tree of closed answers. *)
Theorem C67_closed_tree : forall complete dmt g e,
  reach complete dmt g -> In e (c_log g) -> closed (e_ans e) = true -> supported (c_log g) e.
Proof. exact answers_supported. Qed.
Print Assumptions C67_closed_tree.
(** Beside it: the answer of the root in a whole search; an answer given again. *)
Example C67_root_case : forall complete dmt, exists g,
  reach complete dmt g /\ In (Event 0 (Answer true true [7]) [1; 2]) (c_log g)
  /\ length (c_log g) = 3.
Proof.
  intros complete dmt. destruct (over_ok complete dmt) as (g & Hr & _ & _ & _ & Hl).
  exists g. split; [exists 0, over_run; exact Hr |]. rewrite Hl. split; [left |]; reflexivity.
Qed.
Example C67_again_case : exists g l l', reach true false g
  /\ c_log g = l ++ Event 1 (Answer true true [7]) [] :: l'
  /\ In (Event 1 (Answer true true [7]) []) l'.
Proof.
  running (run true false (start 0) tab_run) g. exists g.
  exists (firstn 1 (c_log g)), (skipn 2 (c_log g)). rewrite Hlog.
  split; [exists 0, tab_run; exact Hr |]. split; [reflexivity |]. simpl. tauto.
Qed.

(** C68 refuted: a backtrack on a rewritten formula launches a child whose slot does not exist, and its answer
    ends the program. *)
Theorem C68_slot_refuted : forall complete, exists g l g',
  reach complete true g /\ c_crash g = false /\ ~ slot_found g
  /\ run complete true g l = Some g' /\ c_crash g' = true.
Proof.
  intro complete. destruct (dmt_slot complete) as (g & Hr & Hc & Hs).
  destruct (dmt_panic complete) as (g' & Hr' & Hc').
  exists g, dmt_end, g'. split; [exists 0, dmt_run; exact Hr |].
  split; [exact Hc | split; [exact Hs | split; [| exact Hc']]].
  rewrite <- Hr'. clear - Hr. revert Hr. generalize (start 0) dmt_end. generalize dmt_run.
  intro l; induction l as [| a l IH]; simpl; intros g0 l' Hr; [injection Hr as ->; reflexivity |].
  destruct (exec complete true g0 a) as [g1 |]; [| discriminate]. exact (IH g1 l' Hr).
Qed.
Print Assumptions C68_slot_refuted.
(** It always does: the node number of the new child is fresh, so it is not the one of its father. *)
Theorem C68_backtrack_panics_partial : forall complete g p w i id cur g' a,
  c_crash g = false -> p < c_n g -> c_ctl g p = Opened w ->
  w_onf w = true -> w_forms w <> 0 -> id <> c_orig g p ->
  exec complete true g (AInt p (COpened i id cur)) = Some g' ->
  gets (c_ctl g' (c_fa g' (c_n g))) (c_n g) (c_orig g' (c_n g)) a = Crash.
Proof. exact dmt_backtrack_panics. Qed.
Print Assumptions C68_backtrack_panics_partial.
Example C68_backtrack_panics_case : exists g w g',
  c_crash g = false /\ 0 < c_n g /\ c_ctl g 0 = Opened w /\ w_onf w = true /\ w_forms w <> 0
  /\ 2 <> c_orig g 0 /\ exec false true g (AInt 0 (COpened 0 2 None)) = Some g'.
Proof.
  running (run false true (start 0) (firstn 4 dmt_run)) g. at_pid Hp 0. eexists g, _, _.
  split; [exact Hcr | split; [lia | split; [exact Hctl | split; [reflexivity | split; [discriminate |]]]]].
  split; [rewrite Horig; discriminate |]. unfold exec. rewrite Hcr, Hn, Hctl. reflexivity.
Qed.
(** What holds: without deduction modulo the slot is always there, and no answer ends the program. *)
Theorem C68_slot_partial : forall complete g, reach complete false g -> slot_found g.
Proof. exact slots_found. Qed.
Print Assumptions C68_slot_partial.
Theorem C68_no_panic_partial : forall complete g c a,
  reach complete false g -> 0 < c -> c < c_n g ->
  gets (c_ctl g (c_fa g c)) c (c_orig g c) a <> Crash.
Proof. exact no_panic. Qed.
Print Assumptions C68_no_panic_partial.
Example C68_slot_case : forall complete, exists g w s,
  reach complete false g /\ c_ctl g 0 = Waiting w s /\ w_alive w = [1; 2] /\ w_order w = [1; 2].
Proof.
  intro complete. destruct complete.
  1: running (run true false (start 0) two_run) g.
  2: running (run false false (start 0) two_run) g.
  all: at_pid Hp 0; eexists g, _, _;
    split; [exists 0, two_run; exact Hr | split; [exact Hctl | split; reflexivity]].
Qed.

(** C69 refuted: a child that closed by itself in the first round has no proof in the second one. *)
Theorem C69_proofs_refuted : forall complete dmt, exists g,
  reach complete dmt g /\ c_crash g = false /\ ~ proofs_complete g.
Proof.
  intros complete dmt. destruct (tab_hole complete dmt) as (g & w & s & Hr & Hc & Hx & H0 & Hd & Hk & Ht).
  assert (H : reach complete dmt g) by (exists 0, tab_run; exact Hr).
  exists g. split; [exact H | split; [exact Hc |]]. intro P.
  pose proof (i_pos g (inv_reach _ _ _ H)) as Hn.
  specialize (P 0 w s Hn Hx H0). rewrite Hk, Ht in P.
  assert (Hl : forall l, decide w s <> DChildren l) by (intros l; rewrite Hd; discriminate).
  specialize (P Hl). discriminate.
Qed.
Print Assumptions C69_proofs_refuted.
(** What holds: a slot is empty exactly when its child was not waited for in this round... *)
Theorem C69_slots_partial : forall complete g p w s,
  reach complete false g -> p < c_n g -> c_ctl g p = Waiting w s -> s_rem s = 0 ->
  NoDup (map (c_orig g) (c_kids g p)) ->
  s_tab s = map (fun k => if memb k (w_alive w) then Some k else None) (c_kids g p).
Proof. exact slots_empty. Qed.
Print Assumptions C69_slots_partial.
Example C69_slots_case : exists g w s,
  reach true false g /\ c_ctl g 0 = Waiting w s /\ s_rem s = 0 /\ NoDup (map (c_orig g) (c_kids g 0))
  /\ c_kids g 0 = [1; 2; 3] /\ w_alive w = [1; 2].
Proof.
  running (run true false (start 0) tab_run) g. at_pid Hp 0. at_pid Hp 1. at_pid Hp 2. at_pid Hp 3.
  eexists g, _, _. split; [exists 0, tab_run; exact Hr |]. split; [exact Hctl |]. split; [reflexivity |].
  rewrite Hkids. cbn [map]. rewrite Horig0, Horig1, Horig2.
  split; [repeat constructor; simpl; intuition discriminate | split; reflexivity].
Qed.
(** ... so all the proofs are there when all the children were waited for, as in the first round. *)
Theorem C69_proofs_partial : forall complete g p w s,
  reach complete false g -> p < c_n g -> c_ctl g p = Waiting w s -> s_rem s = 0 ->
  NoDup (map (c_orig g) (c_kids g p)) -> incl (c_kids g p) (w_alive w) ->
  s_tab s = map Some (c_kids g p).
Proof. exact proofs_there. Qed.
Print Assumptions C69_proofs_partial.
Example C69_proofs_case : forall complete, exists g w s,
  reach complete false g /\ 0 < c_n g /\ c_ctl g 0 = Waiting w s /\ s_rem s = 0
  /\ NoDup (map (c_orig g) (c_kids g 0)) /\ incl (c_kids g 0) (w_alive w)
  /\ s_tab s = [Some 1; Some 2].
Proof.
  intro complete. destruct (two_ok complete false)
    as (g & w & s & Hr & _ & _ & Hn & Hx & H0 & _ & Hd & Hi & Ht & _).
  exists g, w, s. split; [exists 0, two_run; exact Hr |]. repeat (split; [assumption |]). assumption.
Qed.

(** C70 refuted: after a backtrack the answers are compared with the substitution that failed. *)
Theorem C70_current_refuted : forall complete dmt, exists g,
  reach complete dmt g /\ c_crash g = false /\ ~ current_is_sent g.
Proof.
  intros complete dmt. destruct (back_stale complete dmt) as (g & w & s & Hr & Hc & Hx & H7 & H8).
  assert (H : reach complete dmt g) by (exists 0, back_run; exact Hr).
  exists g. split; [exact H | split; [exact Hc |]]. intro P.
  specialize (P 0 w s (i_pos g (inv_reach _ _ _ H)) Hx). congruence.
Qed.
Print Assumptions C70_current_refuted.
(** C70 refuted: a substitution that failed after a backtrack is not forbidden when the proof is started again. *)
Theorem C70_forbidden_refuted : forall dmt, exists g,
  reach true dmt g /\ c_crash g = false /\ ~ failures_forbidden g.
Proof.
  intro dmt. destruct (again_forgets dmt) as (g & w & Hr & Hc & Hx & Hf & Hb).
  assert (H : reach true dmt g) by (exists 0, again_run; exact Hr).
  exists g. split; [exact H | split; [exact Hc |]]. intro P.
  specialize (P 0 _ w (i_pos g (inv_reach _ _ _ H)) Hx (Some 8) true). rewrite Hf, Hb in P.
  specialize (P (or_introl eq_refl)). destruct P as [P | []]. discriminate.
Qed.
Print Assumptions C70_forbidden_refuted.
(** What holds: both, for what was not chosen by a backtrack. *)
Theorem C70_current_partial : forall complete dmt g p w s,
  reach complete dmt g -> p < c_n g -> c_ctl g p = Waiting w s ->
  w_back w = false -> w_cur w = w_sent w.
Proof. exact current_sent. Qed.
Print Assumptions C70_current_partial.
Example C70_current_case : exists g w s, reach true false g /\ 0 < c_n g /\ c_ctl g 0 = Waiting w s
  /\ w_back w = false /\ w_sent w = Some 7.
Proof.
  running (run true false (start 0) tab_run) g. at_pid Hp 0. eexists g, _, _.
  split; [exists 0, tab_run; exact Hr | split; [lia | split; [exact Hctl | split; reflexivity]]].
Qed.
Theorem C70_forbidden_partial : forall dmt g p todo w x,
  reach true dmt g -> p < c_n g -> c_ctl g p = SendSub None todo w ->
  In (x, false) (w_failed w) -> In x (w_forb w).
Proof. exact failed_forbidden. Qed.
Print Assumptions C70_forbidden_partial.
Example C70_forbidden_case : exists g w, reach true false g /\ 0 < c_n g /\ c_ctl g 0 = SendSub None [1; 2] w
  /\ In (Some 7, false) (w_failed w).
Proof.
  running (run true false (start 0) again_run) g. at_pid Hp 0. eexists g, _.
  split; [exists 0, again_run; exact Hr | split; [lia | split; [exact Hctl | right; left; reflexivity]]].
Qed.
