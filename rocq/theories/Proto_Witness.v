(** Runs of the processes: counterexamples, and examples for the theorems. *)

Require Import Coq.Lists.List Coq.Arith.PeanoNat Coq.Bool.Bool Coq.micromega.Lia.
From Verif Require Import Proto_Model Proto_Spec Proto_Proofs Proto_Progress Proto_Closed Proto_Slots.
Import ListNotations.

Definition open_leaf : choice := CLeaf (Answer false false []).
Definition closed_leaf : choice := CLeaf (Answer true false []).
Definition with_subst (x : nat) : choice := CLeaf (Answer true true [x]).

(** A configuration as a finite value. *)
Definition view (g : cfg) :=
  (c_crash g, c_main g, c_n g, map (c_ctl g) (seq 0 (c_n g)),
   map (c_kids g) (seq 0 (c_n g)), map (c_orig g) (seq 0 (c_n g)), c_log g).

Lemma run_view : forall complete dmt l v,
  option_map view (run complete dmt (start 0) l) = Some v ->
  exists g, run complete dmt (start 0) l = Some g /\ view g = v.
Proof.
  intros complete dmt l v H. destruct (run complete dmt (start 0) l) as [g |]; [| discriminate].
  injection H as H. exists g; split; [reflexivity | exact H].
Qed.

Lemma view_parts : forall g cr m n cs ks os l, view g = (cr, m, n, cs, ks, os, l) ->
  c_crash g = cr /\ c_main g = m /\ c_n g = n /\ c_log g = l
  /\ (forall p, p < n -> nth p cs Compute = c_ctl g p
                         /\ nth p ks [] = c_kids g p /\ nth p os 0 = c_orig g p).
Proof.
  intros g cr m n cs ks os l H. unfold view in H. injection H as H1 H2 H3 H4 H5 H6 H7.
  repeat split; try assumption; subst.
  - rewrite (nth_indep _ Compute (c_ctl g 0)) by (rewrite map_length, seq_length; assumption).
    rewrite map_nth, seq_nth by assumption. reflexivity.
  - rewrite (nth_indep _ [] (c_kids g 0)) by (rewrite map_length, seq_length; assumption).
    rewrite map_nth, seq_nth by assumption. reflexivity.
  - rewrite (nth_indep _ 0 (c_orig g 0)) by (rewrite map_length, seq_length; assumption).
    rewrite map_nth, seq_nth by assumption. reflexivity.
Qed.

Ltac running r g :=
  let v := eval vm_compute in (option_map view r) in
  match v with
  | Some ?x =>
      match r with
      | run ?complete ?dmt (start 0) ?l =>
          let H := fresh in
          assert (H : option_map view (run complete dmt (start 0) l) = Some x)
            by (vm_compute; reflexivity);
          let Hr := fresh "Hr" in let Hv := fresh "Hv" in
          destruct (run_view _ _ _ _ H) as (g & Hr & Hv); clear H;
          let Hcr := fresh "Hcr" in let Hm := fresh "Hm" in let Hn := fresh "Hn" in
          let Hlog := fresh "Hlog" in let Hp := fresh "Hp" in
          destruct (view_parts _ _ _ _ _ _ _ _ Hv) as (Hcr & Hm & Hn & Hlog & Hp); clear Hv
      end
  end.

Ltac at_pid Hp p :=
  let H := fresh in
  assert (H := Hp p ltac:(lia)); cbn [nth] in H;
  let Hc := fresh "Hctl" in let Hk := fresh "Hkids" in let Ho := fresh "Horig" in
  destruct H as (Hc & Hk & Ho); symmetry in Hc, Hk, Ho.

(** ** A backtrack on a rewritten formula *)

(** The root rewrites a formula; its child leaves the branch open; the root
    tries the other rewriting. *)
Definition dmt_run : list action :=
  [ AInt 0 (CRewrite 1 None 1); AInt 1 open_leaf; AAnswer 1;
    AInt 0 CDone; AInt 0 (COpened 0 2 None) ].

Definition dmt_end : list action := [ AInt 2 closed_leaf; AAnswer 2 ].

Lemma dmt_slot : forall complete, exists g,
  run complete true (start 0) dmt_run = Some g /\ c_crash g = false
  /\ ~ slot_found g.
Proof.
  intro complete.
  destruct complete.
  all: match goal with |- exists g, run ?c ?d (start 0) ?l = _ /\ _ =>
         running (run c d (start 0) l) g end.
  all: at_pid Hp 0; at_pid Hp 2; exists g; split; [exact Hr | split; [exact Hcr |]].
  all: intro H; assert (Hs := H 0 _ _ 2 ltac:(lia) Hctl (or_introl eq_refl));
    rewrite Horig0 in Hs; destruct Hs as [Hs | []]; discriminate.
Qed.

Lemma dmt_panic : forall complete, exists g,
  run complete true (start 0) (dmt_run ++ dmt_end) = Some g /\ c_crash g = true.
Proof.
  intro complete. destruct complete.
  all: match goal with |- exists g, run ?c ?d (start 0) ?l = _ /\ _ =>
         running (run c d (start 0) l) g end.
  all: exists g; split; assumption.
Qed.

(** It always ends so: the new process carries the number of its father, not
    the one its father expects. *)
Theorem dmt_backtrack_panics : forall complete g p w i id cur g' a,
  c_crash g = false -> p < c_n g -> c_ctl g p = Opened w ->
  w_onf w = true -> w_forms w <> 0 -> id <> c_orig g p ->
  exec complete true g (AInt p (COpened i id cur)) = Some g' ->
  gets (c_ctl g' (c_fa g' (c_n g))) (c_n g) (c_orig g' (c_n g)) a = Crash.
Proof.
  intros complete g p w i id cur g' a Hc Hp Hx Ho Hf Hid H.
  unfold exec in H. rewrite Hc, Hx in H.
  pose proof Hp as Hp'. apply Nat.ltb_lt in Hp'. rewrite Hp' in H.
  cbn [internal] in H. unfold opened in H. rewrite Ho in H.
  destruct (w_forms w) as [| k]; [congruence |]. injection H as <-.
  cbn [launch c_ctl c_fa c_orig length].
  assert (En : (c_n g <=? c_n g) && (c_n g <? c_n g + 1) = true).
  { apply andb_true_iff; split; [apply Nat.leb_le | apply Nat.ltb_lt]; lia. }
  rewrite En, Nat.sub_diag, Nat.eqb_refl. cbn [gets w_alive memb existsb nth].
  rewrite Nat.eqb_refl. cbn [orb sel0 s_rem w_alive length w_order index].
  apply Nat.eqb_neq in Hid. rewrite Hid. reflexivity.
Qed.

(** ** A process left behind *)

Definition left_run : list action :=
  [ AInt 0 (CBeta [1; 2]); AInt 1 (CRewrite 3 None 1); AInt 3 (CBeta [4; 5]);
    AInt 4 open_leaf; AAnswer 4; AQuit 5; AInt 3 CDone; AInt 3 (COpened 0 0 None);
    AQuit 5; AInt 3 CDone; AAnswer 3; AQuit 3; AInt 1 CDone;
    AInt 1 (COpened 0 6 None);
    AInt 2 open_leaf; AAnswer 2; AQuit 1; AQuit 6; AInt 1 CDone;
    AInt 0 CDone; AInt 0 (COpened 0 0 None); AQuit 1; AInt 0 CDone;
    AAnswer 0; AQuit 0 ].

Lemma quiet_stays : forall complete dmt g,
  inv g -> c_main g = MDone ->
  (forall p, p < c_n g -> c_ctl g p = Dead \/ exists gv, c_ctl g p = WaitFather gv) ->
  ~ moves complete dmt g.
Proof.
  intros complete dmt g Hi Hm Hq (a & g' & H & _). unfold exec in H.
  destruct (c_crash g); [discriminate |].
  assert (Hfa : forall c, c < c_n g -> c <> 0 -> c_fa g c < c_n g).
  { intros c Hc Hc0. pose proof (i_fa g Hi c ltac:(lia) Hc). lia. }
  destruct a as [p ch | p | c | c | c].
  - destruct (p <? c_n g) eqn:Ep; [| discriminate]. apply Nat.ltb_lt in Ep.
    destruct (Hq p Ep) as [E | [gv E]]; rewrite E in H; simpl in H; discriminate.
  - destruct (p <? c_n g) eqn:Ep; [| discriminate]. apply Nat.ltb_lt in Ep.
    destruct (Hq p Ep) as [E | [gv E]]; rewrite E in H; simpl in H; discriminate.
  - destruct (c <? c_n g) eqn:Ep; [| discriminate]. apply Nat.ltb_lt in Ep.
    destruct (Hq c Ep) as [E | [gv E]]; rewrite E in H; simpl in H; discriminate.
  - destruct (c <? c_n g) eqn:Ep; [| discriminate]. apply Nat.ltb_lt in Ep.
    destruct c as [| c']; [rewrite Hm in H; discriminate |].
    destruct (Hq _ (Hfa _ Ep ltac:(discriminate))) as [E | [gv E]]; rewrite E in H;
      simpl in H; discriminate.
  - destruct (c <? c_n g) eqn:Ep; [| discriminate]. apply Nat.ltb_lt in Ep.
    destruct (c =? 0) eqn:E0; [discriminate |]. apply Nat.eqb_neq in E0. simpl in H.
    destruct (Hq _ (Hfa _ Ep E0)) as [E | [gv E]]; rewrite E in H;
      simpl in H; discriminate.
Qed.

Lemma left_behind : forall complete, exists g,
  reach complete true g /\ c_crash g = false /\ c_main g = MDone
  /\ ~ moves complete true g /\ ~ all_over g
  /\ exists gv, c_ctl g 3 = WaitFather gv.
Proof.
  intro complete.
  assert (H : exists g, run complete true (start 0) left_run = Some g
              /\ c_crash g = false /\ c_main g = MDone /\ c_n g = 7
              /\ (c_ctl g 0 = Dead /\ c_ctl g 1 = Dead /\ c_ctl g 2 = Dead
                  /\ c_ctl g 3 = WaitFather [] /\ c_ctl g 4 = Dead /\ c_ctl g 5 = Dead
                  /\ c_ctl g 6 = Dead)).
  { destruct complete.
    all: match goal with |- exists g, run ?c ?d (start 0) ?l = _ /\ _ =>
           running (run c d (start 0) l) g end.
    all: at_pid Hp 0; at_pid Hp 1; at_pid Hp 2; at_pid Hp 3; at_pid Hp 4; at_pid Hp 5;
      at_pid Hp 6; exists g; repeat (split; [assumption |]); assumption. }
  destruct H as (g & Hr & Hc & Hm & Hn & H0 & H1 & H2 & H3 & H4 & H5 & H6).
  assert (Hre : reach complete true g) by (exists 0, left_run; exact Hr).
  exists g. split; [exact Hre | split; [exact Hc | split; [exact Hm | split; [| split]]]].
  - apply quiet_stays; [exact (inv_reach _ _ _ Hre) | exact Hm |].
    intros p Hp. rewrite Hn in Hp.
    do 7 (destruct p as [| p]; [first [left; assumption | right; eexists; eassumption] |]). lia.
  - intros [_ Ha]. specialize (Ha 3). rewrite Hn, H3 in Ha. discriminate Ha. lia.
  - exists []; exact H3.
Qed.

(** ** A closed node without the proof of one of its children *)

Definition tab_run : list action :=
  [ AInt 0 (CBeta [1; 2; 3]);
    AInt 1 (with_subst 7); AInt 2 (with_subst 8); AInt 3 closed_leaf;
    AAnswer 1; AAnswer 2; AAnswer 3;
    AInt 0 (CSelect 0 []); ATell 1; ATell 2; AInt 0 CDone;
    AInt 1 CDone; AInt 2 CDone; AInt 4 (with_subst 7); AAnswer 4;
    AInt 2 (CSelect 0 [7]); AQuit 4; AInt 2 CDone;
    AAnswer 1; AAnswer 2 ].

Lemma tab_hole : forall complete dmt, exists g w s,
  run complete dmt (start 0) tab_run = Some g /\ c_crash g = false
  /\ c_ctl g 0 = Waiting w s /\ s_rem s = 0 /\ decide w s = DParent [7]
  /\ c_kids g 0 = [1; 2; 3] /\ s_tab s = [Some 1; Some 2; None].
Proof.
  intros complete dmt. destruct complete, dmt.
  all: match goal with |- exists g w s, run ?c ?d (start 0) ?l = _ /\ _ =>
         running (run c d (start 0) l) g end.
  all: at_pid Hp 0; eexists; eexists; eexists; split; [exact Hr | split; [exact Hcr |]].
  all: split; [exact Hctl | repeat split; assumption || reflexivity].
Qed.

(** ** A backtrack on the substitutions *)

Definition back_run : list action :=
  [ AInt 0 (CBeta [1; 2]); AInt 1 (with_subst 7); AInt 2 (with_subst 8);
    AAnswer 1; AAnswer 2; AInt 0 (CSelect 0 []); ATell 1; ATell 2; AInt 0 CDone;
    AInt 1 CDone; AAnswer 1;
    AInt 2 CDone; AInt 3 open_leaf; AAnswer 3; AInt 2 CDone; AInt 2 (COpened 0 0 None);
    AInt 2 CDone; AAnswer 2;
    AQuit 1; AQuit 2; AInt 0 CDone; AInt 0 (COpened 0 0 None);
    ATell 1; ATell 2; AInt 0 CDone ].

Lemma back_stale : forall complete dmt, exists g w s,
  run complete dmt (start 0) back_run = Some g /\ c_crash g = false
  /\ c_ctl g 0 = Waiting w s /\ w_cur w = Some 7 /\ w_sent w = Some 8.
Proof.
  intros complete dmt. destruct complete, dmt.
  all: match goal with |- exists g w s, run ?c ?d (start 0) ?l = _ /\ _ =>
         running (run c d (start 0) l) g end.
  all: at_pid Hp 0; eexists; eexists; eexists; split; [exact Hr | split; [exact Hcr |]].
  all: split; [exact Hctl | repeat split; assumption || reflexivity].
Qed.

(** The second substitution fails too: the proof is started again. *)
Definition again_run : list action :=
  back_run ++
  [ AInt 1 CDone; AInt 4 open_leaf; AAnswer 4; AInt 1 CDone; AInt 1 (COpened 0 0 None);
    AInt 1 CDone; AAnswer 1;
    AInt 2 CDone; AQuit 1; AQuit 2; AInt 0 CDone; AInt 0 (COpened 0 0 None) ].

Lemma again_forgets : forall dmt, exists g w,
  run true dmt (start 0) again_run = Some g /\ c_crash g = false
  /\ c_ctl g 0 = SendSub None [1; 2] w
  /\ w_failed w = [(Some 8, true); (Some 7, false)] /\ w_forb w = [Some 7].
Proof.
  intro dmt. destruct dmt.
  all: match goal with |- exists g w, run ?c ?d (start 0) ?l = _ /\ _ =>
         running (run c d (start 0) l) g end.
  all: at_pid Hp 0; eexists; eexists; split; [exact Hr | split; [exact Hcr |]].
  all: split; [exact Hctl | repeat split; reflexivity].
Qed.

(** ** The first round of two children, for the examples *)

Definition two_run : list action :=
  [ AInt 0 (CBeta [1; 2]); AInt 1 (with_subst 7); AInt 2 (with_subst 7);
    AAnswer 1; AAnswer 2 ].

Lemma two_ok : forall complete dmt, exists g w s,
  run complete dmt (start 0) two_run = Some g /\ c_crash g = false
  /\ c_main g = MRecv /\ 0 < c_n g
  /\ c_ctl g 0 = Waiting w s /\ s_rem s = 0 /\ decide w s = DParent [7]
  /\ NoDup (map (c_orig g) (c_kids g 0)) /\ incl (c_kids g 0) (w_alive w)
  /\ s_tab s = [Some 1; Some 2] /\ w_back w = false.
Proof.
  intros complete dmt. destruct complete, dmt.
  all: match goal with |- exists g w s, run ?c ?d (start 0) ?l = _ /\ _ =>
         running (run c d (start 0) l) g end.
  all: at_pid Hp 0; at_pid Hp 1; at_pid Hp 2;
    eexists; eexists; eexists; split; [exact Hr | split; [exact Hcr |]].
  all: split; [exact Hm | split; [lia | split; [exact Hctl |]]].
  all: rewrite Hkids; cbn [map]; rewrite Horig0, Horig1;
    split; [reflexivity | split; [reflexivity | split; [| split; [| split; reflexivity]]]].
  all: try (repeat constructor; simpl; intuition discriminate).
  all: intros z Hz; exact Hz.
Qed.

(** The whole search of two children that agree. *)
Definition over_run : list action :=
  two_run ++ [ AInt 0 (CSelect 0 [7]); AQuit 1; AQuit 2; AInt 0 CDone; AAnswer 0; AQuit 0 ].

Lemma over_ok : forall complete dmt, exists g,
  run complete dmt (start 0) over_run = Some g /\ c_crash g = false /\ c_n g = 3
  /\ all_over g
  /\ c_log g = [ Event 0 (Answer true true [7]) [1; 2];
                 Event 2 (Answer true true [7]) []; Event 1 (Answer true true [7]) [] ].
Proof.
  intros complete dmt. destruct complete, dmt.
  all: match goal with |- exists g, run ?c ?d (start 0) ?l = _ /\ _ =>
         running (run c d (start 0) l) g end.
  all: at_pid Hp 0; at_pid Hp 1; at_pid Hp 2;
    exists g; split; [exact Hr | split; [exact Hcr | split; [exact Hn | split]]].
  all: try exact Hlog.
  all: split; [exact Hm |]; intros p Hpn; rewrite Hn in Hpn;
    do 3 (destruct p as [| p]; [assumption |]); lia.
Qed.
