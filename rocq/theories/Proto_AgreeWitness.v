(** Runs in which the children answer several substitutions. *)

Require Import Coq.Lists.List Coq.Arith.PeanoNat Coq.Bool.Bool Coq.micromega.Lia.
From Verif Require Import Proto_Model Proto_Spec Proto_Proofs Proto_Progress Proto_Closed Proto_Slots
  Proto_Witness Proto_Agree.
Import ListNotations.

Definition with_substs (l : list nat) : choice := CLeaf (Answer true true l).

(** Three children: the first and the last one are closed by 7, the second one
    by 8 only.  This is what the formula forall x, p(x) or q(x) or r(x) gives
    with not p(a), not q(b) and not r(a): 7 is x := a and 8 is x := b. *)
Definition three_run : list action :=
  [ AInt 0 (CBeta [1; 2; 3]);
    AInt 1 (with_subst 7); AInt 2 (with_subst 8); AInt 3 (with_subst 7);
    AAnswer 1; AAnswer 2; AAnswer 3 ].

(** The root keeps nothing for its father: x was introduced below it. *)
Definition three_end : list action :=
  [ AInt 0 (CSelect 0 []); AQuit 1; AQuit 2; AQuit 3; AInt 0 CDone; AAnswer 0 ].

Lemma run_app : forall complete dmt l l' g g', run complete dmt g l = Some g' ->
  run complete dmt g (l ++ l') = run complete dmt g' l'.
Proof.
  intros complete dmt l l'. induction l as [| a l IH]; intros g g' H; simpl in *.
  - injection H as <-. reflexivity.
  - destruct (exec complete dmt g a) as [g1 |]; [exact (IH g1 g' H) | discriminate].
Qed.

Lemma three_disagree : forall complete dmt, exists g w s,
  reach complete dmt g /\ c_crash g = false /\ all_in g 0 w s
  /\ decide w s = DParent [7] /\ In 2 (w_alive w) /\ w_cur w = None /\ answered g 2 [8]
  /\ exists g', run complete dmt g three_end = Some g' /\ c_crash g' = false
       /\ c_main g' = MDone /\ In (Event 0 (Answer true false []) [1; 2; 3]) (c_log g').
Proof.
  intros complete dmt. destruct complete, dmt.
  all: match goal with |- exists g w s, reach ?c ?d _ /\ _ =>
         running (run c d (start 0) three_run) g;
         assert (Hr0 := Hr); clear Hr;
         running (run c d (start 0) (three_run ++ three_end)) g2 end.
  all: match goal with H : run _ _ (start 0) three_run = Some ?g |- _ =>
         at_pid Hp 0; eexists g, _, _ end.
  all: split; [exists 0, three_run; exact Hr0 | split; [exact Hcr |]].
  all: split; [split; [lia | split; [exact Hctl | reflexivity]] |].
  all: split; [reflexivity | split; [right; left; reflexivity | split; [reflexivity |]]].
  all: split; [eexists; rewrite Hlog; split; [reflexivity | split; reflexivity] |].
  all: exists g2; split; [rewrite <- Hr; symmetry; apply run_app; exact Hr0 |].
  all: split; [exact Hcr0 | split; [exact Hm0 | rewrite Hlog0; left; reflexivity]].
Qed.

(** Two children ask for something else than the third one. *)
Definition common_run : list action :=
  [ AInt 0 (CBeta [1; 2; 3]);
    AInt 1 (with_substs [7; 8]); AInt 2 closed_leaf; AInt 3 (with_substs [8; 9]);
    AAnswer 1; AAnswer 2; AAnswer 3 ].

Lemma common_ok : forall complete dmt, exists g w s,
  reach complete dmt g /\ c_crash g = false /\ all_in g 0 w s
  /\ decide w s = DParent [8] /\ w_alive w = [1; 2; 3] /\ no_repeat g w
  /\ (forall k l, In k (w_alive w) -> answered g k l ->
        content (w_cur w) l \/ k = 1 \/ k = 3).
Proof.
  intros complete dmt. destruct complete, dmt.
  all: match goal with |- exists g w s, reach ?c ?d _ /\ _ =>
         running (run c d (start 0) common_run) g end.
  all: at_pid Hp 0; eexists g, _, _.
  all: split; [exists 0, common_run; exact Hr | split; [exact Hcr |]].
  all: split; [split; [lia | split; [exact Hctl | reflexivity]] |].
  all: split; [reflexivity | split; [reflexivity | split]].
  all: intros k l Hk (a & Ha & _ & Hs); cbn [w_alive] in Hk; rewrite Hlog in Ha;
    destruct Hk as [<- | [<- | [<- | []]]]; vm_compute in Ha; injection Ha as <-; subst l; simpl.
  all: try (repeat constructor; simpl; intuition discriminate).
Qed.

(** Two children that do not agree. *)
Definition apart_run : list action :=
  [ AInt 0 (CBeta [1; 2]); AInt 1 (with_subst 7); AInt 2 (with_substs [8; 9]);
    AAnswer 1; AAnswer 2 ].

Lemma apart_ok : forall complete dmt, exists g w s,
  reach complete dmt g /\ c_crash g = false /\ all_in g 0 w s
  /\ decide w s = DChildren [7; 8; 9] /\ no_repeat g w.
Proof.
  intros complete dmt. destruct complete, dmt.
  all: match goal with |- exists g w s, reach ?c ?d _ /\ _ =>
         running (run c d (start 0) apart_run) g end.
  all: at_pid Hp 0; eexists g, _, _.
  all: split; [exists 0, apart_run; exact Hr | split; [exact Hcr |]].
  all: split; [split; [lia | split; [exact Hctl | reflexivity]] |].
  all: split; [reflexivity |].
  all: intros k l Hk (a & Ha & _ & Hs); cbn [w_alive] in Hk; rewrite Hlog in Ha;
    destruct Hk as [<- | [<- | []]]; vm_compute in Ha; injection Ha as <-; subst l; simpl.
  all: repeat constructor; simpl; intuition discriminate.
Qed.

(** A second round: the first child finds 9 from what it was given, and can do with
    what it was given. *)
Definition later_run : list action :=
  [ AInt 0 (CBeta [1; 2]); AInt 1 (with_subst 7); AInt 2 (with_subst 8);
    AAnswer 1; AAnswer 2; AInt 0 (CSelect 0 []); ATell 1; ATell 2; AInt 0 CDone;
    AInt 1 CDone; AAnswer 1;
    AInt 2 CDone; AInt 3 (with_substs [7; 9; 10]); AAnswer 3;
    AInt 2 (CSelect 0 [9; 7; 10]); AQuit 3; AInt 2 CDone; AAnswer 2 ].

Lemma later_ok : forall complete dmt, exists g w s,
  reach complete dmt g /\ c_crash g = false /\ all_in g 0 w s
  /\ w_cur w = Some 7 /\ decide w s = DParent [9; 10] /\ answered g 2 [9; 7; 10].
Proof.
  intros complete dmt. destruct complete, dmt.
  all: match goal with |- exists g w s, reach ?c ?d _ /\ _ =>
         running (run c d (start 0) later_run) g end.
  all: at_pid Hp 0; eexists g, _, _.
  all: split; [exists 0, later_run; exact Hr | split; [exact Hcr |]].
  all: split; [split; [lia | split; [exact Hctl | reflexivity]] |].
  all: split; [reflexivity | split; [reflexivity |]].
  all: eexists; rewrite Hlog; split; [reflexivity | split; reflexivity].
Qed.

(** Nobody needs a substitution. *)
Lemma none_ok : forall complete dmt, exists g w s,
  reach complete dmt g /\ c_crash g = false /\ all_in g 0 w s /\ w_alive w = [1; 2]
  /\ decide w s = DClose.
Proof.
  intros complete dmt. destruct complete, dmt.
  all: match goal with |- exists g w s, reach ?c ?d _ /\ _ =>
         running (run c d (start 0) [ AInt 0 (CBeta [1; 2]); AInt 1 closed_leaf; AInt 2 closed_leaf;
                                       AAnswer 2; AAnswer 1 ]) g end.
  all: at_pid Hp 0; eexists g, _, _.
  all: split; [eexists 0, _; exact Hr | split; [exact Hcr |]].
  all: split; [split; [lia | split; [exact Hctl | reflexivity]] |].
  all: split; reflexivity.
Qed.
