(** The heap-level insertion refines the functional one for a single (linear) handle. *)
From Coq Require Import ZArith List Bool Lia Permutation.
From Verif Require Import LibSet_Model LibSet_Spec LibSetHeap_Model.
Import ListNotations.
Open Scope Z_scope.

Section P.
Context {A : Type}.
Variable eqb ltb : A -> A -> bool.
Notation heap := (heap A).
Notation hnode := (hnode A).

(** [repr h p t fp]: pointer [p] is the root of a tree of cells representing [t]; [fp] are
    its cells, all distinct. *)
Inductive repr (h : heap) : ptr -> tree A -> list nat -> Prop :=
| repr_leaf : repr h None Leaf []
| repr_node a ht pl pr v l r fl fr :
    nth_error h a = Some (HN ht pl pr v) ->
    repr h pl l fl -> repr h pr r fr -> NoDup (a :: fl ++ fr) ->
    repr h (Some a) (Node ht l v r) (a :: fl ++ fr).

Lemma upd_same h a (n : hnode) : (a < length h)%nat -> nth_error (upd h a n) a = Some n.
Proof. revert a; induction h as [|m h IH]; intros [|a]; simpl; try lia; auto. intros; apply IH; lia. Qed.
Lemma upd_other h a b (n : hnode) : a <> b -> nth_error (upd h a n) b = nth_error h b.
Proof. revert a b; induction h as [|m h IH]; intros [|a] [|b]; simpl; try congruence; auto. Qed.
Lemma upd_length h a (n : hnode) : length (upd h a n) = length h.
Proof. revert a; induction h as [|m h IH]; intros [|a]; simpl; auto. Qed.
Lemma nth_lt (h : heap) a n : nth_error h a = Some n -> (a < length h)%nat.
Proof. intros H. apply nth_error_Some. congruence. Qed.

Lemma repr_frame h h' p t fp : repr h p t fp ->
  (forall a, In a fp -> nth_error h' a = nth_error h a) -> repr h' p t fp.
Proof.
  induction 1 as [|a ht pl pr v l r fl fr E Hl IHl Hr IHr ND]; intros F; [constructor|].
  econstructor; eauto.
  - rewrite F by (simpl; auto). exact E.
  - apply IHl. intros b Hb. apply F. simpl. rewrite in_app_iff. auto.
  - apply IHr. intros b Hb. apply F. simpl. rewrite in_app_iff. auto.
Qed.
Lemma repr_bound h p t fp : repr h p t fp -> forall a, In a fp -> (a < length h)%nat.
Proof.
  induction 1 as [|a ht pl pr v l r fl fr E Hl IHl Hr IHr ND]; intros b; simpl; [tauto|].
  rewrite in_app_iff. intros [<-|[K|K]]; auto. eapply nth_lt; eauto.
Qed.
Lemma repr_nodup h p t fp : repr h p t fp -> NoDup fp.
Proof. destruct 1; auto. constructor. Qed.
Lemma repr_height h p t fp : repr h p t fp -> hheightp h p = Ok (height t).
Proof. destruct 1 as [|a ht pl pr v l r fl fr E Hl Hr ND]; simpl; auto. rewrite E. reflexivity. Qed.
Lemma repr_balance h p t fp : repr h p t fp -> hbalance h p = Ok (balance t).
Proof.
  destruct 1 as [|a ht pl pr v l r fl fr E Hl Hr ND]; simpl; auto. rewrite E. simpl.
  rewrite (repr_height _ _ _ _ Hl). simpl. rewrite (repr_height _ _ _ _ Hr). reflexivity.
Qed.

(** A cell [a] whose children represent [l] and [r], apart from its own contents. *)
Definition pre (h : heap) (a : nat) (pl pr : ptr) (v : A) l fl r fr :=
  (exists ht, nth_error h a = Some (HN ht pl pr v)) /\ repr h pl l fl /\ repr h pr r fr /\ NoDup (a :: fl ++ fr).

Definition same_out (h h' : heap) (fp : list nat) :=
  length h' = length h /\ forall b, ~ In b fp -> nth_error h' b = nth_error h b.
Lemma same_out_trans h1 h2 h3 f1 f2 f3 : same_out h1 h2 f1 -> same_out h2 h3 f2 ->
  (forall b, In b f1 \/ In b f2 -> In b f3) -> same_out h1 h3 f3.
Proof.
  intros [L1 E1] [L2 E2] H. split; [congruence|]. intros b Hb.
  rewrite E2, E1; auto.
Qed.

Lemma nodup_out h h' fp fp' : same_out h h' fp -> (forall b, In b fp -> ~ In b fp') ->
  forall b, In b fp' -> nth_error h' b = nth_error h b.
Proof. intros [_ E] H b Hb. apply E. intros K. apply (H b); auto. Qed.

Lemma NoDup_app_inv {B} (l1 l2 : list B) : NoDup (l1 ++ l2) ->
  NoDup l1 /\ NoDup l2 /\ (forall x, In x l1 -> ~ In x l2).
Proof.
  induction l1 as [|x l1 IH]; simpl; intros H.
  - repeat split; auto. constructor.
  - inversion H as [|? ? H1 H2]; subst. destruct (IH H2) as (K1 & K2 & K3).
    rewrite in_app_iff in H1. repeat split; auto.
    + constructor; auto.
    + intros y [->|Hy]; auto.
Qed.

Lemma fix_height_ok h a pl pr v l fl r fr : pre h a pl pr v l fl r fr ->
  exists h', fix_height h (Some a) = Ok h' /\ repr h' (Some a) (mk l v r) (a :: fl ++ fr) /\
             same_out h h' [a].
Proof.
  intros ((ht & E) & Hl & Hr & ND). unfold fix_height, hnewHeight. simpl. rewrite E. simpl. rewrite ?E. simpl.
  rewrite (repr_height _ _ _ _ Hl). simpl. rewrite (repr_height _ _ _ _ Hr). simpl.
  eexists; split; [reflexivity|].
  assert (S0 : same_out h (upd h a (HN (1 + Z.max (height l) (height r)) pl pr v)) [a]).
  { split; [apply upd_length|]. intros b Hb. apply upd_other. intros ->. apply Hb; simpl; auto. }
  split; [|exact S0].
  inversion ND as [|? ? N1 N2]; subst. rewrite in_app_iff in N1.
  econstructor.
  - apply upd_same. eapply nth_lt; eauto.
  - eapply repr_frame; [exact Hl|]. apply (nodup_out _ _ [a]); [exact S0|]. simpl. intros b [<-|[]]; auto.
  - eapply repr_frame; [exact Hr|]. apply (nodup_out _ _ [a]); [exact S0|]. simpl. intros b [<-|[]]; auto.
  - exact ND.
Qed.

Lemma upd_upd h a (n m : hnode) : upd (upd h a n) a m = upd h a m.
Proof. revert a; induction h as [|k h IH]; intros [|a]; simpl; auto. f_equal; auto. Qed.

Ltac nd := repeat match goal with
  | H : NoDup (_ :: _) |- _ => inversion H; clear H; subst
  end.

Lemma perm_nodup {B} (l1 l2 : list B) : Permutation l1 l2 -> NoDup l1 -> NoDup l2.
Proof. intros H. apply Permutation_NoDup; exact H. Qed.

Definition root_step (h : heap) (fp : list nat) (h' : heap) (p' : ptr) (t' : tree A) :=
  exists fp', repr h' p' t' fp' /\ Permutation fp' fp /\ same_out h h' fp.

Lemma hrotateLeft_ok h p w fp w' : repr h p w fp -> rotateLeft w = Some w' ->
  exists h' p', hrotateLeft h p = Ok (h', p') /\ root_step h fp h' p' w'.
Proof.
  intros R E. destruct w as [|ht [|hn nl nx nr] x r]; simpl in E; try discriminate.
  apply (f_equal (fun o => match o with Some t => t | None => Leaf end)) in E. subst w'.
  inversion R as [|a ht0 pl pr v0 l0 r0 fl fr Ea Hl Hr ND]; subst. clear R.
  inversion Hl as [|b hb pnl pnr vb l1 r1 fnl fnr Eb Hnl Hnr NDb]; subst. clear Hl.
  unfold hrotateLeft. cbn [load rbind hleft]. rewrite Ea. cbn [rbind hleft load]. rewrite Eb. cbn [rbind].
  unfold set_left at 1. cbn [load rbind]. rewrite Ea. cbn [rbind store hright hheight hvalue].
  set (n1 := HN ht pnr pr x). set (h1 := upd h a n1).
  assert (Hab : a <> b). { intros ->. inversion ND as [|? ? N1 N2]; subst. apply N1. simpl. auto. }
  unfold set_right at 1. cbn [load]. unfold h1 at 1. rewrite upd_other by exact Hab. rewrite Eb.
  cbn [rbind store hleft hheight hvalue].
  set (n2 := HN hn pnl (Some a) nx). set (h2 := upd h1 b n2).
  assert (La : (a < length h)%nat) by (eapply nth_lt; eauto).
  assert (Lb : (b < length h)%nat) by (eapply nth_lt; eauto).
  assert (S2 : same_out h h2 [a; b]).
  { split; [unfold h2, h1; rewrite !upd_length; reflexivity|]. intros c Hc. simpl in Hc.
    unfold h2, h1. rewrite !upd_other; auto. }
  assert (NDall : NoDup (a :: b :: fnl ++ fnr ++ fr)).
  { change ((b :: fnl ++ fnr) ++ fr) with (b :: (fnl ++ fnr) ++ fr) in ND. rewrite <- app_assoc in ND. exact ND. }
  assert (D : forall f c, (f = fnl \/ f = fnr \/ f = fr) -> In c [a; b] -> ~ In c f).
  { intros f c Hf Hc. inversion NDall as [|? ? N1 N2]; subst. inversion N2 as [|? ? N3 N4]; subst.
    simpl in N1. rewrite !in_app_iff in N1, N3.
    simpl in Hc. destruct Hf as [->|[->| ->]]; destruct Hc as [<-|[<-|[]]]; intuition. }
  assert (Hnl2 : repr h2 pnl nl fnl).
  { eapply repr_frame; [exact Hnl|]. apply (nodup_out _ _ [a; b]); auto. }
  assert (Hnr2 : repr h2 pnr nr fnr).
  { eapply repr_frame; [exact Hnr|]. apply (nodup_out _ _ [a; b]); auto. }
  assert (Hr2 : repr h2 pr r fr).
  { eapply repr_frame; [exact Hr|]. apply (nodup_out _ _ [a; b]); auto. }
  assert (P1 : pre h2 a pnr pr x nr fnr r fr).
  { split; [|split; [|split]]; auto.
    - exists ht. unfold h2. rewrite upd_other by auto. unfold h1. apply upd_same; auto.
    - inversion NDall as [|? ? N1 N2]; subst. inversion N2 as [|? ? N3 N4]; subst.
      constructor; [|eapply NoDup_app_inv; eassumption].
      simpl in N1. rewrite !in_app_iff in *. tauto. }
  destruct (fix_height_ok _ _ _ _ _ _ _ _ _ P1) as (h3 & E3 & R3 & S3).
  rewrite E3. cbn [rbind].
  assert (P2 : pre h3 b pnl (Some a) nx nl fnl (mk nr x r) (a :: fnr ++ fr)).
  { split; [|split; [|split]]; auto.
    - exists hn. destruct S3 as [_ S3]. rewrite S3 by (simpl; intuition). unfold h2. apply upd_same.
      unfold h1; rewrite upd_length; auto.
    - eapply repr_frame; [exact Hnl2|]. apply (nodup_out _ _ [a]); [exact S3|].
      intros c Hc. apply D; auto. simpl in *; tauto.
    - eapply perm_nodup; [|exact NDall]. apply perm_trans with (b :: a :: fnl ++ fnr ++ fr); [apply perm_swap|].
      constructor. apply Permutation_middle. }
  destruct (fix_height_ok _ _ _ _ _ _ _ _ _ P2) as (h4 & E4 & R4 & S4).
  rewrite E4. cbn [rbind]. eexists; eexists; split; [reflexivity|].
  eexists; split; [exact R4|]. split.
  - simpl. rewrite <- app_assoc. apply perm_trans with (b :: a :: fnl ++ fnr ++ fr); [|apply perm_swap].
    constructor. apply Permutation_sym. apply Permutation_middle.
  - eapply same_out_trans; [exact S2|eapply same_out_trans with (f3 := [a; b]); [exact S3|exact S4|]|].
    + intros c; simpl; tauto.
    + intros c; simpl; tauto.
Qed.

Lemma hrotateRight_ok h p w fp w' : repr h p w fp -> rotateRight w = Some w' ->
  exists h' p', hrotateRight h p = Ok (h', p') /\ root_step h fp h' p' w'.
Proof.
  intros R E. destruct w as [|ht l x [|hn nl nx nr]]; simpl in E; try discriminate.
  apply (f_equal (fun o => match o with Some t => t | None => Leaf end)) in E. subst w'.
  inversion R as [|a ht0 pl pr v0 l0 r0 fl fr Ea Hl Hr ND]; subst. clear R.
  inversion Hr as [|b hb pnl pnr vb l1 r1 fnl fnr Eb Hnl Hnr NDb]; subst. clear Hr.
  unfold hrotateRight. cbn [load rbind hright]. rewrite Ea. cbn [rbind hright load]. rewrite Eb. cbn [rbind].
  unfold set_right at 1. cbn [load rbind]. rewrite Ea. cbn [rbind store hleft hheight hvalue].
  set (n1 := HN ht pl pnl x). set (h1 := upd h a n1).
  assert (Hab : a <> b). { intros ->. inversion ND as [|? ? N1 N2]; subst. apply N1. rewrite in_app_iff. simpl. auto. }
  unfold set_left at 1. cbn [load]. unfold h1 at 1. rewrite upd_other by exact Hab. rewrite Eb.
  cbn [rbind store hright hheight hvalue].
  set (n2 := HN hn (Some a) pnr nx). set (h2 := upd h1 b n2).
  assert (La : (a < length h)%nat) by (eapply nth_lt; eauto).
  assert (Lb : (b < length h)%nat) by (eapply nth_lt; eauto).
  assert (S2 : same_out h h2 [a; b]).
  { split; [unfold h2, h1; rewrite !upd_length; reflexivity|]. intros c Hc. simpl in Hc.
    unfold h2, h1. rewrite !upd_other; auto. }
  assert (NDall : NoDup (a :: b :: fl ++ fnl ++ fnr)).
  { eapply perm_nodup; [|exact ND]. constructor. apply Permutation_sym, Permutation_middle. }
  assert (D : forall f c, (f = fnl \/ f = fnr \/ f = fl) -> In c [a; b] -> ~ In c f).
  { intros f c Hf Hc. inversion NDall as [|? ? N1 N2]; subst. inversion N2 as [|? ? N3 N4]; subst.
    simpl in N1. rewrite !in_app_iff in N1, N3.
    simpl in Hc. destruct Hf as [->|[->| ->]]; destruct Hc as [<-|[<-|[]]]; intuition. }
  assert (Hnl2 : repr h2 pnl nl fnl).
  { eapply repr_frame; [exact Hnl|]. apply (nodup_out _ _ [a; b]); auto. }
  assert (Hnr2 : repr h2 pnr nr fnr).
  { eapply repr_frame; [exact Hnr|]. apply (nodup_out _ _ [a; b]); auto. }
  assert (Hl2 : repr h2 pl l fl).
  { eapply repr_frame; [exact Hl|]. apply (nodup_out _ _ [a; b]); auto. }
  assert (P1 : pre h2 a pl pnl x l fl nl fnl).
  { split; [|split; [|split]]; auto.
    - exists ht. unfold h2. rewrite upd_other by auto. unfold h1. apply upd_same; auto.
    - inversion NDall as [|? ? N1 N2]; subst. inversion N2 as [|? ? N3 N4]; subst.
      rewrite app_assoc in N4. constructor; [|apply (NoDup_app_inv _ _ N4)].
      simpl in N1. rewrite !in_app_iff in *. tauto. }
  destruct (fix_height_ok _ _ _ _ _ _ _ _ _ P1) as (h3 & E3 & R3 & S3).
  rewrite E3. cbn [rbind].
  assert (P2 : pre h3 b (Some a) pnr nx (mk l x nl) (a :: fl ++ fnl) nr fnr).
  { split; [|split; [|split]]; auto.
    - exists hn. destruct S3 as [_ S3]. rewrite S3 by (simpl; intuition). unfold h2. apply upd_same.
      unfold h1; rewrite upd_length; auto.
    - eapply repr_frame; [exact Hnr2|]. apply (nodup_out _ _ [a]); [exact S3|].
      intros c Hc. apply D; auto. simpl in *; tauto.
    - eapply perm_nodup; [|exact NDall]. simpl. rewrite <- app_assoc. apply perm_swap. }
  destruct (fix_height_ok _ _ _ _ _ _ _ _ _ P2) as (h4 & E4 & R4 & S4).
  rewrite E4. cbn [rbind]. eexists; eexists; split; [reflexivity|].
  eexists; split; [exact R4|]. split.
  - simpl. rewrite <- app_assoc. apply perm_trans with (a :: b :: fl ++ fnl ++ fnr); [apply perm_swap|].
    constructor. apply Permutation_middle.
  - eapply same_out_trans; [exact S2|eapply same_out_trans with (f3 := [a; b]); [exact S3|exact S4|]|].
    + intros c; simpl; tauto.
    + intros c; simpl. rewrite in_app_iff. simpl. tauto.
Qed.

Lemma same_out_refl h fp : same_out h h fp.
Proof. split; auto. Qed.

Lemma hrebalance_ok h p t fp t' : repr h p t fp -> rebalance t = Some t' ->
  exists h' p', hrebalance h p = Ok (h', p') /\ root_step h fp h' p' t'.
Proof.
  intros R E. unfold hrebalance. rewrite (repr_balance _ _ _ _ R). cbn [rbind].
  destruct t as [|ht l x r].
  { simpl in E. injection E as <-. simpl. eexists; eexists; split; [reflexivity|].
    exists fp. split; [exact R|]. split; [apply Permutation_refl|apply same_out_refl]. }
  unfold rebalance in E.
  destruct (1 <? balance (Node ht l x r)) eqn:E1.
  - inversion R as [|a ht0 pl pr v0 l0 r0 fl fr Ea Hl Hr ND]; subst.
    cbn [load rbind]. rewrite Ea. cbn [rbind hleft]. rewrite (repr_balance _ _ _ _ Hl). cbn [rbind].
    destruct (0 <? balance l) eqn:E2; [eapply hrotateLeft_ok; eauto|].
    destruct (rotateRight l) as [l'|] eqn:El; [|discriminate].
    destruct (hrotateRight_ok _ _ _ _ _ Hl El) as (h1 & q & Eh1 & fl' & R1 & Pm & S1).
    rewrite Eh1. cbn [rbind fst snd].
    inversion ND as [|? ? N1 N2]; subst. pose proof (NoDup_app_inv _ _ N2) as (_ & _ & N3).
    rewrite in_app_iff in N1.
    assert (Ea1 : nth_error h1 a = Some (HN ht pl pr x)).
    { destruct S1 as [_ S1]. rewrite S1; auto. }
    unfold set_left at 1. cbn [load]. rewrite Ea1. cbn [rbind store hright hheight hvalue].
    set (h2 := upd h1 a (HN ht q pr x)).
    assert (S2 : same_out h1 h2 [a]).
    { split; [apply upd_length|]. intros b Hb. apply upd_other. intros ->. apply Hb; simpl; auto. }
    assert (In' : forall b, In b fl' <-> In b fl).
    { intros b. split; apply Permutation_in; [exact Pm|apply Permutation_sym; exact Pm]. }
    assert (R2 : repr h2 (Some a) (Node ht l' x r) (a :: fl' ++ fr)).
    { constructor 2 with q pr.
      - apply upd_same. eapply nth_lt; eauto.
      - eapply repr_frame; [exact R1|]. apply (nodup_out _ _ [a]); [exact S2|]. simpl.
        intros b [<-|[]]. rewrite In'. tauto.
      - eapply repr_frame; [exact Hr|]. intros b Hb. destruct S2 as [_ S2]. destruct S1 as [_ S1].
        rewrite S2, S1; auto; [intros K; apply (N3 b); auto|]. simpl. intros [<-|[]]. tauto.
      - eapply perm_nodup; [|exact ND]. constructor. apply Permutation_app_tail, Permutation_sym; exact Pm. }
    destruct (hrotateLeft_ok _ _ _ _ _ R2 E) as (h3 & p3 & Eh3 & fp3 & R3 & Pm3 & S3).
    rewrite Eh3. eexists; eexists; split; [reflexivity|]. exists fp3. split; [exact R3|]. split.
    + apply perm_trans with (1 := Pm3). constructor. apply Permutation_app_tail; exact Pm.
    + eapply same_out_trans; [exact S1|eapply same_out_trans with (f3 := a :: fl ++ fr); [exact S2|exact S3|]|].
      * intros b. simpl. rewrite !in_app_iff, In'. tauto.
      * intros b. simpl. rewrite !in_app_iff. tauto.
  - destruct (balance (Node ht l x r) <? -1) eqn:E3.
    + inversion R as [|a ht0 pl pr v0 l0 r0 fl fr Ea Hl Hr ND]; subst.
      cbn [load rbind]. rewrite Ea. cbn [rbind hright]. rewrite (repr_balance _ _ _ _ Hr). cbn [rbind].
      destruct (balance r <? 0) eqn:E2; [eapply hrotateRight_ok; eauto|].
      destruct (rotateLeft r) as [r'|] eqn:El; [|discriminate].
      destruct (hrotateLeft_ok _ _ _ _ _ Hr El) as (h1 & q & Eh1 & fr' & R1 & Pm & S1).
      rewrite Eh1. cbn [rbind fst snd].
      inversion ND as [|? ? N1 N2]; subst. pose proof (NoDup_app_inv _ _ N2) as (_ & _ & N3).
      rewrite in_app_iff in N1.
      assert (Ea1 : nth_error h1 a = Some (HN ht pl pr x)).
      { destruct S1 as [_ S1]. rewrite S1; auto. }
      unfold set_right at 1. cbn [load]. rewrite Ea1. cbn [rbind store hleft hheight hvalue].
      set (h2 := upd h1 a (HN ht pl q x)).
      assert (S2 : same_out h1 h2 [a]).
      { split; [apply upd_length|]. intros b Hb. apply upd_other. intros ->. apply Hb; simpl; auto. }
      assert (In' : forall b, In b fr' <-> In b fr).
      { intros b. split; apply Permutation_in; [exact Pm|apply Permutation_sym; exact Pm]. }
      assert (R2 : repr h2 (Some a) (Node ht l x r') (a :: fl ++ fr')).
      { constructor 2 with pl q.
        - apply upd_same. eapply nth_lt; eauto.
        - eapply repr_frame; [exact Hl|]. intros b Hb. destruct S2 as [_ S2]. destruct S1 as [_ S1].
          rewrite S2, S1; auto. simpl. intros [<-|[]]. tauto.
        - eapply repr_frame; [exact R1|]. apply (nodup_out _ _ [a]); [exact S2|]. simpl.
          intros b [<-|[]]. rewrite In'. tauto.
        - eapply perm_nodup; [|exact ND]. constructor. apply Permutation_app_head, Permutation_sym; exact Pm. }
      destruct (hrotateRight_ok _ _ _ _ _ R2 E) as (h3 & p3 & Eh3 & fp3 & R3 & Pm3 & S3).
      rewrite Eh3. eexists; eexists; split; [reflexivity|]. exists fp3. split; [exact R3|]. split.
      * apply perm_trans with (1 := Pm3). constructor. apply Permutation_app_head; exact Pm.
      * eapply same_out_trans; [exact S1|eapply same_out_trans with (f3 := a :: fl ++ fr); [exact S2|exact S3|]|].
        -- intros b. simpl. rewrite !in_app_iff, In'. tauto.
        -- intros b. simpl. rewrite !in_app_iff. tauto.
    + injection E as <-. eexists; eexists; split; [reflexivity|].
      exists fp. split; [exact R|]. split; [apply Permutation_refl|apply same_out_refl].
Qed.

Definition depth (t : tree A) : nat := Z.to_nat (theight t).

(** what insertion may touch: the cells of the tree and one newly allocated cell *)
Definition grown (h : heap) (fp : list nat) (h' : heap) (fp' : list nat) :=
  (forall b, (b < length h)%nat -> ~ In b fp -> nth_error h' b = nth_error h b) /\
  (length h <= length h')%nat /\
  (forall b, In b fp' -> In b fp \/ (length h <= b)%nat).

Lemma theight_nn (t : tree A) : 0 <= theight t.
Proof. induction t; cbn [theight]; lia. Qed.

Lemma hinsert_ok t : forall h p fp x t' fuel, repr h p t fp -> insert eqb ltb t x = Some t' ->
  (depth t < fuel)%nat ->
  exists h' p' fp', hinsert eqb ltb fuel h p x = Ok (h', p') /\ repr h' p' t' fp' /\ grown h fp h' fp'.
Proof.
  induction t as [|ht l IHl v r IHr]; intros h p fp x t' fuel R E F.
  - destruct fuel as [|fuel]; [lia|]. inversion R; subst. simpl in E. injection E as <-.
    simpl. eexists; eexists; exists [length h]. split; [reflexivity|]. split.
    + unfold mkNode. change [length h] with (length h :: [] ++ []).
      econstructor; try constructor; simpl; auto.
      * rewrite nth_error_app2 by lia. rewrite Nat.sub_diag. reflexivity.
      * constructor.
    + repeat split.
      * intros b Hb _. rewrite nth_error_app1 by exact Hb. reflexivity.
      * rewrite app_length. lia.
      * simpl. intros b [<-|[]]. right; lia.
  - destruct fuel as [|fuel]; [lia|].
    assert (Fl : (depth l < fuel)%nat /\ (depth r < fuel)%nat).
    { unfold depth in *. cbn [theight] in F. pose proof (theight_nn l). pose proof (theight_nn r). lia. }
    inversion R as [|a ht0 pl pr v0 l0 r0 fl fr Ea Hl Hr ND]; subst.
    cbn [hinsert load rbind]. rewrite Ea. cbn [rbind hvalue].
    cbn [insert] in E. destruct (eqb v x) eqn:Ev.
    { injection E as <-. eexists; eexists; eexists. split; [reflexivity|]. split; [exact R|].
      repeat split; auto. }
    inversion ND as [|? ? N1 N2]; subst. pose proof (NoDup_app_inv _ _ N2) as (N4 & N5 & N3).
    rewrite in_app_iff in N1. pose proof (nth_lt _ _ _ Ea) as La.
    pose proof (repr_bound _ _ _ _ Hl) as Bl. pose proof (repr_bound _ _ _ _ Hr) as Br.
    destruct (ltb x v).
    + destruct (insert eqb ltb l x) as [l'|] eqn:El; [|discriminate].
      destruct (IHl h pl fl x l' fuel Hl El (proj1 Fl)) as (h1 & q & fl' & Eh & R1 & (G1 & G2 & G3)).
      cbn [hleft]. rewrite Eh. cbn [rbind fst snd].
      assert (Ea1 : nth_error h1 a = Some (HN ht pl pr v)) by (rewrite G1; auto).
      unfold set_left. cbn [load]. rewrite Ea1. cbn [rbind store hright hheight hvalue].
      set (h2 := upd h1 a (HN ht q pr v)).
      assert (S2 : same_out h1 h2 [a]).
      { split; [apply upd_length|]. intros b Hb. apply upd_other. intros ->. apply Hb; simpl; auto. }
      assert (P : pre h2 a q pr v l' fl' r fr).
      { split; [|split; [|split]].
        - exists ht. apply upd_same. lia.
        - eapply repr_frame; [exact R1|]. apply (nodup_out _ _ [a]); [exact S2|]. simpl.
          intros b [<-|[]] K. destruct (G3 _ K); [tauto|lia].
        - eapply repr_frame; [exact Hr|]. intros b Hb. destruct S2 as [_ S2].
          rewrite S2, G1; auto; [intros K; apply (N3 b); auto|]. simpl. intros [<-|[]]. tauto.
        - constructor.
          + rewrite in_app_iff. intros [K|K]; [destruct (G3 _ K); [tauto|lia]|tauto].
          + pose proof (repr_nodup _ _ _ _ R1) as N6. clear - N6 N5 N3 G3 Br.
            induction fl' as [|c fl' IH]; simpl; auto. inversion N6; subst. constructor.
            * rewrite in_app_iff. intros [K|K]; [auto|].
              destruct (G3 c); [simpl; auto|apply (N3 c); auto|]. apply Br in K. lia.
            * apply IH; auto. intros b Hb. apply G3; simpl; auto. }
      destruct (fix_height_ok _ _ _ _ _ _ _ _ _ P) as (h3 & E3 & R3 & S3).
      rewrite E3. cbn [rbind].
      destruct (hrebalance_ok _ _ _ _ _ R3 E) as (h4 & p4 & E4 & fp4 & R4 & Pm & S4).
      rewrite E4. eexists; eexists; exists fp4. split; [reflexivity|]. split; [exact R4|].
      destruct S2 as [L2 S2], S3 as [L3 S3], S4 as [L4 S4].
      repeat split.
      * intros b Hb Hn. simpl in Hn. rewrite in_app_iff in Hn.
        rewrite S4. rewrite S3. rewrite S2. apply G1; auto.
        -- simpl; tauto.
        -- simpl; tauto.
        -- simpl. rewrite in_app_iff. intros [K|[K|K]]; [tauto| |tauto].
           destruct (G3 _ K); [tauto|lia].
      * lia.
      * intros b Hb. apply (Permutation_in _ Pm) in Hb. simpl in Hb |- *. rewrite !in_app_iff in *.
        destruct Hb as [Hb|[Hb|Hb]]; auto. destruct (G3 _ Hb); auto.
    + destruct (insert eqb ltb r x) as [r'|] eqn:El; [|discriminate].
      destruct (IHr h pr fr x r' fuel Hr El (proj2 Fl)) as (h1 & q & fr' & Eh & R1 & (G1 & G2 & G3)).
      cbn [hright]. rewrite Eh. cbn [rbind fst snd].
      assert (Ea1 : nth_error h1 a = Some (HN ht pl pr v)) by (rewrite G1; auto).
      unfold set_right. cbn [load]. rewrite Ea1. cbn [rbind store hleft hheight hvalue].
      set (h2 := upd h1 a (HN ht pl q v)).
      assert (S2 : same_out h1 h2 [a]).
      { split; [apply upd_length|]. intros b Hb. apply upd_other. intros ->. apply Hb; simpl; auto. }
      assert (P : pre h2 a pl q v l fl r' fr').
      { split; [|split; [|split]].
        - exists ht. apply upd_same. lia.
        - eapply repr_frame; [exact Hl|]. intros b Hb. destruct S2 as [_ S2].
          rewrite S2, G1; auto. simpl. intros [<-|[]]. tauto.
        - eapply repr_frame; [exact R1|]. apply (nodup_out _ _ [a]); [exact S2|]. simpl.
          intros b [<-|[]] K. destruct (G3 _ K); [tauto|lia].
        - constructor.
          + rewrite in_app_iff. intros [K|K]; [tauto|destruct (G3 _ K); [tauto|lia]].
          + pose proof (repr_nodup _ _ _ _ R1) as N6. clear - N6 N4 N3 G3 Bl.
            induction fl as [|c fl IH]; simpl; auto. inversion N4; subst. constructor.
            * rewrite in_app_iff. intros [K|K]; [auto|].
              destruct (G3 c K); [apply (N3 c); simpl; auto|]. assert (c < length h)%nat by (apply Bl; simpl; auto). lia.
            * apply IH; auto. { intros b Hb. apply N3; simpl; auto. } intros b Hb. apply Bl; simpl; auto. }
      destruct (fix_height_ok _ _ _ _ _ _ _ _ _ P) as (h3 & E3 & R3 & S3).
      rewrite E3. cbn [rbind].
      destruct (hrebalance_ok _ _ _ _ _ R3 E) as (h4 & p4 & E4 & fp4 & R4 & Pm & S4).
      rewrite E4. eexists; eexists; exists fp4. split; [reflexivity|]. split; [exact R4|].
      destruct S2 as [L2 S2], S3 as [L3 S3], S4 as [L4 S4].
      repeat split.
      * intros b Hb Hn. simpl in Hn. rewrite in_app_iff in Hn.
        rewrite S4. rewrite S3. rewrite S2. apply G1; auto.
        -- simpl; tauto.
        -- simpl; tauto.
        -- simpl. rewrite in_app_iff. intros [K|[K|K]]; [tauto|tauto|].
           destruct (G3 _ K); [tauto|lia].
      * lia.
      * intros b Hb. apply (Permutation_in _ Pm) in Hb. simpl in Hb |- *. rewrite !in_app_iff in *.
        destruct Hb as [Hb|[Hb|Hb]]; auto. destruct (G3 _ Hb); auto.
Qed.

Lemma hfind_ok t : forall h p fp x fuel, repr h p t fp -> (depth t < fuel)%nat ->
  hfind eqb ltb fuel h p x = Ok (find eqb ltb t x).
Proof.
  induction t as [|ht l IHl v r IHr]; intros h p fp x fuel R F; (destruct fuel as [|fuel]; [lia|]).
  - inversion R; subst. reflexivity.
  - assert (Fl : (depth l < fuel)%nat /\ (depth r < fuel)%nat).
    { unfold depth in *. cbn [theight] in F. pose proof (theight_nn l). pose proof (theight_nn r). lia. }
    inversion R as [|a ht0 pl pr v0 l0 r0 fl fr Ea Hl Hr ND]; subst.
    cbn [hfind load rbind]. rewrite Ea. cbn [rbind hvalue hleft hright find].
    destruct (eqb x v); [reflexivity|]. destruct (ltb x v); [eapply IHl|eapply IHr]; eauto; tauto.
Qed.
End P.
