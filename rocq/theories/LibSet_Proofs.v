(** Lemmas about the set model. *)
From Coq Require Import ZArith List Bool Lia.
From Verif Require Import LibSet_Model LibSet_Spec.
Import ListNotations.
Open Scope Z_scope.

Section Proofs.
Context {A : Type}.
Variable eqb ltb : A -> A -> bool.
Hypothesis L : Lawful eqb ltb.

Lemma ltA x y : ltb x y = true -> ltb y x = false.
Proof.
  intros H. destruct (ltb y x) eqn:E; [|reflexivity].
  pose proof (lt_trans _ _ L _ _ _ H E) as K. rewrite (lt_irrefl _ _ L) in K. discriminate.
Qed.
Lemma eqR x : eqb x x = true.
Proof. apply (eq_iff _ _ L). split; apply (lt_irrefl _ _ L). Qed.
Lemma eqS x y : eqb x y = eqb y x.
Proof.
  assert (H : forall a b, eqb a b = true -> eqb b a = true).
  { intros a b H. apply (eq_iff _ _ L) in H. apply (eq_iff _ _ L). tauto. }
  destruct (eqb x y) eqn:E1, (eqb y x) eqn:E2; auto.
  - apply H in E1. congruence.
  - apply H in E2. congruence.
Qed.
Lemma lt_neq x y : ltb x y = true -> eqb x y = false.
Proof.
  intros H. destruct (eqb x y) eqn:E; [|reflexivity].
  apply (eq_iff _ _ L) in E. destruct E; congruence.
Qed.
Lemma lt_neq' x y : ltb y x = true -> eqb x y = false.
Proof. intros H. rewrite eqS. apply lt_neq; exact H. Qed.
Lemma nlt x y : eqb x y = false -> ltb x y = false -> ltb y x = true.
Proof.
  intros H1 H2. destruct (ltb y x) eqn:E; [reflexivity|].
  assert (eqb x y = true) by (apply (eq_iff _ _ L); auto). congruence.
Qed.
Lemma eq_lt x y z : eqb x y = true -> ltb y z = true -> ltb x z = true.
Proof.
  intros H1 H2. destruct (ltb x z) eqn:E; [reflexivity|].
  destruct (ltb z x) eqn:E2.
  - pose proof (lt_trans _ _ L _ _ _ H2 E2) as K.
    apply (eq_iff _ _ L) in H1. destruct H1; congruence.
  - assert (eqb x z = true) by (apply (eq_iff _ _ L); auto).
    assert (eqb y z = true). { apply (eq_trans _ _ L) with x; auto. rewrite eqS; auto. }
    rewrite (lt_neq _ _ H2) in H0. discriminate.
Qed.
Lemma lt_eq x y z : ltb x y = true -> eqb y z = true -> ltb x z = true.
Proof.
  intros H1 H2. destruct (ltb x z) eqn:E; [reflexivity|].
  destruct (ltb z x) eqn:E2.
  - pose proof (lt_trans _ _ L _ _ _ E2 H1) as K.
    apply (eq_iff _ _ L) in H2. destruct H2; congruence.
  - assert (eqb x z = true) by (apply (eq_iff _ _ L); auto).
    assert (eqb x y = true). { apply (eq_trans _ _ L) with z; auto. rewrite eqS; auto. }
    rewrite (lt_neq _ _ H1) in H0. discriminate.
Qed.

(** membership in the tree *)
Fixpoint InT (x : A) (t : tree A) : Prop :=
  match t with Leaf => False | Node _ l v r => x = v \/ InT x l \/ InT x r end.
Definition InE (x : A) (t : tree A) : Prop := exists y, InT y t /\ eqb x y = true.
Definition above (b : A) (t : tree A) := forall y, InT y t -> ltb b y = true.
Definition below (b : A) (t : tree A) := forall y, InT y t -> ltb y b = true.
Fixpoint bst (t : tree A) : Prop :=
  match t with Leaf => True | Node _ l v r => below v l /\ above v r /\ bst l /\ bst r end.

(** weak height invariant: what survives [Copy] *)
Fixpoint hinv (t : tree A) : Prop :=
  match t with
  | Leaf => True
  | Node h l _ r => (h = 1 \/ h = 1 + Z.max (height l) (height r)) /\ hinv l /\ hinv r
  end.
Lemma hinv_pos t : hinv t -> 0 <= height t.
Proof. induction t as [|h l IHl v r IHr]; cbn [hinv height]; [lia|]. intros (H & Hl & Hr). specialize (IHl Hl). lia. Qed.
Lemma hinv_node h l v r : hinv (Node h l v r) -> 1 <= h.
Proof. cbn [hinv]. intros (H & Hl & Hr). pose proof (hinv_pos _ Hl). lia. Qed.
Lemma hinv_mk l v r : hinv l -> hinv r -> hinv (mk l v r).
Proof. simpl; auto. Qed.

Lemma elements_InT x t : In x (elements t) <-> InT x t.
Proof.
  induction t as [|h l IHl v r IHr]; simpl; [tauto|].
  rewrite !in_app_iff, IHl, IHr. simpl. intuition.
Qed.

(** rotations and rebalancing *)
Lemma rotateLeft_ok w w' : rotateLeft w = Some w' ->
  (forall x, InT x w' <-> InT x w) /\ (bst w -> bst w') /\ (hinv w -> hinv w').
Proof.
  destruct w as [|h [|h1 l1 v1 r1] v r]; simpl; try discriminate.
  intros H; injection H as <-. split; [|split].
  - intros x; simpl; tauto.
  - simpl. unfold below, above. simpl. intros (H1 & H2 & (H3 & H4 & H5 & H6) & H7).
    repeat split; auto 10.
    + intros y [->|[Hy|Hy]]; auto 10.
      apply (lt_trans _ _ L) with v; auto 10.
  - simpl. tauto.
Qed.
Lemma rotateRight_ok w w' : rotateRight w = Some w' ->
  (forall x, InT x w' <-> InT x w) /\ (bst w -> bst w') /\ (hinv w -> hinv w').
Proof.
  destruct w as [|h l v [|h1 l1 v1 r1]]; simpl; try discriminate.
  intros H; injection H as <-. split; [|split].
  - intros x; simpl; tauto.
  - simpl. unfold below, above. simpl. intros (H1 & H2 & H7 & (H3 & H4 & H5 & H6)).
    repeat split; auto 10.
    + intros y [->|[Hy|Hy]]; auto 10.
      apply (lt_trans _ _ L) with v; auto 10.
  - simpl. tauto.
Qed.

Lemma rebalance_ok l v r : hinv l -> hinv r ->
  exists t', rebalance (mk l v r) = Some t' /\
  (forall x, InT x t' <-> InT x (mk l v r)) /\ (bst (mk l v r) -> bst t') /\ hinv t'.
Proof.
  intros Hl Hr. pose proof (hinv_pos _ Hl) as Pl. pose proof (hinv_pos _ Hr) as Pr.
  unfold rebalance, mk. cbn [balance].
  destruct (1 <? height l - height r) eqn:E1.
  - apply Z.ltb_lt in E1.
    destruct l as [|hl ll lv lr]; [simpl in *; lia|].
    cbn [height] in *.
    destruct (0 <? balance (Node hl ll lv lr)) eqn:E2.
    + eexists; split; [reflexivity|].
      destruct (rotateLeft_ok _ _ (eq_refl (rotateLeft (Node (1 + Z.max hl (height r)) (Node hl ll lv lr) v r)))) as (H1 & H2 & H3).
      split; [|split].
      * intros x; rewrite H1; simpl; tauto.
      * intros H; apply H2. exact H.
      * apply H3. cbn [hinv]. repeat split; try apply Hl; auto.
    + apply Z.ltb_ge in E2. cbn [balance] in E2.
      assert (Hr1 : 1 <= height lr).
      { cbn [hinv] in Hl. destruct Hl as ([Hh|Hh] & Hll & Hlr); [lia|].
        pose proof (hinv_pos _ Hll). pose proof (hinv_pos _ Hlr). lia. }
      destruct lr as [|h1 l1 v1 r1]; [simpl in Hr1; lia|].
      cbn [rotateRight rotateLeft mk]. eexists; split; [reflexivity|]. split; [|split].
      * intros x; simpl; tauto.
      * unfold mk. simpl. unfold below, above. simpl.
        intros (H1 & H2 & (H3 & H4 & H5 & H6 & H7 & H8 & H9) & H10).
        repeat split; auto 10.
        -- intros y [->|[Hy|Hy]]; auto 10. apply (lt_trans _ _ L) with lv; auto 10.
        -- intros y [->|[Hy|Hy]]; auto 10. apply (lt_trans _ _ L) with v; auto 10.
      * simpl in Hl |- *. tauto.
  - destruct (height l - height r <? -1) eqn:E3.
    + apply Z.ltb_lt in E3. clear E1.
      destruct r as [|hr rl rv rr]; [simpl in *; lia|].
      cbn [height] in *.
      destruct (balance (Node hr rl rv rr) <? 0) eqn:E2.
      * eexists; split; [reflexivity|].
        destruct (rotateRight_ok _ _ (eq_refl (rotateRight (Node (1 + Z.max (height l) hr) l v (Node hr rl rv rr))))) as (H1 & H2 & H3).
        split; [|split].
        -- intros x; rewrite H1; simpl; tauto.
        -- intros H; apply H2. exact H.
        -- apply H3. cbn [hinv]. repeat split; try apply Hr; auto.
      * apply Z.ltb_ge in E2. cbn [balance] in E2.
        assert (Hr1 : 1 <= height rl).
        { cbn [hinv] in Hr. destruct Hr as ([Hh|Hh] & Hll & Hlr); [lia|].
          pose proof (hinv_pos _ Hll). pose proof (hinv_pos _ Hlr). lia. }
        destruct rl as [|h1 l1 v1 r1]; [simpl in Hr1; lia|].
        cbn [rotateRight rotateLeft mk]. eexists; split; [reflexivity|]. split; [|split].
        -- intros x; simpl; tauto.
        -- unfold mk. simpl. unfold below, above. simpl.
           intros (H1 & H2 & H10 & (H3 & H4 & (H6 & H7 & H8 & H9) & H5)).
           repeat split; auto 10.
           ++ intros y [->|[Hy|Hy]]; auto 10. apply (lt_trans _ _ L) with v; auto 10.
           ++ intros y [->|[Hy|Hy]]; auto 10. apply (lt_trans _ _ L) with rv; auto 10.
        -- simpl in Hr |- *. tauto.
    + eexists; split; [reflexivity|]. split; [tauto|]. split; [auto|].
      cbn [hinv]. tauto.
Qed.

(** invariant of the sets and correctness of the basic operations *)
Definition ok (t : tree A) := bst t /\ hinv t.

Lemma insert_ok t x : ok t -> exists t', insert eqb ltb t x = Some t' /\ ok t' /\
  (forall y, InE y t' <-> InE y t \/ eqb y x = true) /\
  (forall y, InT y t' -> InT y t \/ y = x).
Proof.
  induction t as [|h l IHl v r IHr]; intros [Hb Hh].
  - eexists; split; [reflexivity|]. unfold mkNode. split; [|split].
    + split; simpl; [|lia]. unfold below, above; simpl; tauto.
    + intros y. unfold InE; simpl. split.
      * intros (z & [->|[[]|[]]] & E). auto.
      * intros [(z & [] & _)|E]. exists x. auto.
    + simpl. intuition.
  - cbn [insert]. destruct (eqb v x) eqn:Ev.
    { eexists; split; [reflexivity|]. split; [split; assumption|]. split; [|auto].
      intros y; split; [auto|]. intros [H|H]; [exact H|]. exists v. split; [simpl; auto|].
      apply (eq_trans _ _ L) with x; auto. rewrite eqS; auto. }
    cbn [bst] in Hb. destruct Hb as (B1 & B2 & B3 & B4).
    cbn [hinv] in Hh. destruct Hh as (H0 & Hl & Hr).
    destruct (ltb x v) eqn:Elt.
    + destruct (IHl (conj B3 Hl)) as (l' & El & [Bl' Hl'] & M & N). rewrite El.
      destruct (rebalance_ok l' v r Hl' Hr) as (t' & Et & I1 & I2 & I3).
      exists t'. split; [exact Et|]. split; [split; [apply I2|exact I3]|split].
      * cbn [mk bst]. repeat split; auto 10.
        intros y Hy. destruct (N y Hy) as [Hy'| ->]; [auto|exact Elt].
      * intros y. unfold InE. split.
        -- intros (z & Hz & E). apply I1 in Hz. simpl in Hz. destruct Hz as [->|[Hz|Hz]].
           ++ left. exists v. simpl; auto.
           ++ assert (K : InE y l') by (exists z; auto). apply M in K.
              destruct K as [(z' & Hz' & E')|K]; [left; exists z'; simpl; auto|auto].
           ++ left. exists z. simpl; auto.
        -- intros [(z & Hz & E)|E].
           ++ simpl in Hz. destruct Hz as [->|[Hz|Hz]].
              ** exists v. split; [apply I1; simpl; auto|auto].
              ** destruct (proj2 (M y)) as (z' & Hz' & E'); [left; exists z; auto|].
                 exists z'. split; [apply I1; simpl; auto|auto].
              ** exists z. split; [apply I1; simpl; auto|auto].
           ++ destruct (proj2 (M y)) as (z' & Hz' & E'); [right; auto|].
              exists z'. split; [apply I1; simpl; auto|auto].
      * intros y Hy. apply I1 in Hy. simpl in Hy. destruct Hy as [->|[Hy|Hy]]; simpl; auto.
        destruct (N y Hy); auto.
    + assert (Elt2 : ltb v x = true). { apply nlt; auto. rewrite eqS; auto. }
      destruct (IHr (conj B4 Hr)) as (r' & Er & [Br' Hr'] & M & N). rewrite Er.
      destruct (rebalance_ok l v r' Hl Hr') as (t' & Et & I1 & I2 & I3).
      exists t'. split; [exact Et|]. split; [split; [apply I2|exact I3]|split].
      * cbn [mk bst]. repeat split; auto 10.
        intros y Hy. destruct (N y Hy) as [Hy'| ->]; [auto|exact Elt2].
      * intros y. unfold InE. split.
        -- intros (z & Hz & E). apply I1 in Hz. simpl in Hz. destruct Hz as [->|[Hz|Hz]].
           ++ left. exists v. simpl; auto.
           ++ left. exists z. simpl; auto.
           ++ assert (K : InE y r') by (exists z; auto). apply M in K.
              destruct K as [(z' & Hz' & E')|K]; [left; exists z'; simpl; auto|auto].
        -- intros [(z & Hz & E)|E].
           ++ simpl in Hz. destruct Hz as [->|[Hz|Hz]].
              ** exists v. split; [apply I1; simpl; auto|auto].
              ** exists z. split; [apply I1; simpl; auto|auto].
              ** destruct (proj2 (M y)) as (z' & Hz' & E'); [left; exists z; auto|].
                 exists z'. split; [apply I1; simpl; auto|auto].
           ++ destruct (proj2 (M y)) as (z' & Hz' & E'); [right; auto|].
              exists z'. split; [apply I1; simpl; auto|auto].
      * intros y Hy. apply I1 in Hy. simpl in Hy. destruct Hy as [->|[Hy|Hy]]; simpl; auto.
        destruct (N y Hy); auto.
Qed.

Lemma minValue_ok d t : t <> Leaf -> bst t ->
  InT (minValue d t) t /\ (forall y, InT y t -> y = minValue d t \/ ltb (minValue d t) y = true).
Proof.
  induction t as [|h l IHl v r IHr]; [congruence|]. intros _ Hb.
  cbn [bst] in Hb. destruct Hb as (B1 & B2 & B3 & B4).
  destruct l as [|hl ll lv lr].
  - cbn [minValue]. split; [simpl; auto|]. intros y [->|[[]|Hy]]; auto.
  - destruct IHl as (I1 & I2); [discriminate|exact B3|].
    remember (Node hl ll lv lr) as l eqn:El.
    assert (E : minValue d (Node h l v r) = minValue d l) by (subst l; reflexivity).
    rewrite E. split; [simpl; auto|]. intros y [->|[Hy|Hy]].
    + right. apply B1. exact I1.
    + apply I2; auto.
    + right. apply (lt_trans _ _ L) with v; [apply B1; exact I1|apply B2; exact Hy].
Qed.

Lemma remove_ok t x : ok t -> exists t', remove ltb t x = Some t' /\ ok t' /\
  (forall y, InT y t' <-> InT y t /\ eqb y x = false).
Proof.
  revert x. induction t as [|h l IHl v r IHr]; intros x [Hb Hh].
  - eexists; split; [reflexivity|]. split; [split; simpl; auto|]. simpl; tauto.
  - cbn [remove].
    cbn [bst] in Hb. destruct Hb as (B1 & B2 & B3 & B4).
    cbn [hinv] in Hh. destruct Hh as (H0 & Hl & Hr).
    destruct (ltb x v) eqn:E1; [|destruct (ltb v x) eqn:E2].
    + destruct (IHl x (conj B3 Hl)) as (l' & El & [Bl' Hl'] & M). rewrite El.
      destruct (rebalance_ok l' v r Hl' Hr) as (t' & Et & I1 & I2 & I3).
      exists t'. split; [exact Et|]. split; [split; [apply I2|exact I3]|].
      * cbn [mk bst]. repeat split; auto 10. intros y Hy. apply M in Hy. apply B1; tauto.
      * intros y. rewrite I1. simpl. rewrite M. split.
        -- intros [->|[[Ha Hb]|Ha]]; [|tauto|].
           ++ split; [auto|]. apply lt_neq'; auto.
           ++ split; [auto|]. apply lt_neq'. apply (lt_trans _ _ L) with v; auto 10.
        -- tauto.
    + destruct (IHr x (conj B4 Hr)) as (r' & Er & [Br' Hr'] & M). rewrite Er.
      destruct (rebalance_ok l v r' Hl Hr') as (t' & Et & I1 & I2 & I3).
      exists t'. split; [exact Et|]. split; [split; [apply I2|exact I3]|].
      * cbn [mk bst]. repeat split; auto 10. intros y Hy. apply M in Hy. apply B2; tauto.
      * intros y. rewrite I1. simpl. rewrite M. split.
        -- intros [->|[Ha|[Ha Hb]]]; [| |tauto].
           ++ split; [auto|]. apply lt_neq; auto.
           ++ split; [auto|]. apply lt_neq. apply (lt_trans _ _ L) with v; auto 10.
        -- tauto.
    + assert (Evx : eqb v x = true) by (apply (eq_iff _ _ L); auto).
      assert (Nl : forall y, InT y l -> eqb y x = false).
      { intros y Hy. apply lt_neq. apply lt_eq with v; auto 10. }
      assert (Nr : forall y, InT y r -> eqb y x = false).
      { intros y Hy. apply lt_neq'. apply eq_lt with v; auto 10. rewrite eqS; auto. }
      destruct l as [|hl ll lv lr]; destruct r as [|hr rl rv rr].
      * eexists; split; [reflexivity|]. split; [split; simpl; auto|].
        simpl. intros y; split; [tauto|]. intros [[->|[[]|[]]] K]. congruence.
      * cbn [hinv] in Hr. destruct Hr as (_ & Hrl & Hrr).
        destruct (rebalance_ok rl rv rr Hrl Hrr) as (t' & Et & I1 & I2 & I3).
        exists t'. split; [exact Et|]. split; [split; [apply I2; exact B4|exact I3]|].
        intros y. rewrite I1. split.
        -- intros Hy. split; [simpl in Hy |- *; tauto|]. apply Nr. exact Hy.
        -- cbn [InT mk]. intros [[->|[[]|Hy]] K]; [congruence|exact Hy].
      * cbn [hinv] in Hl. destruct Hl as (_ & Hll & Hlr).
        destruct (rebalance_ok ll lv lr Hll Hlr) as (t' & Et & I1 & I2 & I3).
        exists t'. split; [exact Et|]. split; [split; [apply I2; exact B3|exact I3]|].
        intros y. rewrite I1. split.
        -- intros Hy. split; [simpl in Hy |- *; tauto|]. apply Nl. exact Hy.
        -- cbn [InT mk]. intros [[->|[Hy|[]]] K]; [congruence|exact Hy].
      * remember (Node hl ll lv lr) as l eqn:EL. remember (Node hr rl rv rr) as r eqn:ER.
        assert (Hne : r <> Leaf) by (subst r; discriminate).
        destruct (minValue_ok v r Hne B4) as (M1 & M2).
        set (nv := minValue v r) in *.
        destruct (IHr nv (conj B4 Hr)) as (r' & Er' & [Br' Hr'] & M). rewrite Er'.
        destruct (rebalance_ok l nv r' Hl Hr') as (t' & Et & I1 & I2 & I3).
        exists t'. split; [exact Et|]. split; [split; [apply I2|exact I3]|].
        -- cbn [mk bst]. repeat split; auto 10.
           ++ intros y Hy. apply (lt_trans _ _ L) with v; auto 10.
           ++ intros y Hy. apply M in Hy. destruct Hy as [Hy K].
              destruct (M2 y Hy) as [->|K2]; [rewrite eqR in K; discriminate|exact K2].
        -- intros y. rewrite I1. cbn [mk InT]. rewrite M. split.
           ++ intros [->|[Hy|[Hy K]]]; auto.
           ++ intros [[->|[Hy|Hy]] K]; [congruence|auto|].
              destruct (eqb y nv) eqn:E.
              ** left. destruct (M2 y Hy) as [Q|Q]; [exact Q|].
                 apply lt_neq' in Q. congruence.
              ** auto.
Qed.

Lemma find_ok t x : bst t -> (find eqb ltb t x = true <-> InE x t).
Proof.
  unfold InE. induction t as [|h l IHl v r IHr].
  - simpl. split; [discriminate|]. intros (y & [] & _).
  - cbn [bst find]. intros (B1 & B2 & B3 & B4).
    destruct (eqb x v) eqn:E1.
    { split; [|reflexivity]. intros _. exists v. simpl; auto. }
    destruct (ltb x v) eqn:E2.
    + rewrite (IHl B3). split.
      * intros (y & Hy & K). exists y. simpl; auto.
      * intros (y & [->|[Hy|Hy]] & K); [congruence|exists y; auto|].
        exfalso. apply B2 in Hy. apply (eq_iff _ _ L) in K.
        pose proof (lt_trans _ _ L _ _ _ E2 Hy). destruct K; congruence.
    + pose proof (nlt _ _ E1 E2) as E3. rewrite (IHr B4). split.
      * intros (y & Hy & K). exists y. simpl; auto.
      * intros (y & [->|[Hy|Hy]] & K); [congruence| |exists y; auto].
        exfalso. apply B1 in Hy. apply (eq_iff _ _ L) in K.
        pose proof (lt_trans _ _ L _ _ _ Hy E3). destruct K; congruence.
Qed.

Lemma nodeCpy_ok t : ok t -> ok (nodeCpy t) /\ (forall x, InT x (nodeCpy t) <-> InT x t).
Proof.
  induction t as [|h l IHl v r IHr]; [simpl; tauto|].
  intros [Hb Hh]. cbn [bst] in Hb. destruct Hb as (B1 & B2 & B3 & B4).
  cbn [hinv] in Hh. destruct Hh as (H0 & Hl & Hr).
  destruct IHl as ([IB IH] & IM); [split; auto|].
  destruct IHr as ([JB JH] & JM); [split; auto|].
  split.
  - split; cbn [bst hinv nodeCpy].
    + unfold below, above. repeat split; auto; intros y Hy; [apply IM in Hy|apply JM in Hy]; auto.
    + repeat split; auto 10.
  - intros x. cbn [nodeCpy InT]. rewrite IM, JM. tauto.
Qed.

Lemma set_add_ok vs t : ok t -> exists t', set_add eqb ltb t vs = Some t' /\ ok t' /\
  (forall y, InE y t' <-> InE y t \/ exists z, In z vs /\ eqb y z = true).
Proof.
  revert t. induction vs as [|x vs IH]; intros t H.
  - exists t. split; [reflexivity|]. split; [exact H|]. intros y. simpl. split; [auto|].
    intros [K|(z & [] & _)]; exact K.
  - cbn [set_add]. destruct (insert_ok t x H) as (t1 & E1 & O1 & M1 & _). rewrite E1.
    destruct (IH t1 O1) as (t2 & E2 & O2 & M2). exists t2. split; [exact E2|].
    split; [exact O2|]. intros y. rewrite M2, M1. split.
    + intros [[K|K]|(z & Hz & K)]; [auto| |]; right; [exists x|exists z]; simpl; auto.
    + intros [K|(z & [->|Hz] & K)]; auto. right. exists z; auto.
Qed.

Lemma diff_ok xs t : ok t -> exists t', diff_loop ltb t xs = Some t' /\ ok t' /\
  (forall y, InT y t' <-> InT y t /\ forall z, In z xs -> eqb y z = false).
Proof.
  revert t. induction xs as [|x xs IH]; intros t H.
  - exists t. split; [reflexivity|]. split; [exact H|]. intros y. simpl. tauto.
  - cbn [diff_loop]. destruct (remove_ok t x H) as (t1 & E1 & O1 & M1). rewrite E1.
    destruct (IH t1 O1) as (t2 & E2 & O2 & M2). exists t2. split; [exact E2|].
    split; [exact O2|]. intros y. rewrite M2, M1. split.
    + intros [[K1 K2] K3]. split; [exact K1|]. intros z [->|Hz]; auto.
    + intros [K1 K2]. repeat split; auto; [apply K2|intros z Hz; apply K2]; simpl; auto.
Qed.

Lemma InE_eq x y t : eqb x y = true -> InE x t -> InE y t.
Proof.
  intros E (z & Hz & K). exists z. split; [exact Hz|].
  apply (eq_trans _ _ L) with x; [rewrite eqS; exact E|exact K].
Qed.

Lemma inter_ok t0 xs acc : bst t0 -> ok acc ->
  exists t', inter_loop eqb ltb t0 acc xs = Some t' /\ ok t' /\
  (forall y, InE y t' <-> InE y acc \/ exists z, In z xs /\ InE z t0 /\ eqb y z = true).
Proof.
  intros B0. revert acc. induction xs as [|x xs IH]; intros acc H.
  - exists acc. split; [reflexivity|]. split; [exact H|]. intros y. split; [auto|].
    intros [K|(z & [] & _)]; exact K.
  - cbn [inter_loop]. destruct (find eqb ltb t0 x) eqn:F.
    + apply (find_ok _ _ B0) in F.
      destruct (insert_ok acc x H) as (t1 & E1 & O1 & M1 & _). rewrite E1.
      destruct (IH t1 O1) as (t2 & E2 & O2 & M2). exists t2. split; [exact E2|].
      split; [exact O2|]. intros y. rewrite M2, M1. split.
      * intros [[K|K]|(z & Hz & K)]; [auto| |]; right; [exists x|exists z]; simpl; auto; tauto.
      * intros [K|(z & [->|Hz] & K)]; auto; [tauto|]. right. exists z; auto.
    + destruct (IH acc H) as (t2 & E2 & O2 & M2). exists t2. split; [exact E2|].
      split; [exact O2|]. intros y. rewrite M2. split.
      * intros [K|(z & Hz & K)]; [auto|]. right. exists z; simpl; auto.
      * intros [K|(z & [->|Hz] & K1 & K2)]; auto.
        -- apply (find_ok _ _ B0) in K1. congruence.
        -- right. exists z; auto.
Qed.

Lemma den_eq e x y : eqb x y = true -> den eqb e x -> den eqb e y.
Proof.
  intros E. assert (Sy : forall z, eqb x z = true -> eqb y z = true).
  { intros z K. apply (eq_trans _ _ L) with x; [rewrite eqS; exact E|exact K]. }
  revert x y E Sy. induction e as [|v|e IH vs|e IH v|a IHa b IHb|a IHa b IHb|a IHa b IHb|e IH];
    intros x y E Sy; simpl; auto.
  - intros [K|(z & Hz & K)]; [left; eapply IH; eauto|right; exists z; auto].
  - intros [K1 K2]. split; [eapply IH; eauto|].
    destruct (eqb y v) eqn:Q; [|reflexivity].
    rewrite (eq_trans _ _ L _ _ _ E Q) in K2. discriminate.
  - intros [K|K]; [left; eapply IHa|right; eapply IHb]; eauto.
  - intros [K1 K2]; split; [eapply IHa|eapply IHb]; eauto.
  - intros [K1 K2]; split; [eapply IHa; eauto|]. intros K3. apply K2.
    apply IHb with y; auto; [rewrite eqS; auto|].
    intros z Hz. apply (eq_trans _ _ L) with y; auto.
  - intros K; eapply IH; eauto.
Qed.

(** Main refinement lemma. *)
Lemma run_ok e : exists t, run eqb ltb e = Some t /\ ok t /\ (forall x, InE x t <-> den eqb e x).
Proof.
  induction e as [|v|e IH vs|e IH v|a IHa b IHb|a IHa b IHb|a IHa b IHb|e IH]; cbn [run].
  - exists Leaf. split; [reflexivity|]. split; [split; simpl; auto|].
    intros x. unfold InE. simpl. split; [intros (y & [] & _)|tauto].
  - assert (O : ok Leaf) by (split; simpl; auto).
    destruct (insert_ok Leaf v O) as (t & E & O' & M & _). exists t.
    split; [exact E|]. split; [exact O'|]. intros x. rewrite M. simpl.
    split; [intros [(z & [] & _)|K]; exact K|auto].
  - destruct IH as (t & E & O & M). rewrite E. cbn [bind1].
    destruct (set_add_ok vs t O) as (t' & E' & O' & M'). exists t'.
    split; [exact E'|]. split; [exact O'|]. intros x. rewrite M', M. simpl. tauto.
  - destruct IH as (t & E & O & M). rewrite E. cbn [bind1].
    destruct (remove_ok t v O) as (t' & E' & O' & M'). exists t'.
    split; [exact E'|]. split; [exact O'|]. intros x. simpl. rewrite <- M. unfold InE. split.
    + intros (z & Hz & K). apply M' in Hz. destruct Hz as [Hz Hn]. split; [exists z; auto|].
      destruct (eqb x v) eqn:Q; [|reflexivity].
      assert (eqb z v = true). { apply (eq_trans _ _ L) with x; auto. rewrite eqS; auto. }
      congruence.
    + intros [(z & Hz & K) Hn]. exists z. split; [|exact K]. apply M'. split; [exact Hz|].
      destruct (eqb z v) eqn:Q; [|reflexivity].
      rewrite (eq_trans _ _ L _ _ _ K Q) in Hn. discriminate.
  - destruct IHa as (ta & Ea & Oa & Ma). destruct IHb as (tb & Eb & Ob & Mb).
    rewrite Ea, Eb. cbn [bind2]. unfold set_union.
    destruct (set_add_ok (elements tb) ta Oa) as (t' & E' & O' & M'). exists t'.
    split; [exact E'|]. split; [exact O'|]. intros x. rewrite M', Ma. simpl. rewrite <- Mb.
    split; intros [K|(z & Hz & K)]; auto; right; exists z; split; auto; apply elements_InT; auto.
  - destruct IHa as (ta & Ea & Oa & Ma). destruct IHb as (tb & Eb & Ob & Mb).
    rewrite Ea, Eb. cbn [bind2]. unfold set_inter.
    assert (O : ok Leaf) by (split; simpl; auto).
    destruct (inter_ok ta (elements tb) Leaf (proj1 Oa) O) as (t' & E' & O' & M'). exists t'.
    split; [exact E'|]. split; [exact O'|]. intros x. rewrite M'. simpl. rewrite <- Mb. split.
    + intros [(z & [] & _)|(z & Hz & Hz0 & K)]. apply elements_InT in Hz. apply Ma in Hz0.
      split; [|exists z; auto]. eapply den_eq; [|exact Hz0]. rewrite eqS; exact K.
    + intros [K1 (z & Hz & K)]. right. exists z. split; [apply elements_InT; exact Hz|].
      split; [|exact K]. apply Ma. eapply den_eq; eauto.
  - destruct IHa as (ta & Ea & Oa & Ma). destruct IHb as (tb & Eb & Ob & Mb).
    rewrite Ea, Eb. cbn [bind2]. unfold set_diff.
    destruct (diff_ok (elements tb) ta Oa) as (t' & E' & O' & M'). exists t'.
    split; [exact E'|]. split; [exact O'|]. intros x. simpl. rewrite <- Ma, <- Mb. unfold InE. split.
    + intros (z & Hz & K). apply M' in Hz. destruct Hz as [Hz Hn]. split; [exists z; auto|].
      intros (w & Hw & Kw). apply elements_InT in Hw. specialize (Hn w Hw).
      assert (eqb z w = true). { apply (eq_trans _ _ L) with x; auto. rewrite eqS; auto. }
      congruence.
    + intros [(z & Hz & K) Hn]. exists z. split; [|exact K]. apply M'. split; [exact Hz|].
      intros w Hw. apply elements_InT in Hw. destruct (eqb z w) eqn:Q; [|reflexivity].
      exfalso. apply Hn. exists w. split; [exact Hw|]. apply (eq_trans _ _ L) with z; auto.
  - destruct IH as (t & E & O & M). rewrite E. cbn [bind1].
    exists (nodeCpy t). split; [reflexivity|]. destruct (nodeCpy_ok t O) as (O' & M').
    split; [exact O'|]. intros x. simpl. rewrite <- M. unfold InE.
    split; intros (z & Hz & K); exists z; (split; [apply M'; exact Hz|exact K]).
Qed.

Lemma NoDupE_app l1 l2 : NoDupE eqb l1 -> NoDupE eqb l2 ->
  (forall x y, In x l1 -> In y l2 -> eqb x y = false) -> NoDupE eqb (l1 ++ l2).
Proof.
  induction 1 as [|x l H1 H2 IH]; simpl; [auto|]. intros N2 H. constructor.
  - intros y Hy. apply in_app_or in Hy. destruct Hy; auto.
  - apply IH; auto.
Qed.

Lemma elements_nodup t : bst t -> NoDupE eqb (elements t).
Proof.
  induction t as [|h l IHl v r IHr]; cbn [bst elements]; [constructor|].
  intros (B1 & B2 & B3 & B4). apply NoDupE_app; auto.
  - apply NoDupE_app; auto.
    + constructor; [simpl; tauto|constructor].
    + intros x y Hx [<-|[]]. apply elements_InT in Hx. apply lt_neq'. auto.
  - intros x y Hx Hy. apply elements_InT in Hx. apply B1 in Hx.
    apply in_app_or in Hy. destruct Hy as [Hy|[<-|[]]].
    + apply elements_InT in Hy. apply B2 in Hy. apply lt_neq. apply (lt_trans _ _ L) with v; auto 10.
    + apply lt_neq; auto.
Qed.

Lemma cardinal_length (t : tree A) : cardinal t = Z.of_nat (length (elements t)).
Proof.
  induction t as [|h l IHl v r IHr]; [reflexivity|].
  cbn [cardinal elements]. rewrite IHl, IHr, !app_length. simpl length. lia.
Qed.

Theorem set_refines e : exists t, run eqb ltb e = Some t /\
  (forall x, find eqb ltb t x = true <-> den eqb e x) /\
  NoDupE eqb (elements t) /\
  (forall x, den eqb e x <-> exists y, In y (elements t) /\ eqb x y = true) /\
  cardinal t = Z.of_nat (length (elements t)) /\
  (set_isEmpty t = true <-> forall x, ~ den eqb e x) /\
  (forall e' t', run eqb ltb e' = Some t' ->
     (set_disjoint eqb ltb t t' = true <-> forall x, ~ (den eqb e x /\ den eqb e' x))).
Proof.
  destruct (run_ok e) as (t & E & [B H] & M). exists t. split; [exact E|].
  split; [intros x; rewrite find_ok by exact B; apply M|].
  split; [apply elements_nodup; exact B|].
  split. { intros x. rewrite <- M. unfold InE. split; intros (y & Hy & K); exists y;
    (split; [apply elements_InT|]); auto. }
  split; [apply cardinal_length|].
  split.
  - destruct t as [|h l v r]; simpl.
    + split; [|reflexivity]. intros _ x Hx. apply M in Hx. destruct Hx as (y & [] & _).
    + split; [discriminate|]. intros K. exfalso. apply (K v). apply M. exists v. simpl.
      split; [auto|apply eqR].
  - intros e' t' E'. destruct (run_ok e') as (t'' & E'' & [B' H'] & M').
    rewrite E' in E''. injection E'' as <-. unfold set_disjoint. rewrite negb_true_iff. split.
    + intros K x [K1 K2]. apply M' in K2. destruct K2 as (y & Hy & Kxy).
      assert (existsb (find eqb ltb t) (elements t') = true); [|congruence].
      apply existsb_exists. exists y. split; [apply elements_InT; exact Hy|].
      apply find_ok; [exact B|]. apply InE_eq with x; [exact Kxy|]. apply M; exact K1.
    + intros K. destruct (existsb (find eqb ltb t) (elements t')) eqn:Q; [|reflexivity].
      apply existsb_exists in Q. destruct Q as (y & Hy & F). apply find_ok in F; [|exact B].
      exfalso. apply (K y). split; [apply M; exact F|]. apply M'. exists y.
      split; [apply elements_InT; exact Hy|apply eqR].
Qed.

(** ---- balance ---- *)
Fixpoint avl (t : tree A) : Prop :=
  match t with
  | Leaf => True
  | Node h l _ r => h = 1 + Z.max (height l) (height r) /\
                    -1 <= height l - height r <= 1 /\ avl l /\ avl r
  end.
Lemma avl_pos t : avl t -> 0 <= height t.
Proof. induction t as [|h l IHl v r IHr]; cbn [avl height]; [lia|]. intros (H & _ & Hl & Hr). specialize (IHl Hl). lia. Qed.
Lemma avl_height t : avl t -> height t = theight t /\ balanced t.
Proof.
  induction t as [|h l IHl v r IHr]; cbn [avl height theight balanced]; [auto|]. intros (H & Hb & Hl & Hr).
  destruct (IHl Hl) as [E1 G1]. destruct (IHr Hr) as [E2 G2]. rewrite <- E1, <- E2.
  repeat split; auto; lia.
Qed.

Ltac dav H := cbn [avl height] in H; destruct H as (? & ? & ? & ?).

Lemma Some_inj {B} (x y : B) : Some x = Some y -> x = y.
Proof. congruence. Qed.

Lemma avl_insert t x : avl t -> forall t', insert eqb ltb t x = Some t' ->
  avl t' /\ (height t' = height t \/ height t' = 1 + height t) /\
  (height t' = 1 + height t -> t = Leaf \/
     match t' with Node _ l _ r => height l <> height r | Leaf => False end).
Proof.
  induction t as [|h l IHl v r IHr]; intros Ha t'.
  - cbn [insert]. intros E; apply Some_inj in E; subst t'. cbn [mkNode avl height].
    split; [simpl; repeat split; auto; lia|]. split; [right; reflexivity|]. auto.
  - cbn [insert]. destruct (eqb v x).
    { intros E; apply Some_inj in E; subst t'. split; [exact Ha|]. split; [auto|]. cbn [height]. lia. }
    pose proof Ha as Ha0. cbn [avl] in Ha. destruct Ha as (Hh & Hb & Hl & Hr).
    pose proof (avl_pos _ Hl) as Pl. pose proof (avl_pos _ Hr) as Pr.
    destruct (ltb x v).
    + destruct (insert eqb ltb l x) as [l'|]; [|discriminate].
      destruct (IHl Hl l' eq_refl) as (A1 & A2 & A3). pose proof (avl_pos _ A1) as Pl'.
      unfold rebalance, mk. cbn [balance].
      destruct (1 <? height l' - height r) eqn:E1.
      * apply Z.ltb_lt in E1.
        assert (A4 : height l' = 1 + height l) by lia.
        destruct l' as [|h1 l1 v1 r1]; [simpl in *; lia|].
        cbn [avl] in A1. destruct A1 as (Q1 & Q2 & Q3 & Q4).
        pose proof (avl_pos _ Q3) as Pl1. pose proof (avl_pos _ Q4) as Pr1.
        assert (A5 : height l1 <> height r1).
        { destruct (A3 A4) as [->|K]; [simpl in *; lia|exact K]. }
        cbn [balance height] in *.
        destruct (0 <? height l1 - height r1) eqn:E2.
        -- apply Z.ltb_lt in E2. cbn [rotateLeft]. intros E; apply Some_inj in E; subst t'.
           cbn [mk avl height]. split; [repeat split; auto; lia|]. split; [lia|]. intros ?; right; lia.
        -- apply Z.ltb_ge in E2. cbn [rotateRight].
           destruct r1 as [|h2 l2 v2 r2]; [discriminate|].
           cbn [avl height] in *. destruct Q4 as (S1 & S2 & S3 & S4).
           pose proof (avl_pos _ S3). pose proof (avl_pos _ S4).
           cbn [mk rotateLeft]. intros E; apply Some_inj in E; subst t'.
           unfold mk; cbn [avl height]. split; [repeat split; auto; lia|]. split; [lia|]. intros ?; right; lia.
      * apply Z.ltb_ge in E1.
        replace (height l' - height r <? -1) with false by (symmetry; apply Z.ltb_ge; lia).
        intros E; apply Some_inj in E; subst t'. cbn [avl height].
        split; [repeat split; auto; lia|]. split; [lia|]. intros ?; right; lia.
    + destruct (insert eqb ltb r x) as [r'|]; [|discriminate].
      destruct (IHr Hr r' eq_refl) as (A1 & A2 & A3). pose proof (avl_pos _ A1) as Pr'.
      unfold rebalance, mk. cbn [balance].
      replace (1 <? height l - height r') with false by (symmetry; apply Z.ltb_ge; lia).
      destruct (height l - height r' <? -1) eqn:E1.
      * apply Z.ltb_lt in E1.
        assert (A4 : height r' = 1 + height r) by lia.
        destruct r' as [|h1 l1 v1 r1]; [simpl in *; lia|].
        cbn [avl] in A1. destruct A1 as (Q1 & Q2 & Q3 & Q4).
        pose proof (avl_pos _ Q3) as Pl1. pose proof (avl_pos _ Q4) as Pr1.
        assert (A5 : height l1 <> height r1).
        { destruct (A3 A4) as [->|K]; [simpl in *; lia|exact K]. }
        cbn [balance height] in *.
        destruct (height l1 - height r1 <? 0) eqn:E2.
        -- apply Z.ltb_lt in E2. cbn [rotateRight]. intros E; apply Some_inj in E; subst t'.
           cbn [mk avl height]. split; [repeat split; auto; lia|]. split; [lia|]. intros ?; right; lia.
        -- apply Z.ltb_ge in E2. cbn [rotateLeft].
           destruct l1 as [|h2 l2 v2 r2]; [discriminate|].
           cbn [avl height] in *. destruct Q3 as (S1 & S2 & S3 & S4).
           pose proof (avl_pos _ S3). pose proof (avl_pos _ S4).
           cbn [mk rotateRight]. intros E; apply Some_inj in E; subst t'.
           unfold mk; cbn [avl height]. split; [repeat split; auto; lia|]. split; [lia|]. intros ?; right; lia.
      * apply Z.ltb_ge in E1.
        intros E; apply Some_inj in E; subst t'. cbn [avl height].
        split; [repeat split; auto; lia|]. split; [lia|]. intros ?; right; lia.
Qed.

Lemma avl_add vs t t' : avl t -> set_add eqb ltb t vs = Some t' -> avl t'.
Proof.
  revert t. induction vs as [|x vs IH]; intros t H; cbn [set_add].
  - intros E; injection E as <-; exact H.
  - destruct (insert eqb ltb t x) as [t1|] eqn:E; [|discriminate].
    apply IH. apply (avl_insert t x H t1 E).
Qed.
Lemma avl_inter t0 xs acc t' : avl acc -> inter_loop eqb ltb t0 acc xs = Some t' -> avl t'.
Proof.
  revert acc. induction xs as [|x xs IH]; intros acc H; cbn [inter_loop].
  - intros E; injection E as <-; exact H.
  - destruct (find eqb ltb t0 x); [|apply IH; exact H].
    destruct (insert eqb ltb acc x) as [t1|] eqn:E; [|discriminate].
    apply IH. apply (avl_insert acc x H t1 E).
Qed.

Lemma run_avl e t : grow_only e = true -> run eqb ltb e = Some t -> avl t.
Proof.
  revert t. induction e as [|v|e IH vs|e IH v|a IHa b IHb|a IHa b IHb|a IHa b IHb|e IH];
    cbn [run grow_only]; intros t G; try discriminate.
  - intros E; injection E as <-; simpl; auto.
  - intros E. apply (avl_insert Leaf v I t E).
  - destruct (run eqb ltb e) as [t0|]; [|discriminate]. cbn [bind1]. apply avl_add. auto.
  - apply andb_true_iff in G. destruct G as [G1 G2].
    destruct (run eqb ltb a) as [ta|]; [|discriminate].
    destruct (run eqb ltb b) as [tb|]; [|discriminate]. cbn [bind2]. apply avl_add. auto.
  - destruct (run eqb ltb a) as [ta|]; [|discriminate].
    destruct (run eqb ltb b) as [tb|]; [|discriminate]. cbn [bind2]. apply avl_inter. exact I.
Qed.
End Proofs.

(** logarithmic height of balanced trees *)
Lemma theight_nonneg {A} (t : tree A) : 0 <= theight t.
Proof. induction t; cbn [theight tsize cardinal]; lia. Qed.
Lemma tsize_nonneg {A} (t : tree A) : 0 <= tsize t.
Proof. induction t; cbn [theight tsize cardinal]; lia. Qed.

Lemma sq_le a b : 0 <= a -> 0 <= b -> a * a <= b * b -> a <= b.
Proof. intros Ha Hb H. nia. Qed.

Lemma log_arith a b h : 0 <= a -> 0 <= b -> 2 <= h ->
  2 ^ (h - 1) <= a * a -> 2 ^ (h - 2) <= b * b -> 2 ^ h <= (a + b) * (a + b).
Proof.
  intros Ha Hb Hh H1 H2.
  set (p := 2 ^ (h - 2)) in *.
  assert (Hp : 0 < p) by (apply Z.pow_pos_nonneg; lia).
  assert (E1 : 2 ^ (h - 1) = 2 * p).
  { unfold p. rewrite <- Z.pow_succ_r by lia. f_equal; lia. }
  assert (E0 : 2 ^ h = 4 * p).
  { replace h with (Z.succ (h - 1)) by lia. rewrite Z.pow_succ_r by lia. lia. }
  rewrite E1 in H1. rewrite E0.
  assert (K : p <= a * b).
  { apply sq_le; [lia|nia|]. replace (a * b * (a * b)) with ((a * a) * (b * b)) by ring.
    apply Z.le_trans with ((2 * p) * p); [nia|]. apply Z.mul_le_mono_nonneg; lia. }
  nia.
Qed.

Lemma balanced_log {A} (t : tree A) : balanced t -> 2 ^ theight t <= (tsize t + 1) * (tsize t + 1).
Proof.
  induction t as [|h l IHl v r IHr]; cbn [balanced theight tsize]; [simpl; lia|].
  intros (Hb & Bl & Br). specialize (IHl Bl). specialize (IHr Br).
  pose proof (theight_nonneg l). pose proof (theight_nonneg r).
  pose proof (tsize_nonneg l). pose proof (tsize_nonneg r).
  replace (1 + tsize l + tsize r + 1) with ((tsize l + 1) + (tsize r + 1)) by ring.
  set (a := tsize l + 1) in *. set (b := tsize r + 1) in *.
  destruct (Z.eq_dec (Z.max (theight l) (theight r)) 0) as [E|E].
  { rewrite E. change (2 ^ (1 + 0)) with 2. unfold a, b. nia. }
  assert (mono : forall x y, 0 <= x -> x <= y -> 2 ^ x <= 2 ^ y) by (intros; apply Z.pow_le_mono_r; lia).
  destruct (Z.le_gt_cases (theight r) (theight l)) as [C|C].
  - replace (1 + Z.max (theight l) (theight r)) with (1 + theight l) by lia.
    apply log_arith; [lia|lia|lia| |].
    + replace (1 + theight l - 1) with (theight l) by lia. exact IHl.
    + apply Z.le_trans with (2 ^ theight r); [|exact IHr]. apply mono; lia.
  - replace (1 + Z.max (theight l) (theight r)) with (1 + theight r) by lia.
    rewrite (Z.add_comm a b). apply log_arith; [lia|lia|lia| |].
    + replace (1 + theight r - 1) with (theight r) by lia. exact IHr.
    + apply Z.le_trans with (2 ^ theight l); [|exact IHl]. apply mono; lia.
Qed.

Lemma tsize_cardinal {A} (t : tree A) : tsize t = cardinal t.
Proof. induction t; cbn [theight tsize cardinal]; lia. Qed.
