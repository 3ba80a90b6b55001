(** A process answers closed only for children that have answered closed. *)

Require Import Coq.Lists.List Coq.Arith.PeanoNat Coq.Bool.Bool Coq.micromega.Lia.
From Verif Require Import Proto_Model Proto_Spec Proto_Proofs Proto_Progress.
Import ListNotations.

(** Never again will the process give an open answer and end: only a process
    that has just been launched does. *)
Definition old (x : ctl) : Prop :=
  match x with
  | Compute => False
  | Sending a _ | Closing _ _ _ (KSend a _) | ClosingQuit _ _ _ _ (KSend a _) =>
      closed a = true \/ need a = true
  | _ => True
  end.

Definition given_ok (l : list event) (p : nat) (gv : list nat) : Prop :=
  forall s, In s gv ->
  exists e, In e l /\ e_pid e = p /\ closed (e_ans e) = true /\ In s (substs (e_ans e)).

Definition first_ok (w : wargs) (al : list nat) : Prop :=
  w_first w = true -> w_bt w = [] /\ (w_cur w = None \/ length al <= 1).

Definition base_ok (l : list event) (p : nat) (ks : list nat) (w : wargs) (al : list nat) : Prop :=
  given_ok l p (w_given w) /\ (w_onf w = true -> w_bt w = []) /\ incl al ks
  /\ first_ok w al.

Definition later_ok (l : list event) (ks : list nat) (f : nat -> ctl) (w : wargs)
  (al : list nat) : Prop :=
  w_first w = false ->
  (forall k, In k ks -> In k al \/ closed_last l k) /\ (forall k, In k al -> old (f k)).

Definition open_ok l p ks f w al : Prop := base_ok l p ks w al /\ later_ok l ks f w al.

Definition kont_ok (l : list event) (p : nat) (ks : list nat) (f : nat -> ctl) (k : cont)
  (al : list nat) : Prop :=
  match k with
  | KSend a g =>
      given_ok l p g /\ (closed a = true \/ (need a = true /\ substs a = []))
      /\ (closed a = true -> forall k, In k ks -> closed_last l k)
  | KWait g => given_ok l p g
  | KDead | KCrash => True
  | KOpened w => open_ok l p ks f w al
  end.

Definition just (l : list event) (p : nat) (ks : list nat) (f : nat -> ctl) (x : ctl) : Prop :=
  match x with
  | Compute => ks = []
  | Sending a g =>
      given_ok l p g
      /\ (closed a = true -> (forall k, In k ks -> closed_last l k)
                             \/ exists s, substs a = [s] /\ In s g)
      /\ (closed a = false -> need a = true -> substs a = [])
  | WaitFather g | Got _ g => given_ok l p g
  | Waiting w s =>
      base_ok l p ks w (w_alive w)
      /\ (forall k, In k ks -> (In k (w_alive w) /\ ~ In k (s_got s)) \/ closed_last l k)
      /\ (w_first w = false -> forall k, In k (w_alive w) -> old (f k))
  | Opened w => open_ok l p ks f w (w_alive w)
  | SendSub _ _ w => w_first w = false /\ open_ok l p ks f w (w_alive w)
  | Closing _ todo kept k => kont_ok l p ks f k (todo ++ kept)
  | ClosingQuit v _ todo kept k => kont_ok l p ks f k (v :: todo ++ kept)
  | Dead => True
  end.

(** ** What does not change *)

Lemma given_mono : forall l l' p g, incl l l' -> given_ok l p g -> given_ok l' p g.
Proof.
  intros l l' p g Hi H s Hs. destruct (H s Hs) as (e & H1 & H2).
  exists e; split; [apply Hi; exact H1 | exact H2].
Qed.

Section Frame.
  Variables (l l' : list event) (p : nat) (ks : list nat) (f f' : nat -> ctl).
  Hypothesis Hl : incl l l'.
  Hypothesis Hc : forall k, In k ks -> closed_last l k -> closed_last l' k.
  Hypothesis Hf : forall k, In k ks -> old (f k) -> old (f' k).

  Lemma base_frame : forall w al, base_ok l p ks w al -> base_ok l' p ks w al.
  Proof.
    intros w al (H1 & H2 & H3 & H4). repeat split; try assumption.
    - exact (given_mono l l' p _ Hl H1).
    - exact (proj1 (H4 H)).
    - exact (proj2 (H4 H)).
  Qed.

  Lemma open_frame : forall w al, open_ok l p ks f w al -> open_ok l' p ks f' w al.
  Proof.
    intros w al [H1 H2]. split; [apply base_frame; exact H1 |].
    intro Hw. destruct (H2 Hw) as [H3 H4]. split.
    - intros k Hk. destruct (H3 k Hk) as [H | H]; [left; exact H | right; apply Hc; assumption].
    - intros k Hk. apply Hf; [| apply H4; exact Hk].
      destruct H1 as (_ & _ & Hi & _). apply Hi; exact Hk.
  Qed.

  Lemma kont_frame : forall k al, kont_ok l p ks f k al -> kont_ok l' p ks f' k al.
  Proof.
    intros k al H. destruct k as [a g | g | | w |]; simpl in *; try exact Logic.I.
    - destruct H as (H1 & H2 & H3). split; [exact (given_mono l l' p _ Hl H1) | split].
      + exact H2.
      + intros Ha k Hk. apply Hc; [exact Hk | exact (H3 Ha k Hk)].
    - exact (given_mono l l' p _ Hl H).
    - apply open_frame; exact H.
  Qed.

  Lemma just_frame : forall x, just l p ks f x -> just l' p ks f' x.
  Proof.
    intros x H.
    destruct x as [| a g | g | m g | w s | w | kill todo kept k | v kill todo kept k | m todo w |];
      simpl in *; try exact H; try (apply kont_frame; exact H);
      try (exact (given_mono l l' p _ Hl H)).
    - destruct H as (H1 & H2 & H3). split; [exact (given_mono l l' p _ Hl H1) | split].
      + intro Ha. destruct (H2 Ha) as [H | H]; [left | right; exact H].
        intros k Hk; apply Hc; [exact Hk | apply H; exact Hk].
      + exact H3.
    - destruct H as (H1 & H2 & H3). split; [apply base_frame; exact H1 | split].
      + intros k Hk. destruct (H2 k Hk) as [H | H]; [left; exact H | right; apply Hc; assumption].
      + intros Hw k Hk. apply Hf; [| apply H3; assumption].
        destruct H1 as (_ & _ & Hi & _). apply Hi; exact Hk.
    - apply open_frame; exact H.
    - destruct H as [H1 H2]. split; [exact H1 | apply open_frame; exact H2].
  Qed.
End Frame.

(** ** Old processes stay old *)

Lemma old_internal : forall complete dmt o n x ch y os,
  internal complete dmt o n x ch = Some (y, os) ->
  (x = Compute -> False) -> old x -> old y.
Proof.
  intros complete dmt o n x ch y os H Hx Ho.
  destruct x as [| a g | g | m g | w s | w | kill todo kept k | v kill todo kept k | m todo w |];
    destruct ch as [ids | id cur forms | a' | i l | i id cur |]; try discriminate H;
    cbn [internal] in H;
    try (destruct todo; discriminate H); try (destruct Ho).
  - destruct m as [x |]; [destruct (memb x g) |]; injection H as <- _; simpl; tauto.
  - destruct (s_rem s); [| discriminate]. unfold after_select in H.
    destruct (decide w s) as [| r | r].
    + destruct (w_cur w); injection H as <- _; simpl; tauto.
    + injection H as <- _; simpl; tauto.
    + destruct (choose i r) as [[x r'] |]; [| discriminate]. injection H as <- _. exact Logic.I.
  - unfold opened in H.
    destruct (w_onf w); [destruct (w_forms w) |];
      try (injection H as <- _; exact Logic.I);
      (destruct (w_bt w) as [| b bt];
       [ destruct (complete && (1 <? length (w_alive w)) &&
           match w_cur w with Some _ => true | None => false end); injection H as <- _; simpl; tauto
       | destruct (choose i (b :: bt)) as [[x r] |]; [| discriminate];
         injection H as <- _; exact Logic.I ]).
  - destruct todo; [| discriminate]. destruct k; try discriminate; injection H as <- _;
      exact Logic.I || exact Ho.
  - destruct todo; [| discriminate]. injection H as <- _. exact Logic.I.
Qed.

Lemma old_gets : forall x c o a x', old x -> gets x c o a = To x' -> old x'.
Proof.
  intros x c o a x' Hx H.
  destruct x as [| a0 g | g | m g | w s | w | kill todo kept k | v kill todo kept k | m todo w |];
    try discriminate H; cbn [gets] in H.
  - destruct (memb c (w_alive w)); [| discriminate].
    destruct (s_rem s); [discriminate |].
    destruct (index o (w_order w)); [| discriminate].
    destruct (closed a); injection H as <-; exact Logic.I.
  - destruct todo as [| v todo]; [discriminate |].
    destruct (v =? c); [| discriminate]. destruct (need a); injection H as <-; exact Hx.
Qed.

Lemma old_quits : forall x c b x', old x -> quits x c = Some (b, x') -> old x'.
Proof.
  intros x c b x' Hx H.
  destruct x as [| a0 g | g | m g | w s | w | kill todo kept k | v kill todo kept k | m todo w |];
    try discriminate H; cbn [quits] in H.
  - destruct todo as [| v todo]; [discriminate |].
    destruct (v =? c); [| discriminate]. injection H as <- <-; exact Hx.
  - destruct (v =? c); [| discriminate]. injection H as <- <-; exact Hx.
Qed.

Lemma old_tells : forall x c m x', tells x c = Some (m, x') -> old x'.
Proof.
  intros x c m x' H.
  destruct x as [| a0 g | g | m0 g | w s | w | kill todo kept k | v kill todo kept k | m0 todo w |];
    try discriminate H; cbn [tells] in H.
  destruct todo as [| v todo]; [discriminate |].
  destruct (v =? c); [| discriminate]. injection H as <- <-; exact Logic.I.
Qed.

Lemma old_told : forall y kill y', told_quit y kill = Some y' -> old y'.
Proof.
  intros y kill y' H.
  destruct y as [| a0 g | g | m g | w s | w | kill0 todo kept k | v kill0 todo kept k | m todo w |];
    try discriminate H; cbn [told_quit] in H.
  1-3: injection H as <-; destruct kill; exact Logic.I.
  assert (E : y' = Closing true (drop (s_gone s) (w_alive w)) []
                     (if kill then KDead else KWait (w_given w))).
  { destruct (s_rem s), (w_alive w); congruence. }
  subst y'. destruct kill; exact Logic.I.
Qed.

Lemma old_after : forall a gv, old (after_answer a gv).
Proof. intros; unfold after_answer; destruct (need a); exact Logic.I. Qed.

Lemma old_idle : forall x, cls_of x = Idl -> old x.
Proof.
  intros x H.
  destruct x as [| a0 g | g | m g | w s | w | kill0 todo kept k | v kill0 todo kept k | m todo w |];
    try discriminate H; try exact Logic.I; destruct k; try discriminate H; exact Logic.I.
Qed.

(** ** The steps of one process *)

Lemma choose_in : forall i l x r, choose i l = Some (x, r) -> l <> [].
Proof.
  intros i l x r H Hl; subst l. unfold choose in H. destruct i; discriminate.
Qed.

Lemma just_internal : forall complete dmt o n l p ks f x ch y,
  wf x -> (forall k, expects x k = Some EIdl -> old (f k)) ->
  just l p ks f x -> internal complete dmt o n x ch = Some (y, None) -> just l p ks f y.
Proof.
  intros complete dmt o n l p ks f x ch y Hw Hidl Hj H.
  destruct x as [| a g | g | m g | w s | w | kill todo kept k | v kill todo kept k | m todo w |];
    destruct ch as [ids | id cur forms | a' | i r0 | i id cur |]; try discriminate H;
    cbn [internal] in H;
    try (destruct todo; discriminate H).
  - destruct dmt; discriminate.
  - destruct (leaf_answer a') eqn:El; [| discriminate]. injection H as <-.
    simpl in Hj. subst ks. simpl. split; [intros s [] | split].
    + intros _. left. intros k [].
    + intros Hc Hn. unfold leaf_answer in El. rewrite Hc, Hn in El. discriminate.
  - destruct m as [x |]; [destruct (memb x g) eqn:Em |]; try discriminate.
    injection H as <-. simpl in *. split; [exact Hj | split; [| discriminate]].
    intros _. right. exists x. split; [reflexivity | apply memb_in; exact Em].
  - destruct (s_rem s) eqn:Er; [| discriminate].
    destruct (after_select w s i r0) as [z |] eqn:E; [| discriminate]. injection H as <-.
    pose proof (all_got w s Hw Er) as Hgot.
    simpl in Hj. destruct Hj as ((Hg & Hon & Hi & Hf1) & Hk & Hold).
    assert (Hall : forall k, In k ks -> closed_last l k).
    { intros k Hkk. destruct (Hk k Hkk) as [[H1 H2] | H1]; [| exact H1].
      exfalso; apply H2, Hgot, H1. }
    unfold after_select in E. destruct (decide w s) as [| r | r] eqn:Ed.
    + destruct (w_cur w); injection E as <-; simpl; [exact Logic.I |].
      split; [exact Hg | split; [left; reflexivity | intros _; exact Hall]].
    + injection E as <-; simpl.
      split; [exact Hg | split; [left; reflexivity | intros _; exact Hall]].
    + destruct (choose i r) as [[x r'] |] eqn:Ech; [| discriminate]. injection E as <-.
      set (al := drop (s_gone s) (w_alive w)).
      simpl. split; [reflexivity |]. split.
      * split; [exact Hg | split; [discriminate | split]].
        -- intros k Hkk. apply Hi. apply drop_in in Hkk. tauto.
        -- intro Hx; discriminate Hx.
      * intros _. split; [intros k Hkk; right; apply Hall; exact Hkk |].
        intros k Hkk. cbn [w_alive] in Hkk. apply Hidl.
        rewrite (decided w s k true Hw Er); [reflexivity |]. apply memb_in. exact Hkk.
  - unfold opened in H. simpl in Hj. destruct Hj as [(Hg & Hon & Hi & Hf1) Hlat].
    assert (G : forall m w', w_first w = false -> w_first w' = false ->
              w_alive w' = w_alive w -> w_given w' = w_given w ->
              (w_onf w' = true -> w_bt w' = []) ->
              just l p ks f (SendSub m (w_alive w) w')).
    { intros m w' Hw1 Hw2 Ha Hgv Hb. simpl. split; [exact Hw2 |]. split.
      - unfold base_ok. rewrite Ha, Hgv. split; [exact Hg | split; [exact Hb | split; [exact Hi |]]].
        intro Hx; congruence.
      - intros _. rewrite Ha. exact (Hlat Hw1). }
    destruct (w_onf w) eqn:Eo; [destruct (w_forms w) as [| nf] eqn:Ef; [| discriminate] |];
      (destruct (w_bt w) as [| b bt] eqn:Eb;
       [ destruct (complete && (1 <? length (w_alive w)) &&
           match w_cur w with Some _ => true | None => false end) eqn:Ec; injection H as <-;
         [ apply G; try reflexivity;
           destruct (w_first w) eqn:E1; [exfalso | reflexivity];
           destruct (Hf1 E1) as [_ Hcur];
           apply andb_true_iff in Ec; destruct Ec as [Ec E3];
           apply andb_true_iff in Ec; destruct Ec as [_ E4]; apply Nat.ltb_lt in E4;
           destruct Hcur as [Hcur | Hcur]; [rewrite Hcur in E3; discriminate | lia]
         | simpl; split; [exact Hg | split; [right; split; reflexivity | discriminate]] ]
       | destruct (choose i (b :: bt)) as [[x r] |] eqn:Ech; [| discriminate];
         injection H as <-; apply G; try reflexivity; try discriminate;
         destruct (w_first w) eqn:E1; [exfalso | reflexivity];
         destruct (Hf1 E1) as [Hbt _]; congruence ]).
  - destruct todo; [| discriminate]. simpl in Hj.
    destruct k as [a g | g | | w |]; try discriminate; injection H as <-; simpl in *;
      try exact Logic.I; try exact Hj.
    destruct Hj as (H1 & H2 & H3). split; [exact H1 | split].
    + intro Ha. left. exact (H3 Ha).
    + intros Ha Hn. destruct H2 as [H2 | [_ H2]]; [congruence | exact H2].
  - destruct todo; [| discriminate]. injection H as <-. simpl in *.
    destruct Hj as (H1 & H2 & H3). split; [exact H2 | split].
    + intros k Hk. destruct (proj1 (H3 H1) k Hk) as [H | H]; [left | right; exact H].
      split; [exact H | intros []].
    + intros _. exact (proj2 (H3 H1)).
Qed.

(** A launch. *)
Lemma just_launch : forall complete dmt o n l p ks f f' x ch y os,
  just l p ks f x -> internal complete dmt o n x ch = Some (y, Some os) ->
  just l p (seq n (length os)) f' y.
Proof.
  intros complete dmt o n l p ks f f' x ch y os Hj H.
  assert (G : forall alive order g cur forms onf,
            alive = seq n (length os) -> given_ok l p g ->
            (cur = None \/ length alive <= 1) ->
            just l p (seq n (length os)) f'
              (Waiting (wargs0 alive order g cur forms onf)
                       (sel0 (wargs0 alive order g cur forms onf)))).
  { intros alive order g cur forms onf Ha Hg Hc. simpl. split; [| split].
    - split; [exact Hg | split; [reflexivity | split]].
      + simpl. rewrite Ha. intros z Hz; exact Hz.
      + intros _. split; [reflexivity | exact Hc].
    - intros k Hk. left. split; [rewrite Ha; exact Hk | intros []].
    - discriminate. }
  destruct x as [| a g | g | m g | w s | w | kill todo kept k | v kill todo kept k | m todo w |];
    destruct ch as [ids | id cur forms | a' | i r0 | i id cur |]; try discriminate H;
    cbn [internal] in H;
    try (destruct todo; discriminate H).
  - injection H as <- <-. apply G; [reflexivity | intros s [] | left; reflexivity].
  - destruct dmt; [| discriminate]. injection H as <- <-.
    apply G; [reflexivity | intros s [] | right; simpl; lia].
  - destruct (leaf_answer a'); discriminate.
  - destruct m as [x |]; [destruct (memb x g) |]; try discriminate; injection H as <- <-;
      (apply G; [reflexivity | exact Hj | right; simpl; lia]).
  - destruct (s_rem s); [| discriminate]. destruct (after_select w s i r0); discriminate.
  - unfold opened in H. simpl in Hj. destruct Hj as [(Hg & Hon & Hi & Hf1) Hlat].
    destruct (w_onf w) eqn:Eo; [destruct (w_forms w) as [| nf] eqn:Ef |];
      try (destruct (w_bt w) as [| b bt];
       [ destruct (complete && (1 <? length (w_alive w)) &&
           match w_cur w with Some _ => true | None => false end); discriminate H
       | destruct (choose i (b :: bt)) as [[x r] |]; discriminate H ]).
    injection H as <- <-. simpl. split; [| split].
    + split; [exact Hg | split; [simpl; intros _; apply Hon; reflexivity | split]].
      * simpl. intros z Hz; exact Hz.
      * intros _. split; [simpl; apply Hon; reflexivity | right; simpl; lia].
    + intros k Hk. left. split; [exact Hk | intros []].
    + discriminate.
  - destruct todo; [destruct k |]; discriminate.
Qed.

(** ** The rendez-vous *)

Lemma closed_last_other : forall l e k, e_pid e <> k ->
  (closed_last (e :: l) k <-> closed_last l k).
Proof.
  intros l e k H. unfold closed_last. simpl. apply Nat.eqb_neq in H. rewrite H. tauto.
Qed.

Lemma closed_last_same : forall l e k, e_pid e = k -> closed (e_ans e) = true ->
  closed_last (e :: l) k.
Proof.
  intros l e k H Hc. exists (e_ans e). simpl. subst k. rewrite Nat.eqb_refl. auto.
Qed.

(** The father of a process that answers. *)
Lemma just_gets : forall l p ks f f' x c o a x' kc gv,
  wf x -> (exists e, expects x c = Some e /\ sat e Act) ->
  f c = Sending a gv -> f' c = after_answer a gv ->
  (forall k, k <> c -> In k ks -> old (f k) -> old (f' k)) ->
  just l p ks f x -> gets x c o a = To x' ->
  just (Event c a kc :: l) p ks f' x'.
Proof.
  intros l p ks f f' x c o a x' kc gv Hw [e [He Hs]] Hfc Hf'c Hff Hj H.
  assert (Hinc : incl l (Event c a kc :: l)) by (intros z Hz; right; exact Hz).
  assert (Hof : forall k, In k ks -> old (f k) -> old (f' k)).
  { intros k Hk Ho. destruct (Nat.eq_dec k c) as [-> | Hkc].
    - rewrite Hf'c. apply old_after.
    - apply Hff; assumption. }
  assert (Hcl : forall k, k <> c -> closed_last l k -> closed_last (Event c a kc :: l) k).
  { intros k Hk Hx. apply closed_last_other; [simpl; congruence | exact Hx]. }
  assert (Holdc : old (f c) -> closed a = true \/ need a = true).
  { rewrite Hfc. intro Ho; exact Ho. }
  (* the node is open *)
  assert (Hopen : forall w al al' (Hc : In c al),
            open_ok l p ks f w al ->
            (forall k, In k al' -> In k al) -> length al' <= length al ->
            (forall k, k <> c -> In k al -> In k al') ->
            (need a = true -> In c al') ->
            open_ok (Event c a kc :: l) p ks f' w al').
  { intros w al al' Hc [(Hg & Hon & Hi & Hf1) Hlat] H1 H1l H2 H3. split.
    - split; [exact (given_mono _ _ p _ Hinc Hg) | split; [exact Hon | split]].
      + intros k Hk. apply Hi, H1, Hk.
      + intro Hw1. destruct (Hf1 Hw1) as [H4 H5]. split; [exact H4 |].
        destruct H5 as [H5 | H5]; [left; exact H5 | right; lia].
    - intro Hw1. destruct (Hlat Hw1) as [H4 H5]. split.
      + intros k Hk. destruct (Nat.eq_dec k c) as [-> | Hkc].
        * destruct (need a) eqn:En; [left; apply H3; reflexivity |].
          right. apply closed_last_same; [reflexivity |]. simpl.
          destruct (Holdc (H5 c Hc)) as [Hx | Hx]; [exact Hx | discriminate].
        * destruct (H4 k Hk) as [Hx | Hx]; [left; apply H2; assumption |].
          right. apply Hcl; assumption.
      + intros k Hk. apply Hof; [apply Hi, H1, Hk | apply H5, H1, Hk]. }
  destruct x as [| a0 g | g | m g | w s | w | kill todo kept k | v kill todo kept k | m todo w |];
    try discriminate H; cbn [gets] in H.
  - destruct (memb c (w_alive w)) eqn:Ea; [| discriminate].
    destruct (s_rem s) as [| r] eqn:Er; [discriminate |].
    destruct (index o (w_order w)) as [i |] eqn:Ei; [| discriminate].
    simpl in Hj. destruct Hj as ((Hg & Hon & Hi & Hf1) & Hk & Hold).
    assert (Hca : In c (w_alive w)) by (apply memb_in; exact Ea).
    set (s1 := Sel r (c :: s_got s) (if need a then s_gone s else c :: s_gone s)
                   (s_cpt s) (s_seen s) (s_res s) (s_com s)
                   (set_nth i (Some c) (s_tab s))) in *.
    destruct (closed a) eqn:Ecl.
    + injection H as <-. destruct (take_sel (w_cur w) (substs a) s1) as (T1 & T2 & T3 & T4).
      simpl. rewrite T2. split; [| split].
      * split; [exact (given_mono _ _ p _ Hinc Hg) | split; [exact Hon | split; assumption]].
      * intros k Hkk. destruct (Nat.eq_dec k c) as [-> | Hkc].
        -- right. apply closed_last_same; [reflexivity | exact Ecl].
        -- destruct (Hk k Hkk) as [[H1 H2] | H1]; [left | right; apply Hcl; assumption].
           split; [exact H1 |]. intros [Hx | Hx]; [congruence | exact (H2 Hx)].
      * intros Hw1 k Hkk. apply Hof; [apply Hi; exact Hkk | apply Hold; assumption].
    + injection H as <-.
      change (if need a then s_gone s else c :: s_gone s) with (s_gone s1).
      destruct Hw as (Hn & Hgd & Hin & Hjg & Hlen).
      cbn [just kont_ok]. rewrite app_nil_r.
      (* in two steps: the state before the answer is an open state *)
      assert (Hgs : ~ In c (s_gone s)).
      { intro Hx. simpl in He. rewrite Ea in He. apply memb_in in Hx. rewrite Hx in He.
        injection He as <-. destruct Hs. }
      split.
      * split; [exact (given_mono _ _ p _ Hinc Hg) | split; [exact Hon | split]].
        -- intros k Hkk. apply drop_in in Hkk. apply Hi; tauto.
        -- intro Hw1. destruct (Hf1 Hw1) as [H4 H5]. split; [exact H4 |].
           destruct H5 as [H5 | H5]; [left; exact H5 | right].
           assert (Hle : length (drop (s_gone s1) (w_alive w)) <= length (w_alive w)).
           { apply NoDup_incl_length; [apply drop_nodup; exact Hn |].
             intros z Hz; apply drop_in in Hz; tauto. }
           lia.
      * intro Hw1. cbn [set_alive w_first] in Hw1. split.
        -- intros k Hkk. destruct (Nat.eq_dec k c) as [-> | Hkc].
           ++ left. apply drop_in. split; [exact Hca |].
              destruct (Holdc (Hold Hw1 c Hca)) as [Hx | Hx]; [congruence |].
              unfold s1; simpl. rewrite Hx. exact Hgs.
           ++ destruct (Hk k Hkk) as [[H1 H2] | H1]; [left | right; apply Hcl; assumption].
              apply drop_in. split; [exact H1 |].
              unfold s1; simpl. destruct (need a).
              ** intro Hx; apply H2, Hjg, Hx.
              ** intros [Hx | Hx]; [congruence | apply H2, Hjg, Hx].
        -- intros k Hkk. apply drop_in in Hkk. destruct Hkk as [Hkk _].
           apply Hof; [apply Hi; exact Hkk | apply Hold; assumption].
  - destruct todo as [| v todo]; [discriminate |].
    destruct (v =? c) eqn:Ev; [| discriminate]. apply Nat.eqb_eq in Ev; subst v.
    assert (Hin : In c ((c :: todo) ++ kept)) by (left; reflexivity).
    simpl in Hj. destruct k as [a0 g | g | | w |].
    + exfalso. simpl in He. rewrite Nat.eqb_refl in He. injection He as <-. destruct Hs.
    + destruct (need a); injection H as <-; exact (given_mono _ _ p _ Hinc Hj).
    + destruct (need a); injection H as <-; exact Logic.I.
    + destruct (need a) eqn:En; injection H as <-; cbn [just kont_ok].
      * apply (Hopen w (c :: todo ++ kept)); try assumption.
        -- intros k Hk; exact Hk.
        -- lia.
        -- intros k _ Hk; exact Hk.
        -- intros _; left; reflexivity.
      * apply (Hopen w (c :: todo ++ kept)); try assumption.
        -- intros k Hk; right; exact Hk.
        -- simpl; lia.
        -- intros k Hkc [Hx | Hx]; [congruence | exact Hx].
        -- discriminate.
    + destruct (need a); injection H as <-; exact Logic.I.
Qed.

Lemma just_quits : forall l p ks f x c kill x',
  just l p ks f x -> wf x -> quits x c = Some (kill, x') -> just l p ks f x'.
Proof.
  intros l p ks f x c kill x' Hj Hw H.
  assert (G : forall kill0 todo kept k,
            (match k with KOpened _ => kill0 = false | _ => True end) ->
            kont_ok l p ks f k (c :: todo ++ kept) ->
            kont_ok l p ks f k (todo ++ (if kill0 then kept else kept ++ [c]))).
  { intros kill0 todo kept k Hko Hk. destruct k as [a g | g | | w |]; try exact Hk.
    subst kill0. simpl in *. destruct Hk as [(Hg & Hon & Hi & Hf1) Hlat].
    assert (Hin : forall z, In z (todo ++ kept ++ [c]) <-> In z (c :: todo ++ kept)).
    { intro z. rewrite !in_app_iff. simpl. rewrite in_app_iff. tauto. }
    split.
    - split; [exact Hg | split; [exact Hon | split]].
      + intros z Hz. apply Hi, Hin, Hz.
      + intro Hw1. destruct (Hf1 Hw1) as [H4 H5]. split; [exact H4 |].
        destruct H5 as [H5 | H5]; [left; exact H5 | right].
        revert H5. simpl. rewrite !app_length. simpl. lia.
    - intro Hw1. destruct (Hlat Hw1) as [H4 H5]. split.
      + intros k Hk. destruct (H4 k Hk) as [Hx | Hx]; [left; apply Hin; exact Hx | right; exact Hx].
      + intros k Hk. apply H5, Hin, Hk. }
  destruct x as [| a0 g | g | m g | w s | w | kill0 todo kept k | v kill0 todo kept k | m todo w |];
    try discriminate H; cbn [quits] in H.
  - destruct todo as [| v todo]; [discriminate |].
    destruct (v =? c) eqn:Ev; [| discriminate]. apply Nat.eqb_eq in Ev; subst v.
    injection H as <- <-. destruct Hw as (_ & _ & Hk). apply G; [| exact Hj].
    destruct k; try exact Logic.I; exact Hk.
  - destruct (v =? c) eqn:Ev; [| discriminate]. apply Nat.eqb_eq in Ev; subst v.
    injection H as <- <-. destruct Hw as (_ & _ & Hk). apply G; [| exact Hj].
    destruct k; try exact Logic.I; exact Hk.
Qed.

Lemma just_told : forall l p ks f y kill y',
  just l p ks f y -> told_quit y kill = Some y' -> just l p ks f y'.
Proof.
  intros l p ks f y kill y' Hj H.
  destruct y as [| a0 g | g | m g | w s | w | kill0 todo kept k | v kill0 todo kept k | m todo w |];
    try discriminate H; cbn [told_quit] in H.
  - injection H as <-; destruct kill; [exact Logic.I | intros s []].
  - injection H as <-; destruct kill; [exact Logic.I | exact (proj1 Hj)].
  - injection H as <-; destruct kill; [exact Logic.I | exact Hj].
  - assert (E : y' = Closing true (drop (s_gone s) (w_alive w)) []
                     (if kill then KDead else KWait (w_given w))).
    { destruct (s_rem s), (w_alive w); congruence. }
    subst y'. destruct kill; [exact Logic.I |]. simpl.
    destruct Hj as ((Hg & _) & _). exact Hg.
Qed.

Lemma just_tells : forall l p ks f x c m x',
  just l p ks f x -> tells x c = Some (m, x') -> just l p ks f x'.
Proof.
  intros l p ks f x c m x' Hj H.
  destruct x as [| a0 g | g | m0 g | w s | w | kill todo kept k | v kill todo kept k | m0 todo w |];
    try discriminate H; cbn [tells] in H.
  destruct todo as [| v todo]; [discriminate |].
  destruct (v =? c); [| discriminate]. injection H as <- <-; exact Hj.
Qed.

(** ** All the processes *)

Record jinv (g : cfg) : Prop := JInv {
  j_inv : inv g;
  j_kid : forall p k, p < c_n g -> In k (c_kids g p) ->
          k < c_n g /\ c_fa g k = p /\ p < k;
  j_just : c_crash g = false -> forall p, p < c_n g ->
           just (c_log g) p (c_kids g p) (c_ctl g) (c_ctl g p);
  j_log : all_justified (c_log g)
}.

Lemma jinv_start : forall id, jinv (start id).
Proof.
  intro id. constructor; simpl; intros; try contradiction; try reflexivity; try exact Logic.I.
  apply inv_start.
Qed.

(** The processes the step does not touch. *)
Lemma just_same : forall g l' f' q,
  jinv g -> c_crash g = false -> q < c_n g -> incl (c_log g) l' ->
  (forall k, In k (c_kids g q) -> closed_last (c_log g) k -> closed_last l' k) ->
  (forall k, k < c_n g -> old (c_ctl g k) -> old (f' k)) ->
  just l' q (c_kids g q) f' (c_ctl g q).
Proof.
  intros g l' f' q Hj Hc Hq Hi Hl Ho.
  apply (just_frame (c_log g) l' q (c_kids g q) (c_ctl g) f'); try assumption.
  - intros k Hk. apply Ho. exact (proj1 (j_kid g Hj q k Hq Hk)).
  - apply j_just; assumption.
Qed.

Lemma idle_old : forall g p k, inv g -> p < c_n g ->
  expects (c_ctl g p) k = Some EIdl -> old (c_ctl g k).
Proof.
  intros g p k Hi Hp He. destruct (i_exp g Hi _ _ _ Hp He) as (_ & _ & _ & Hs).
  apply old_idle. destruct (cls_of (c_ctl g k)); simpl in Hs; try contradiction; reflexivity.
Qed.

(** The process that answers. *)
Lemma just_answered : forall l p ks f f' a gv kc,
  just l p ks f (Sending a gv) ->
  just (Event p a kc :: l) p ks f' (after_answer a gv).
Proof.
  intros l p ks f f' a gv kc (Hg & Hc & Hn). unfold after_answer.
  destruct (need a) eqn:En; [| exact Logic.I]. simpl.
  intros s Hs. apply in_app_iff in Hs. destruct Hs as [Hs | Hs].
  - destruct (closed a) eqn:Ec.
    + exists (Event p a kc). repeat split; try assumption. left; reflexivity.
    + rewrite (Hn eq_refl eq_refl) in Hs. destruct Hs.
  - destruct (Hg s Hs) as (e & H1 & H2). exists e. split; [right; exact H1 | exact H2].
Qed.

Lemma justified_answer : forall l p ks f a gv,
  just l p ks f (Sending a gv) -> justified l (Event p a ks).
Proof.
  intros l p ks f a gv (Hg & Hc & Hn) Ha. simpl in *.
  destruct (Hc Ha) as [H | (s & H1 & H2)]; [left; exact H | right].
  destruct (Hg s H2) as (e & H3 & H4 & H5 & H6). exists s, e. auto.
Qed.

Theorem jinv_exec : forall complete dmt g a g',
  jinv g -> exec complete dmt g a = Some g' -> jinv g'.
Proof.
  intros complete dmt g a g' Hj H.
  pose proof (inv_exec _ _ _ _ _ (j_inv g Hj) H) as Hinv'.
  pose proof (j_inv g Hj) as Hi.
  unfold exec in H.
  destruct (c_crash g) eqn:Ecr; [discriminate |].
  destruct a as [p ch | p | c | c | c].
  - destruct (p <? c_n g) eqn:Ep; [| discriminate]. apply Nat.ltb_lt in Ep.
    destruct (internal complete dmt (c_orig g p) (c_n g) (c_ctl g p) ch)
      as [[x [os |]] |] eqn:E; try discriminate; injection H as <-.
    + (* a launch *)
      assert (Hfa : forall q, q < c_n g ->
                (c_n g <=? q) && (q <? c_n g + length os) = false).
      { intros q Hq. apply andb_false_iff. left. apply Nat.leb_gt. exact Hq. }
      assert (Hnew : forall q, c_n g <= q -> q < c_n g + length os ->
                (c_n g <=? q) && (q <? c_n g + length os) = true).
      { intros q H1 H2. apply andb_true_iff; split; [apply Nat.leb_le | apply Nat.ltb_lt]; lia. }
      constructor; [exact Hinv' | | | exact (j_log g Hj)].
      * intros q k Hq Hk. cbn [launch c_n c_kids c_fa] in *.
        destruct (q =? p) eqn:Eq.
        -- apply Nat.eqb_eq in Eq; subst q. apply in_seq in Hk.
           rewrite (Hnew k) by lia. split; [lia | split; [reflexivity | lia]].
        -- destruct ((c_n g <=? q) && (q <? c_n g + length os)) eqn:En; [destruct Hk |].
           assert (Hqn : q < c_n g).
           { apply andb_false_iff in En. destruct En as [En | En];
               [apply Nat.leb_gt in En; exact En | apply Nat.ltb_ge in En; lia]. }
           destruct (j_kid g Hj q k Hqn Hk) as (H1 & H2 & H3).
           rewrite (Hfa k H1). split; [lia | split; assumption].
      * intros _ q Hq. cbn [launch c_n c_kids c_fa c_ctl c_log] in *.
        destruct (q =? p) eqn:Eq.
        -- apply Nat.eqb_eq in Eq; subst q.
           eapply just_launch; [exact (j_just g Hj Ecr p Ep) | exact E].
        -- destruct ((c_n g <=? q) && (q <? c_n g + length os)) eqn:En; [reflexivity |].
           assert (Hqn : q < c_n g).
           { apply andb_false_iff in En. destruct En as [En | En];
               [apply Nat.leb_gt in En; exact En | apply Nat.ltb_ge in En; lia]. }
           apply just_same; try assumption.
           ++ intros z Hz; exact Hz.
           ++ intros k _ Hk; exact Hk.
           ++ intros k Hk Ho. destruct (k =? p) eqn:Ek.
              ** destruct (internal_launch _ _ _ _ _ _ _ _ E) as (w & -> & _). exact Logic.I.
              ** rewrite (Hfa k Hk). exact Ho.
    + (* a step *)
      constructor; [exact Hinv' | exact (j_kid g Hj) | | exact (j_log g Hj)].
      intros _ q Hq. cbn [set_ctl c_n c_kids c_ctl c_log] in *.
      assert (Ho : forall k, k < c_n g -> old (c_ctl g k) -> old (upd (c_ctl g) p x k)).
      { intros k Hk Ho. destruct (Nat.eq_dec k p) as [-> | Hkp].
        - rewrite upd_same. eapply old_internal; [exact E | | exact Ho].
          intro Hx. rewrite Hx in Ho. destruct Ho.
        - rewrite upd_other by exact Hkp. exact Ho. }
      destruct (Nat.eq_dec q p) as [-> | Hqp].
      * rewrite upd_same.
        apply (just_frame (c_log g) (c_log g) p (c_kids g p) (c_ctl g)).
        -- intros z Hz; exact Hz.
        -- intros k _ Hk; exact Hk.
        -- intros k Hk. apply Ho. exact (proj1 (j_kid g Hj p k Hq Hk)).
        -- eapply just_internal; [exact (i_wf g Hi p Ep) | | exact (j_just g Hj Ecr p Ep) | exact E].
           intros k Hk. eapply idle_old; eassumption.
      * rewrite upd_other by exact Hqp. apply just_same; try assumption.
        -- intros z Hz; exact Hz.
        -- intros k _ Hk; exact Hk.
  - destruct ((p <? c_n g) && may_crash (c_ctl g p)); [| discriminate].
    injection H as <-. constructor; [exact Hinv' | exact (j_kid g Hj) | discriminate | exact (j_log g Hj)].
  - destruct (c <? c_n g) eqn:Ec; [| discriminate]. apply Nat.ltb_lt in Ec.
    destruct (c_ctl g c) as [| a gv | | | | | | | |] eqn:Ectl; try discriminate.
    pose proof (j_just g Hj Ecr c Ec) as Hjc. rewrite Ectl in Hjc.
    assert (Hlog : all_justified (Event c a (c_kids g c) :: c_log g)).
    { split; [eapply justified_answer; exact Hjc | exact (j_log g Hj)]. }
    assert (Hinc : incl (c_log g) (Event c a (c_kids g c) :: c_log g)) by (intros z Hz; right; exact Hz).
    assert (Hot : forall q k, q < c_n g -> (c = 0 \/ q <> c_fa g c) -> In k (c_kids g q) ->
              closed_last (c_log g) k -> closed_last (Event c a (c_kids g c) :: c_log g) k).
    { intros q k Hq Hqf Hk Hcl. apply closed_last_other; [simpl | exact Hcl].
      intros <-. destruct (j_kid g Hj q c Hq Hk) as (_ & H2 & H3). destruct Hqf; [lia | congruence]. }
    destruct c as [| c'].
    + destruct (c_main g) eqn:Em; try discriminate. injection H as <-.
      constructor; [exact Hinv' | exact (j_kid g Hj) | | exact Hlog].
      intros _ q Hq. cbn [set_main set_ctl add_log c_n c_kids c_ctl c_log] in *.
      destruct (Nat.eq_dec q 0) as [-> | Hq0].
      * rewrite upd_same. eapply just_answered; exact Hjc.
      * rewrite upd_other by exact Hq0. apply just_same; try assumption.
        -- intros k Hk. apply (Hot q k Hq); [left; reflexivity | exact Hk].
        -- intros k Hk Ho. destruct (Nat.eq_dec k 0) as [-> | Hk0];
             [rewrite upd_same; apply old_after | rewrite upd_other by exact Hk0; exact Ho].
    + remember (S c') as c. assert (Hc0 : 0 < c) by lia.
      destruct (gets (c_ctl g (c_fa g c)) c (c_orig g c) a) as [| | x] eqn:E;
        try discriminate; injection H as <-.
      * constructor; [exact Hinv' | exact (j_kid g Hj) | discriminate | exact Hlog].
      * assert (Hfl : c_fa g c < c) by exact (i_fa g Hi c Hc0 Ec).
        assert (Hf : c_fa g c < c_n g) by lia.
        assert (He : exists e, expects (c_ctl g (c_fa g c)) c = Some e /\ sat e Act).
        { destruct (gets_expects _ _ _ _ _ E) as [e He]; [discriminate |].
          exists e; split; [exact He |].
          destruct (i_exp g Hi _ _ _ Hf He) as (_ & _ & _ & Hs). rewrite Ectl in Hs.
          exact Hs. }
        assert (Ho : forall k, k < c_n g -> old (c_ctl g k) ->
                  old (upd (upd (c_ctl g) (c_fa g c) x) c (after_answer a gv) k)).
        { intros k Hk Ho. destruct (Nat.eq_dec k c) as [-> | Hkc].
          - rewrite upd_same. apply old_after.
          - rewrite upd_other by exact Hkc. destruct (Nat.eq_dec k (c_fa g c)) as [-> | Hkf].
            + rewrite upd_same. eapply old_gets; [exact Ho | exact E].
            + rewrite upd_other by exact Hkf. exact Ho. }
        constructor; [exact Hinv' | exact (j_kid g Hj) | | exact Hlog].
        intros _ q Hq. cbn [set_ctl add_log c_n c_kids c_ctl c_log] in *.
        destruct (Nat.eq_dec q c) as [Hqc | Hqc].
        -- rewrite Hqc, upd_same. eapply just_answered; exact Hjc.
        -- rewrite upd_other with (q := q) by exact Hqc.
           destruct (Nat.eq_dec q (c_fa g c)) as [Hqf | Hqf].
           ++ rewrite Hqf, upd_same.
              eapply (just_gets _ _ _ (c_ctl g)); try exact E; try exact He; try exact Ectl.
              ** exact (i_wf g Hi _ Hf).
              ** apply upd_same.
              ** intros k _ Hk Hok. apply Ho; [| exact Hok].
                 exact (proj1 (j_kid g Hj _ k Hf Hk)).
              ** exact (j_just g Hj Ecr _ Hf).
           ++ rewrite upd_other by exact Hqf. apply just_same; try assumption.
              intros k Hk. apply (Hot q k Hq); [right; exact Hqf | exact Hk].
  - destruct (c <? c_n g) eqn:Ec; [| discriminate]. apply Nat.ltb_lt in Ec.
    destruct c as [| c'].
    + destruct (c_main g); try discriminate.
      destruct (told_quit (c_ctl g 0) true) as [y |] eqn:E; [| discriminate].
      injection H as <-.
      assert (Ho : forall k, k < c_n g -> old (c_ctl g k) -> old (upd (c_ctl g) 0 y k)).
      { intros k Hk Ho. destruct (Nat.eq_dec k 0) as [-> | Hk0].
        - rewrite upd_same. eapply old_told; exact E.
        - rewrite upd_other by exact Hk0. exact Ho. }
      constructor; [exact Hinv' | exact (j_kid g Hj) | | exact (j_log g Hj)].
      intros _ q Hq. cbn [set_main set_ctl c_n c_kids c_ctl c_log] in *.
      destruct (Nat.eq_dec q 0) as [-> | Hq0].
      * rewrite upd_same. apply (just_frame (c_log g) (c_log g) 0 (c_kids g 0) (c_ctl g)).
        -- intros z Hz; exact Hz.
        -- intros k _ Hk; exact Hk.
        -- intros k Hk. apply Ho. exact (proj1 (j_kid g Hj 0 k Hq Hk)).
        -- eapply just_told; [exact (j_just g Hj Ecr 0 Ec) | exact E].
      * rewrite upd_other by exact Hq0. apply just_same; try assumption.
        -- intros z Hz; exact Hz.
        -- intros k _ Hk; exact Hk.
    + remember (S c') as c. assert (Hc0 : 0 < c) by lia.
      destruct (quits (c_ctl g (c_fa g c)) c) as [[kill x] |] eqn:Eq; [| discriminate].
      destruct (told_quit (c_ctl g c) kill) as [y |] eqn:E; [| discriminate].
      injection H as <-.
      assert (Hf : c_fa g c < c_n g) by (pose proof (i_fa g Hi c Hc0 Ec); lia).
      assert (Ho : forall k, k < c_n g -> old (c_ctl g k) ->
                old (upd (upd (c_ctl g) (c_fa g c) x) c y k)).
      { intros k Hk Ho. destruct (Nat.eq_dec k c) as [-> | Hkc].
        - rewrite upd_same. eapply old_told; exact E.
        - rewrite upd_other by exact Hkc. destruct (Nat.eq_dec k (c_fa g c)) as [-> | Hkf].
          + rewrite upd_same. eapply old_quits; [exact Ho | exact Eq].
          + rewrite upd_other by exact Hkf. exact Ho. }
      constructor; [exact Hinv' | exact (j_kid g Hj) | | exact (j_log g Hj)].
      intros _ q Hq. cbn [set_ctl c_n c_kids c_ctl c_log] in *.
      assert (F : forall z, just (c_log g) q (c_kids g q) (c_ctl g) z ->
                just (c_log g) q (c_kids g q) (upd (upd (c_ctl g) (c_fa g c) x) c y) z).
      { intros z Hz. eapply just_frame; [| | | exact Hz].
        - intros e He; exact He.
        - intros k _ Hk; exact Hk.
        - intros k Hk. apply Ho. exact (proj1 (j_kid g Hj q k Hq Hk)). }
      destruct (Nat.eq_dec q c) as [Hqc | Hqc].
      * replace (upd (upd (c_ctl g) (c_fa g c) x) c y q) with y
          by (rewrite Hqc, upd_same; reflexivity).
        apply F. rewrite Hqc. eapply just_told; [exact (j_just g Hj Ecr c Ec) | exact E].
      * rewrite upd_other with (q := q) by exact Hqc.
        destruct (Nat.eq_dec q (c_fa g c)) as [Hqf | Hqf].
        -- replace (upd (c_ctl g) (c_fa g c) x q) with x by (rewrite Hqf, upd_same; reflexivity).
           apply F. rewrite Hqf.
           eapply just_quits; [exact (j_just g Hj Ecr _ Hf) | exact (i_wf g Hi _ Hf) | exact Eq].
        -- rewrite upd_other by exact Hqf. apply F. exact (j_just g Hj Ecr q Hq).
  - destruct ((c <? c_n g) && negb (c =? 0)) eqn:Ec; [| discriminate].
    apply andb_true_iff in Ec. destruct Ec as [Ec Ec0]. apply Nat.ltb_lt in Ec.
    apply negb_true_iff, Nat.eqb_neq in Ec0.
    destruct (tells (c_ctl g (c_fa g c)) c) as [[m x] |] eqn:Et; [| discriminate].
    destruct (c_ctl g c) as [| | gv | | | | | | |] eqn:Ectl; try discriminate.
    injection H as <-.
    assert (Hc0 : 0 < c) by lia.
    assert (Hf : c_fa g c < c_n g) by (pose proof (i_fa g Hi c Hc0 Ec); lia).
    assert (Ho : forall k, k < c_n g -> old (c_ctl g k) ->
              old (upd (upd (c_ctl g) (c_fa g c) x) c (Got m gv) k)).
    { intros k Hk Ho. destruct (Nat.eq_dec k c) as [-> | Hkc].
      - rewrite upd_same. exact Logic.I.
      - rewrite upd_other by exact Hkc. destruct (Nat.eq_dec k (c_fa g c)) as [-> | Hkf].
        + rewrite upd_same. eapply old_tells; exact Et.
        + rewrite upd_other by exact Hkf. exact Ho. }
    constructor; [exact Hinv' | exact (j_kid g Hj) | | exact (j_log g Hj)].
    intros _ q Hq. cbn [set_ctl c_n c_kids c_ctl c_log] in *.
    assert (F : forall z, just (c_log g) q (c_kids g q) (c_ctl g) z ->
              just (c_log g) q (c_kids g q) (upd (upd (c_ctl g) (c_fa g c) x) c (Got m gv)) z).
    { intros z Hz. eapply just_frame; [| | | exact Hz].
      - intros e He; exact He.
      - intros k _ Hk; exact Hk.
      - intros k Hk. apply Ho. exact (proj1 (j_kid g Hj q k Hq Hk)). }
    destruct (Nat.eq_dec q c) as [Hqc | Hqc].
    + replace (upd (upd (c_ctl g) (c_fa g c) x) c (Got m gv) q) with (Got m gv)
        by (rewrite Hqc, upd_same; reflexivity).
      apply F. pose proof (j_just g Hj Ecr c Ec) as Hjc. rewrite Ectl in Hjc. rewrite Hqc. exact Hjc.
    + rewrite upd_other with (q := q) by exact Hqc.
      destruct (Nat.eq_dec q (c_fa g c)) as [Hqf | Hqf].
      * replace (upd (c_ctl g) (c_fa g c) x q) with x by (rewrite Hqf, upd_same; reflexivity).
        apply F. rewrite Hqf.
        eapply just_tells; [exact (j_just g Hj Ecr _ Hf) | exact Et].
      * rewrite upd_other by exact Hqf. apply F. exact (j_just g Hj Ecr q Hq).
Qed.

Lemma jinv_run : forall complete dmt l g g',
  jinv g -> run complete dmt g l = Some g' -> jinv g'.
Proof.
  intros complete dmt l; induction l as [| a l IH]; simpl; intros g g' Hi H.
  - injection H as <-; exact Hi.
  - destruct (exec complete dmt g a) as [g1 |] eqn:E; [| discriminate].
    exact (IH g1 g' (jinv_exec _ _ _ _ _ Hi E) H).
Qed.

Theorem answers_justified : forall complete dmt g,
  reach complete dmt g -> all_justified (c_log g).
Proof.
  intros complete dmt g (id & l & H). exact (j_log _ (jinv_run _ _ _ _ _ (jinv_start id) H)).
Qed.

(** ** The tree of closed answers *)

Lemma last_in : forall l k a, last_answer l k = Some a ->
  exists e, In e l /\ e_pid e = k /\ e_ans e = a.
Proof.
  intros l k a; induction l as [| e l IH]; simpl; [discriminate |].
  destruct (e_pid e =? k) eqn:E.
  - intro H. injection H as H. apply Nat.eqb_eq in E. exists e; auto.
  - intro H. destruct (IH H) as (e' & H1 & H2). exists e'; auto.
Qed.

Lemma supported_mono : forall l l' e, incl l l' -> supported l e -> supported l' e.
Proof.
  intros l l' e Hi. revert e. fix IH 2. intros e H. destruct H as [e H1 H2 H3 | e e' s H1 H2 H3 H4 H5 H6].
  - apply Sup_kids; [apply Hi; exact H1 | exact H2 |].
    intros k Hk. destruct (H3 k Hk) as (e' & H4 & H5). exists e'. split; [exact H4 | exact (IH e' H5)].
  - apply (Sup_again l' e e' s); try assumption; [apply Hi; exact H1 | exact (IH e' H6)].
Qed.

Lemma justified_supported : forall l, all_justified l ->
  forall e, In e l -> closed (e_ans e) = true -> supported l e.
Proof.
  intro l; induction l as [| e0 l IH]; simpl; [intros _ e [] |].
  intros [Hj Hl] e He Hc.
  assert (Hi : incl l (e0 :: l)) by (intros z Hz; right; exact Hz).
  destruct He as [He | He]; [| exact (supported_mono _ _ _ Hi (IH Hl e He Hc))].
  subst e0. destruct (Hj Hc) as [H | (s & e' & H1 & H2 & H3 & H4 & H5)].
  - apply Sup_kids; [left; reflexivity | exact Hc |].
    intros k Hk. destruct (H k Hk) as (a & Ha & Hac).
    destruct (last_in _ _ _ Ha) as (e' & H1 & H2 & H3). exists e'. split; [exact H2 |].
    apply (supported_mono _ _ _ Hi). apply (IH Hl e' H1). rewrite H3; exact Hac.
  - apply (Sup_again _ e e' s); try assumption; [left; reflexivity |].
    apply (supported_mono _ _ _ Hi). apply (IH Hl e' H2 H4).
Qed.

Theorem answers_supported : forall complete dmt g e,
  reach complete dmt g -> In e (c_log g) -> closed (e_ans e) = true ->
  supported (c_log g) e.
Proof.
  intros complete dmt g e H. apply justified_supported, (answers_justified complete dmt g H).
Qed.
