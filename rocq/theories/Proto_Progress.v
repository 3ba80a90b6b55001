(** Every execution keeps the invariant; some process can always go on. *)

Require Import Coq.Lists.List Coq.Arith.PeanoNat Coq.Bool.Bool Coq.micromega.Lia Coq.Init.Wf.
From Verif Require Import Proto_Model Proto_Spec Proto_Proofs.
Import ListNotations.

Lemma inv_log : forall g e, inv g -> inv (add_log g e).
Proof. intros g e [H0 Hm Hw He Hf]; constructor; assumption. Qed.

Lemma inv_crash : forall g, inv g -> inv (set_crash g).
Proof. intros g [H0 Hm Hw He Hf]; constructor; assumption. Qed.

Lemma inv_start : forall id, inv (start id).
Proof.
  intro id; constructor; simpl; intros; try lia; try exact Logic.I; discriminate.
Qed.

Lemma after_cls : forall a gv, cls_of (after_answer a gv) = if need a then Idl else Gon.
Proof. intros; unfold after_answer; destruct (need a); reflexivity. Qed.

Lemma after_wf : forall a gv, wf (after_answer a gv).
Proof. intros; unfold after_answer; destruct (need a); exact Logic.I. Qed.

Lemma after_exp : forall a gv d, expects (after_answer a gv) d = None.
Proof. intros; unfold after_answer; destruct (need a); reflexivity. Qed.

Theorem inv_exec : forall complete dmt g a g',
  inv g -> exec complete dmt g a = Some g' -> inv g'.
Proof.
  intros complete dmt g a g' Hi H. unfold exec in H.
  destruct (c_crash g); [discriminate |].
  destruct a as [p ch | p | c | c | c].
  - destruct (p <? c_n g) eqn:Ep; [| discriminate]. apply Nat.ltb_lt in Ep.
    destruct (internal complete dmt (c_orig g p) (c_n g) (c_ctl g p) ch)
      as [[x [os |]] |] eqn:E; try discriminate; injection H as <-.
    + destruct (internal_launch _ _ _ _ _ _ _ _ E) as (w & -> & Ha & Hc & _).
      apply inv_launch; assumption.
    + destruct (step_internal _ _ _ _ _ _ _ (i_wf g Hi p Ep) E) as (Hw & Hc & Hx & _).
      apply inv_one; assumption.
  - destruct ((p <? c_n g) && may_crash (c_ctl g p)); [| discriminate].
    injection H as <-. apply inv_crash; exact Hi.
  - destruct (c <? c_n g) eqn:Ec; [| discriminate]. apply Nat.ltb_lt in Ec.
    destruct (c_ctl g c) as [| a gv | | | | | | | |] eqn:Ectl; try discriminate.
    destruct c as [| c'].
    + destruct (c_main g) eqn:Em; try discriminate. injection H as <-.
      apply (inv_root (add_log g _)).
      * apply inv_log; exact Hi.
      * apply after_wf.
      * rewrite after_cls. destruct (need a); exact Logic.I.
      * intros d e' He'. rewrite after_exp in He'. discriminate.
    + remember (S c') as c. assert (Hc0 : 0 < c) by lia.
      destruct (gets (c_ctl g (c_fa g c)) c (c_orig g c) a) as [| | x] eqn:E;
        try discriminate; injection H as <-.
      * apply inv_crash, inv_log; exact Hi.
      * assert (Hf : c_fa g c < c_n g) by (pose proof (i_fa g Hi c Hc0 Ec); lia).
        assert (He : exists e, expects (c_ctl g (c_fa g c)) c = Some e /\ sat e Act).
        { destruct (gets_expects _ _ _ _ _ E) as [e He]; [discriminate |].
          exists e; split; [exact He |].
          destruct (i_exp g Hi _ _ _ Hf He) as (_ & _ & _ & Hs). rewrite Ectl in Hs.
          exact Hs. }
        destruct (gets_step _ _ _ _ _ (i_wf g Hi _ Hf) He E)
          as (Hw & Hc & Hle & Hsat & _ & _).
        apply (inv_two (add_log g _)); try assumption; try reflexivity.
        -- apply inv_log; exact Hi.
        -- apply after_wf.
        -- rewrite after_cls. exact Hsat.
        -- intros d e' He'. rewrite after_exp in He'. discriminate.
  - destruct (c <? c_n g) eqn:Ec; [| discriminate]. apply Nat.ltb_lt in Ec.
    destruct c as [| c'].
    + destruct (c_main g); try discriminate.
      destruct (told_quit (c_ctl g 0) true) as [y |] eqn:E; [| discriminate].
      injection H as <-.
      destruct (told_quit_step _ _ _ (i_wf g Hi 0 Ec) E) as (Hw & Hc & Hx & _).
      apply inv_root; try assumption. rewrite Hc; exact Logic.I.
    + remember (S c') as c. assert (Hc0 : 0 < c) by lia.
      destruct (quits (c_ctl g (c_fa g c)) c) as [[kill x] |] eqn:Eq; [| discriminate].
      destruct (told_quit (c_ctl g c) kill) as [y |] eqn:E; [| discriminate].
      injection H as <-.
      assert (Hf : c_fa g c < c_n g) by (pose proof (i_fa g Hi c Hc0 Ec); lia).
      destruct (quits_step _ _ _ _ (i_wf g Hi _ Hf) Eq) as (Hw & Hc & Hle & Hxc & _).
      destruct (told_quit_step _ _ _ (i_wf g Hi c Ec) E) as (Hw' & Hc' & Hx & _).
      apply inv_two; try assumption; try reflexivity.
      intros e' He'. rewrite Hxc in He'. rewrite Hc'. destruct kill; [discriminate |].
      injection He' as <-. exact Logic.I.
  - destruct ((c <? c_n g) && negb (c =? 0)) eqn:Ec; [| discriminate].
    apply andb_true_iff in Ec. destruct Ec as [Ec Ec0]. apply Nat.ltb_lt in Ec.
    apply negb_true_iff, Nat.eqb_neq in Ec0.
    destruct (tells (c_ctl g (c_fa g c)) c) as [[m x] |] eqn:Et; [| discriminate].
    destruct (c_ctl g c) as [| | gv | | | | | | |] eqn:Ectl; try discriminate.
    injection H as <-.
    assert (Hc0 : 0 < c) by lia.
    assert (Hf : c_fa g c < c_n g) by (pose proof (i_fa g Hi c Hc0 Ec); lia).
    destruct (tells_step _ _ _ _ (i_wf g Hi _ Hf) Et) as (Hw & Hc & Hle & Hxc & _).
    apply inv_two; try assumption; try reflexivity.
    + intros e' He'. rewrite Hxc in He'. injection He' as <-. exact Logic.I.
    + intros d e' He'. discriminate.
Qed.

Lemma inv_run : forall complete dmt l g g',
  inv g -> run complete dmt g l = Some g' -> inv g'.
Proof.
  intros complete dmt l; induction l as [| a l IH]; simpl; intros g g' Hi H.
  - injection H as <-; exact Hi.
  - destruct (exec complete dmt g a) as [g1 |] eqn:E; [| discriminate].
    exact (IH g1 g' (inv_exec _ _ _ _ _ Hi E) H).
Qed.

Theorem inv_reach : forall complete dmt g, reach complete dmt g -> inv g.
Proof.
  intros complete dmt g (id & l & H). exact (inv_run _ _ _ _ _ (inv_start id) H).
Qed.

(** ** Progress *)

Definition acts (g : cfg) (complete dmt : bool) (a : action) : Prop :=
  exec complete dmt g a <> None.

Lemma moves_acts : forall complete dmt g a,
  exec complete dmt g a <> None ->
  (forall p, a = ACrash p -> must_fail (c_ctl g p)) -> moves complete dmt g.
Proof.
  intros complete dmt g a H Hp.
  destruct (exec complete dmt g a) as [g' |] eqn:E; [| congruence].
  exists a, g'; split; assumption.
Qed.

Lemma moves_int : forall complete dmt g p ch,
  c_crash g = false -> p < c_n g ->
  internal complete dmt (c_orig g p) (c_n g) (c_ctl g p) ch <> None ->
  moves complete dmt g.
Proof.
  intros complete dmt g p ch Hc Hp H. apply (moves_acts complete dmt g (AInt p ch)).
  - unfold exec. rewrite Hc. apply Nat.ltb_lt in Hp; rewrite Hp.
    destruct (internal complete dmt (c_orig g p) (c_n g) (c_ctl g p) ch)
      as [[x [os |]] |]; congruence.
  - intros q Hq; discriminate.
Qed.

Lemma moves_crash : forall complete dmt g p,
  c_crash g = false -> p < c_n g -> may_crash (c_ctl g p) = true ->
  must_fail (c_ctl g p) -> moves complete dmt g.
Proof.
  intros complete dmt g p Hc Hp H Hm. apply (moves_acts complete dmt g (ACrash p)).
  - unfold exec. rewrite Hc, H. apply Nat.ltb_lt in Hp; rewrite Hp. discriminate.
  - intros q Hq; injection Hq as <-; exact Hm.
Qed.

Lemma moves_answer : forall complete dmt g c a gv,
  c_crash g = false -> 0 < c -> c < c_n g -> c_ctl g c = Sending a gv ->
  gets (c_ctl g (c_fa g c)) c (c_orig g c) a <> No -> moves complete dmt g.
Proof.
  intros complete dmt g c a gv Hc H0 Hn He H.
  apply (moves_acts complete dmt g (AAnswer c)).
  - unfold exec. rewrite Hc. apply Nat.ltb_lt in Hn; rewrite Hn, He.
    destruct c as [| c]; [lia |].
    destruct (gets (c_ctl g (c_fa g (S c))) (S c) (c_orig g (S c)) a); congruence.
  - intros q Hq; discriminate.
Qed.

Lemma moves_quit : forall complete dmt g c,
  c_crash g = false -> 0 < c -> c < c_n g ->
  quits (c_ctl g (c_fa g c)) c <> None ->
  (forall kill, told_quit (c_ctl g c) kill <> None) -> moves complete dmt g.
Proof.
  intros complete dmt g c Hc H0 Hn H H'.
  apply (moves_acts complete dmt g (AQuit c)).
  - unfold exec. rewrite Hc. apply Nat.ltb_lt in Hn; rewrite Hn.
    destruct c as [| c]; [lia |].
    destruct (quits (c_ctl g (c_fa g (S c))) (S c)) as [[kill x] |]; [| congruence].
    specialize (H' kill). destruct (told_quit (c_ctl g (S c)) kill); congruence.
  - intros q Hq; discriminate.
Qed.

(** A process that is neither answering nor waiting for its father, and has
    not ended, can go on, or one of its descendants can. *)
Definition busy (x : ctl) : Prop :=
  match x with
  | Sending _ _ | WaitFather _ | Dead => False
  | _ => True
  end.

Lemma busy_moves : forall complete dmt g,
  inv g -> c_crash g = false ->
  forall k p, c_n g - p <= k -> p < c_n g -> busy (c_ctl g p) -> moves complete dmt g.
Proof.
  intros complete dmt g Hi Hcr k. induction k as [| k IH]; intros p Hk Hp Hb; [lia |].
  pose proof (i_wf g Hi p Hp) as Hw.
  (* a child the father is closing *)
  assert (Hclose : forall c e, expects (c_ctl g p) c = Some e ->
            (e = EIdl \/ e = ELive) -> quits (c_ctl g p) c <> None ->
            (forall a, e = ELive -> gets (c_ctl g p) c (c_orig g c) a <> No) ->
            moves complete dmt g).
  { intros c e He Hee Hq Hg.
    destruct (i_exp g Hi p c e Hp He) as (H1 & H2 & H3 & H4).
    destruct (c_ctl g c) as [| a gv | gv | m gv | w s | w | kill todo kept kk
      | v kill todo kept kk | m todo w |] eqn:Ec.
    - apply (moves_int complete dmt g c (CLeaf (Answer true false []))); try assumption.
      rewrite Ec. discriminate.
    - destruct Hee as [-> | ->]; [destruct H4 |].
      apply (moves_answer complete dmt g c a gv); try assumption; try lia.
      rewrite H3. apply Hg. reflexivity.
    - apply (moves_quit complete dmt g c); try assumption; try lia.
      + rewrite H3. exact Hq.
      + intro kill. rewrite Ec. discriminate.
    - apply (IH c); try assumption; try lia. rewrite Ec; exact Logic.I.
    - apply (IH c); try assumption; try lia. rewrite Ec; exact Logic.I.
    - apply (IH c); try assumption; try lia. rewrite Ec; exact Logic.I.
    - apply (IH c); try assumption; try lia. rewrite Ec; exact Logic.I.
    - apply (IH c); try assumption; try lia. rewrite Ec; exact Logic.I.
    - apply (IH c); try assumption; try lia. rewrite Ec; exact Logic.I.
    - destruct Hee as [-> | ->]; destruct H4. }
  destruct (c_ctl g p) as [| a gv | gv | m gv | w s | w | kill todo kept kk
    | v kill todo kept kk | m todo w |] eqn:Ep; try destruct Hb.
  - apply (moves_int complete dmt g p (CLeaf (Answer true false []))); try assumption.
    rewrite Ep. discriminate.
  - apply (moves_int complete dmt g p CDone); try assumption.
    rewrite Ep. cbn [internal]. destruct m as [x |]; [destruct (memb x gv) |]; discriminate.
  - destruct (s_rem s) as [| r] eqn:Er.
    + destruct (decide w s) as [| l | l] eqn:Ed.
      * apply (moves_int complete dmt g p (CSelect 0 [])); try assumption.
        rewrite Ep. cbn [internal]. rewrite Er. unfold after_select. rewrite Ed.
        destruct (w_cur w); discriminate.
      * apply (moves_int complete dmt g p (CSelect 0 [])); try assumption.
        rewrite Ep. cbn [internal]. rewrite Er. unfold after_select. rewrite Ed. discriminate.
      * destruct l as [| x l].
        -- apply (moves_crash complete dmt g p); try assumption.
           ++ rewrite Ep. simpl. rewrite Er, Ed. reflexivity.
           ++ rewrite Ep. right. exists w, s. split; [reflexivity | split; assumption].
        -- apply (moves_int complete dmt g p (CSelect 0 [])); try assumption.
           rewrite Ep. cbn [internal]. rewrite Er. unfold after_select. rewrite Ed.
           discriminate.
    + destruct Hw as (Hn & Hg & Hin & Hj & Hl).
      destruct (missing (w_alive w) (s_got s)) as [c [Hca Hcg]]; [exact Hn | lia |].
      assert (He : expects (Waiting w s) c = Some EAct).
      { simpl. apply memb_in in Hca. rewrite Hca.
        replace (memb c (s_gone s)) with false
          by (symmetry; apply memb_not; intro Hx; apply Hcg, Hj, Hx).
        apply memb_not in Hcg. rewrite Hcg. reflexivity. }
      rewrite <- Ep in He.
      destruct (i_exp g Hi p c _ Hp He) as (H1 & H2 & H3 & H4).
      destruct (c_ctl g c) as [| a gv | gv | m gv | w' s' | w' | kill todo kept kk
        | v kill todo kept kk | m todo w' |] eqn:Ec; try destruct H4.
      * apply (IH c); try assumption; try lia. rewrite Ec; exact Logic.I.
      * apply (moves_answer complete dmt g c a gv); try assumption; try lia.
        rewrite H3, Ep. cbn [gets]. apply memb_in in Hca. rewrite Hca, Er.
        destruct (index (c_orig g c) (w_order w)); [| discriminate].
        destruct (closed a); discriminate.
      * apply (IH c); try assumption; try lia. rewrite Ec; exact Logic.I.
      * apply (IH c); try assumption; try lia. rewrite Ec; exact Logic.I.
      * apply (IH c); try assumption; try lia. rewrite Ec; exact Logic.I.
      * apply (IH c); try assumption; try lia. rewrite Ec; exact Logic.I.
      * apply (IH c); try assumption; try lia. rewrite Ec; exact Logic.I.
      * apply (IH c); try assumption; try lia. rewrite Ec; exact Logic.I.
  - apply (moves_int complete dmt g p (COpened 0 0 None)); try assumption.
    rewrite Ep. cbn [internal]. unfold opened.
    destruct (w_onf w); [destruct (w_forms w) |]; try discriminate;
      (destruct (w_bt w) as [| b bt];
       [ destruct (complete && (1 <? length (w_alive w)) &&
           match w_cur w with Some _ => true | None => false end) | ]; discriminate).
  - destruct todo as [| c todo].
    + destruct kk.
      5: { apply (moves_crash complete dmt g p); try assumption.
           - rewrite Ep. reflexivity.
           - rewrite Ep. left. exists kill, kept. reflexivity. }
      all: apply (moves_int complete dmt g p CDone); try assumption;
        rewrite Ep; discriminate.
    + apply (Hclose c (kexp kk)).
      * simpl. rewrite Nat.eqb_refl. reflexivity.
      * destruct kk; simpl; tauto.
      * simpl. rewrite Nat.eqb_refl. discriminate.
      * intros a _. simpl. rewrite Nat.eqb_refl. destruct (need a); discriminate.
  - apply (Hclose v EIdl).
    + simpl. rewrite Nat.eqb_refl. reflexivity.
    + left; reflexivity.
    + simpl. rewrite Nat.eqb_refl. discriminate.
    + intros a He; discriminate.
  - destruct todo as [| c todo].
    + apply (moves_int complete dmt g p CDone); try assumption. rewrite Ep. discriminate.
    + assert (He : expects (c_ctl g p) c = Some EIdl).
      { rewrite Ep. simpl. rewrite Nat.eqb_refl. reflexivity. }
      destruct (i_exp g Hi p c _ Hp He) as (H1 & H2 & H3 & H4).
      destruct (c_ctl g c) as [| a gv | gv | m' gv | w' s' | w' | kill todo' kept kk
        | v kill todo' kept kk | m' todo' w' |] eqn:Ec; try destruct H4.
      * apply (moves_acts complete dmt g (ATell c)); [| intros q Hq; discriminate].
        unfold exec. rewrite Hcr. apply Nat.ltb_lt in H2; rewrite H2.
        replace (c =? 0) with false by (symmetry; apply Nat.eqb_neq; lia).
        rewrite H3, Ep, Ec. simpl. rewrite Nat.eqb_refl. discriminate.
      * apply (IH c); try assumption; try lia. rewrite Ec; exact Logic.I.
      * apply (IH c); try assumption; try lia. rewrite Ec; exact Logic.I.
Qed.

(** The main program always gets its answer, or something can happen. *)
Theorem progress : forall complete dmt g,
  reach complete dmt g -> c_crash g = false -> c_main g <> MDone ->
  moves complete dmt g.
Proof.
  intros complete dmt g Hr Hc Hm. pose proof (inv_reach _ _ _ Hr) as Hi.
  pose proof (i_main g Hi) as Hm0. pose proof (i_pos g Hi) as H0.
  destruct (c_main g) eqn:Em; [| | congruence].
  - destruct (c_ctl g 0) as [| a gv | gv | m gv | w s | w | kill todo kept kk
      | v kill todo kept kk | m todo w |] eqn:E; try destruct Hm0;
      try (apply (busy_moves complete dmt g Hi Hc (c_n g) 0); try lia; rewrite E; exact Logic.I).
    apply (moves_acts complete dmt g (AAnswer 0)); [| intros q Hq; discriminate].
    unfold exec. rewrite Hc, E, Em. apply Nat.ltb_lt in H0; rewrite H0. discriminate.
  - destruct (c_ctl g 0) as [| a gv | gv | m gv | w s | w | kill todo kept kk
      | v kill todo kept kk | m todo w |] eqn:E; try destruct Hm0;
      try (apply (busy_moves complete dmt g Hi Hc (c_n g) 0); try lia; rewrite E; exact Logic.I).
    apply (moves_acts complete dmt g (AQuit 0)); [| intros q Hq; discriminate].
    unfold exec. rewrite Hc, E, Em. apply Nat.ltb_lt in H0; rewrite H0. discriminate.
Qed.

(** ** No process is left behind without deduction modulo *)

Definition no_onf_w (w : wargs) : Prop := w_onf w = false.

Definition no_onf (x : ctl) : Prop :=
  match x with
  | Waiting w _ | Opened w | SendSub _ _ w => no_onf_w w
  | Closing _ _ _ (KOpened w) | ClosingQuit _ _ _ _ (KOpened w) => no_onf_w w
  | _ => True
  end.

Definition plain (g : cfg) : Prop := forall p, p < c_n g -> no_onf (c_ctl g p).

Lemma no_onf_internal : forall complete o n x ch y os,
  no_onf x -> internal complete false o n x ch = Some (y, os) -> no_onf y.
Proof.
  intros complete o n x ch y os Hx H.
  destruct x as [| a g | g | m g | w s | w | kill todo kept k | v kill todo kept k | m todo w |];
    destruct ch as [ids | id cur forms | a' | i l | i id cur |]; try discriminate H;
    cbn [internal] in H;
    try (destruct todo; discriminate H).
  - injection H as <- _. reflexivity.
  - destruct (leaf_answer a'); [| discriminate]. injection H as <- _. exact Logic.I.
  - destruct m as [x |]; [destruct (memb x g) |]; injection H as <- _;
      reflexivity || exact Logic.I.
  - destruct (s_rem s); [| discriminate]. unfold after_select in H.
    destruct (decide w s) as [| r | r].
    + destruct (w_cur w); injection H as <- _; exact Logic.I.
    + injection H as <- _; exact Logic.I.
    + destruct (choose i r) as [[x r'] |]; [| discriminate]. injection H as <- _. reflexivity.
  - unfold opened in H. simpl in Hx. unfold no_onf_w in Hx. rewrite Hx in H.
    destruct (w_bt w) as [| b bt].
    + destruct (complete && (1 <? length (w_alive w)) &&
                match w_cur w with Some _ => true | None => false end);
        injection H as <- _; reflexivity || exact Logic.I.
    + destruct (choose i (b :: bt)) as [[x r] |]; [| discriminate].
      injection H as <- _; reflexivity.
  - destruct todo; [| discriminate]. destruct k; try discriminate; injection H as <- _;
      exact Logic.I || exact Hx.
  - destruct todo; [| discriminate]. injection H as <- _. exact Hx.
Qed.

Lemma no_onf_gets : forall x c o a x', no_onf x -> gets x c o a = To x' -> no_onf x'.
Proof.
  intros x c o a x' Hx H.
  destruct x as [| a0 g | g | m g | w s | w | kill todo kept k | v kill todo kept k | m todo w |];
    try discriminate H; cbn [gets] in H.
  - destruct (memb c (w_alive w)); [| discriminate].
    destruct (s_rem s); [discriminate |].
    destruct (index o (w_order w)); [| discriminate].
    destruct (closed a); injection H as <-; exact Hx.
  - destruct todo as [| v todo]; [discriminate |].
    destruct (v =? c); [| discriminate]. destruct (need a); injection H as <-; exact Hx.
Qed.

Lemma no_onf_quits : forall x c b x', no_onf x -> quits x c = Some (b, x') -> no_onf x'.
Proof.
  intros x c b x' Hx H.
  destruct x as [| a0 g | g | m g | w s | w | kill todo kept k | v kill todo kept k | m todo w |];
    try discriminate H; cbn [quits] in H.
  - destruct todo as [| v todo]; [discriminate |].
    destruct (v =? c); [| discriminate]. injection H as <- <-; exact Hx.
  - destruct (v =? c); [| discriminate]. injection H as <- <-; exact Hx.
Qed.

Lemma no_onf_told : forall y kill y', told_quit y kill = Some y' -> no_onf y'.
Proof.
  intros y kill y' H.
  destruct y as [| a0 g | g | m g | w s | w | kill0 todo kept k | v kill0 todo kept k | m todo w |];
    try discriminate H; cbn [told_quit] in H.
  1-3: injection H as <-; destruct kill; exact Logic.I.
  assert (E : y' = Closing true (drop (s_gone s) (w_alive w)) []
                     (if kill then KDead else KWait (w_given w))).
  { destruct (s_rem s), (w_alive w); congruence. }
  subst y'. destruct kill; exact Logic.I.
Qed.

Lemma no_onf_tells : forall x c m x', no_onf x -> tells x c = Some (m, x') -> no_onf x'.
Proof.
  intros x c m x' Hx H.
  destruct x as [| a0 g | g | m0 g | w s | w | kill todo kept k | v kill todo kept k | m0 todo w |];
    try discriminate H; cbn [tells] in H.
  destruct todo as [| v todo]; [discriminate |].
  destruct (v =? c); [| discriminate]. injection H as <- <-; exact Hx.
Qed.

Lemma no_onf_after : forall a gv, no_onf (after_answer a gv).
Proof. intros; unfold after_answer; destruct (need a); exact Logic.I. Qed.

Lemma plain_upd : forall g p y, plain g -> no_onf y -> forall q, q < c_n g ->
  no_onf (upd (c_ctl g) p y q).
Proof.
  intros g p y H Hy q Hq. unfold upd. destruct (q =? p); [exact Hy | apply H; exact Hq].
Qed.

Lemma plain_upd2 : forall g p x c y, plain g -> no_onf x -> no_onf y ->
  forall q, q < c_n g -> no_onf (upd (upd (c_ctl g) p x) c y q).
Proof.
  intros g p x c y H Hx Hy q Hq. unfold upd.
  destruct (q =? c); [exact Hy |]. destruct (q =? p); [exact Hx | apply H; exact Hq].
Qed.

Theorem plain_exec : forall complete g a g',
  inv g -> plain g -> exec complete false g a = Some g' -> plain g'.
Proof.
  intros complete g a g' Hi Hpl H. unfold exec in H.
  destruct (c_crash g); [discriminate |].
  destruct a as [p ch | p | c | c | c].
  - destruct (p <? c_n g) eqn:Ep; [| discriminate]. apply Nat.ltb_lt in Ep.
    destruct (internal complete false (c_orig g p) (c_n g) (c_ctl g p) ch)
      as [[x [os |]] |] eqn:E; try discriminate; injection H as <-;
      pose proof (no_onf_internal _ _ _ _ _ _ _ (Hpl p Ep) E) as Hx.
    + intros q Hq. simpl in *. destruct (q =? p) eqn:E2; [exact Hx |].
      destruct ((c_n g <=? q) && (q <? c_n g + length os)) eqn:E3; [exact Logic.I |].
      apply Hpl. apply andb_false_iff in E3. rewrite Nat.leb_gt, Nat.ltb_ge in E3. lia.
    + intros q Hq. apply plain_upd; assumption.
  - destruct ((p <? c_n g) && may_crash (c_ctl g p)); [| discriminate].
    injection H as <-. exact Hpl.
  - destruct (c <? c_n g) eqn:Ec; [| discriminate]. apply Nat.ltb_lt in Ec.
    destruct (c_ctl g c) as [| a gv | | | | | | | |] eqn:Ectl; try discriminate.
    destruct c as [| c'].
    + destruct (c_main g) eqn:Em; try discriminate. injection H as <-.
      intros q Hq. apply plain_upd; try assumption. apply no_onf_after.
    + remember (S c') as c. assert (Hc0 : 0 < c) by lia.
      pose proof (i_fa g Hi c Hc0 Ec) as Hf.
      destruct (gets (c_ctl g (c_fa g c)) c (c_orig g c) a) as [| | x] eqn:E;
        try discriminate; injection H as <-.
      * exact Hpl.
      * intros q Hq. apply plain_upd2; try assumption; [| apply no_onf_after].
        apply (no_onf_gets _ _ _ _ _ (Hpl (c_fa g c) ltac:(lia)) E).
  - destruct (c <? c_n g) eqn:Ec; [| discriminate]. apply Nat.ltb_lt in Ec.
    destruct c as [| c'].
    + destruct (c_main g); try discriminate.
      destruct (told_quit (c_ctl g 0) true) as [y |] eqn:E; [| discriminate].
      injection H as <-. intros q Hq. apply plain_upd; try assumption.
      exact (no_onf_told _ _ _ E).
    + remember (S c') as c. assert (Hc0 : 0 < c) by lia.
      pose proof (i_fa g Hi c Hc0 Ec) as Hf.
      destruct (quits (c_ctl g (c_fa g c)) c) as [[kill x] |] eqn:Eq; [| discriminate].
      destruct (told_quit (c_ctl g c) kill) as [y |] eqn:E; [| discriminate].
      injection H as <-. intros q Hq. apply plain_upd2; try assumption.
      * exact (no_onf_quits _ _ _ _ (Hpl (c_fa g c) ltac:(lia)) Eq).
      * exact (no_onf_told _ _ _ E).
  - destruct ((c <? c_n g) && negb (c =? 0)) eqn:Ec; [| discriminate].
    apply andb_true_iff in Ec. destruct Ec as [Ec Ec0]. apply Nat.ltb_lt in Ec.
    apply negb_true_iff, Nat.eqb_neq in Ec0.
    destruct (tells (c_ctl g (c_fa g c)) c) as [[m x] |] eqn:Et; [| discriminate].
    destruct (c_ctl g c) as [| | gv | | | | | | |] eqn:Ectl; try discriminate.
    injection H as <-. assert (Hc0 : 0 < c) by lia.
    pose proof (i_fa g Hi c Hc0 Ec) as Hf.
    intros q Hq. apply plain_upd2; try assumption; [| exact Logic.I].
    exact (no_onf_tells _ _ _ _ (Hpl (c_fa g c) ltac:(lia)) Et).
Qed.

Theorem held_exec : forall complete dmt (P : cls -> Prop) g a g',
  P Gon -> (plain g \/ P Idl) ->
  inv g -> held P g -> exec complete dmt g a = Some g' -> held P g'.
Proof.
  intros complete dmt P g a g' HP Hpl Hi Hh H. unfold exec in H.
  destruct (c_crash g); [discriminate |].
  assert (Hgon : forall p c, p < c_n g -> expects (c_ctl g p) c = Some EGon ->
                   P (cls_of (c_ctl g c))).
  { intros p c Hp He. destruct (i_exp g Hi p c _ Hp He) as (_ & _ & _ & Hs).
    destruct (cls_of (c_ctl g c)); [destruct Hs | destruct Hs | exact HP]. }
  destruct a as [p ch | p | c | c | c].
  - destruct (p <? c_n g) eqn:Ep; [| discriminate]. apply Nat.ltb_lt in Ep.
    destruct (internal complete dmt (c_orig g p) (c_n g) (c_ctl g p) ch)
      as [[x [os |]] |] eqn:E; try discriminate; injection H as <-.
    + destruct (internal_launch _ _ _ _ _ _ _ _ E) as (w & -> & Ha & Hc & Hx).
      apply held_launch; try assumption.
      intros c e Hce. destruct Hx as [Hx | (w0 & Hw0 & Hon & _)].
      * rewrite Hx in Hce; discriminate.
      * destruct Hpl as [Hpl | Hidl].
        -- pose proof (Hpl p Ep) as Hpp. rewrite Hw0 in Hpp. simpl in Hpp.
           unfold no_onf_w in Hpp. congruence.
        -- destruct (i_exp g Hi p c e Ep Hce) as (_ & _ & _ & Hs).
           rewrite Hw0 in Hce. simpl in Hce.
           destruct (memb c (w_alive w0)); [| discriminate]. injection Hce as <-.
           destruct (cls_of (c_ctl g c)); [destruct Hs | exact Hidl | destruct Hs].
    + destruct (step_internal _ _ _ _ _ _ _ (i_wf g Hi p Ep) E) as (Hw & Hc & _ & Hx).
      apply held_one; try assumption.
      intros c Hfa Hcn Hc0 Hy. destruct (Hx c Hy) as [H1 | H1]; [left; exact H1 |].
      right. exact (Hgon p c Ep H1).
  - destruct ((p <? c_n g) && may_crash (c_ctl g p)); [| discriminate].
    injection H as <-. exact Hh.
  - destruct (c <? c_n g) eqn:Ec; [| discriminate]. apply Nat.ltb_lt in Ec.
    destruct (c_ctl g c) as [| a gv | | | | | | | |] eqn:Ectl; try discriminate.
    destruct c as [| c'].
    + destruct (c_main g) eqn:Em; try discriminate. injection H as <-.
      apply (held_root P (add_log g _)).
      * apply inv_log; exact Hi.
      * exact Hh.
      * intros d _. left. simpl. rewrite Ectl. reflexivity.
    + remember (S c') as c. assert (Hc0 : 0 < c) by lia.
      destruct (gets (c_ctl g (c_fa g c)) c (c_orig g c) a) as [| | x] eqn:E;
        try discriminate; injection H as <-.
      * exact Hh.
      * assert (Hf : c_fa g c < c_n g) by (pose proof (i_fa g Hi c Hc0 Ec); lia).
        assert (He : exists e, expects (c_ctl g (c_fa g c)) c = Some e /\ sat e Act).
        { destruct (gets_expects _ _ _ _ _ E) as [e He]; [discriminate |].
          exists e; split; [exact He |].
          destruct (i_exp g Hi _ _ _ Hf He) as (_ & _ & _ & Hs). rewrite Ectl in Hs.
          exact Hs. }
        destruct (gets_step _ _ _ _ _ (i_wf g Hi _ Hf) He E)
          as (Hw & Hc & Hle & Hsat & Hnone & Hoth).
        apply (held_two P (add_log g _)); try assumption; try reflexivity.
        -- apply inv_log; exact Hi.
        -- intros d Hd Hx. destruct (Hoth d Hd Hx) as [H1 | H1]; [left; exact H1 |].
           right. intros _. exact (Hgon _ _ Hf H1).
        -- intro Hx. rewrite after_cls, (Hnone Hx). exact HP.
        -- intros d _. left. simpl. rewrite Ectl. reflexivity.
  - destruct (c <? c_n g) eqn:Ec; [| discriminate]. apply Nat.ltb_lt in Ec.
    destruct c as [| c'].
    + destruct (c_main g); try discriminate.
      destruct (told_quit (c_ctl g 0) true) as [y |] eqn:E; [| discriminate].
      injection H as <-.
      destruct (told_quit_step _ _ _ (i_wf g Hi 0 Ec) E) as (Hw & Hc & _ & Hx).
      apply held_root; try assumption.
      intros d Hd. destruct (Hx d Hd) as [H1 | H1]; [left; exact H1 |].
      right. intros _. exact (Hgon _ _ Ec H1).
    + remember (S c') as c. assert (Hc0 : 0 < c) by lia.
      destruct (quits (c_ctl g (c_fa g c)) c) as [[kill x] |] eqn:Eq; [| discriminate].
      destruct (told_quit (c_ctl g c) kill) as [y |] eqn:E; [| discriminate].
      injection H as <-.
      assert (Hf : c_fa g c < c_n g) by (pose proof (i_fa g Hi c Hc0 Ec); lia).
      destruct (quits_step _ _ _ _ (i_wf g Hi _ Hf) Eq) as (Hw & Hc & Hle & Hxc & Hoth & _).
      destruct (told_quit_step _ _ _ (i_wf g Hi c Ec) E) as (Hw' & Hc' & _ & Hx).
      apply held_two; try assumption; try reflexivity.
      * intros d Hd Hn. left. exact (Hoth d Hd Hn).
      * intro Hn. rewrite Hxc in Hn. rewrite Hc'. destruct kill; [exact HP | discriminate].
      * intros d Hd. destruct (Hx d Hd) as [H1 | H1]; [left; exact H1 |].
        right. exact (Hgon _ _ Ec H1).
  - destruct ((c <? c_n g) && negb (c =? 0)) eqn:Ec; [| discriminate].
    apply andb_true_iff in Ec. destruct Ec as [Ec Ec0]. apply Nat.ltb_lt in Ec.
    apply negb_true_iff, Nat.eqb_neq in Ec0.
    destruct (tells (c_ctl g (c_fa g c)) c) as [[m x] |] eqn:Et; [| discriminate].
    destruct (c_ctl g c) as [| | gv | | | | | | |] eqn:Ectl; try discriminate.
    injection H as <-.
    assert (Hc0 : 0 < c) by lia.
    assert (Hf : c_fa g c < c_n g) by (pose proof (i_fa g Hi c Hc0 Ec); lia).
    destruct (tells_step _ _ _ _ (i_wf g Hi _ Hf) Et) as (Hw & Hc & Hle & Hxc & Hoth).
    apply held_two; try assumption; try reflexivity.
    + intros d Hd Hn. left. exact (Hoth d Hd Hn).
    + intro Hn. rewrite Hxc in Hn. discriminate.
    + intros d _. left. rewrite Ectl. reflexivity.
Qed.

Lemma held_run : forall complete l g g',
  inv g -> plain g -> held (fun c => c = Gon) g -> run complete false g l = Some g' ->
  held (fun c => c = Gon) g'.
Proof.
  intros complete l; induction l as [| a l IH]; simpl; intros g g' Hi Hp Hh H.
  - injection H as <-; exact Hh.
  - destruct (exec complete false g a) as [g1 |] eqn:E; [| discriminate].
    apply (IH g1 g'); try exact H.
    + exact (inv_exec _ _ _ _ _ Hi E).
    + exact (plain_exec _ _ _ _ Hi Hp E).
    + apply (held_exec complete false _ g a g1); try assumption; [reflexivity | left; exact Hp].
Qed.

Lemma held_run_dmt : forall complete dmt l g g',
  inv g -> held (fun c => c <> Act) g -> run complete dmt g l = Some g' ->
  held (fun c => c <> Act) g'.
Proof.
  intros complete dmt l; induction l as [| a l IH]; simpl; intros g g' Hi Hh H.
  - injection H as <-; exact Hh.
  - destruct (exec complete dmt g a) as [g1 |] eqn:E; [| discriminate].
    apply (IH g1 g'); try exact H.
    + exact (inv_exec _ _ _ _ _ Hi E).
    + apply (held_exec complete dmt _ g a g1); try assumption;
        [discriminate | right; discriminate].
Qed.

(** When nothing can happen any more, the search has its answer and every
    process has ended, or waits for a father that has forgotten it. *)
Lemma end_shape : forall complete dmt g,
  reach complete dmt g -> c_crash g = false -> ~ moves complete dmt g ->
  c_main g = MDone
  /\ forall p, p < c_n g -> c_ctl g p = Dead \/ exists gv, c_ctl g p = WaitFather gv.
Proof.
  intros complete dmt g Hr Hc Hno. pose proof (inv_reach _ _ _ Hr) as Hi.
  assert (Hh : held (fun c => c <> Act) g).
  { destruct Hr as (id & l & Hl). apply (held_run_dmt complete dmt l (start id) g).
    - apply inv_start.
    - intros c Hc0 Hcn; simpl in Hcn; lia.
    - exact Hl. }
  assert (Hm : c_main g = MDone).
  { destruct (c_main g) eqn:E; try reflexivity; exfalso; apply Hno;
      apply (progress complete dmt g Hr Hc); congruence. }
  split; [exact Hm |].
  assert (Hrest : forall p, p < c_n g -> cls_of (c_ctl g p) <> Act ->
            c_ctl g p = Dead \/ exists gv, c_ctl g p = WaitFather gv).
  { intros p Hp0 Hg.
    destruct (c_ctl g p) as [| a gv | gv | m gv | w s | w | kill todo kept kk
      | v kill todo kept kk | m todo w |] eqn:E; try (exfalso; apply Hg; reflexivity);
      try (left; reflexivity); try (right; eexists; reflexivity);
      (exfalso; apply Hno; apply (busy_moves complete dmt g Hi Hc (c_n g) p); try lia;
       rewrite E; exact Logic.I). }
  intro p. induction p as [p IH] using (well_founded_induction Nat.lt_wf_0). intro Hp0.
  apply Hrest; [exact Hp0 |].
  destruct (Nat.eq_dec p 0) as [-> | Hn0].
  - pose proof (i_main g Hi) as Hmain. rewrite Hm in Hmain.
    destruct (cls_of (c_ctl g 0)); [destruct Hmain | destruct Hmain | discriminate].
  - pose proof (i_fa g Hi p ltac:(lia) Hp0) as Hf.
    apply Hh; [lia | exact Hp0 |].
    destruct (IH (c_fa g p) Hf ltac:(lia)) as [-> | [gv ->]]; reflexivity.
Qed.

(** Without deduction modulo, everything has ended. *)
Theorem none_left : forall complete g,
  reach complete false g -> c_crash g = false -> ~ moves complete false g ->
  all_over g.
Proof.
  intros complete g Hr Hc Hno.
  destruct (end_shape complete false g Hr Hc Hno) as [Hm Hshape].
  pose proof (inv_reach _ _ _ Hr) as Hi.
  assert (Hh : held (fun c => c = Gon) g).
  { destruct Hr as (id & l & Hl). apply (held_run complete l (start id) g).
    - apply inv_start.
    - intros p Hp; exact Logic.I.
    - intros c Hc0 Hcn; simpl in Hcn; lia.
    - exact Hl. }
  split; [exact Hm |].
  intro p. induction p as [p IH] using (well_founded_induction Nat.lt_wf_0). intro Hp0.
  assert (Hg : cls_of (c_ctl g p) = Gon).
  { destruct (Nat.eq_dec p 0) as [-> | Hn0].
    - pose proof (i_main g Hi) as Hmain. rewrite Hm in Hmain.
      destruct (cls_of (c_ctl g 0)); [destruct Hmain | destruct Hmain | reflexivity].
    - pose proof (i_fa g Hi p ltac:(lia) Hp0) as Hf.
      apply Hh; [lia | exact Hp0 |].
      rewrite (IH (c_fa g p) Hf ltac:(lia)). reflexivity. }
  destruct (Hshape p Hp0) as [E | [gv E]]; [exact E |].
  rewrite E in Hg; discriminate.
Qed.
