(** What a father makes of the substitutions of its children. *)

Require Import Coq.Lists.List Coq.Arith.PeanoNat Coq.Bool.Bool Coq.micromega.Lia.
From Verif Require Import Proto_Model Proto_Spec Proto_Proofs Proto_Progress Proto_Closed Proto_Slots.
Import ListNotations.

(** ** The answers of a round, the last one first *)

Definition plain (cur : option nat) (l : list nat) : bool :=
  match l with
  | [] => true
  | [x] => eqo (Some x) cur
  | _ => false
  end.

Lemma eqo_iff : forall x y, eqo x y = true <-> x = y.
Proof.
  intros [a |] [b |]; simpl; try (split; congruence).
  rewrite Nat.eqb_eq. split; congruence.
Qed.

Local Arguments eqo : simpl never.

Lemma plain_content : forall cur l, plain cur l = true <-> content cur l.
Proof.
  intros cur [| x [| y l]]; simpl; unfold content.
  - split; auto.
  - rewrite eqo_iff. split.
    + intro H. right. exists x. auto.
    + intros [H | (c & H & H1)]; congruence.
  - split; [discriminate |]. intros [H | (c & _ & H)]; congruence.
Qed.

Definition given (cur : option nat) (l : list nat) : Prop := exists c, cur = Some c /\ l = [c].

Record told (cur : option nat) (ls : list (list nat)) (s : sel) : Prop := Told {
  t_cpt : s_cpt s = length (filter (fun l => negb (plain cur l)) ls);
  t_seen : s_seen s = true <-> exists l, In l ls /\ given cur l;
  t_nodup : NoDup (s_res s);
  t_res : forall v, In v (s_res s) <-> Some v <> cur /\ exists l, In l ls /\ In v l;
  t_com : forall v, In v (s_com s) <->
          Some v <> cur /\ exists old l new, ls = new ++ l :: old
            /\ forallb (plain cur) new = true /\ plain cur l = false
            /\ In v l /\ exists l', In l' old /\ In v l'
}.

Lemma add_res_spec : forall cur l res, NoDup res -> (forall v, In v res -> Some v <> cur) ->
  NoDup (fold_left (add_res cur) l res)
  /\ forall v, In v (fold_left (add_res cur) l res) <-> In v res \/ (Some v <> cur /\ In v l).
Proof.
  intros cur l. induction l as [| x l IH]; intros res Hn Hc; simpl.
  - split; [exact Hn | intro v; tauto].
  - assert (E : eqo (Some x) cur = true <-> Some x = cur) by apply eqo_iff.
    assert (H : NoDup (add_res cur res x)
                /\ forall v, In v (add_res cur res x) <-> In v res \/ (Some v <> cur /\ v = x)).
    { unfold add_res. simpl in E. destruct (eqo (Some x) cur) eqn:Ex.
      - split; [exact Hn |]. intro v. split; [tauto |]. intros [H | [H1 ->]]; [exact H |].
        exfalso; apply H1, E; reflexivity.
      - assert (Hx : Some x <> cur) by (intro Hx; apply E in Hx; discriminate).
        destruct (memb x res) eqn:Em.
        + apply memb_in in Em. split; [exact Hn |]. intro v. split; [tauto |].
          intros [H | [_ ->]]; assumption.
        + apply memb_not in Em. split.
          * clear - Hn Em. induction res as [| y res IHr]; simpl.
            -- constructor; [intros [] | constructor].
            -- inversion Hn; subst. constructor.
               ++ rewrite in_app_iff. simpl. intros [H | [H | []]]; [tauto |].
                  apply Em. left; congruence.
               ++ apply IHr; [assumption |]. intro H; apply Em; right; exact H.
          * intro v. rewrite in_app_iff. simpl. split.
            -- intros [H | [H | []]]; [left; exact H | right]. subst v. auto.
            -- intros [H | [_ ->]]; auto. }
    destruct H as [H1 H2].
    destruct (IH (add_res cur res x) H1) as [H3 H4].
    { intros v Hv. apply H2 in Hv. destruct Hv as [Hv | [Hv _]]; [apply Hc |]; exact Hv. }
    split; [exact H3 |]. intro v. rewrite H4, H2.
    split.
    + intros [[H | [H ->]] | [H H']]; auto.
    + intros [H | [H [-> | H']]]; auto.
Qed.

Lemma common_spec : forall l res v, In v (common l res) <-> In v l /\ In v res.
Proof.
  intros l res v. unfold common. rewrite in_flat_map. split.
  - intros (x & Hx & Hv). apply filter_In in Hv. destruct Hv as [Hv He].
    apply Nat.eqb_eq in He; subst x. auto.
  - intros [H1 H2]. exists v. split; [exact H1 |]. apply filter_In. split; [exact H2 |].
    apply Nat.eqb_refl.
Qed.

Lemma told_nil : forall cur w, told cur [] (sel0 w).
Proof.
  intros cur w. constructor; simpl.
  - reflexivity.
  - split; [discriminate | intros (l & [] & _)].
  - constructor.
  - intro v. split; [intros [] | intros (_ & l & [] & _)].
  - intro v. split; [intros [] |]. intros (_ & old & l & new & H & _).
    destruct new; discriminate.
Qed.

(** The other fields do not count. *)
Lemma told_ext : forall cur ls s s', s_cpt s' = s_cpt s -> s_seen s' = s_seen s ->
  s_res s' = s_res s -> s_com s' = s_com s -> told cur ls s -> told cur ls s'.
Proof.
  intros cur ls s s' H1 H2 H3 H4 [A B C D F].
  constructor; rewrite ?H1, ?H2, ?H3, ?H4; assumption.
Qed.

(** A plain answer changes none of the substitutions kept. *)
Lemma com_plain : forall cur ls l v, plain cur l = true ->
  (Some v <> cur /\ exists old l0 new, l :: ls = new ++ l0 :: old
     /\ forallb (plain cur) new = true /\ plain cur l0 = false
     /\ In v l0 /\ exists l', In l' old /\ In v l')
  <-> (Some v <> cur /\ exists old l0 new, ls = new ++ l0 :: old
     /\ forallb (plain cur) new = true /\ plain cur l0 = false
     /\ In v l0 /\ exists l', In l' old /\ In v l').
Proof.
  intros cur ls l v Hp. split; intros (H & old & l0 & new & H1 & H2 & H3 & H4); split; try exact H.
  - destruct new as [| l1 new]; simpl in H1.
    + exfalso. injection H1 as -> _. rewrite Hp in H3; discriminate.
    + injection H1 as <- H1. simpl in H2. rewrite Hp in H2. simpl in H2.
      exists old, l0, new. auto.
  - exists old, l0, (l :: new). simpl. rewrite H1, Hp. auto.
Qed.

Lemma told_cons : forall cur ls l s, told cur ls s -> told cur (l :: ls) (take_substs cur l s).
Proof.
  intros cur ls l s T. pose proof T as [A B C D F].
  destruct (plain cur l) eqn:Ep.
  - assert (Hres : forall v, Some v <> cur /\ (exists l0, In l0 (l :: ls) /\ In v l0)
                     <-> Some v <> cur /\ exists l0, In l0 ls /\ In v l0).
    { intro v. split; intros (H & l0 & H1 & H2); split; try exact H.
      - destruct H1 as [<- | H1]; [| exists l0; auto].
        apply plain_content in Ep. destruct Ep as [-> | (c & Hc & ->)]; [destruct H2 |].
        destruct H2 as [<- | []]. exfalso; apply H; congruence.
      - exists l0. split; [right |]; assumption. }
    destruct l as [| x [| y l]]; [| | discriminate Ep].
    + simpl. constructor; simpl.
      * exact A.
      * rewrite B. split.
        -- intros (l & Hl & Hg). exists l; auto.
        -- intros (l & [<- | Hl] & Hg); [destruct Hg as (c & _ & Hg); discriminate | exists l; auto].
      * exact C.
      * intro v. rewrite D, Hres. tauto.
      * intro v. rewrite F. symmetry. apply com_plain; reflexivity.
    + simpl in Ep. unfold take_substs. rewrite Ep. constructor; simpl.
      * rewrite Ep. exact A.
      * split; [intros _ | reflexivity]. exists [x]. split; [left; reflexivity |].
        exists x. split; [| reflexivity]. symmetry. apply eqo_iff. exact Ep.
      * exact C.
      * intro v. rewrite D, Hres. tauto.
      * intro v. rewrite F. symmetry. apply com_plain. exact Ep.
  - assert (E : take_substs cur l s
                = Sel (s_rem s) (s_got s) (s_gone s) (S (s_cpt s)) (s_seen s)
                      (fold_left (add_res cur) l (s_res s)) (common l (s_res s)) (s_tab s)).
    { destruct l as [| x [| y l]]; [discriminate Ep | | reflexivity].
      unfold take_substs. simpl in Ep. rewrite Ep. reflexivity. }
    rewrite E.
    destruct (add_res_spec cur l (s_res s) C) as [H1 H2].
    { intros v Hv. apply D in Hv. tauto. }
    constructor; cbn [s_cpt s_seen s_res s_com].
    + cbn [filter]. rewrite Ep. simpl. rewrite A. reflexivity.
    + rewrite B. split.
      * intros (l0 & Hl & Hg). exists l0. split; [right; exact Hl | exact Hg].
      * intros (l0 & [<- | Hl] & Hg); [| exists l0; auto].
        exfalso. destruct Hg as (c & Hc & Hg). subst l. simpl in Ep.
        assert (Hx : eqo (Some c) cur = true) by (apply eqo_iff; congruence). congruence.
    + exact H1.
    + intro v. rewrite H2, D. split.
      * intros [(Hc & l0 & Hl & Hv) | [Hc Hv]]; split; try exact Hc.
        -- exists l0. split; [right |]; assumption.
        -- exists l. split; [left; reflexivity | exact Hv].
      * intros (Hc & l0 & [<- | Hl] & Hv); [right; auto | left; split; [exact Hc | exists l0; auto]].
    + intro v. rewrite common_spec, D. split.
      * intros (Hv & Hc & l' & Hl & Hv'). split; [exact Hc |].
        exists ls, l, []. split; [reflexivity |]. split; [reflexivity |].
        split; [exact Ep |]. split; [exact Hv |]. exists l'; auto.
      * intros (Hc & old & l0 & new & H3 & H4 & H5 & H6 & l' & H7 & H8).
        destruct new as [| l1 new].
        -- injection H3 as -> ->. split; [exact H6 |]. split; [exact Hc |]. exists l'; auto.
        -- exfalso. injection H3 as <- H3. simpl in H4. rewrite Ep in H4. discriminate.
Qed.

(** ** What is decided *)

Section Decide.
  Variables (w : wargs) (ls : list (list nat)) (s : sel).
  Hypothesis T : told (w_cur w) ls s.

  Lemma other_plain : s_cpt s = 0 -> forall l, In l ls -> plain (w_cur w) l = true.
  Proof.
    intros Hz l Hl. destruct (plain (w_cur w) l) eqn:Ep; [reflexivity |]. exfalso.
    rewrite (t_cpt _ _ _ T) in Hz. apply length_zero_iff_nil in Hz.
    assert (H : In l (filter (fun l => negb (plain (w_cur w) l)) ls)).
    { apply filter_In. rewrite Ep. auto. }
    rewrite Hz in H. exact H.
  Qed.

  Lemma some_other : forall l, In l ls -> plain (w_cur w) l = false -> s_cpt s <> 0.
  Proof. intros l Hl Hp Hz. rewrite (other_plain Hz l Hl) in Hp. discriminate. Qed.

  Lemma close_iff : decide w s = DClose <-> forall l, In l ls -> l = [].
  Proof.
    split.
    - intros Hd l Hl. unfold decide in Hd.
      destruct (s_cpt s) as [| [| n]] eqn:Ec; [| discriminate |].
      + destruct (s_seen s) eqn:Es; [discriminate |].
        assert (Hp := other_plain Ec l Hl). apply plain_content in Hp.
        destruct Hp as [Hp | Hp]; [exact Hp |]. exfalso.
        assert (H : s_seen s = true); [| congruence].
        apply (t_seen _ _ _ T). exists l. auto.
      + destruct (s_com s); [destruct (s_res s) as [| a [| b r]] |]; discriminate.
    - intro H. unfold decide.
      assert (Hz : s_cpt s = 0).
      { rewrite (t_cpt _ _ _ T). apply length_zero_iff_nil.
        destruct (filter (fun l => negb (plain (w_cur w) l)) ls) as [| l r] eqn:Ef; [reflexivity |].
        exfalso. assert (Hl : In l (filter (fun l => negb (plain (w_cur w) l)) ls))
          by (rewrite Ef; left; reflexivity).
        apply filter_In in Hl. destruct Hl as [Hl Hp]. rewrite (H l Hl) in Hp. discriminate. }
      rewrite Hz. destruct (s_seen s) eqn:Es; [| reflexivity]. exfalso.
      apply (t_seen _ _ _ T) in Es. destruct Es as (l & Hl & c & _ & Hg).
      rewrite (H l Hl) in Hg. discriminate.
  Qed.

  (** What is passed on comes from a child. *)
  Lemma from_child : forall r v, decide w s = DParent r \/ decide w s = DChildren r ->
    In v r -> exists l, In l ls /\ In v l.
  Proof.
    intros r v Hd Hv.
    assert (Hres : In v (s_res s) -> exists l, In l ls /\ In v l).
    { intro H. apply (t_res _ _ _ T) in H. tauto. }
    assert (Hcom : In v (s_com s) -> exists l, In l ls /\ In v l).
    { intro H. apply (t_com _ _ _ T) in H. destruct H as (_ & old & l & new & -> & _ & _ & H & _).
      exists l. split; [| exact H]. apply in_app_iff. right; left; reflexivity. }
    unfold decide in Hd. destruct (s_cpt s) as [| [| n]].
    - destruct (s_seen s) eqn:Es; [| destruct Hd; discriminate].
      destruct Hd as [Hd | Hd]; [| discriminate]. injection Hd as <-.
      apply in_app_iff in Hv. destruct Hv as [Hv | Hv]; [apply Hres; exact Hv |].
      apply (t_seen _ _ _ T) in Es. destruct Es as (l & Hl & c & Hc & Hg).
      rewrite Hc in Hv. destruct Hv as [<- | []]. exists l. subst l. simpl; auto.
    - destruct Hd as [Hd | Hd]; [| discriminate]. injection Hd as <-. apply Hres; exact Hv.
    - destruct (s_com s) as [| a0 com0] eqn:Ecom.
      + destruct (s_res s) as [| a [| b r0]]; destruct Hd as [Hd | Hd]; try discriminate;
          injection Hd as <-; apply Hres; exact Hv.
      + destruct Hd as [Hd | Hd]; [| discriminate]. injection Hd as <-. apply Hcom; exact Hv.
  Qed.

  (** What is offered to the children is new. *)
  Lemma offered : forall r, decide w s = DChildren r ->
    NoDup r /\ forall c, w_cur w = Some c -> ~ In c r.
  Proof.
    intros r Hd.
    assert (E : r = s_res s).
    { unfold decide in Hd. destruct (s_cpt s) as [| [| n]];
        [destruct (s_seen s); discriminate | discriminate |].
      destruct (s_com s); [destruct (s_res s) as [| a [| b r0]] |];
        try discriminate; injection Hd as <-; reflexivity. }
    subst r. split; [exact (t_nodup _ _ _ T) |].
    intros c Hc Hin. apply (t_res _ _ _ T) in Hin. destruct Hin as [H _]. congruence.
  Qed.

  Lemma fresh_one : forall l, NoDup l -> plain (w_cur w) l = false ->
    exists v, In v l /\ Some v <> w_cur w.
  Proof.
    intros [| x [| y l]] Hn Hp; [discriminate | |].
    - simpl in Hp. exists x. split; [left; reflexivity |]. intro H. apply eqo_iff in H.
      congruence.
    - assert (Hxy : x <> y) by (inversion Hn as [| ? ? H1 _]; intros ->; apply H1; left; reflexivity).
      destruct (w_cur w) as [c |].
      + destruct (Nat.eq_dec x c) as [-> | H].
        * exists y. split; [right; left; reflexivity | congruence].
        * exists x. split; [left; reflexivity | congruence].
      + exists x. split; [left; reflexivity | discriminate].
  Qed.

  (** The last answer that is not plain, and the ones before. *)
  Lemma last_other : forall (m : list (list nat)),
    filter (fun l => negb (plain (w_cur w) l)) m <> [] ->
    exists old l new, m = new ++ l :: old /\ forallb (plain (w_cur w)) new = true
      /\ plain (w_cur w) l = false
      /\ filter (fun l => negb (plain (w_cur w) l)) m
         = l :: filter (fun l => negb (plain (w_cur w) l)) old.
  Proof.
    intros m. induction m as [| l m IH]; intro H; [exfalso; apply H; reflexivity |].
    cbn [filter] in *. destruct (plain (w_cur w) l) eqn:Ep; cbn [negb] in *.
    - destruct (IH H) as (old & l0 & new & H1 & H2 & H3 & H4).
      exists old, l0, (l :: new). simpl. rewrite Ep, <- H1. auto.
    - exists m, l, []. auto.
  Qed.

  Lemma kept_other : (forall l, In l ls -> NoDup l) -> s_cpt s <> 0 -> s_res s <> [].
  Proof.
    intros Hn Hc Hr.
    destruct (last_other ls) as (old & l & new & H1 & _ & H3 & _).
    { intro H. apply Hc. rewrite (t_cpt _ _ _ T), H. reflexivity. }
    assert (Hl : In l ls) by (rewrite H1; apply in_app_iff; right; left; reflexivity).
    destruct (fresh_one l (Hn l Hl) H3) as (v & Hv & Hv').
    assert (H : In v (s_res s)) by (apply (t_res _ _ _ T); split; [exact Hv' | exists l; auto]).
    rewrite Hr in H. exact H.
  Qed.

  Lemma passed_some : (forall l, In l ls -> NoDup l) -> forall r, decide w s = DParent r -> r <> [].
  Proof.
    intros Hn r Hd. unfold decide in Hd. destruct (s_cpt s) as [| [| n]] eqn:Ec.
    - destruct (s_seen s) eqn:Es; [| discriminate]. injection Hd as <-.
      apply (t_seen _ _ _ T) in Es. destruct Es as (l & _ & c & -> & _).
      destruct (s_res s); discriminate.
    - injection Hd as <-. apply kept_other; [exact Hn | congruence].
    - destruct (s_com s) as [| a com0]; [destruct (s_res s) as [| a [| b r0]] |];
        try discriminate; injection Hd as <-; discriminate.
  Qed.

  Lemma offered_two : (forall l, In l ls -> NoDup l) ->
    forall r, decide w s = DChildren r -> 2 <= length r.
  Proof.
    intros Hn r Hd.
    assert (E : exists n, s_cpt s = S (S n) /\ s_com s = [] /\ r = s_res s /\ forall x, r <> [x]).
    { unfold decide in Hd. destruct (s_cpt s) as [| [| n]];
        [destruct (s_seen s); discriminate | discriminate |]. exists n.
      destruct (s_com s); [destruct (s_res s) as [| a [| b r0]] |];
        try discriminate; injection Hd as <-; repeat split; try reflexivity; intros; discriminate. }
    destruct E as (n & Ec & _ & -> & H1).
    assert (H0 := kept_other Hn ltac:(congruence)).
    destruct (s_res s) as [| a [| b r0]]; [congruence | exfalso; apply (H1 a); reflexivity |].
    simpl; lia.
  Qed.

  (** With at most two children that ask for something else, all agree. *)
  Lemma two_agree : s_cpt s <= 2 -> forall r v, decide w s = DParent r -> In v r ->
    forall l, In l ls -> accepts (w_cur w) l v.
  Proof.
    intros H2 r v Hd Hv l Hl.
    destruct (plain (w_cur w) l) eqn:Ep.
    { apply plain_content in Ep. destruct Ep as [-> | (c & Hc & ->)]; [left; reflexivity |].
      right; left. exists c. simpl; auto. }
    assert (Hcov : forall a, s_res s = [a] -> accepts (w_cur w) l a).
    { intros a Ha. destruct l as [| x l']; [left; reflexivity |].
      destruct (eqo (Some x) (w_cur w)) eqn:Ex.
      - apply eqo_iff in Ex. right; left. exists x. simpl; auto.
      - right; right. left.
        assert (H : In x (s_res s)).
        { apply (t_res _ _ _ T). split; [intro H; apply eqo_iff in H; congruence |].
          exists (x :: l'). split; [exact Hl | left; reflexivity]. }
        rewrite Ha in H. destruct H as [H | []]. congruence. }
    unfold decide in Hd. destruct (s_cpt s) as [| [| [| n]]] eqn:Ec; [| | | lia].
    - exfalso. exact (some_other l Hl Ep Ec).
    - injection Hd as <-. apply (t_res _ _ _ T) in Hv. destruct Hv as (Hv & l0 & Hl0 & Hv0).
      right; right. assert (Hp0 : plain (w_cur w) l0 = false).
      { destruct (plain (w_cur w) l0) eqn:E0; [exfalso | reflexivity].
        apply plain_content in E0. destruct E0 as [-> | (c & Hc & ->)]; [destruct Hv0 |].
        destruct Hv0 as [<- | []]. congruence. }
      rewrite (t_cpt _ _ _ T) in Ec.
      assert (I1 : In l (filter (fun l => negb (plain (w_cur w) l)) ls))
        by (apply filter_In; rewrite Ep; auto).
      assert (I2 : In l0 (filter (fun l => negb (plain (w_cur w) l)) ls))
        by (apply filter_In; rewrite Hp0; auto).
      destruct (filter (fun l => negb (plain (w_cur w) l)) ls) as [| m1 [| m2 m]]; try discriminate.
      destruct I1 as [<- | []], I2 as [<- | []]. exact Hv0.
    - destruct (s_com s) as [| a com0] eqn:Ecom.
      + destruct (s_res s) as [| a [| b r0]] eqn:Er; try discriminate. injection Hd as <-.
        destruct Hv as [<- | []]. apply Hcov. reflexivity.
      + injection Hd as <-. rewrite <- Ecom in Hv. apply (t_com _ _ _ T) in Hv.
        destruct Hv as (Hvc & old & l0 & new & H3 & H4 & H5 & H6 & l' & H7 & H8).
        assert (Hp' : plain (w_cur w) l' = false).
        { destruct (plain (w_cur w) l') eqn:E0; [exfalso | reflexivity].
          apply plain_content in E0. destruct E0 as [-> | (c & Hc & ->)]; [destruct H8 |].
          destruct H8 as [<- | []]. congruence. }
        right; right.
        assert (Hnew : filter (fun l => negb (plain (w_cur w) l)) new = []).
        { clear - H4. induction new as [| m new IH]; [reflexivity |]. cbn [filter forallb] in *.
          apply andb_true_iff in H4. destruct H4 as [H H']. rewrite H. exact (IH H'). }
        rewrite (t_cpt _ _ _ T), H3, filter_app, Hnew in Ec. cbn [app filter] in Ec.
        rewrite H5 in Ec. cbn [negb length] in Ec. injection Ec as Ec.
        assert (I2 : In l' (filter (fun l => negb (plain (w_cur w) l)) old))
          by (apply filter_In; rewrite Hp'; auto).
        rewrite H3 in Hl. apply in_app_iff in Hl. destruct Hl as [Hl | [<- | Hl]].
        * exfalso. rewrite forallb_forall in H4. rewrite (H4 l Hl) in Ep. discriminate.
        * exact H6.
        * assert (I1 : In l (filter (fun l => negb (plain (w_cur w) l)) old))
            by (apply filter_In; rewrite Ep; auto).
          destruct (filter (fun l => negb (plain (w_cur w) l)) old) as [| m1 [| m2 m]]; try discriminate.
          destruct I1 as [<- | []], I2 as [<- | []]. exact H8.
  Qed.
End Decide.

(** ** The machine *)

(** The children that have answered, and what. *)
Definition log_says (l : list event) (k : nat) (r : list nat) : Prop :=
  exists a, last_answer l k = Some a /\ closed a = true /\ substs a = r.

Definition heard (l : list event) (x : ctl) : Prop :=
  match x with
  | Waiting w s => exists ls, Forall2 (log_says l) (s_got s) ls /\ told (w_cur w) ls s
  | _ => True
  end.

Lemma heard_sel0 : forall l w, heard l (Waiting w (sel0 w)).
Proof. intros l w. exists []. split; [constructor | apply told_nil]. Qed.

Lemma heard_internal : forall complete dmt o n l x ch y os,
  internal complete dmt o n x ch = Some (y, os) -> heard l y.
Proof.
  intros complete dmt o n l x ch y os H.
  destruct x as [| a g | g | m g | w s | w | kill todo kept k | v kill todo kept k | m todo w |];
    destruct ch as [ids | id cur forms | a' | i r0 | i id cur |]; try discriminate H;
    cbn [internal] in H; try (destruct todo; discriminate H).
  - injection H as <- _. apply heard_sel0.
  - destruct dmt; [| discriminate]. injection H as <- _. apply heard_sel0.
  - destruct (leaf_answer a'); [| discriminate]. injection H as <- _. exact Logic.I.
  - destruct m as [x |]; [destruct (memb x g) |]; injection H as <- _;
      try apply heard_sel0; exact Logic.I.
  - destruct (s_rem s); [| discriminate].
    destruct (after_select w s i r0) as [z |] eqn:E; [| discriminate]. injection H as <- _.
    unfold after_select in E. destruct (decide w s) as [| r | r].
    + destruct (w_cur w); injection E as <-; exact Logic.I.
    + injection E as <-; exact Logic.I.
    + destruct (choose i r) as [[x r'] |]; [| discriminate]. injection E as <-. exact Logic.I.
  - unfold opened in H.
    destruct (w_onf w); [destruct (w_forms w) |];
      try (injection H as <- _; apply heard_sel0);
      (destruct (w_bt w) as [| b bt];
       [ destruct (complete && (1 <? length (w_alive w)) &&
           match w_cur w with Some _ => true | None => false end); injection H as <- _; exact Logic.I
       | destruct (choose i (b :: bt)) as [[x r] |]; [| discriminate];
         injection H as <- _; exact Logic.I ]).
  - destruct todo; [| discriminate]. destruct k; try discriminate; injection H as <- _; exact Logic.I.
  - destruct todo; [| discriminate]. injection H as <- _. apply heard_sel0.
Qed.

Lemma heard_frame : forall l e x, (forall w s, x = Waiting w s -> ~ In (e_pid e) (s_got s)) ->
  heard l x -> heard (e :: l) x.
Proof.
  intros l e x Hx H. destruct x; try exact Logic.I. specialize (Hx w s eq_refl).
  destruct H as (ls & H1 & H2). exists ls. split; [| exact H2].
  clear H2. induction H1 as [| k r got ls (a & Ha & Hc & Hr) H1 IH]; constructor.
  - exists a. split; [| auto]. simpl.
    destruct (e_pid e =? k) eqn:Ee; [| exact Ha].
    apply Nat.eqb_eq in Ee. exfalso; apply Hx; left; congruence.
  - apply IH. intro H; apply Hx; right; exact H.
Qed.

Lemma heard_gets : forall l x c o a x' ks,
  heard l x -> (exists e, expects x c = Some e /\ sat e Act) ->
  gets x c o a = To x' -> heard (Event c a ks :: l) x'.
Proof.
  intros l x c o a x' ks Hx (e & He & Hs) H.
  destruct x as [| a0 g | g | m g | w s | w | kill todo kept k | v kill todo kept k | m todo w |];
    try discriminate H; cbn [gets] in H.
  - destruct (memb c (w_alive w)) eqn:Ea; [| discriminate].
    destruct (s_rem s) as [| r] eqn:Er; [discriminate |].
    destruct (index o (w_order w)) as [i |] eqn:Ei; [| discriminate].
    assert (Hnot : ~ In c (s_got s)).
    { intro Hc. apply memb_in in Hc. simpl in He. rewrite Ea, Hc in He.
      destruct (memb c (s_gone s)); injection He as <-; destruct Hs. }
    destruct (closed a) eqn:Ecl; [| injection H as <-; exact Logic.I].
    injection H as <-.
    destruct (heard_frame l (Event c a ks) (Waiting w s)) as (ls & H1 & H2).
    { intros w0 s0 E. injection E as <- <-. exact Hnot. }
    { exact Hx. }
    set (s1 := Sel r (c :: s_got s) (if need a then s_gone s else c :: s_gone s)
                   (s_cpt s) (s_seen s) (s_res s) (s_com s)
                   (set_nth i (Some c) (s_tab s))) in *.
    exists (substs a :: ls). split.
    + destruct (take_sel (w_cur w) (substs a) s1) as (_ & -> & _). constructor; [| exact H1].
      exists a. simpl. rewrite Nat.eqb_refl. auto.
    + apply told_cons. apply (told_ext _ _ s); try reflexivity. exact H2.
  - destruct todo as [| v todo]; [discriminate |].
    destruct (v =? c); [| discriminate]. destruct (need a); injection H as <-; exact Logic.I.
Qed.

Definition hinv (g : cfg) : Prop := forall p, p < c_n g -> heard (c_log g) (c_ctl g p).

Lemma got_expected : forall g p w s k, inv g -> p < c_n g -> c_ctl g p = Waiting w s ->
  In k (s_got s) -> c_fa g k = p /\ p < k.
Proof.
  intros g p w s k Hi Hp Hx Hk. pose proof (i_wf g Hi p Hp) as Hw. rewrite Hx in Hw.
  destruct Hw as (_ & _ & Hin & _). apply Hin, memb_in in Hk.
  assert (H : exists e, expects (c_ctl g p) k = Some e).
  { rewrite Hx. simpl. rewrite Hk.
    destruct (memb k (s_gone s)), (memb k (s_got s)); eexists; reflexivity. }
  destruct H as (e & He). destruct (i_exp g Hi p k e Hp He) as (H1 & _ & H3 & _). auto.
Qed.

Theorem hinv_exec : forall complete dmt g a g',
  inv g -> hinv g -> exec complete dmt g a = Some g' -> hinv g'.
Proof.
  intros complete dmt g act g' Hi Hh H. unfold exec in H.
  destruct (c_crash g); [discriminate |].
  destruct act as [p ch | p | c | c | c].
  - destruct (p <? c_n g) eqn:Ep; [| discriminate].
    destruct (internal complete dmt (c_orig g p) (c_n g) (c_ctl g p) ch) as [[x [os |]] |] eqn:E;
      [| | discriminate]; injection H as <-; intros q Hq; simpl in *.
    + destruct (q =? p) eqn:Eq; [exact (heard_internal _ _ _ _ _ _ _ _ _ E) |].
      destruct ((c_n g <=? q) && (q <? c_n g + length os)) eqn:En; [exact Logic.I |].
      apply Hh. apply andb_false_iff in En. destruct En as [En | En];
        [apply Nat.leb_gt in En; exact En | apply Nat.ltb_ge in En; lia].
    + unfold upd. destruct (q =? p); [exact (heard_internal _ _ _ _ _ _ _ _ _ E) | apply Hh; exact Hq].
  - destruct ((p <? c_n g) && may_crash (c_ctl g p)); [| discriminate]. injection H as <-. exact Hh.
  - destruct (c <? c_n g) eqn:Ec; [| discriminate]. apply Nat.ltb_lt in Ec.
    destruct (c_ctl g c) as [| a gv | g0 | m g0 | w s | w | kill todo kept k | v kill todo kept k | m todo w |] eqn:Ex;
      try discriminate H.
    assert (Hfr : forall q, q < c_n g -> (c <> 0 -> q <> c_fa g c) ->
              heard (Event c a (c_kids g c) :: c_log g) (c_ctl g q)).
    { intros q Hq Hqf. apply heard_frame; [| apply Hh; exact Hq].
      intros w s Hw Hin. simpl in Hin.
      destruct (got_expected g q w s c Hi Hq Hw Hin) as [H1 H2]. apply Hqf; [lia | congruence]. }
    assert (Haf : forall l, heard l (after_answer a gv))
      by (intro l; unfold after_answer; destruct (need a); exact Logic.I).
    destruct c as [| c'].
    + destruct (c_main g); try discriminate H. injection H as <-. intros q Hq. simpl in *.
      unfold upd. destruct (q =? 0); [apply Haf |]. apply Hfr; [exact Hq | congruence].
    + assert (Hf := i_fa g Hi (S c') ltac:(lia) Ec).
      destruct (gets (c_ctl g (c_fa g (S c'))) (S c') (c_orig g (S c')) a) as [| | x] eqn:E;
        [discriminate | |]; injection H as <-; intros q Hq; simpl in *.
      * apply (heard_frame (c_log g)); [| apply Hh; exact Hq]. intros w s Hw Hin. simpl in Hin.
        destruct (got_expected g q w s _ Hi Hq Hw Hin) as [H1 H2].
        pose proof (gets_expects _ _ _ _ _ E ltac:(discriminate)) as (e & He).
        destruct (i_exp g Hi (c_fa g (S c')) _ e ltac:(lia) He) as (_ & _ & _ & Hs).
        rewrite Ex in Hs. subst q. rewrite Hw in He. simpl in He. apply memb_in in Hin.
        rewrite Hin in He. destruct (memb (S c') (w_alive w)); [| discriminate].
        destruct (memb (S c') (s_gone s)); injection He as <-; destruct Hs.
      * unfold upd. destruct (q =? S c') eqn:Eq; [apply Haf |].
        destruct (q =? c_fa g (S c')) eqn:Eqf; [| apply Hfr; [exact Hq | intros _; apply Nat.eqb_neq; exact Eqf]].
        pose proof (gets_expects _ _ _ _ _ E ltac:(discriminate)) as (e & He).
        destruct (i_exp g Hi (c_fa g (S c')) _ e ltac:(lia) He) as (_ & _ & _ & Hs).
        rewrite Ex in Hs. apply (heard_gets _ _ _ _ _ _ _ (Hh (c_fa g (S c')) ltac:(lia)) (ex_intro _ e (conj He Hs)) E).
  - destruct (c <? c_n g); [| discriminate].
    assert (Ht : forall kill y, told_quit (c_ctl g c) kill = Some y -> heard (c_log g) y).
    { intros kill y Ht. destruct (c_ctl g c); try discriminate; cbn [told_quit] in Ht;
        try (injection Ht as <-; destruct kill; exact Logic.I).
      destruct (s_rem s), (w_alive w); try discriminate; injection Ht as <-; exact Logic.I. }
    destruct c as [| c'].
    + destruct (c_main g); try discriminate.
      destruct (told_quit (c_ctl g 0) true) as [y |] eqn:E; [| discriminate]. injection H as <-.
      intros q Hq. simpl in *. unfold upd. destruct (q =? 0); [exact (Ht _ _ E) | apply Hh; exact Hq].
    + destruct (quits (c_ctl g (c_fa g (S c'))) (S c')) as [[kill x] |] eqn:Eq; [| discriminate].
      destruct (told_quit (c_ctl g (S c')) kill) as [y |] eqn:E; [| discriminate]. injection H as <-.
      intros q Hq. simpl in *. unfold upd. destruct (q =? S c'); [exact (Ht _ _ E) |].
      destruct (q =? c_fa g (S c')); [| apply Hh; exact Hq].
      destruct (c_ctl g (c_fa g (S c'))) as [| | | | | | k0 [| v0 t0] kept0 k1 | v0 k0 t0 kept0 k1 | |];
        try discriminate Eq; cbn [quits] in Eq; destruct (v0 =? S c'); try discriminate;
        injection Eq as <- <-; exact Logic.I.
  - destruct ((c <? c_n g) && negb (c =? 0)); [| discriminate].
    destruct (tells (c_ctl g (c_fa g c)) c) as [[m x] |] eqn:E; [| discriminate].
    destruct (c_ctl g c); try discriminate. injection H as <-.
    intros q Hq. simpl in *. unfold upd. destruct (q =? c); [exact Logic.I |].
    destruct (q =? c_fa g c); [| apply Hh; exact Hq].
    destruct (c_ctl g (c_fa g c)) as [| | | | | | | | m0 [| v0 t0] w0 |]; try discriminate E;
      cbn [tells] in E; destruct (v0 =? c); try discriminate; injection E as <- <-; exact Logic.I.
Qed.

Lemma hinv_run : forall complete dmt l g g',
  inv g -> hinv g -> run complete dmt g l = Some g' -> hinv g'.
Proof.
  intros complete dmt l. induction l as [| a l IH]; intros g g' Hi Hh H; simpl in H.
  - injection H as <-. exact Hh.
  - destruct (exec complete dmt g a) as [g1 |] eqn:E; [| discriminate].
    exact (IH g1 g' (inv_exec _ _ _ _ _ Hi E) (hinv_exec _ _ _ _ _ Hi Hh E) H).
Qed.

Theorem hinv_reach : forall complete dmt g, reach complete dmt g -> hinv g.
Proof.
  intros complete dmt g (id & l & H). apply (hinv_run complete dmt l (start id)); [| | exact H].
  - apply (inv_reach complete dmt). exists id, []. reflexivity.
  - intros p _. exact Logic.I.
Qed.

(** When all have answered: what was heard is what the children answered. *)
Lemma all_heard : forall complete dmt g p w s, reach complete dmt g -> all_in g p w s ->
  exists ls, told (w_cur w) ls s /\ Forall2 (answered g) (s_got s) ls
    /\ NoDup (s_got s) /\ (forall k, In k (s_got s) <-> In k (w_alive w)).
Proof.
  intros complete dmt g p w s Hr (Hp & Hx & H0).
  pose proof (hinv_reach _ _ _ Hr p Hp) as Hh. rewrite Hx in Hh. destruct Hh as (ls & H1 & H2).
  pose proof (i_wf g (inv_reach _ _ _ Hr) p Hp) as Hw. rewrite Hx in Hw.
  exists ls. split; [exact H2 | split; [exact H1 |]].
  pose proof (all_got w s Hw H0) as Hg. destruct Hw as (_ & Hn & Hin & _).
  split; [exact Hn |]. intro k. split; [apply Hin | apply Hg].
Qed.

Lemma answered_inj : forall g k l l', answered g k l -> answered g k l' -> l = l'.
Proof. intros g k l l' (a & H1 & _ & H2) (a' & H3 & _ & H4). congruence. Qed.

Lemma f2_left : forall (A B : Type) (R : A -> B -> Prop) l m x, Forall2 R l m -> In x l ->
  exists y, In y m /\ R x y.
Proof.
  intros A B R l m x H. induction H as [| a b l m Hab H IH]; intros []; subst.
  - exists b; simpl; auto.
  - destruct (IH H0) as (y & Hy & Hr). exists y; simpl; auto.
Qed.

Lemma f2_right : forall (A B : Type) (R : A -> B -> Prop) l m y, Forall2 R l m -> In y m ->
  exists x, In x l /\ R x y.
Proof.
  intros A B R l m y H. induction H as [| a b l m Hab H IH]; intros []; subst.
  - exists a; simpl; auto.
  - destruct (IH H0) as (x & Hx & Hr). exists x; simpl; auto.
Qed.

Theorem closes_iff : forall complete dmt g p w s, reach complete dmt g -> all_in g p w s ->
  (decide w s = DClose <-> forall k, In k (w_alive w) -> answered g k []).
Proof.
  intros complete dmt g p w s Hr Ha.
  destruct (all_heard _ _ _ _ _ _ Hr Ha) as (ls & T & F & _ & Hk).
  rewrite (close_iff w ls s T). split.
  - intros H k Hin. apply Hk in Hin. destruct (f2_left _ _ _ _ _ k F Hin) as (l & Hl & Hans).
    rewrite <- (H l Hl). exact Hans.
  - intros H l Hl. destruct (f2_right _ _ _ _ _ l F Hl) as (k & Hkk & Hans).
    exact (answered_inj g k l [] Hans (H k (proj1 (Hk k) Hkk))).
Qed.

Theorem passed_heard : forall complete dmt g p w s r v, reach complete dmt g -> all_in g p w s ->
  decide w s = DParent r \/ decide w s = DChildren r -> In v r ->
  exists k l, In k (w_alive w) /\ answered g k l /\ In v l.
Proof.
  intros complete dmt g p w s r v Hr Ha Hd Hv.
  destruct (all_heard _ _ _ _ _ _ Hr Ha) as (ls & T & F & _ & Hk).
  destruct (from_child w ls s T r v Hd Hv) as (l & Hl & Hvl).
  destruct (f2_right _ _ _ _ _ l F Hl) as (k & Hkk & Hans).
  exists k, l. split; [apply Hk; exact Hkk | auto].
Qed.

Theorem offered_new : forall complete dmt g p w s r, reach complete dmt g -> all_in g p w s ->
  decide w s = DChildren r -> NoDup r /\ forall c, w_cur w = Some c -> ~ In c r.
Proof.
  intros complete dmt g p w s r Hr Ha Hd.
  destruct (all_heard _ _ _ _ _ _ Hr Ha) as (ls & T & _). exact (offered w ls s T r Hd).
Qed.

Lemma no_repeat_ls : forall g w got ls, no_repeat g w -> Forall2 (answered g) got ls ->
  (forall k, In k got <-> In k (w_alive w)) -> forall l, In l ls -> NoDup l.
Proof.
  intros g w got ls Hn F Hk l Hl. destruct (f2_right _ _ _ _ _ l F Hl) as (k & Hkk & Hans).
  apply (Hn k l); [apply Hk; exact Hkk | exact Hans].
Qed.

Theorem passed_nonempty : forall complete dmt g p w s, reach complete dmt g -> all_in g p w s ->
  no_repeat g w ->
  (forall r, decide w s = DParent r -> r <> [])
  /\ (forall r, decide w s = DChildren r -> 2 <= length r).
Proof.
  intros complete dmt g p w s Hr Ha Hn.
  destruct (all_heard _ _ _ _ _ _ Hr Ha) as (ls & T & F & _ & Hk).
  pose proof (no_repeat_ls g w _ ls Hn F Hk) as Hnd. split.
  - exact (passed_some w ls s T Hnd).
  - exact (offered_two w ls s T Hnd).
Qed.

(** At most two children ask for something else than the substitution they
    were given. *)
Lemma count_two : forall g w s ls k1 k2, NoDup (s_got s) -> Forall2 (answered g) (s_got s) ls ->
  (forall k l, In k (s_got s) -> answered g k l -> content (w_cur w) l \/ k = k1 \/ k = k2) ->
  length (filter (fun l => negb (plain (w_cur w) l)) ls) <= 2.
Proof.
  intros g w s ls k1 k2 Hn F H.
  assert (G : exists ks, NoDup ks /\ incl ks (s_got s) /\ incl ks [k1; k2]
              /\ length ks = length (filter (fun l => negb (plain (w_cur w) l)) ls)).
  { revert Hn H. induction F as [| k l got ls Hkl F IH]; intros Hn H.
    - exists []. repeat split; [constructor | intros z [] | intros z []].
    - inversion Hn as [| ? ? Hk Hn']; subst.
      destruct IH as (ks & H1 & H2 & H3 & H4); [exact Hn' | intros; eapply H; [right |]; eassumption |].
      cbn [filter]. destruct (plain (w_cur w) l) eqn:Ep; cbn [negb].
      + exists ks. split; [exact H1 | split; [| auto]]. intros z Hz; right; apply H2, Hz.
      + exists (k :: ks). split; [constructor; [intro Hz; apply Hk, H2, Hz | exact H1] |].
        split; [intros z [<- | Hz]; [left; reflexivity | right; apply H2, Hz] |].
        split; [| simpl; congruence].
        intros z [<- | Hz]; [| apply H3, Hz].
        destruct (H k l (or_introl eq_refl) Hkl) as [Hc | [-> | ->]]; simpl; auto.
        apply plain_content in Hc. congruence. }
  destruct G as (ks & H1 & _ & H3 & <-).
  apply (NoDup_incl_length H1) in H3. exact H3.
Qed.

Theorem two_children_agree : forall complete dmt g p w s k1 k2,
  reach complete dmt g -> all_in g p w s ->
  (forall k l, In k (w_alive w) -> answered g k l ->
     content (w_cur w) l \/ k = k1 \/ k = k2) ->
  agreed g w s.
Proof.
  intros complete dmt g p w s k1 k2 Hr Ha H r v Hd Hv k Hin.
  destruct (all_heard _ _ _ _ _ _ Hr Ha) as (ls & T & F & Hn & Hk).
  assert (Hc : s_cpt s <= 2).
  { rewrite (t_cpt _ _ _ T). apply (count_two g w s ls k1 k2 Hn F).
    intros k0 l0 Hk0. apply H. apply Hk; exact Hk0. }
  apply Hk in Hin. destruct (f2_left _ _ _ _ _ k F Hin) as (l & Hl & Hans).
  exists l. split; [exact Hans | exact (two_agree w ls s T Hc r v Hd Hv l Hl)].
Qed.
