(** The slots of the proofs, and what the children work with. *)

Require Import Coq.Lists.List Coq.Arith.PeanoNat Coq.Bool.Bool Coq.micromega.Lia.
From Verif Require Import Proto_Model Proto_Spec Proto_Proofs Proto_Progress Proto_Closed.
Import ListNotations.

Section Local.
  Variables (complete dmt : bool).

  Definition args_ok (o : nat -> nat) (ks : list nat) (w : wargs) (al : list nat) : Prop :=
    (dmt = false -> map o ks = w_order w /\ incl al ks /\ w_onf w = false)
    /\ (w_back w = false -> w_cur w = w_sent w)
    /\ (complete = true -> forall x, In (x, false) (w_failed w) -> In x (w_forb w)).

  Definition tab_ok (ks : list nat) (w : wargs) (s : sel) : Prop :=
    dmt = false -> NoDup (w_order w) ->
    s_tab s = map (fun k => if memb k (s_got s) then Some k else None) ks.

  Definition kloc (o : nat -> nat) (ks : list nat) (k : cont) (al : list nat) : Prop :=
    match k with KOpened w => args_ok o ks w al | _ => True end.

  Definition loc (o : nat -> nat) (ks : list nat) (x : ctl) : Prop :=
    match x with
    | Waiting w s => args_ok o ks w (w_alive w) /\ tab_ok ks w s
    | Opened w => args_ok o ks w (w_alive w)
    | SendSub _ _ w => args_ok o ks w (w_alive w)
    | Closing _ todo kept k => kloc o ks k (todo ++ kept)
    | ClosingQuit v _ todo kept k => kloc o ks k (v :: todo ++ kept)
    | _ => True
    end.

  Lemma loc_frame : forall o o' ks x,
    (forall k, In k ks -> o k = o' k) -> loc o ks x -> loc o' ks x.
  Proof.
    intros o o' ks x Ho H.
    assert (G : forall w al, args_ok o ks w al -> args_ok o' ks w al).
    { intros w al (H1 & H2). split; [| exact H2].
      intro Hd. rewrite <- (map_ext_in o o' ks Ho). exact (H1 Hd). }
    destruct x as [| a g | g | m g | w s | w | kill todo kept k | v kill todo kept k | m todo w |];
      simpl in *; try exact H; try (apply G; exact H);
      try (destruct k; try exact Logic.I; apply G; exact H).
    destruct H as [H1 H2]; split; [apply G; exact H1 | exact H2].
  Qed.

  Lemma sel0_tab : forall ks w, length ks = length (w_order w) -> tab_ok ks w (sel0 w).
  Proof.
    intros ks w H _ _. simpl. rewrite <- H. clear H.
    induction ks as [| k ks IH]; simpl; [reflexivity | rewrite IH; reflexivity].
  Qed.

  Lemma add_forb_in : forall x y l, In y l \/ x = y -> In y (add_forb x l).
  Proof.
    intros x y l H. unfold add_forb. destruct (existsb (eqo x) l) eqn:E.
    - destruct H as [H | <-]; [exact H |].
      apply existsb_exists in E. destruct E as (z & Hz & He).
      replace x with z; [exact Hz |].
      destruct x, z; simpl in He; try discriminate; [apply Nat.eqb_eq in He; subst |]; reflexivity.
    - apply in_app_iff. destruct H as [H | <-]; [left; exact H | right; left; reflexivity].
  Qed.

  Lemma loc_internal : forall oid n o ks x ch y,
    loc o ks x -> internal complete dmt oid n x ch = Some (y, None) -> loc o ks y.
  Proof.
    intros oid n o ks x ch y Hj H.
    destruct x as [| a g | g | m g | w s | w | kill todo kept k | v kill todo kept k | m todo w |];
      destruct ch as [ids | id cur forms | a' | i r0 | i id cur |]; try discriminate H;
      cbn [internal] in H; try (destruct todo; discriminate H).
    - destruct dmt; discriminate.
    - destruct (leaf_answer a'); [| discriminate]. injection H as <-. exact Logic.I.
    - destruct m as [x |]; [destruct (memb x g) |]; try discriminate.
      injection H as <-. exact Logic.I.
    - destruct (s_rem s); [| discriminate].
      destruct (after_select w s i r0) as [z |] eqn:E; [| discriminate]. injection H as <-.
      destruct Hj as [(H1 & H2 & H3) _]. unfold after_select in E.
      destruct (decide w s) as [| r | r].
      + destruct (w_cur w); injection E as <-; exact Logic.I.
      + injection E as <-; exact Logic.I.
      + destruct (choose i r) as [[x r'] |]; [| discriminate]. injection E as <-.
        split; [| split; [reflexivity | exact H3]].
        intro Hd. destruct (H1 Hd) as (H4 & H5 & _). split; [exact H4 | split; [| reflexivity]].
        intros z Hz. cbn [w_alive] in Hz. apply drop_in in Hz. apply H5; tauto.
    - unfold opened in H. destruct Hj as (H1 & H2 & H3).
      assert (G : forall cur bt forms onf sent back,
                (back = false -> cur = sent) -> (dmt = false -> onf = false) ->
                loc o ks (SendSub sent (w_alive w)
                  (WArgs (w_alive w) (w_order w) (w_given w) cur bt forms onf
                     (if complete then add_forb (w_cur w) (w_forb w) else w_forb w)
                     false sent back ((w_sent w, w_back w) :: w_failed w)))).
      { intros cur' bt forms onf sent back Hb Hon. split; [| split; [exact Hb |]].
        { intro Hd. destruct (H1 Hd) as (H4 & H5 & _).
          split; [exact H4 | split; [exact H5 | exact (Hon Hd)]]. }
        intros Hc x [Hx | Hx]; cbn [w_forb]; rewrite Hc; apply add_forb_in.
        - injection Hx as Hx Hbk. right. rewrite <- Hx. exact (H2 Hbk).
        - left. exact (H3 Hc x Hx). }
      assert (Hon : dmt = false -> w_onf w = false) by (intro Hd; apply (H1 Hd)).
      destruct (w_onf w); [destruct (w_forms w); [| discriminate] |];
        (destruct (w_bt w) as [| b bt];
         [ destruct (complete && (1 <? length (w_alive w)) &&
             match w_cur w with Some _ => true | None => false end); injection H as <-;
           [ apply G; [reflexivity | exact Hon] | exact Logic.I ]
         | destruct (choose i (b :: bt)) as [[x r] |]; [| discriminate];
           injection H as <-; apply G; [discriminate | reflexivity] ]).
    - destruct todo; [| discriminate].
      destruct k as [a g | g | | w |]; try discriminate; injection H as <-; try exact Logic.I.
      simpl in *. exact Hj.
    - destruct todo; [| discriminate]. injection H as <-. simpl in *.
      split; [exact Hj |]. intros Hd Hn. apply sel0_tab; try assumption.
      destruct (proj1 Hj Hd) as [H4 _]. rewrite <- H4, map_length. reflexivity.
  Qed.

  Lemma map_nth_seq : forall n (os : list nat) o,
    (forall q, n <= q -> q < n + length os -> o q = nth (q - n) os 0) ->
    map o (seq n (length os)) = os.
  Proof.
    intros n os; revert n. induction os as [| x os IH]; intros n o H; [reflexivity |].
    simpl. f_equal.
    - rewrite H by (simpl; lia). rewrite Nat.sub_diag. reflexivity.
    - apply IH. intros q H1 H2. rewrite H by (simpl; lia).
      replace (q - n) with (S (q - S n)) by lia. reflexivity.
  Qed.

  Lemma loc_launch : forall oid n o o' ks x ch y os,
    loc o ks x -> internal complete dmt oid n x ch = Some (y, Some os) ->
    (forall q, n <= q -> q < n + length os -> o' q = nth (q - n) os 0) ->
    loc o' (seq n (length os)) y.
  Proof.
    intros oid n o o' ks x ch y os Hj H Ho.
    assert (Hos : map o' (seq n (length os)) = os) by (apply map_nth_seq; exact Ho).
    assert (G : forall g cur forms onf, (dmt = false -> onf = false) ->
              loc o' (seq n (length os))
                (Waiting (wargs0 (seq n (length os)) os g cur forms onf)
                         (sel0 (wargs0 (seq n (length os)) os g cur forms onf)))).
    { intros g cur forms onf Hon. split.
      - split; [| split; [reflexivity | intros _ z []]].
        intro Hd. split; [exact Hos | split; [intros z Hz; exact Hz | exact (Hon Hd)]].
      - apply sel0_tab. simpl. apply seq_length. }
    destruct x as [| a g | g | m g | w s | w | kill todo kept k | v kill todo kept k | m todo w |];
      destruct ch as [ids | id cur forms | a' | i r0 | i id cur |]; try discriminate H;
      cbn [internal] in H; try (destruct todo; discriminate H).
    - injection H as <- <-. apply G; reflexivity.
    - destruct dmt eqn:Ed; [| discriminate]. injection H as <- <-.
      apply (G [] cur forms true). discriminate.
    - destruct (leaf_answer a'); discriminate.
    - destruct m as [x |]; [destruct (memb x g) |]; try discriminate; injection H as <- <-;
        apply (G g _ 0 false); reflexivity.
    - destruct (s_rem s); [| discriminate]. destruct (after_select w s i r0); discriminate.
    - unfold opened in H. destruct Hj as (H1 & H2 & H3).
      assert (Hon : dmt = false -> w_onf w = false) by (intro Hd; apply (H1 Hd)).
      destruct (w_onf w) eqn:Eo; [destruct (w_forms w) as [| nf] eqn:Ef |];
        try (destruct (w_bt w) as [| b bt];
         [ destruct (complete && (1 <? length (w_alive w)) &&
             match w_cur w with Some _ => true | None => false end); discriminate H
         | destruct (choose i (b :: bt)) as [[x r] |]; discriminate H ]).
      injection H as <- <-. split; [| intro Hd; discriminate (Hon Hd)].
      split; [intro Hd; discriminate (Hon Hd) | split; [reflexivity |]].
      intros Hc x [Hx | Hx]; cbn [w_forb]; rewrite Hc; apply add_forb_in.
      + injection Hx as Hx Hbk. right. rewrite <- Hx. exact (H2 Hbk).
      + left. exact (H3 Hc x Hx).
    - destruct todo; [destruct k |]; discriminate.
  Qed.

  (** The slot of the child that answers. *)
  Lemma set_slot : forall (o : nat -> nat) got c ks i,
    NoDup (map o ks) -> In c ks -> index (o c) (map o ks) = Some i ->
    set_nth i (Some c) (map (fun k => if memb k got then Some k else None) ks)
    = map (fun k => if memb k (c :: got) then Some k else None) ks.
  Proof.
    intros o got c ks; induction ks as [| k ks IH]; intros i Hn Hin Hi; [destruct Hin |].
    simpl in Hn. inversion Hn as [| ? ? Hk Hn']; subst.
    cbn [map index] in Hi. destruct (o k =? o c) eqn:E.
    - injection Hi as <-. apply Nat.eqb_eq in E.
      assert (k = c).
      { destruct Hin as [Hin | Hin]; [exact Hin |]. exfalso; apply Hk. rewrite E.
        apply in_map; exact Hin. }
      subst k. cbn [map set_nth]. f_equal.
      + rewrite memb_cons, Nat.eqb_refl. reflexivity.
      + apply map_ext_in. intros k Hkk. rewrite memb_cons.
        destruct (k =? c) eqn:Ek; [| reflexivity].
        apply Nat.eqb_eq in Ek; subst k. exfalso; apply Hk, in_map, Hkk.
    - apply Nat.eqb_neq in E.
      destruct (index (o c) (map o ks)) as [j |] eqn:Ej; [| discriminate].
      injection Hi as <-. destruct Hin as [Hin | Hin]; [congruence |].
      cbn [map set_nth]. f_equal; [| apply IH; try assumption; reflexivity].
      rewrite memb_cons. destruct (k =? c) eqn:Ek; [| reflexivity].
      apply Nat.eqb_eq in Ek; congruence.
  Qed.

  Lemma loc_gets : forall o ks x c a x',
    loc o ks x -> gets x c (o c) a = To x' -> loc o ks x'.
  Proof.
    intros o ks x c a x' Hj H.
    destruct x as [| a0 g | g | m g | w s | w | kill todo kept k | v kill todo kept k | m todo w |];
      try discriminate H; cbn [gets] in H.
    - destruct (memb c (w_alive w)) eqn:Ea; [| discriminate].
      destruct (s_rem s) as [| r] eqn:Er; [discriminate |].
      destruct (index (o c) (w_order w)) as [i |] eqn:Ei; [| discriminate].
      simpl in Hj. destruct Hj as [Hw Ht].
      set (s1 := Sel r (c :: s_got s) (if need a then s_gone s else c :: s_gone s)
                   (s_cpt s) (s_seen s) (s_res s) (s_com s)
                   (set_nth i (Some c) (s_tab s))) in *.
      destruct (closed a); injection H as <-.
      + split; [exact Hw |]. intros Hd Hn.
        assert (T : s_tab (take_substs (w_cur w) (substs a) s1) = s_tab s1
                    /\ s_got (take_substs (w_cur w) (substs a) s1) = s_got s1).
        { unfold take_substs. destruct (substs a) as [| y l]; [split; reflexivity |].
          destruct (match l with [] => eqo (Some y) (w_cur w) | _ :: _ => false end);
            split; reflexivity. }
        destruct T as [-> ->]. unfold s1; cbn [s_tab s_got]. rewrite (Ht Hd Hn).
        destruct (proj1 Hw Hd) as (H4 & H5 & _). apply (set_slot o).
        * rewrite H4; exact Hn.
        * apply H5, memb_in, Ea.
        * rewrite H4; exact Ei.
      + cbn [loc kloc]. rewrite app_nil_r.
        change (if need a then s_gone s else c :: s_gone s) with (s_gone s1).
        destruct Hw as (H1 & H2). split; [| exact H2].
        intro Hd. destruct (H1 Hd) as (H4 & H5 & H6). split; [exact H4 | split; [| exact H6]].
        intros z Hz. apply drop_in in Hz. apply H5; tauto.
    - destruct todo as [| v todo]; [discriminate |].
      destruct (v =? c); [| discriminate].
      destruct (need a); injection H as <-; [exact Hj |].
      destruct k; try exact Logic.I. destruct Hj as (H1 & H2). split; [| exact H2].
      intro Hd. destruct (H1 Hd) as (H4 & H5 & H6). split; [exact H4 | split; [| exact H6]].
      intros z Hz. apply H5. right; exact Hz.
  Qed.

  Lemma loc_quits : forall o ks x c kill x',
    loc o ks x -> quits x c = Some (kill, x') -> loc o ks x'.
  Proof.
    intros o ks x c kill x' Hj H.
    assert (G : forall kill0 v todo kept k,
              kloc o ks k (v :: todo ++ kept) ->
              kloc o ks k (todo ++ (if kill0 : bool then kept else kept ++ [v]))).
    { intros kill0 v todo kept k Hk. destruct k; try exact Logic.I.
      destruct Hk as (H1 & H2). split; [| exact H2].
      intro Hd. destruct (H1 Hd) as (H4 & H5 & H6). split; [exact H4 | split; [| exact H6]].
      intros z Hz. apply H5. simpl. rewrite in_app_iff in *. destruct kill0; [tauto |].
      rewrite in_app_iff in Hz. simpl in Hz. tauto. }
    destruct x as [| a0 g | g | m g | w s | w | kill0 todo kept k | v kill0 todo kept k | m todo w |];
      try discriminate H; cbn [quits] in H.
    - destruct todo as [| v todo]; [discriminate |].
      destruct (v =? c); [| discriminate]. injection H as <- <-. apply G; exact Hj.
    - destruct (v =? c); [| discriminate]. injection H as <- <-. apply G; exact Hj.
  Qed.

  Lemma loc_told : forall o ks y kill y', told_quit y kill = Some y' -> loc o ks y'.
  Proof.
    intros o ks y kill y' H.
    destruct y as [| a0 g | g | m g | w s | w | kill0 todo kept k | v kill0 todo kept k | m todo w |];
      try discriminate H; cbn [told_quit] in H.
    1-3: injection H as <-; destruct kill; exact Logic.I.
    assert (E : y' = Closing true (drop (s_gone s) (w_alive w)) []
                     (if kill then KDead else KWait (w_given w))).
    { destruct (s_rem s), (w_alive w); congruence. }
    subst y'. destruct kill; exact Logic.I.
  Qed.

  Lemma loc_tells : forall o ks x c m x',
    loc o ks x -> tells x c = Some (m, x') -> loc o ks x'.
  Proof.
    intros o ks x c m x' Hj H.
    destruct x as [| a0 g | g | m0 g | w s | w | kill todo kept k | v kill todo kept k | m0 todo w |];
      try discriminate H; cbn [tells] in H.
    destruct todo as [| v todo]; [discriminate |].
    destruct (v =? c); [| discriminate]. injection H as <- <-; exact Hj.
  Qed.

  Definition linv (g : cfg) : Prop :=
    forall p, p < c_n g -> loc (c_orig g) (c_kids g p) (c_ctl g p).

  Theorem linv_exec : forall g a g',
    jinv g -> linv g -> exec complete dmt g a = Some g' -> linv g'.
  Proof.
    intros g a g' Hj Hl H. pose proof (j_inv g Hj) as Hi. unfold exec in H.
    destruct (c_crash g) eqn:Ecr; [discriminate |].
    assert (U : forall p y q, loc (c_orig g) (c_kids g p) y -> q < c_n g ->
              loc (c_orig g) (c_kids g q) (upd (c_ctl g) p y q)).
    { intros p y q Hy Hq. destruct (Nat.eq_dec q p) as [-> | Hqp];
        [rewrite upd_same; exact Hy | rewrite upd_other by exact Hqp; exact (Hl q Hq)]. }
    assert (U2 : forall f x c y q, loc (c_orig g) (c_kids g f) x ->
              loc (c_orig g) (c_kids g c) y -> q < c_n g ->
              loc (c_orig g) (c_kids g q) (upd (upd (c_ctl g) f x) c y q)).
    { intros f x c y q Hx Hy Hq. destruct (Nat.eq_dec q c) as [-> | Hqc];
        [rewrite upd_same; exact Hy | rewrite upd_other by exact Hqc; apply U; assumption]. }
    assert (Haft : forall p b gv, loc (c_orig g) (c_kids g p) (after_answer b gv)).
    { intros p b gv. unfold after_answer. destruct (need b); exact Logic.I. }
    destruct a as [p ch | p | c | c | c].
    - destruct (p <? c_n g) eqn:Ep; [| discriminate]. apply Nat.ltb_lt in Ep.
      destruct (internal complete dmt (c_orig g p) (c_n g) (c_ctl g p) ch)
        as [[x [os |]] |] eqn:E; try discriminate; injection H as <-.
      + intros q Hq. cbn [launch c_n c_kids c_orig c_ctl] in *.
        destruct (q =? p) eqn:Eq.
        * eapply loc_launch; [exact (Hl p Ep) | exact E |].
          intros r H1 H2.
          replace ((c_n g <=? r) && (r <? c_n g + length os)) with true; [reflexivity |].
          symmetry; apply andb_true_iff; split; [apply Nat.leb_le | apply Nat.ltb_lt]; lia.
        * destruct ((c_n g <=? q) && (q <? c_n g + length os)) eqn:En; [exact Logic.I |].
          assert (Hqn : q < c_n g).
          { apply andb_false_iff in En. destruct En as [En | En];
              [apply Nat.leb_gt in En; exact En | apply Nat.ltb_ge in En; lia]. }
          apply (loc_frame (c_orig g)); [| exact (Hl q Hqn)].
          intros k Hk. destruct (j_kid g Hj q k Hqn Hk) as (H1 & _).
          replace ((c_n g <=? k) && (k <? c_n g + length os)) with false; [reflexivity |].
          symmetry; apply andb_false_iff; left; apply Nat.leb_gt; exact H1.
      + intros q Hq. apply U; [| exact Hq]. eapply loc_internal; [exact (Hl p Ep) | exact E].
    - destruct ((p <? c_n g) && may_crash (c_ctl g p)); [| discriminate].
      injection H as <-. exact Hl.
    - destruct (c <? c_n g) eqn:Ec; [| discriminate]. apply Nat.ltb_lt in Ec.
      destruct (c_ctl g c) as [| a gv | | | | | | | |] eqn:Ectl; try discriminate.
      destruct c as [| c'].
      + destruct (c_main g); try discriminate. injection H as <-.
        intros q Hq. apply U; [apply Haft | exact Hq].
      + remember (S c') as c. assert (Hc0 : 0 < c) by lia.
        destruct (gets (c_ctl g (c_fa g c)) c (c_orig g c) a) as [| | x] eqn:E;
          try discriminate; injection H as <-; [exact Hl |].
        assert (Hf : c_fa g c < c_n g) by (pose proof (i_fa g Hi c Hc0 Ec); lia).
        intros q Hq. apply U2; [| apply Haft | exact Hq].
        eapply loc_gets; [exact (Hl _ Hf) | exact E].
    - destruct (c <? c_n g) eqn:Ec; [| discriminate]. apply Nat.ltb_lt in Ec.
      destruct c as [| c'].
      + destruct (c_main g); try discriminate.
        destruct (told_quit (c_ctl g 0) true) as [y |] eqn:E; [| discriminate].
        injection H as <-. intros q Hq. apply U; [eapply loc_told; exact E | exact Hq].
      + remember (S c') as c. assert (Hc0 : 0 < c) by lia.
        destruct (quits (c_ctl g (c_fa g c)) c) as [[kill x] |] eqn:Eq; [| discriminate].
        destruct (told_quit (c_ctl g c) kill) as [y |] eqn:E; [| discriminate].
        injection H as <-.
        assert (Hf : c_fa g c < c_n g) by (pose proof (i_fa g Hi c Hc0 Ec); lia).
        intros q Hq. apply U2; [| eapply loc_told; exact E | exact Hq].
        eapply loc_quits; [exact (Hl _ Hf) | exact Eq].
    - destruct ((c <? c_n g) && negb (c =? 0)) eqn:Ec; [| discriminate].
      apply andb_true_iff in Ec. destruct Ec as [Ec Ec0]. apply Nat.ltb_lt in Ec.
      apply negb_true_iff, Nat.eqb_neq in Ec0.
      destruct (tells (c_ctl g (c_fa g c)) c) as [[m x] |] eqn:Et; [| discriminate].
      destruct (c_ctl g c) as [| | gv | | | | | | |] eqn:Ectl; try discriminate.
      injection H as <-.
      assert (Hf : c_fa g c < c_n g) by (pose proof (i_fa g Hi c ltac:(lia) Ec); lia).
      intros q Hq. apply U2; [| exact Logic.I | exact Hq].
      eapply loc_tells; [exact (Hl _ Hf) | exact Et].
  Qed.

  Lemma linv_run : forall l g g',
    jinv g -> linv g -> run complete dmt g l = Some g' -> linv g'.
  Proof.
    intro l; induction l as [| a l IH]; simpl; intros g g' Hj Hl H.
    - injection H as <-; exact Hl.
    - destruct (exec complete dmt g a) as [g1 |] eqn:E; [| discriminate].
      exact (IH g1 g' (jinv_exec _ _ _ _ _ Hj E) (linv_exec _ _ _ Hj Hl E) H).
  Qed.

  Lemma linv_reach : forall g, reach complete dmt g -> linv g.
  Proof.
    intros g (id & l & H). refine (linv_run _ _ _ (jinv_start id) _ H).
    intros p Hp. exact Logic.I.
  Qed.
End Local.

Lemma jinv_reach : forall complete dmt g, reach complete dmt g -> jinv g.
Proof.
  intros complete dmt g (id & l & H). exact (jinv_run _ _ _ _ _ (jinv_start id) H).
Qed.

Theorem slots_found : forall complete g, reach complete false g -> slot_found g.
Proof.
  intros complete g H p w s c Hp Hx Hc.
  pose proof (linv_reach complete false g H p Hp) as Hl. rewrite Hx in Hl.
  destruct Hl as [(H1 & _) _]. destruct (H1 eq_refl) as (H2 & H3 & _).
  rewrite <- H2. apply in_map, H3, Hc.
Qed.

(** No answer makes the father panic. *)
Lemma index_found : forall o l, In o l -> index o l <> None.
Proof.
  intros o l; induction l as [| x l IH]; simpl; [intros [] |].
  intros H. destruct (x =? o) eqn:E; [discriminate |].
  destruct H as [H | H]; [apply Nat.eqb_neq in E; congruence |].
  destruct (index o l); [discriminate | exact (IH H)].
Qed.

Theorem no_panic : forall complete g c a,
  reach complete false g -> 0 < c -> c < c_n g ->
  gets (c_ctl g (c_fa g c)) c (c_orig g c) a <> Crash.
Proof.
  intros complete g c a H Hc0 Hc E.
  pose proof (i_fa g (inv_reach _ _ _ H) c Hc0 Hc) as Hf.
  pose proof (slots_found complete g H) as Hs.
  destruct (c_ctl g (c_fa g c)) as [| a0 gv | gv | m gv | w s | w | kill todo kept k
                                   | v kill todo kept k | m todo w |] eqn:Ef;
    try discriminate E; cbn [gets] in E.
  - destruct (memb c (w_alive w)) eqn:Em; [| discriminate].
    destruct (s_rem s); [discriminate |].
    destruct (index (c_orig g c) (w_order w)) eqn:Ei.
    + destruct (closed a); discriminate.
    + refine (index_found _ _ _ Ei). eapply Hs; [| exact Ef | apply memb_in; exact Em]. lia.
  - destruct todo; [discriminate |]. destruct (_ =? c); [| discriminate].
    destruct (need a); discriminate.
Qed.

(** What the slots hold, in full. *)
Theorem slots_hold : forall complete g p w s,
  reach complete false g -> p < c_n g -> c_ctl g p = Waiting w s ->
  NoDup (map (c_orig g) (c_kids g p)) ->
  s_tab s = map (fun k => if memb k (s_got s) then Some k else None) (c_kids g p).
Proof.
  intros complete g p w s H Hp Hx Hn.
  pose proof (linv_reach complete false g H p Hp) as Hl. rewrite Hx in Hl.
  destruct Hl as [(H1 & _) Ht]. destruct (H1 eq_refl) as (H2 & _).
  apply Ht; [reflexivity | rewrite <- H2; exact Hn].
Qed.

Theorem proofs_there : forall complete g p w s,
  reach complete false g -> p < c_n g -> c_ctl g p = Waiting w s -> s_rem s = 0 ->
  NoDup (map (c_orig g) (c_kids g p)) -> incl (c_kids g p) (w_alive w) ->
  s_tab s = map Some (c_kids g p).
Proof.
  intros complete g p w s H Hp Hx Hr Hn Hal.
  rewrite (slots_hold complete g p w s H Hp Hx Hn). apply map_ext_in. intros k Hk.
  pose proof (i_wf g (inv_reach _ _ _ H) p Hp) as Hw. rewrite Hx in Hw.
  pose proof (all_got w s Hw Hr k (Hal k Hk)) as Hg. apply memb_in in Hg. rewrite Hg. reflexivity.
Qed.

(** A slot is left empty exactly when the child is no longer among those
    waited for. *)
Theorem slots_empty : forall complete g p w s,
  reach complete false g -> p < c_n g -> c_ctl g p = Waiting w s -> s_rem s = 0 ->
  NoDup (map (c_orig g) (c_kids g p)) ->
  s_tab s = map (fun k => if memb k (w_alive w) then Some k else None) (c_kids g p).
Proof.
  intros complete g p w s H Hp Hx Hr Hn.
  rewrite (slots_hold complete g p w s H Hp Hx Hn). apply map_ext_in. intros k Hk.
  pose proof (i_wf g (inv_reach _ _ _ H) p Hp) as Hw. rewrite Hx in Hw.
  pose proof (all_got w s Hw Hr) as Hg. destruct Hw as (_ & _ & Hin & _ & _).
  destruct (memb k (w_alive w)) eqn:E.
  - apply memb_in in E. apply Hg, memb_in in E. rewrite E. reflexivity.
  - apply memb_not in E. assert (~ In k (s_got s)) as G by (intro G; apply E, Hin, G).
    apply memb_not in G. rewrite G. reflexivity.
Qed.

Theorem current_sent : forall complete dmt g p w s,
  reach complete dmt g -> p < c_n g -> c_ctl g p = Waiting w s ->
  w_back w = false -> w_cur w = w_sent w.
Proof.
  intros complete dmt g p w s H Hp Hx Hb.
  pose proof (linv_reach complete dmt g H p Hp) as Hl. rewrite Hx in Hl.
  destruct Hl as [(_ & H2 & _) _]. exact (H2 Hb).
Qed.

Theorem failed_forbidden : forall dmt g p todo w x,
  reach true dmt g -> p < c_n g -> c_ctl g p = SendSub None todo w ->
  In (x, false) (w_failed w) -> In x (w_forb w).
Proof.
  intros dmt g p todo w x H Hp Hx Hi.
  pose proof (linv_reach true dmt g H p Hp) as Hl. rewrite Hx in Hl.
  destruct Hl as (_ & _ & H3). exact (H3 eq_refl x Hi).
Qed.
