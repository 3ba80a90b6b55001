(** The invariant of the processes: what a father knows of its children. *)

Require Import Coq.Lists.List Coq.Arith.PeanoNat Coq.Bool.Bool Coq.micromega.Lia.
From Verif Require Import Proto_Model Proto_Spec.
Import ListNotations.

(** ** Lists *)

Lemma memb_in : forall x l, memb x l = true <-> In x l.
Proof.
  intros x l; unfold memb; rewrite existsb_exists; split.
  - intros [y [Hy He]]. apply Nat.eqb_eq in He; subst; exact Hy.
  - intro H; exists x; split; [exact H | apply Nat.eqb_refl].
Qed.

Lemma memb_not : forall x l, memb x l = false <-> ~ In x l.
Proof.
  intros x l; rewrite <- memb_in; destruct (memb x l); split; congruence.
Qed.

Lemma drop_in : forall gone l x, In x (drop gone l) <-> In x l /\ ~ In x gone.
Proof.
  intros; unfold drop; rewrite filter_In; rewrite <- memb_not.
  destruct (memb x gone); simpl; intuition congruence.
Qed.

Lemma drop_nodup : forall gone l, NoDup l -> NoDup (drop gone l).
Proof. intros; apply NoDup_filter; assumption. Qed.

Lemma in_dec_nat : forall (x : nat) l, {In x l} + {~ In x l}.
Proof. intros; apply in_dec, Nat.eq_dec. Qed.

Lemma missing : forall (a b : list nat),
  NoDup a -> length b < length a -> exists x, In x a /\ ~ In x b.
Proof.
  intros a b Ha Hl.
  destruct (existsb (fun x => negb (memb x b)) a) eqn:E.
  - apply existsb_exists in E; destruct E as [x [Hx Hn]].
    exists x; split; [exact Hx |]. apply memb_not.
    destruct (memb x b); [discriminate | reflexivity].
  - exfalso. assert (incl a b).
    { intros x Hx. destruct (in_dec_nat x b); [assumption |].
      exfalso. rewrite <- not_true_iff_false, existsb_exists in E. apply E.
      exists x; split; [exact Hx |]. apply memb_not in n; rewrite n; reflexivity. }
    apply (NoDup_incl_length Ha) in H; lia.
Qed.

(** ** What a process is to its father *)

Inductive cls := Act | Idl | Gon.

Definition kcls (k : cont) : cls :=
  match k with
  | KSend _ _ | KOpened _ | KCrash => Act
  | KWait _ => Idl
  | KDead => Gon
  end.

Definition cls_of (x : ctl) : cls :=
  match x with
  | Compute | Sending _ _ | Got _ _ | Waiting _ _ | Opened _ | SendSub _ _ _ => Act
  | WaitFather _ => Idl
  | Closing _ _ _ k | ClosingQuit _ _ _ _ k => kcls k
  | Dead => Gon
  end.

(** What a father expects of a process: to be at work, waiting for it, either
    of them, or to have ended. *)
Inductive expct := EAct | EIdl | ELive | EGon.

Definition sat (e : expct) (c : cls) : Prop :=
  match e, c with
  | EAct, Act | EIdl, Idl | ELive, Act | ELive, Idl | EGon, Gon => True
  | _, _ => False
  end.

Definition kexp (k : cont) : expct :=
  match k with
  | KSend _ _ | KCrash => EIdl
  | _ => ELive
  end.

Definition expects (x : ctl) (c : nat) : option expct :=
  match x with
  | Waiting w s =>
      if memb c (w_alive w) then
        if memb c (s_gone s) then Some EGon
        else if memb c (s_got s) then Some EIdl else Some EAct
      else None
  | Opened w => if memb c (w_alive w) then Some EIdl else None
  | SendSub _ todo w =>
      if memb c todo then Some EIdl
      else if memb c (w_alive w) then Some EAct else None
  | Closing _ todo kept k =>
      if memb c todo then Some (kexp k)
      else if memb c kept then Some EIdl else None
  | ClosingQuit v _ todo kept k =>
      if c =? v then Some EIdl
      else if memb c todo then Some (kexp k)
      else if memb c kept then Some EIdl else None
  | _ => None
  end.

(** What holds of the place of a process alone. *)
Definition closing_ok (kill : bool) (l : list nat) (kept : list nat) (k : cont) : Prop :=
  NoDup l /\ (kill = true -> kept = [])
  /\ (match k with KOpened _ => kill = false | _ => kill = true end).

Definition wf (x : ctl) : Prop :=
  match x with
  | Waiting w s =>
      NoDup (w_alive w) /\ NoDup (s_got s) /\ incl (s_got s) (w_alive w)
      /\ incl (s_gone s) (s_got s) /\ s_rem s + length (s_got s) = length (w_alive w)
  | Opened w => NoDup (w_alive w)
  | SendSub _ todo w => NoDup (w_alive w) /\ NoDup todo /\ incl todo (w_alive w)
  | Closing kill todo kept k => closing_ok kill (todo ++ kept) kept k
  | ClosingQuit v kill todo kept k => closing_ok kill (v :: todo ++ kept) kept k
  | _ => True
  end.

Definition main_ok (m : mstate) (c : cls) : Prop :=
  match m, c with
  | MRecv, Act | MQuit, Idl | MDone, Gon => True
  | _, _ => False
  end.

Record inv (g : cfg) : Prop := Inv {
  i_pos : 0 < c_n g;
  i_main : main_ok (c_main g) (cls_of (c_ctl g 0));
  i_wf : forall p, p < c_n g -> wf (c_ctl g p);
  i_exp : forall p c e, p < c_n g -> expects (c_ctl g p) c = Some e ->
          p < c /\ c < c_n g /\ c_fa g c = p /\ sat e (cls_of (c_ctl g c));
  i_fa : forall c, 0 < c -> c < c_n g -> c_fa g c < c
}.

(** What a process forgotten by its father may be. *)
Definition held (P : cls -> Prop) (g : cfg) : Prop :=
  forall c, 0 < c -> c < c_n g -> expects (c_ctl g (c_fa g c)) c = None ->
  P (cls_of (c_ctl g c)).

(** ** Local changes *)

(** What a process expects afterwards, it expected as much before. *)
Definition weaker (e e' : expct) : Prop := forall c, sat e c -> sat e' c.

Lemma weaker_refl : forall e, weaker e e.
Proof. intros e c H; exact H. Qed.

Definition exp_le (x y : ctl) (but : nat) : Prop :=
  forall c e', c <> but -> expects y c = Some e' ->
  exists e, expects x c = Some e /\ weaker e e'.

Lemma upd_same : forall A (f : nat -> A) p x, upd f p x p = x.
Proof. intros; unfold upd; rewrite Nat.eqb_refl; reflexivity. Qed.

Lemma upd_other : forall A (f : nat -> A) p x q, q <> p -> upd f p x q = f q.
Proof.
  intros; unfold upd. destruct (q =? p) eqn:E; [apply Nat.eqb_eq in E; congruence | reflexivity].
Qed.

(** A step of one process which keeps its class. *)
Lemma inv_one : forall g p y,
  inv g -> p < c_n g -> wf y -> cls_of y = cls_of (c_ctl g p) ->
  (forall c e', expects y c = Some e' ->
     exists e, expects (c_ctl g p) c = Some e /\ weaker e e') ->
  inv (set_ctl g (upd (c_ctl g) p y)).
Proof.
  intros g p y [H0 Hm Hw He Hf] Hp Hy Hc Hle.
  assert (Hcls : forall q, cls_of (upd (c_ctl g) p y q) = cls_of (c_ctl g q)).
  { intro q. unfold upd. destruct (q =? p) eqn:E; [| reflexivity].
    apply Nat.eqb_eq in E; subst; exact Hc. }
  constructor; cbn [set_ctl c_n c_ctl c_fa c_main].
  - exact H0.
  - rewrite Hcls; exact Hm.
  - intros q Hq. unfold upd. destruct (q =? p); [exact Hy | apply Hw; exact Hq].
  - intros q c e Hq Hx. rewrite Hcls.
    unfold upd in Hx. destruct (q =? p) eqn:E.
    + apply Nat.eqb_eq in E; subst q.
      destruct (Hle c e Hx) as [e0 [Hx0 Hlt]].
      destruct (He p c e0 Hq Hx0) as [H1 [H2 [H3 H4]]].
      repeat split; try assumption. apply Hlt; exact H4.
    + apply He; assumption.
  - exact Hf.
Qed.

Lemma held_one : forall (P : cls -> Prop) g p y,
  held P g -> cls_of y = cls_of (c_ctl g p) ->
  (forall c, c_fa g c = p -> c < c_n g -> 0 < c -> expects y c = None ->
     expects (c_ctl g p) c = None \/ P (cls_of (c_ctl g c))) ->
  held P (set_ctl g (upd (c_ctl g) p y)).
Proof.
  intros P g p y H Hc Hn c Hc0 Hcn.
  cbn [set_ctl c_n c_ctl c_fa] in *. intro Hx.
  assert (Hcls : forall q, cls_of (upd (c_ctl g) p y q) = cls_of (c_ctl g q)).
  { intro q. unfold upd. destruct (q =? p) eqn:E; [| reflexivity].
    apply Nat.eqb_eq in E; subst; exact Hc. }
  rewrite Hcls. unfold upd in Hx. destruct (c_fa g c =? p) eqn:E.
  - apply Nat.eqb_eq in E. destruct (Hn c E Hcn Hc0 Hx) as [H1 | H1]; [| exact H1].
    apply H; try assumption. rewrite E; exact H1.
  - apply H; assumption.
Qed.

(** A rendez-vous of a father and its child: the father keeps its class. *)
Lemma inv_two : forall g f c x y,
  inv g -> 0 < c -> c < c_n g -> c_fa g c = f ->
  wf x -> wf y -> cls_of x = cls_of (c_ctl g f) ->
  exp_le (c_ctl g f) x c ->
  (forall e', expects x c = Some e' -> sat e' (cls_of y)) ->
  (forall d e', expects y d = Some e' ->
     exists e, expects (c_ctl g c) d = Some e /\ weaker e e') ->
  inv (set_ctl g (upd (upd (c_ctl g) f x) c y)).
Proof.
  intros g f c x y [H0 Hm Hw He Hf] Hc0 Hcn Hfa Hx Hy Hcx Hlx Hxy Hly.
  assert (Hfc : f < c) by (subst f; apply Hf; assumption).
  assert (Hcls : forall q, q <> c ->
            cls_of (upd (upd (c_ctl g) f x) c y q) = cls_of (c_ctl g q)).
  { intros q Hq. rewrite upd_other by exact Hq. unfold upd.
    destruct (q =? f) eqn:E; [| reflexivity].
    apply Nat.eqb_eq in E; subst q; exact Hcx. }
  constructor; cbn [set_ctl c_n c_ctl c_fa c_main].
  - exact H0.
  - rewrite Hcls by lia; exact Hm.
  - intros q Hq. unfold upd. destruct (q =? c); [exact Hy |].
    destruct (q =? f); [exact Hx | apply Hw; exact Hq].
  - intros q d e Hq Hd. unfold upd in Hd. destruct (q =? c) eqn:Eqc.
    + apply Nat.eqb_eq in Eqc; subst q.
      destruct (Hly d e Hd) as [e0 [Hd0 Hlt]].
      destruct (He c d e0 Hq Hd0) as [H1 [H2 [H3 H4]]].
      rewrite Hcls by lia. repeat split; try assumption. apply Hlt; exact H4.
    + apply Nat.eqb_neq in Eqc. destruct (q =? f) eqn:Eqf.
      * apply Nat.eqb_eq in Eqf; subst q.
        destruct (Nat.eq_dec d c) as [-> | Hdc].
        -- rewrite upd_same. repeat split; try assumption. apply Hxy; exact Hd.
        -- destruct (Hlx d e Hdc Hd) as [e0 [Hd0 Hlt]].
           destruct (He f d e0 Hq Hd0) as [H1 [H2 [H3 H4]]].
           rewrite Hcls by exact Hdc. repeat split; try assumption. apply Hlt; exact H4.
      * destruct (He q d e Hq Hd) as [H1 [H2 [H3 H4]]].
        assert (d <> c).
        { intro; subst d. apply Nat.eqb_neq in Eqf. congruence. }
        rewrite Hcls by assumption. repeat split; assumption.
  - exact Hf.
Qed.

Lemma held_two : forall (P : cls -> Prop) g f c x y,
  inv g -> held P g -> 0 < c -> c < c_n g -> c_fa g c = f ->
  cls_of x = cls_of (c_ctl g f) ->
  (forall d, d <> c -> expects x d = None ->
     expects (c_ctl g f) d = None \/ (c_fa g d = f -> P (cls_of (c_ctl g d)))) ->
  (expects x c = None -> P (cls_of y)) ->
  (forall d, expects y d = None ->
     expects (c_ctl g c) d = None \/ P (cls_of (c_ctl g d))) ->
  held P (set_ctl g (upd (upd (c_ctl g) f x) c y)).
Proof.
  intros P g f c x y Hinv H Hc0 Hcn Hfa Hcx Hlx Hxc Hly d Hd0 Hdn.
  cbn [set_ctl c_n c_ctl c_fa] in *. intro Hx.
  assert (Hfc : f < c) by (subst f; apply (i_fa g Hinv); assumption).
  assert (Hcls : forall q, q <> c ->
            cls_of (upd (upd (c_ctl g) f x) c y q) = cls_of (c_ctl g q)).
  { intros q Hq. rewrite upd_other by exact Hq. unfold upd.
    destruct (q =? f) eqn:E; [| reflexivity].
    apply Nat.eqb_eq in E; subst q; exact Hcx. }
  pose proof (i_fa g Hinv d Hd0 Hdn) as Hfd.
  destruct (Nat.eq_dec d c) as [-> | Hdc].
  - rewrite upd_same. apply Hxc. rewrite Hfa in Hx.
    rewrite upd_other in Hx by lia. rewrite upd_same in Hx. exact Hx.
  - rewrite Hcls by exact Hdc. unfold upd in Hx.
    destruct (c_fa g d =? c) eqn:E1.
    + apply Nat.eqb_eq in E1. destruct (Hly d Hx) as [H1 | H1]; [| exact H1].
      apply H; try assumption. rewrite E1; exact H1.
    + destruct (c_fa g d =? f) eqn:E2.
      * apply Nat.eqb_eq in E2. destruct (Hlx d Hdc Hx) as [H1 | H1]; [| exact (H1 E2)].
        apply H; try assumption. rewrite E2; exact H1.
      * apply H; assumption.
Qed.

(** A step of the process 0, which nobody but the main program expects. *)
Lemma inv_root : forall g y m,
  inv g -> wf y -> main_ok m (cls_of y) ->
  (forall d e', expects y d = Some e' ->
     exists e, expects (c_ctl g 0) d = Some e /\ weaker e e') ->
  inv (set_main (set_ctl g (upd (c_ctl g) 0 y)) m).
Proof.
  intros g y m [H0 Hm Hw He Hf] Hy Hmy Hly.
  constructor; cbn [set_main set_ctl c_n c_ctl c_fa c_main].
  - exact H0.
  - rewrite upd_same; exact Hmy.
  - intros q Hq. unfold upd. destruct (q =? 0); [exact Hy | apply Hw; exact Hq].
  - intros q d e Hq Hd. unfold upd in Hd. destruct (q =? 0) eqn:E.
    + apply Nat.eqb_eq in E; subst q. destruct (Hly d e Hd) as [e0 [Hd0 Hlt]].
      destruct (He 0 d e0 Hq Hd0) as [H1 [H2 [H3 H4]]].
      rewrite upd_other by lia. repeat split; try assumption. apply Hlt; exact H4.
    + destruct (He q d e Hq Hd) as [H1 [H2 [H3 H4]]].
      rewrite upd_other by lia. repeat split; assumption.
  - exact Hf.
Qed.

Lemma held_root : forall (P : cls -> Prop) g y m,
  inv g -> held P g ->
  (forall d, expects y d = None ->
     expects (c_ctl g 0) d = None \/ (c_fa g d = 0 -> P (cls_of (c_ctl g d)))) ->
  held P (set_main (set_ctl g (upd (c_ctl g) 0 y)) m).
Proof.
  intros P g y m Hinv H Hly d Hd0 Hdn.
  cbn [set_main set_ctl c_n c_ctl c_fa] in *. intro Hx.
  rewrite upd_other by lia. unfold upd in Hx. destruct (c_fa g d =? 0) eqn:E.
  - apply Nat.eqb_eq in E. destruct (Hly d Hx) as [H1 | H1]; [| exact (H1 E)].
    apply H; try assumption. rewrite E; exact H1.
  - apply H; assumption.
Qed.

Lemma seq_memb : forall c n m, memb c (seq n m) = (n <=? c) && (c <? n + m).
Proof.
  intros c n m. destruct (memb c (seq n m)) eqn:E; symmetry.
  - apply memb_in, in_seq in E. apply andb_true_iff.
    rewrite Nat.leb_le, Nat.ltb_lt; lia.
  - apply memb_not in E. rewrite in_seq in E. apply andb_false_iff.
    rewrite Nat.leb_gt, Nat.ltb_ge. lia.
Qed.

Lemma sel0_wf : forall w, NoDup (w_alive w) -> wf (Waiting w (sel0 w)).
Proof.
  intros w H; simpl; repeat split; try assumption; try (constructor; fail).
  - intros x [].
  - intros x [].
  - lia.
Qed.

Lemma sel0_expects : forall w c, expects (Waiting w (sel0 w)) c
  = if memb c (w_alive w) then Some EAct else None.
Proof. intros; simpl; destruct (memb c (w_alive w)); reflexivity. Qed.

(** The launch of processes. *)
Lemma inv_launch : forall g p w os,
  inv g -> p < c_n g -> cls_of (c_ctl g p) = Act ->
  w_alive w = seq (c_n g) (length os) ->
  inv (launch g p (Waiting w (sel0 w)) os).
Proof.
  intros g p w os [H0 Hm Hw He Hf] Hp Hc Ha.
  assert (Hold : forall q, q < c_n g ->
            cls_of (c_ctl (launch g p (Waiting w (sel0 w)) os) q) = cls_of (c_ctl g q)).
  { intros q Hq. simpl. destruct (q =? p) eqn:E.
    - apply Nat.eqb_eq in E; subst; rewrite Hc; reflexivity.
    - replace (c_n g <=? q) with false by (symmetry; apply Nat.leb_gt; lia). reflexivity. }
  assert (Hnew : forall q, c_n g <= q -> q < c_n g + length os ->
            c_ctl (launch g p (Waiting w (sel0 w)) os) q = Compute
            /\ c_fa (launch g p (Waiting w (sel0 w)) os) q = p).
  { intros q Hq Hq2. simpl. replace (q =? p) with false by (symmetry; apply Nat.eqb_neq; lia).
    replace (c_n g <=? q) with true by (symmetry; apply Nat.leb_le; lia).
    replace (q <? c_n g + length os) with true by (symmetry; apply Nat.ltb_lt; lia).
    split; reflexivity. }
  constructor.
  - simpl; lia.
  - rewrite Hold by exact H0. exact Hm.
  - intros q Hq. destruct (Nat.lt_ge_cases q (c_n g)) as [Hl | Hl].
    + simpl. destruct (q =? p) eqn:E.
      * apply sel0_wf. rewrite Ha. apply seq_NoDup.
      * replace (c_n g <=? q) with false by (symmetry; apply Nat.leb_gt; lia).
        simpl. apply Hw; exact Hl.
    + destruct (Hnew q Hl Hq) as [-> _]. exact Logic.I.
  - intros q c e Hq Hx. destruct (Nat.lt_ge_cases q (c_n g)) as [Hl | Hl].
    + destruct (q =? p) eqn:E.
      * apply Nat.eqb_eq in E; subst q.
        assert (E2 : expects (Waiting w (sel0 w)) c = Some e).
        { rewrite <- Hx. simpl. rewrite Nat.eqb_refl. reflexivity. }
        rewrite sel0_expects in E2. destruct (memb c (w_alive w)) eqn:Em; [| discriminate].
        rewrite Ha in Em. apply memb_in, in_seq in Em.
        destruct (Hnew c) as [H1 H2]; try lia. rewrite H1, H2.
        injection E2 as <-. repeat split; simpl; try lia.
      * assert (E2 : expects (c_ctl g q) c = Some e).
        { rewrite <- Hx. simpl. rewrite E.
          replace (c_n g <=? q) with false by (symmetry; apply Nat.leb_gt; lia). reflexivity. }
        destruct (He q c e Hl E2) as [H1 [H2 [H3 H4]]].
        rewrite Hold by exact H2. repeat split; try assumption.
        -- simpl; lia.
        -- simpl. replace (c_n g <=? c) with false by (symmetry; apply Nat.leb_gt; lia).
           exact H3.
    + destruct (Hnew q Hl Hq) as [E _]. rewrite E in Hx. discriminate.
  - intros c Hc0 Hcn. destruct (Nat.lt_ge_cases c (c_n g)) as [Hl | Hl].
    + simpl. replace (c_n g <=? c) with false by (symmetry; apply Nat.leb_gt; lia).
      simpl. apply Hf; assumption.
    + destruct (Hnew c Hl Hcn) as [_ ->]. lia.
Qed.

Lemma held_launch : forall (P : cls -> Prop) g p w os,
  inv g -> held P g -> p < c_n g -> cls_of (c_ctl g p) = Act ->
  w_alive w = seq (c_n g) (length os) ->
  (forall c e, expects (c_ctl g p) c = Some e -> P (cls_of (c_ctl g c))) ->
  held P (launch g p (Waiting w (sel0 w)) os).
Proof.
  intros P g p w os Hinv H Hp Hc Ha Hn c Hc0 Hcn Hx.
  destruct (Nat.lt_ge_cases c (c_n g)) as [Hl | Hl].
  - pose proof (i_fa g Hinv c Hc0 Hl) as Hf.
    assert (Hfa : c_fa (launch g p (Waiting w (sel0 w)) os) c = c_fa g c).
    { simpl. replace (c_n g <=? c) with false by (symmetry; apply Nat.leb_gt; lia).
      reflexivity. }
    rewrite Hfa in Hx.
    assert (G : P (cls_of (c_ctl g c))).
    { simpl in Hx. destruct (c_fa g c =? p) eqn:E.
      - apply Nat.eqb_eq in E. destruct (expects (c_ctl g p) c) as [e |] eqn:Ee.
        + exact (Hn c e Ee).
        + apply H; try assumption. rewrite E; exact Ee.
      - apply H; try assumption. replace (c_n g <=? c_fa g c) with false in Hx by (symmetry; apply Nat.leb_gt; lia).
        exact Hx. }
    simpl. destruct (c =? p) eqn:E.
    + apply Nat.eqb_eq in E; subst c. rewrite Hc in G. exact G.
    + replace (c_n g <=? c) with false by (symmetry; apply Nat.leb_gt; lia). exact G.
  - exfalso. simpl in Hcn.
    assert (Hfa : c_fa (launch g p (Waiting w (sel0 w)) os) c = p).
    { simpl. replace (c_n g <=? c) with true by (symmetry; apply Nat.leb_le; lia).
      replace (c <? c_n g + length os) with true by (symmetry; apply Nat.ltb_lt; lia).
      reflexivity. }
    rewrite Hfa in Hx.
    assert (E : c_ctl (launch g p (Waiting w (sel0 w)) os) p = Waiting w (sel0 w)).
    { simpl. rewrite Nat.eqb_refl. reflexivity. }
    rewrite E, sel0_expects, Ha in Hx.
    assert (Hin : memb c (seq (c_n g) (length os)) = true).
    { apply memb_in, in_seq. lia. }
    rewrite Hin in Hx. discriminate.
Qed.

(** ** The steps of one process *)

Lemma all_got : forall w s, wf (Waiting w s) -> s_rem s = 0 -> incl (w_alive w) (s_got s).
Proof.
  intros w s (Ha & Hg & Hi & Hj & Hl) Hr.
  apply NoDup_length_incl; [exact Hg | lia | exact Hi].
Qed.

Lemma decided : forall w s c k, wf (Waiting w s) -> s_rem s = 0 ->
  memb c (drop (s_gone s) (w_alive w)) = k ->
  expects (Waiting w s) c
  = if k then Some EIdl else if memb c (w_alive w) then Some EGon else None.
Proof.
  intros w s c k Hw Hr Hk. pose proof (all_got w s Hw Hr) as Hg.
  simpl. destruct (memb c (w_alive w)) eqn:Ea.
  - apply memb_in in Ea. destruct (memb c (s_gone s)) eqn:Eg.
    + apply memb_in in Eg. assert (k = false).
      { subst k. apply memb_not. rewrite drop_in. tauto. }
      subst k. rewrite H. reflexivity.
    + apply memb_not in Eg. assert (k = true).
      { subst k. apply memb_in. rewrite drop_in. tauto. }
      subst k. rewrite H.
      replace (memb c (s_got s)) with true
        by (symmetry; apply memb_in, Hg; exact Ea).
      reflexivity.
  - assert (k = false).
    { subst k. apply memb_not. rewrite drop_in. apply memb_not in Ea. tauto. }
    subst k. rewrite H. reflexivity.
Qed.

Definition step_ok (x y : ctl) : Prop :=
  wf y /\ cls_of y = cls_of x
  /\ (forall c e', expects y c = Some e' ->
        exists e, expects x c = Some e /\ weaker e e')
  /\ (forall c, expects y c = None -> expects x c = None \/ expects x c = Some EGon).

Lemma step_quiet : forall x y,
  wf y -> cls_of y = cls_of x -> (forall c, expects y c = None) ->
  (forall c, expects x c = None) -> step_ok x y.
Proof.
  intros x y Hw Hc Hy Hx; repeat split; try assumption.
  - intros c e' H; rewrite Hy in H; discriminate.
  - intros c _; left; apply Hx.
Qed.

Lemma closing_step : forall w s k,
  wf (Waiting w s) -> s_rem s = 0 -> kcls k = Act -> kexp k = EIdl ->
  (match k with KOpened _ => False | _ => True end) ->
  step_ok (Waiting w s) (Closing true (drop (s_gone s) (w_alive w)) [] k).
Proof.
  intros w s k Hw Hr Hk Hke Hko. unfold step_ok. split; [| split; [| split]].
  - simpl. unfold closing_ok. rewrite app_nil_r. split; [| split].
    + apply drop_nodup. exact (proj1 Hw).
    + reflexivity.
    + destruct k; try reflexivity. destruct Hko.
  - exact Hk.
  - intros c e' He'. rewrite (decided w s c _ Hw Hr eq_refl). simpl in He'.
    destruct (memb c (drop (s_gone s) (w_alive w))); [| discriminate].
    rewrite Hke in He'. injection He' as <-. exists EIdl; split; [reflexivity | apply weaker_refl].
  - intros c He'. rewrite (decided w s c _ Hw Hr eq_refl). simpl in He'.
    destruct (memb c (drop (s_gone s) (w_alive w))); [discriminate |].
    destruct (memb c (w_alive w)); [right | left]; reflexivity.
Qed.

Lemma step_select : forall w s i l y,
  wf (Waiting w s) -> s_rem s = 0 -> after_select w s i l = Some y ->
  step_ok (Waiting w s) y.
Proof.
  intros w s i l y Hw Hr Hy. unfold after_select in Hy.
  destruct (decide w s) as [| r | r].
  - destruct (w_cur w); injection Hy as <-; apply closing_step;
      try assumption; try reflexivity; exact Logic.I.
  - injection Hy as <-; apply closing_step; try assumption; try reflexivity; exact Logic.I.
  - destruct (choose i r) as [[x r'] |]; [| discriminate]. injection Hy as <-.
    set (al := drop (s_gone s) (w_alive w)).
    unfold step_ok. split; [| split; [| split]].
    + simpl. split; [| split].
      * apply drop_nodup. exact (proj1 Hw).
      * apply drop_nodup. exact (proj1 Hw).
      * intros z Hz; exact Hz.
    + reflexivity.
    + intros c e' He'. rewrite (decided w s c _ Hw Hr eq_refl). simpl in He'.
      fold al in He'. fold al. destruct (memb c al); [| discriminate].
      injection He' as <-. exists EIdl; split; [reflexivity | apply weaker_refl].
    + intros c He'. rewrite (decided w s c _ Hw Hr eq_refl). simpl in He'.
      fold al in He'. fold al. destruct (memb c al); [discriminate |].
      destruct (memb c (w_alive w)); [right | left]; reflexivity.
Qed.

Lemma step_opened : forall complete o n w i id cur y,
  wf (Opened w) -> opened complete o n w i id cur = Some (y, None) ->
  step_ok (Opened w) y.
Proof.
  intros complete o n w i id cur y Hw Hy.
  assert (G : forall k, kcls k = Act -> kexp k = EIdl ->
            (match k with KOpened _ => False | _ => True end) ->
            step_ok (Opened w) (Closing true (w_alive w) [] k)).
  { intros k Hk Hke Hko. unfold step_ok. split; [| split; [| split]].
    - simpl. unfold closing_ok. rewrite app_nil_r. split; [exact Hw | split]; [reflexivity |].
      destruct k; try reflexivity. destruct Hko.
    - exact Hk.
    - intros c e' He'. simpl in *. destruct (memb c (w_alive w)); [| discriminate].
      rewrite Hke in He'. injection He' as <-. exists EIdl; split; [reflexivity | apply weaker_refl].
    - intros c He'. simpl in *. destruct (memb c (w_alive w)); [discriminate | left; reflexivity]. }
  assert (G2 : forall m w', w_alive w' = w_alive w ->
            step_ok (Opened w) (SendSub m (w_alive w) w')).
  { intros m w' Ha. unfold step_ok. split; [| split; [| split]].
    - simpl. rewrite Ha. split; [exact Hw | split; [exact Hw | intros z Hz; exact Hz]].
    - reflexivity.
    - intros c e' He'. simpl in *. rewrite Ha in He'.
      destruct (memb c (w_alive w)); [| discriminate].
      injection He' as <-. exists EIdl; split; [reflexivity | apply weaker_refl].
    - intros c He'. simpl in *. destruct (memb c (w_alive w)); [discriminate | left; reflexivity]. }
  unfold opened in Hy.
  destruct (w_onf w) eqn:Eo; [destruct (w_forms w) as [| k] eqn:Ef |].
  2: discriminate.
  all: destruct (w_bt w) as [| b bt] eqn:Eb;
    [ destruct (complete && (1 <? length (w_alive w)) &&
                match w_cur w with Some _ => true | None => false end);
      injection Hy as <-; [apply G2; reflexivity | apply G; reflexivity || exact Logic.I]
    | destruct (choose i (b :: bt)) as [[x r] |]; [| discriminate];
      injection Hy as <-; apply G2; reflexivity ].
Qed.

Lemma step_internal : forall complete dmt o n x ch y,
  wf x -> internal complete dmt o n x ch = Some (y, None) -> step_ok x y.
Proof.
  intros complete dmt o n x ch y Hw H.
  destruct x as [| a g | g | m g | w s | w | kill todo kept k | v kill todo kept k | m todo w |];
    destruct ch as [ids | id cur forms | a' | i l | i id cur |]; try discriminate H;
    cbn [internal] in H.
  - destruct dmt; discriminate.
  - destruct (leaf_answer a'); [| discriminate]. injection H as <-.
    apply step_quiet; reflexivity || exact Logic.I.
  - destruct m as [x |]; [destruct (memb x g) |]; try discriminate.
    injection H as <-. apply step_quiet; reflexivity || exact Logic.I.
  - destruct (s_rem s) eqn:Er; [| discriminate].
    destruct (after_select w s i l) as [z |] eqn:E; [| discriminate].
    injection H as <-. exact (step_select w s i l z Hw Er E).
  - exact (step_opened complete o n w i id cur y Hw H).
  - destruct todo; discriminate.
  - destruct todo; discriminate.
  - destruct todo; discriminate.
  - destruct todo; discriminate.
  - destruct todo; discriminate.
  - destruct todo; [| discriminate]. destruct Hw as [Hn [Hk1 Hk2]]. simpl in Hn.
    destruct k as [a g | g | | w |]; try discriminate; injection H as <-.
    + rewrite (Hk1 Hk2). apply step_quiet; reflexivity || exact Logic.I.
    + rewrite (Hk1 Hk2). apply step_quiet; reflexivity || exact Logic.I.
    + rewrite (Hk1 Hk2). apply step_quiet; reflexivity || exact Logic.I.
    + unfold step_ok. split; [exact Hn | split; [reflexivity | split]].
      * intros c e' He'. simpl in *. exists e'. split; [exact He' | apply weaker_refl].
      * intros c He'. left. exact He'.
  - destruct todo; discriminate.
  - destruct todo; discriminate.
  - destruct todo; discriminate.
  - destruct todo; discriminate.
  - destruct todo; discriminate.
  - destruct todo; [| discriminate]. injection H as <-.
    destruct Hw as [Hn _].
    unfold step_ok. split; [apply sel0_wf; exact Hn | split; [reflexivity | split]].
    + intros c e' He'. rewrite sel0_expects in He'. exists e'.
      split; [exact He' | apply weaker_refl].
    + intros c He'. rewrite sel0_expects in He'. left. exact He'.
Qed.

(** A launch. *)
Lemma internal_launch : forall complete dmt o n x ch y os,
  internal complete dmt o n x ch = Some (y, Some os) ->
  exists w, y = Waiting w (sel0 w) /\ w_alive w = seq n (length os)
            /\ cls_of x = Act
            /\ ((forall c, expects x c = None)
                \/ exists w0, x = Opened w0 /\ w_onf w0 = true /\ w_forms w0 <> 0).
Proof.
  intros complete dmt o n x ch y os H.
  destruct x as [| a g | g | m g | w s | w | kill todo kept k | v kill todo kept k | m todo w |];
    destruct ch as [ids | id cur forms | a' | i l | i id cur |]; try discriminate H;
    cbn [internal] in H.
  - injection H as <- <-. eexists; split; [reflexivity | split; [reflexivity |]].
    split; [reflexivity | left; reflexivity].
  - destruct dmt; [| discriminate].
    injection H as <- <-. eexists; split; [reflexivity | split; [reflexivity |]].
    split; [reflexivity | left; reflexivity].
  - destruct (leaf_answer a'); discriminate.
  - destruct m as [x |]; [destruct (memb x g) |]; try discriminate;
      injection H as <- <-; (eexists; split; [reflexivity | split; [reflexivity |]]);
      (split; [reflexivity | left; reflexivity]).
  - destruct (s_rem s); [| discriminate]. destruct (after_select w s i l); discriminate.
  - unfold opened in H. destruct (w_onf w) eqn:Eo; [destruct (w_forms w) as [| k] eqn:Ef |].
    + destruct (w_bt w) as [| b bt].
      * destruct (complete && (1 <? length (w_alive w)) &&
                  match w_cur w with Some _ => true | None => false end); discriminate.
      * destruct (choose i (b :: bt)) as [[x r] |]; discriminate.
    + injection H as <- <-. eexists; split; [reflexivity | split; [reflexivity |]].
      split; [reflexivity |]. right. exists w.
      split; [reflexivity | split; [exact Eo | congruence]].
    + destruct (w_bt w) as [| b bt].
      * destruct (complete && (1 <? length (w_alive w)) &&
                  match w_cur w with Some _ => true | None => false end); discriminate.
      * destruct (choose i (b :: bt)) as [[x r] |]; discriminate.
  - destruct todo; discriminate.
  - destruct todo; discriminate.
  - destruct todo; discriminate.
  - destruct todo; discriminate.
  - destruct todo; discriminate.
  - destruct todo; [destruct k |]; discriminate.
  - destruct todo; discriminate.
  - destruct todo; discriminate.
  - destruct todo; discriminate.
  - destruct todo; discriminate.
  - destruct todo; discriminate.
  - destruct todo; discriminate.
Qed.

(** ** The rendez-vous *)

Lemma take_sel : forall cur l s, 
  s_rem (take_substs cur l s) = s_rem s /\ s_got (take_substs cur l s) = s_got s
  /\ s_gone (take_substs cur l s) = s_gone s /\ s_tab (take_substs cur l s) = s_tab s.
Proof.
  intros cur [| x l] s; [repeat split; reflexivity |].
  unfold take_substs. destruct (match l with [] => eqo (Some x) cur | _ :: _ => false end);
    repeat split; reflexivity.
Qed.

(** A father at [x], whose child [c] at work answers [a], goes to [x']. *)
Definition gets_ok (x x' : ctl) (c : nat) (a : answer) : Prop :=
  wf x' /\ cls_of x' = cls_of x /\ exp_le x x' c
  /\ (forall e', expects x' c = Some e' -> sat e' (if need a then Idl else Gon))
  /\ (expects x' c = None -> need a = false)
  /\ (forall d, d <> c -> expects x' d = None ->
        expects x d = None \/ expects x d = Some EGon).

Lemma memb_cons : forall x y l, memb x (y :: l) = (x =? y) || memb x l.
Proof. reflexivity. Qed.

Lemma gets_step : forall x c o a x',
  wf x -> (exists e, expects x c = Some e /\ sat e Act) ->
  gets x c o a = To x' -> gets_ok x x' c a.
Proof.
  intros x c o a x' Hw [e [He Hs]] H.
  destruct x as [| a0 g | g | m g | w s | w | kill todo kept k | v kill todo kept k | m todo w |];
    try discriminate H; cbn [gets] in H.
  - destruct (memb c (w_alive w)) eqn:Ea; [| discriminate].
    destruct (s_rem s) as [| r] eqn:Er; [discriminate |].
    destruct (index o (w_order w)) as [i |] eqn:Ei; [| discriminate].
    destruct Hw as (Hn & Hg & Hi & Hj & Hl). simpl in He. rewrite Ea in He.
    destruct (memb c (s_gone s)) eqn:Eg; [injection He as <-; destruct Hs |].
    destruct (memb c (s_got s)) eqn:Et; [injection He as <-; destruct Hs |].
    clear He Hs e.
    set (s1 := Sel r (c :: s_got s) (if need a then s_gone s else c :: s_gone s)
                   (s_cpt s) (s_seen s) (s_res s) (s_com s)
                   (set_nth i (Some c) (s_tab s))) in *.
    assert (Hg1 : incl (s_gone s1) (s_got s1)).
    { unfold s1; simpl. destruct (need a); intros z Hz.
      - right; apply Hj; exact Hz.
      - destruct Hz as [-> | Hz]; [left; reflexivity | right; apply Hj; exact Hz]. }
    assert (Hgone : forall d, d <> c -> memb d (s_gone s1) = memb d (s_gone s)).
    { intros d Hd. unfold s1; simpl. destruct (need a); [reflexivity |].
      rewrite memb_cons. apply Nat.eqb_neq in Hd; rewrite Hd; reflexivity. }
    assert (Hgot : forall d, d <> c -> memb d (s_got s1) = memb d (s_got s)).
    { intros d Hd. unfold s1; cbn [s_got].
      rewrite memb_cons. apply Nat.eqb_neq in Hd; rewrite Hd; reflexivity. }
    assert (Hgc : memb c (s_gone s1) = negb (need a)).
    { unfold s1; simpl. destruct (need a); [exact Eg |].
      rewrite memb_cons, Nat.eqb_refl; reflexivity. }
    assert (Htc : memb c (s_got s1) = true).
    { unfold s1; cbn [s_got]. rewrite memb_cons, Nat.eqb_refl; reflexivity. }
    destruct (closed a).
    + injection H as <-. destruct (take_sel (w_cur w) (substs a) s1) as (T1 & T2 & T3 & T4).
      unfold gets_ok. split; [| split; [| split; [| split; [| split]]]].
      * simpl. rewrite T1, T2, T3. repeat split; try assumption.
        -- constructor; [apply memb_not; exact Et | exact Hg].
        -- intros z [<- | Hz]; [apply memb_in; exact Ea | apply Hi; exact Hz].
        -- unfold s1; simpl. lia.
      * reflexivity.
      * intros d e' Hd He'. simpl in He'. rewrite T2, T3, Hgone, Hgot in He' by exact Hd.
        exists e'; split; [exact He' | apply weaker_refl].
      * intros e' He'. simpl in He'. rewrite T2, T3, Ea, Hgc, Htc in He'.
        destruct (need a); simpl in He'; injection He' as <-; exact Logic.I.
      * intros He'. simpl in He'. rewrite T2, T3, Ea, Hgc, Htc in He'.
        destruct (need a); discriminate.
      * intros d Hd He'. simpl in He'. rewrite T2, T3, Hgone, Hgot in He' by exact Hd.
        left; exact He'.
    + injection H as <-. fold s1.
      change (if need a then s_gone s else c :: s_gone s) with (s_gone s1).
      assert (Hdrop : forall d, memb d (drop (s_gone s1) (w_alive w))
                        = memb d (w_alive w) && negb (memb d (s_gone s1))).
      { intro d. destruct (memb d (drop (s_gone s1) (w_alive w))) eqn:E; symmetry.
        - apply memb_in, drop_in in E. destruct E as [E1 E2].
          apply memb_in in E1; apply memb_not in E2. rewrite E1, E2; reflexivity.
        - apply memb_not in E. rewrite drop_in in E. apply andb_false_iff.
          destruct (memb d (w_alive w)) eqn:E1; [right | left; reflexivity].
          destruct (memb d (s_gone s1)) eqn:E2; [reflexivity |].
          exfalso; apply E; split; [apply memb_in; exact E1 | apply memb_not; exact E2]. }
      unfold gets_ok. split; [| split; [| split; [| split; [| split]]]].
      * simpl. unfold closing_ok. rewrite app_nil_r. split; [| split].
        -- apply drop_nodup; exact Hn.
        -- discriminate.
        -- reflexivity.
      * reflexivity.
      * intros d e' Hd He'. simpl in He'. rewrite Hdrop, Hgone in He' by exact Hd.
        simpl. destruct (memb d (w_alive w)); [| discriminate].
        destruct (memb d (s_gone s)); [discriminate |].
        injection He' as <-. destruct (memb d (s_got s)).
        -- exists EIdl; split; [reflexivity | intros [] HH; exact HH || exact Logic.I].
        -- exists EAct; split; [reflexivity | intros [] HH; exact HH || exact Logic.I].
      * intros e' He'. simpl in He'. rewrite Hdrop, Hgc, Ea in He'.
        destruct (need a); simpl in He'; [injection He' as <-; exact Logic.I | discriminate].
      * intros He'. simpl in He'. rewrite Hdrop, Hgc, Ea in He'.
        destruct (need a); simpl in He'; [discriminate | reflexivity].
      * intros d Hd He'. simpl in He'. rewrite Hdrop, Hgone in He' by exact Hd.
        simpl. destruct (memb d (w_alive w)); [| left; reflexivity].
        destruct (memb d (s_gone s)); [right; reflexivity | discriminate].
  - destruct todo as [| v todo]; [discriminate |].
    destruct (v =? c) eqn:Ev; [| discriminate]. apply Nat.eqb_eq in Ev; subst v.
    destruct Hw as (Hn & Hk1 & Hk2).
    simpl in Hn. inversion Hn as [| ? ? Hnot Hnd]; subst.
    rewrite in_app_iff in Hnot.
    assert (Et : memb c todo = false) by (apply memb_not; tauto).
    assert (Ek : memb c kept = false) by (apply memb_not; tauto).
    destruct (need a) eqn:En; injection H as <-.
    + unfold gets_ok. split; [| split; [| split; [| split; [| split]]]].
      * simpl. repeat split; assumption.
      * reflexivity.
      * intros d e' Hd He'. simpl. exists e'; split; [| apply weaker_refl].
        simpl in He'. apply Nat.eqb_neq in Hd. rewrite Hd in *. exact He'.
      * intros e' He'. simpl in He'. rewrite Nat.eqb_refl in He'.
        injection He' as <-. rewrite En. exact Logic.I.
      * intros He'. simpl in He'. rewrite Nat.eqb_refl in He'. discriminate.
      * intros d Hd He'. simpl in *. apply Nat.eqb_neq in Hd. rewrite Hd in *.
        left; exact He'.
    + unfold gets_ok. split; [| split; [| split; [| split; [| split]]]].
      * simpl. repeat split; assumption.
      * reflexivity.
      * intros d e' Hd He'. simpl. exists e'; split; [| apply weaker_refl].
        simpl in He'. apply Nat.eqb_neq in Hd. rewrite Hd. exact He'.
      * intros e' He'. simpl in He'. rewrite Et, Ek in He'. discriminate.
      * intros _. exact En.
      * intros d Hd He'. simpl in *. apply Nat.eqb_neq in Hd. rewrite Hd.
        left; exact He'.
Qed.

Lemma gets_expects : forall x c o a r, gets x c o a = r -> r <> No ->
  exists e, expects x c = Some e.
Proof.
  intros x c o a r H Hr.
  destruct x as [| a0 g | g | m g | w s | w | kill todo kept k | v kill todo kept k | m todo w |];
    try (exfalso; apply Hr; symmetry; exact H); cbn [gets] in H.
  - simpl. destruct (memb c (w_alive w)); [| congruence].
    destruct (memb c (s_gone s)), (memb c (s_got s)); eexists; reflexivity.
  - destruct todo as [| v todo]; [congruence |].
    destruct (v =? c) eqn:Ev; [| congruence]. apply Nat.eqb_eq in Ev; subst v.
    simpl. rewrite Nat.eqb_refl. eexists; reflexivity.
Qed.

(** A father sends an order to quit. *)
Definition quit_ok (x x' : ctl) (c : nat) (kill : bool) : Prop :=
  wf x' /\ cls_of x' = cls_of x /\ exp_le x x' c
  /\ expects x' c = (if kill then None else Some EIdl)
  /\ (forall d, d <> c -> expects x' d = None -> expects x d = None)
  /\ exists e, expects x c = Some e.

Lemma memb_app : forall x l l', memb x (l ++ l') = memb x l || memb x l'.
Proof. intros; apply existsb_app. Qed.

Lemma quits_step : forall x c kill x',
  wf x -> quits x c = Some (kill, x') -> quit_ok x x' c kill.
Proof.
  intros x c kill x' Hw H.
  assert (G : forall x0 kill0 todo kept k,
            closing_ok kill0 (c :: todo ++ kept) kept k ->
            cls_of x0 = kcls k ->
            (exists e, expects x0 c = Some e) ->
            (forall d, d <> c -> expects x0 d =
               if memb d todo then Some (kexp k)
               else if memb d kept then Some EIdl else None) ->
            quit_ok x0 (Closing kill0 todo (if kill0 then kept else kept ++ [c]) k) c kill0).
  { intros x0 kill0 todo kept k (Hn & Hk1 & Hk2) Hc He Hx.
    inversion Hn as [| ? ? Hnot Hnd]; subst. rewrite in_app_iff in Hnot.
    assert (Et : memb c todo = false) by (apply memb_not; tauto).
    assert (Ek : memb c kept = false) by (apply memb_not; tauto).
    assert (Hkept : forall d, d <> c ->
              memb d (if kill0 then kept else kept ++ [c]) = memb d kept).
    { intros d Hd. destruct kill0; [reflexivity |]. rewrite memb_app.
      simpl. apply Nat.eqb_neq in Hd. rewrite Hd. simpl. rewrite orb_false_r. reflexivity. }
    unfold quit_ok. split; [| split; [| split; [| split; [| split]]]].
    - simpl. unfold closing_ok. split; [| split].
      + destruct kill0; [exact Hnd |].
        apply (NoDup_Add (a := c) (l := todo ++ kept)).
        * rewrite app_assoc. apply Add_app with (l2 := @nil nat) || idtac.
          replace (todo ++ kept) with ((todo ++ kept) ++ []) at 1 by apply app_nil_r.
          apply Add_app.
        * split; [exact Hnd | rewrite in_app_iff; exact Hnot].
      + intro Hkill. rewrite Hkill. apply Hk1; exact Hkill.
      + exact Hk2.
    - rewrite Hc; reflexivity.
    - intros d e' Hd He'. simpl in He'. rewrite Hkept in He' by exact Hd.
      exists e'. split; [rewrite Hx by exact Hd; exact He' | apply weaker_refl].
    - simpl. rewrite Et. destruct kill0; [rewrite Ek; reflexivity |].
      rewrite memb_app. simpl. rewrite Nat.eqb_refl, orb_true_r. reflexivity.
    - intros d Hd He'. simpl in He'. rewrite Hkept in He' by exact Hd.
      rewrite Hx by exact Hd. exact He'.
    - exact He. }
  destruct x as [| a0 g | g | m g | w s | w | kill0 todo kept k | v kill0 todo kept k | m todo w |];
    try discriminate H; cbn [quits] in H.
  - destruct todo as [| v todo]; [discriminate |].
    destruct (v =? c) eqn:Ev; [| discriminate]. apply Nat.eqb_eq in Ev; subst v.
    injection H as <- <-. apply G.
    + exact Hw.
    + reflexivity.
    + simpl. rewrite Nat.eqb_refl. eexists; reflexivity.
    + intros d Hd. simpl. apply Nat.eqb_neq in Hd. rewrite Hd. reflexivity.
  - destruct (v =? c) eqn:Ev; [| discriminate]. apply Nat.eqb_eq in Ev; subst v.
    injection H as <- <-. apply G.
    + exact Hw.
    + reflexivity.
    + simpl. rewrite Nat.eqb_refl. eexists; reflexivity.
    + intros d Hd. simpl. apply Nat.eqb_neq in Hd. rewrite Hd. reflexivity.
Qed.

(** A child receives an order to quit. *)
Lemma told_quit_step : forall y kill y',
  wf y -> told_quit y kill = Some y' ->
  wf y' /\ cls_of y' = (if kill then Gon else Idl)
  /\ (forall d e', expects y' d = Some e' ->
        exists e, expects y d = Some e /\ weaker e e')
  /\ (forall d, expects y' d = None -> expects y d = None \/ expects y d = Some EGon).
Proof.
  intros y kill y' Hw H.
  destruct y as [| a0 g | g | m g | w s | w | kill0 todo kept k | v kill0 todo kept k | m todo w |];
    try discriminate H; cbn [told_quit] in H.
  - injection H as <-. destruct kill; repeat split; try discriminate; intros; left; reflexivity.
  - injection H as <-. destruct kill; repeat split; try discriminate; intros; left; reflexivity.
  - injection H as <-. destruct kill; repeat split; try discriminate; intros; left; reflexivity.
  - assert (E : y' = Closing true (drop (s_gone s) (w_alive w)) []
                     (if kill then KDead else KWait (w_given w))).
    { destruct (s_rem s), (w_alive w); congruence. }
    clear H. subst y'. destruct Hw as (Hn & Hg & Hi & Hj & Hl).
    assert (Hdrop : forall d, memb d (drop (s_gone s) (w_alive w))
                        = memb d (w_alive w) && negb (memb d (s_gone s))).
    { intro d. destruct (memb d (drop (s_gone s) (w_alive w))) eqn:E; symmetry.
      - apply memb_in, drop_in in E. destruct E as [E1 E2].
        apply memb_in in E1; apply memb_not in E2. rewrite E1, E2; reflexivity.
      - apply memb_not in E. rewrite drop_in in E. apply andb_false_iff.
        destruct (memb d (w_alive w)) eqn:E1; [right | left; reflexivity].
        destruct (memb d (s_gone s)) eqn:E2; [reflexivity |].
        exfalso; apply E; split; [apply memb_in; exact E1 | apply memb_not; exact E2]. }
    split; [| split; [| split]].
    + simpl. unfold closing_ok. rewrite app_nil_r. split; [apply drop_nodup; exact Hn | split].
      * reflexivity.
      * destruct kill; reflexivity.
    + destruct kill; reflexivity.
    + intros d e' He'. simpl in *. rewrite Hdrop in He'.
      destruct (memb d (w_alive w)); [| discriminate].
      destruct (memb d (s_gone s)); [discriminate |].
      assert (e' = ELive) by (destruct kill; simpl in He'; congruence). subst e'.
      destruct (memb d (s_got s)).
      * exists EIdl; split; [reflexivity | intros [] HH; exact HH || exact Logic.I].
      * exists EAct; split; [reflexivity | intros [] HH; exact HH || exact Logic.I].
    + intros d He'. simpl in *. rewrite Hdrop in He'.
      destruct (memb d (w_alive w)); [| left; reflexivity].
      destruct (memb d (s_gone s)); [right; reflexivity | discriminate].
Qed.

(** A father sends a substitution. *)
Lemma tells_step : forall x c m x',
  wf x -> tells x c = Some (m, x') ->
  wf x' /\ cls_of x' = cls_of x /\ exp_le x x' c /\ expects x' c = Some EAct
  /\ (forall d, d <> c -> expects x' d = None -> expects x d = None).
Proof.
  intros x c m x' Hw H.
  destruct x as [| a0 g | g | m0 g | w s | w | kill0 todo kept k | v kill0 todo kept k | m0 todo w |];
    try discriminate H; cbn [tells] in H.
  destruct todo as [| v todo]; [discriminate |].
  destruct (v =? c) eqn:Ev; [| discriminate]. apply Nat.eqb_eq in Ev; subst v.
  injection H as <- <-. destruct Hw as (Hn & Ht & Hi).
  inversion Ht as [| ? ? Hnot Hnd]; subst.
  split; [| split; [| split; [| split]]].
  - simpl. split; [exact Hn | split; [exact Hnd |]]. intros z Hz; apply Hi; right; exact Hz.
  - reflexivity.
  - intros d e' Hd He'. simpl in *. apply Nat.eqb_neq in Hd. rewrite Hd. simpl.
    exists e'; split; [exact He' | apply weaker_refl].
  - simpl. apply memb_not in Hnot. rewrite Hnot.
    replace (memb c (w_alive w)) with true; [reflexivity |].
    symmetry. apply memb_in, Hi. left; reflexivity.
  - intros d Hd He'. simpl in *. apply Nat.eqb_neq in Hd. rewrite Hd. simpl. exact He'.
Qed.
