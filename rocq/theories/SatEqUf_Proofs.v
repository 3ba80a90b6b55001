(** The union-find of sateq. *)
From Coq Require Import ZArith List Bool Arith Lia.
From Verif Require Import Ast_Model Unif_Model SatEq_Model SatEq_Spec.
Import ListNotations.
Open Scope list_scope.
Open Scope nat_scope.

Lemma set_cell_length h x c : x < length h -> length (set_cell h x c) = length h.
Proof. intros H. unfold set_cell. rewrite app_length, firstn_length. cbn [length]. rewrite skipn_length. lia. Qed.
Lemma set_cell_nth h x c y : x < length h -> nth_error (set_cell h x c) y = if Nat.eqb y x then Some c else nth_error h y.
Proof.
  intros H. unfold set_cell. destruct (Nat.eqb_spec y x) as [->|N].
  - rewrite nth_error_app2 by (rewrite firstn_length; lia). rewrite firstn_length. replace (x - min x (length h)) with 0 by lia. reflexivity.
  - destruct (lt_dec y x).
    + rewrite nth_error_app1 by (rewrite firstn_length; lia).
      rewrite <- (firstn_skipn x h) at 2. rewrite nth_error_app1; auto. rewrite firstn_length; lia.
    + rewrite nth_error_app2 by (rewrite firstn_length; lia). rewrite firstn_length. replace (min x (length h)) with x by lia.
      destruct (y - x) as [|k] eqn:E; [lia|]. cbn [nth_error]. rewrite <- (firstn_skipn (S x) h) at 2.
      rewrite nth_error_app2 by (rewrite firstn_length; lia). rewrite firstn_length. f_equal. lia.
Qed.
Lemma parent_set h x c y : x < length h -> parent (set_cell h x c) y = if Nat.eqb y x then fst c else parent h y.
Proof. intros H. unfold parent. rewrite set_cell_nth by auto. destruct (Nat.eqb y x); reflexivity. Qed.

(** the path to the root, and its length *)
Inductive path (h : heap) : nat -> nat -> nat -> Prop :=
| pa_root x : parent h x = x -> path h x 0 x
| pa_up x n r : parent h x <> x -> path h (parent h x) n r -> path h x (S n) r.
Definition wf (h : heap) : Prop := forall x, x < length h -> parent h x < length h /\ exists n r, path h x n r.

Lemma path_det h x n r : path h x n r -> forall n' r', path h x n' r' -> n = n' /\ r = r'.
Proof.
  induction 1 as [x E|x n r N P IH]; intros n' r' Q; inversion Q; subst; try congruence; auto.
  destruct (IH _ _ H0). split; congruence.
Qed.
Lemma path_root h x n r : path h x n r -> parent h r = r.
Proof. induction 1; auto. Qed.
Lemma path_lt h x n r : wf h -> path h x n r -> x < length h -> r < length h.
Proof. intros W. induction 1 as [x E|x n r N P IH]; intros L; auto. apply IH, W, L. Qed.
Lemma path_nodes h x n r : wf h -> path h x n r -> x < length h ->
  exists l, length l = S n /\ NoDup l /\ (forall y, In y l -> y < length h) /\ forall y, In y l -> exists k, path h y k r /\ k <= n.
Proof.
  intros W. induction 1 as [x E|x n r N P IH]; intros L.
  - exists [x]. split; auto. split; [repeat constructor; intros []|]. split; intros y [<-|[]]; auto. exists 0. split; auto. constructor; auto.
  - destruct (IH (proj1 (W x L))) as (l & A & B & C & D). exists (x :: l). split; [cbn; lia|]. split.
    + constructor; auto. intros I. destruct (D x I) as (k & Pk & Lk).
      assert (Q : path h x (S n) r) by (constructor; auto). destruct (path_det _ _ _ _ Pk _ _ Q). lia.
    + split; intros y [<-|I]; auto.
      * exists (S n). split; [constructor; auto|lia].
      * destruct (D y I) as (k & ? & ?). exists k. split; auto.
Qed.
Lemma path_short h x n r : wf h -> path h x n r -> x < length h -> n < length h.
Proof.
  intros W P L. destruct (path_nodes h x n r W P L) as (l & A & B & C & _).
  assert (length l <= length (seq 0 (length h))).
  { apply NoDup_incl_length; auto. intros y Hy. apply in_seq. pose proof (C y Hy). lia. }
  rewrite seq_length in H. lia.
Qed.
Lemma root_from_path h x n r : path h x n r -> forall f, n <= f -> root_from f h x = r.
Proof.
  induction 1 as [x E|x n r N P IH]; intros f L.
  - destruct f; auto. cbn. rewrite E, Nat.eqb_refl. reflexivity.
  - destruct f; [lia|]. cbn. apply Nat.eqb_neq in N. rewrite N. apply IH. lia.
Qed.
Lemma root_path h x : wf h -> x < length h -> exists n, path h x n (root h x) /\ n < length h.
Proof.
  intros W L. destruct (proj2 (W x L)) as (n & r & P). pose proof (path_short _ _ _ _ W P L).
  unfold root. rewrite (root_from_path _ _ _ _ P) by lia. eauto.
Qed.
Lemma root_of_path h x n r : wf h -> x < length h -> path h x n r -> root h x = r.
Proof. intros W L P. destruct (root_path h x W L) as (m & Q & _). exact (proj2 (path_det _ _ _ _ Q _ _ P)). Qed.
Lemma root_lt h x : wf h -> x < length h -> root h x < length h.
Proof. intros W L. destruct (root_path h x W L) as (n & P & _). exact (path_lt _ _ _ _ W P L). Qed.
Lemma root_parent h x : wf h -> x < length h -> parent h (root h x) = root h x.
Proof. intros W L. destruct (root_path h x W L) as (n & P & _). exact (path_root _ _ _ _ P). Qed.
Lemma root_fix h x : wf h -> x < length h -> parent h x = x -> root h x = x.
Proof. intros W L E. apply (root_of_path h x 0); auto. constructor; auto. Qed.
Lemma root_root h x : wf h -> x < length h -> root h (root h x) = root h x.
Proof. intros W L. apply root_fix; auto using root_lt, root_parent. Qed.
Lemma root_step h x : wf h -> x < length h -> root h (parent h x) = root h x.
Proof.
  intros W L. destruct (Nat.eq_dec (parent h x) x) as [E|E]; [congruence|].
  destruct (root_path h x W L) as (n & P & _). inversion P; subst; [congruence|].
  apply (root_of_path h _ n0); auto. apply W; auto.
Qed.

(** heaps with the same classes *)
Definition same (h h' : heap) : Prop := length h' = length h /\ wf h' /\ forall x, x < length h -> root h' x = root h x.
Lemma same_refl h : wf h -> same h h.
Proof. intros W. repeat split; auto; apply W; auto. Qed.
Lemma same_trans a b c : same a b -> same b c -> same a c.
Proof. intros (L1 & W1 & R1) (L2 & W2 & R2). split; [congruence|]. split; auto. intros x L. rewrite R2, R1 by (auto; lia). reflexivity. Qed.

Lemma split_same h x s : wf h -> x < length h -> parent h x <> x -> same h (set_cell h x (parent h (parent h x), s)).
Proof.
  intros W L N. set (h' := set_cell h x (parent h (parent h x), s)).
  assert (LE : length h' = length h) by (apply set_cell_length; auto).
  destruct (root_path h x W L) as (n & P & _). inversion P as [|? m ? _ Q]; subst; [congruence|].
  (* nothing above x is x *)
  assert (UP : forall y k r, path h y k r -> k <= m -> exists k', path h' y k' r).
  { induction 1 as [y E|y k r Ny Py IH]; intros Lk.
    - exists 0. constructor. unfold h'. rewrite parent_set by auto. destruct (Nat.eqb_spec y x) as [->|]; auto. congruence.
    - assert (y <> x). { intros ->. assert (Q' : path h x (S k) r) by (constructor; auto). destruct (path_det _ _ _ _ P _ _ Q'). lia. }
      destruct (IH ltac:(lia)) as (k' & P'). exists (S k'). apply Nat.eqb_neq in H.
      assert (E : parent h' y = parent h y) by (unfold h'; rewrite parent_set, H; auto).
      constructor; rewrite E; auto. }
  assert (ALL : forall y k r, path h y k r -> y < length h -> exists k', path h' y k' r).
  { induction 1 as [y E|y k r Ny Py IH]; intros Ly.
    - exists 0. constructor. unfold h'. rewrite parent_set by auto. destruct (Nat.eqb_spec y x) as [->|]; auto. congruence.
    - destruct (Nat.eq_dec y x) as [->|D].
      + assert (E : parent h' x = parent h (parent h x)) by (unfold h'; rewrite parent_set, Nat.eqb_refl; auto).
        inversion Q as [z F|z m' r' F G]; subst.
        * destruct (path_det _ _ _ _ Py _ _ Q) as [-> ->]. exists 1. constructor; rewrite E, F; auto.
          match goal with H : parent h x = root h x |- _ => rewrite <- H end.
          constructor. unfold h'. rewrite parent_set by auto. apply Nat.eqb_neq in N. rewrite N. auto.
        * destruct (path_det _ _ _ _ Py _ _ Q) as [-> ->]. destruct (UP _ _ _ G ltac:(lia)) as (k' & P').
          exists (S k'). constructor; rewrite E; auto.
          intros X. rewrite X in G. destruct (path_det _ _ _ _ P _ _ G). lia.
      + destruct (IH (proj1 (W y Ly))) as (k' & P'). exists (S k').
        assert (E : parent h' y = parent h y) by (unfold h'; apply Nat.eqb_neq in D; rewrite parent_set, D; auto).
        constructor; rewrite E; auto. }
  assert (W' : wf h').
  { intros y Ly. rewrite LE in *. split.
    - unfold h'. rewrite parent_set by auto. destruct (Nat.eqb y x); cbn; [|apply W; auto]. apply W, W, L.
    - destruct (proj2 (W y Ly)) as (k & r & Pk). destruct (ALL _ _ _ Pk Ly) as (k' & Pk'). eauto. }
  split; auto. split; auto. intros y Ly. destruct (root_path h y W Ly) as (k & Pk & _). destruct (ALL _ _ _ Pk Ly) as (k' & Pk').
  apply (root_of_path h' y k'); auto. lia.
Qed.
Lemma find_ok f : forall h x n r, wf h -> x < length h -> path h x n r -> n < f -> exists h', find f h x = Ok (r, h') /\ same h h'.
Proof.
  induction f; intros h x n r W L P LN; [lia|]. cbn [find]. destruct (Nat.eqb_spec (parent h x) x) as [E|N].
  - inversion P; subst; [|congruence]. exists h. split; auto using same_refl.
  - inversion P as [|? m ? _ Q]; subst; [congruence|].
    pose proof (split_same h x (size h x) W L N) as S0.
    set (h' := set_cell h x (parent h (parent h x), size h x)) in *. destruct S0 as (LE & W' & R).
    assert (Lp : parent h x < length h) by (apply W; auto).
    (* the path from the parent is as before *)
    assert (Q' : exists k, path h' (parent h x) k r /\ k <= m).
    { clear IHf LN. assert (UP : forall y k r, path h y k r -> k <= m -> path h' y k r).
      { induction 1 as [y E|y k r0 Ny Py IH]; intros Lk.
        - constructor. unfold h'. rewrite parent_set by auto. destruct (Nat.eqb_spec y x) as [->|]; auto. congruence.
        - assert (y <> x). { intros ->. assert (Q' : path h x (S k) r0) by (constructor; auto). destruct (path_det _ _ _ _ P _ _ Q'). lia. }
          assert (E : parent h' y = parent h y) by (unfold h'; apply Nat.eqb_neq in H; rewrite parent_set, H; auto).
          constructor; rewrite E; auto. apply IH. lia. }
      exists m. split; auto. }
    destruct Q' as (k & Q' & Lk).
    destruct (IHf h' (parent h x) k r W' ltac:(lia) Q' ltac:(lia)) as (h'' & F & S2).
    exists h''. split; auto. eapply same_trans; [|exact S2]. split; auto.
Qed.
Lemma find_root h x : wf h -> x < length h -> exists h', find (S (length h)) h x = Ok (root h x, h') /\ same h h'.
Proof. intros W L. destruct (root_path h x W L) as (n & P & Ln). apply (find_ok _ h x n); auto. Qed.

Lemma link_roots h x y s t : wf h -> x < length h -> y < length h -> parent h x = x -> parent h y = y -> x <> y ->
  let h' := set_cell (set_cell h y (x, s)) x (parent (set_cell h y (x, s)) x, t) in
  length h' = length h /\ wf h' /\ forall z, z < length h -> root h' z = if Nat.eqb (root h z) y then x else root h z.
Proof.
  intros W Lx Ly Px Py N h'. assert (LE1 : length (set_cell h y (x, s)) = length h) by (apply set_cell_length; auto).
  assert (LE : length h' = length h) by (unfold h'; rewrite set_cell_length; lia).
  assert (PA : forall z, parent h' z = if Nat.eqb z y then x else parent h z).
  { intros z. unfold h'. rewrite !parent_set by lia. cbn [fst]. destruct (Nat.eqb_spec z x) as [->|].
    - assert (E : Nat.eqb x y = false) by (apply Nat.eqb_neq; auto). rewrite E. reflexivity.
    - reflexivity. }
  assert (X : path h' x 0 x). { constructor. rewrite PA. apply Nat.eqb_neq in N. rewrite N. auto. }
  assert (ALL : forall z k r, path h z k r -> exists k', path h' z k' (if Nat.eqb r y then x else r)).
  { induction 1 as [z E|z k r Nz Pz IH].
    - destruct (Nat.eqb_spec z y) as [->|D].
      + exists 1. constructor; rewrite PA, Nat.eqb_refl; auto.
      + exists 0. constructor. apply Nat.eqb_neq in D. rewrite PA, D. auto.
    - destruct IH as (k' & P'). exists (S k'). assert (E : parent h' z = parent h z).
      { rewrite PA. destruct (Nat.eqb_spec z y) as [->|]; congruence. }
      constructor; rewrite E; auto. }
  assert (W' : wf h').
  { intros z Lz. rewrite LE in *. split.
    - rewrite PA. destruct (Nat.eqb z y); auto. apply W; auto.
    - destruct (proj2 (W z Lz)) as (k & r & P). destruct (ALL _ _ _ P) as (k' & P'). eauto. }
  split; auto. split; auto. intros z Lz. destruct (root_path h z W Lz) as (k & P & _). destruct (ALL _ _ _ P) as (k' & P').
  apply (root_of_path h' z k'); auto. lia.
Qed.
(** two classes become one *)
Definition joins (h h' : heap) (a b : nat) : Prop :=
  length h' = length h /\ wf h' /\
  forall x y, x < length h -> y < length h ->
    (root h' x = root h' y <-> root h x = root h y \/ (root h x = root h a /\ root h y = root h b) \/ (root h x = root h b /\ root h y = root h a)).
Lemma join_same h h1 h2 a b : wf h -> a < length h -> b < length h -> same h h1 ->
  length h2 = length h1 -> wf h2 ->
  (exists w l, (w = root h1 a /\ l = root h1 b \/ w = root h1 b /\ l = root h1 a) /\ forall z, z < length h1 -> root h2 z = if Nat.eqb (root h1 z) l then w else root h1 z) ->
  joins h h2 a b.
Proof.
  intros W La Lb (L1 & W1 & R1) L2 W2 (w & l & C & R2). split; [lia|]. split; auto. intros x y Lx Ly.
  rewrite !R2, !R1 by lia. rewrite !R1 in C by lia.
  destruct C as [[-> ->]|[-> ->]];
    repeat match goal with |- context [Nat.eqb ?u ?v] => destruct (Nat.eqb_spec u v) end; split; intros; intuition congruence.
Qed.
Lemma union_full_ok h a b : wf h -> a < length h -> b < length h -> exists h', union_full h a b = Ok h' /\ joins h h' a b.
Proof.
  intros W La Lb. unfold union_full. destruct (find_root h a W La) as (h1 & F1 & (L1 & W1 & R1)). rewrite F1. cbn [bind].
  destruct (find_root h1 b W1 ltac:(lia)) as (h2 & F2 & (L2 & W2 & R2)). rewrite F2. cbn [bind].
  assert (S2 : same h h2) by (eapply same_trans; split; eauto).
  destruct (Nat.eqb_spec (root h a) (root h1 b)) as [E|N].
  - exists h2. split; auto. rewrite R1 in E by auto. destruct S2 as (L & _ & R). split; auto. split; auto.
    intros x y Lx Ly. rewrite !R by auto. intuition congruence.
  - assert (Ra : root h2 a = root h a) by (destruct S2 as (_ & _ & R); auto).
    assert (Rb : root h2 b = root h1 b) by (apply R2; lia).
    assert (Pa : parent h2 (root h a) = root h a) by (rewrite <- Ra; apply root_parent; auto; lia).
    assert (Pb : parent h2 (root h1 b) = root h1 b) by (rewrite <- Rb; apply root_parent; auto; lia).
    assert (La2 : root h a < length h2) by (rewrite <- Ra; apply root_lt; auto; lia).
    assert (Lb2 : root h1 b < length h2) by (rewrite <- Rb; apply root_lt; auto; lia).
    destruct (size h2 (root h a) <? size h2 (root h1 b)); eexists; (split; [reflexivity|]).
    + match goal with |- joins _ (set_cell _ _ (_, ?t)) _ _ =>
        destruct (link_roots h2 (root h1 b) (root h a) (size h2 (root h a)) t W2 Lb2 La2 Pb Pa ltac:(auto)) as (A & B & C) end.
      apply (join_same h h2); auto. exists (root h1 b), (root h a). split; [right; split; congruence|]. exact C.
    + match goal with |- joins _ (set_cell _ _ (_, ?t)) _ _ =>
        destruct (link_roots h2 (root h a) (root h1 b) (size h2 (root h1 b)) t W2 La2 Lb2 Pa Pb ltac:(auto)) as (A & B & C) end.
      apply (join_same h h2); auto. exists (root h a), (root h1 b). split; [left; split; congruence|]. exact C.
Qed.
(** [union] only reads the roots *)
Lemma union_spec h a b : wf h -> a < length h -> b < length h -> root h a <> root h b ->
  exists w l, (w = root h a /\ l = root h b \/ w = root h b /\ l = root h a) /\
    length (union h a b) = length h /\ wf (union h a b) /\
    forall z, z < length h -> root (union h a b) z = if Nat.eqb (root h z) l then w else root h z.
Proof.
  intros W La Lb N. unfold union. pose proof N as N0. apply Nat.eqb_neq in N0. rewrite N0.
  destruct (size h (root h a) <? size h (root h b)).
  - exists (root h b), (root h a). split; auto. apply (link_roots h (root h b) (root h a)); auto using root_lt, root_parent.
  - exists (root h a), (root h b). split; auto. apply (link_roots h (root h a) (root h b)); auto using root_lt, root_parent.
Qed.
Lemma union_joins h a b : wf h -> a < length h -> b < length h -> joins h (union h a b) a b.
Proof.
  intros W La Lb. destruct (Nat.eq_dec (root h a) (root h b)) as [E|N].
  - unfold union. rewrite (proj2 (Nat.eqb_eq _ _) E). split; auto. split; auto. intros. intuition congruence.
  - destruct (union_spec h a b W La Lb N) as (w & l & C & L & W' & R). apply (join_same h h); auto using same_refl. eauto.
Qed.
Lemma make_ok h : wf h -> let h' := snd (make_class h) in length h' = S (length h) /\ wf h' /\
  root h' (length h) = length h /\ forall x, x < length h -> root h' x = root h x.
Proof.
  intros W h'. assert (LE : length h' = S (length h)) by (unfold h'; cbn; rewrite app_length; cbn; lia).
  assert (PA : forall x, x < length h -> parent h' x = parent h x).
  { intros x L. unfold h', parent; cbn. rewrite nth_error_app1 by auto. reflexivity. }
  assert (PN : parent h' (length h) = length h).
  { unfold h', parent; cbn. rewrite nth_error_app2, Nat.sub_diag by auto. reflexivity. }
  assert (ALL : forall x k r, path h x k r -> x < length h -> path h' x k r).
  { induction 1 as [x E|x k r N P IH]; intros L.
    - constructor. rewrite PA; auto.
    - constructor; rewrite PA; auto. apply IH. apply W; auto. }
  assert (W' : wf h').
  { intros x L. destruct (Nat.eq_dec x (length h)) as [->|].
    - split; [lia|]. exists 0, (length h). constructor; auto.
    - assert (Lx : x < length h) by lia. rewrite PA by auto. destruct (W x Lx) as (A & k & r & P). split; [lia|]. eauto. }
  split; auto. split; auto. split; [apply root_fix; auto; lia|].
  intros x L. destruct (root_path h x W L) as (k & P & _). apply (root_of_path h' x k); auto. lia.
Qed.
Lemma wf_nil : wf [].
Proof. intros x L. inversion L. Qed.

Lemma linked_incl ps qs a b : incl ps qs -> linked ps a b -> linked qs a b.
Proof. intros I. induction 1; [apply lk_pair; auto|apply lk_refl|apply lk_sym; auto|eapply lk_trans; eauto]. Qed.
(** C90 *)
Theorem run_classes l : forall h ps, wf h -> valid_ops (length h) l ->
  (forall a b, In (a, b) ps -> a < length h /\ b < length h) ->
  (forall a b, a < length h -> b < length h -> (root h a = root h b <-> linked ps a b)) ->
  exists h', run_ops l h = Ok h' /\ wf h' /\ forall a b, a < length h' -> b < length h' -> (root h' a = root h' b <-> linked (ps ++ merges l) a b).
Proof.
  induction l as [|o l IH]; intros h ps W V B C.
  - exists h. split; auto. split; auto. cbn. rewrite app_nil_r. auto.
  - cbn [run_ops]. destruct o as [|x|a b]; cbn [valid_ops] in V; cbn [merges flat_map app].
    + destruct (make_ok h W) as (L & W' & RN & R). cbn [run_op bind].
      set (h1 := snd (make_class h)) in *.
      destruct (IH h1 ps) as (h' & E & Wh & Q); eauto; try (rewrite L; auto).
      * intros a b I. destruct (B a b I). lia.
      * intros a b La Lb. assert (NL : forall u v, linked ps u v -> u = v \/ (u < length h /\ v < length h)).
        { induction 1; auto; try (right; eauto; fail); intuition (subst; auto). }
        assert (RL : forall u, u < length h -> root h1 u < length h) by (intros; rewrite R by auto; apply root_lt; auto).
        destruct (Nat.eq_dec a b) as [->|D]; [split; auto using lk_refl|].
        destruct (Nat.eq_dec a (length h)) as [->|]; [|destruct (Nat.eq_dec b (length h)) as [->|]].
        -- split; intros H. { rewrite RN in H. pose proof (RL b ltac:(lia)). lia. } destruct (NL _ _ H); lia.
        -- split; intros H. { rewrite RN in H. pose proof (RL a ltac:(lia)). lia. } destruct (NL _ _ H); lia.
        -- rewrite !R by lia. apply C; lia.
    + destruct V as (Lx & V). destruct (find_root h x W Lx) as (h1 & F & (L & W' & R)). cbn [run_op]. rewrite F. cbn [bind].
      destruct (IH h1 ps) as (h' & E & Wh & Q); eauto; try (rewrite L; auto).
      intros u v Lu Lv. rewrite !R by auto. apply C; auto.
    + destruct V as (La & Lb & V). destruct (union_full_ok h a b W La Lb) as (h1 & F & (L & W' & R)). cbn [run_op]. rewrite F. cbn [bind].
      destruct (IH h1 (ps ++ [(a, b)])) as (h' & E & Wh & Q); eauto; try (rewrite L; auto).
      * intros u v I. apply in_app_or in I. destruct I as [I|[I|[]]]; [auto|]. injection I as <- <-. auto.
      * intros u v Lu Lv. rewrite R by auto. rewrite !C by auto. split.
        -- assert (I : forall s t, linked ps s t -> linked (ps ++ [(a, b)]) s t) by (intros; eapply linked_incl; eauto; apply incl_appl, incl_refl).
           assert (AB : linked (ps ++ [(a, b)]) a b) by (apply lk_pair, in_or_app; right; left; auto).
           intros [H|[[H1 H2]|[H1 H2]]]; auto.
           ++ eapply lk_trans; [apply I, H1|]. eapply lk_trans; [exact AB|]. apply lk_sym; auto.
           ++ eapply lk_trans; [apply I, H1|]. eapply lk_trans; [apply lk_sym; exact AB|]. apply lk_sym; auto.
        -- intros H. rewrite <- !C by auto. rewrite <- R by auto.
           assert (BD : forall s t, In (s, t) (ps ++ [(a, b)]) -> s < length h /\ t < length h).
           { intros s t I. apply in_app_or in I. destruct I as [I|[I|[]]]; [auto|]. injection I as <- <-. auto. }
           assert (IN : forall s t, linked (ps ++ [(a, b)]) s t -> s = t \/ (s < length h /\ t < length h)).
           { induction 1; auto; intuition (subst; auto). }
           assert (ST : forall u v, linked (ps ++ [(a, b)]) u v -> root h1 u = root h1 v).
           { induction 1 as [s t I|s|s t H1 IH1|s t r H1 IH1 H2 IH2]; auto; try congruence.
             destruct (BD s t I) as (Ls & Lt). apply R; auto. apply in_app_or in I. destruct I as [I|[I|[]]].
             - left. apply C; auto. apply lk_pair; auto.
             - injection I as <- <-. auto. }
           apply ST; auto. 
      * exists h'. split; auto. split; auto. intros u v Lu Lv. rewrite Q by auto. rewrite <- app_assoc. reflexivity.
Qed.
