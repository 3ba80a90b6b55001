(** The lexer on the texts of Lexer_Spec.v. *)
From Coq Require Import ZArith List Bool Lia.
From Verif Require Import Lexer_Model Lexer_Spec.
Import ListNotations.
Open Scope Z_scope.

(** The state where the current character is the first of [s], after [b]. *)
Definition mk (b s : list Z) (q : Z) (e : bool) : lexer := mkL (hd 0 s :: b) (tl s) q e.

Lemma cur_mk : forall b s q e, cur (mk b s q e) = hd 0 s.
Proof. reflexivity. Qed.
Lemma advance_mk : forall b c d s q e, advance (mk b (c :: d :: s) q e) = Some (mk (c :: b) (d :: s) q e).
Proof. reflexivity. Qed.

Lemma back_app : forall w b a, back (length w) (rev w ++ b) a = Some (b, w ++ a).
Proof.
  induction w as [| x w IH] using rev_ind; intros b a; [reflexivity |].
  rewrite app_length, rev_app_distr. simpl. rewrite Nat.add_comm. simpl. rewrite IH.
  rewrite <- app_assoc. reflexivity.
Qed.

Lemma back_mk : forall w b s, s <> [] ->
  back (length w) (hd 0 s :: rev w ++ b) (tl s) = Some (hd 0 (w ++ s) :: b, tl (w ++ s)).
Proof.
  intros w b s Hs. destruct s as [| c s]; [congruence |]. simpl hd at 1. simpl tl at 1. clear Hs.
  destruct w as [| x w]; [reflexivity |].
  replace (c :: rev (x :: w) ++ b) with (rev (w ++ [c]) ++ x :: b)
    by (rewrite rev_app_distr; simpl; rewrite <- app_assoc; reflexivity).
  replace (length (x :: w)) with (length (w ++ [c])) by (rewrite app_length; simpl; lia).
  rewrite back_app. rewrite <- app_assoc. reflexivity.
Qed.

Lemma remove_mk : forall w b s q e, s <> [] ->
  remove (length w) (mk (rev w ++ b) s q e) = Some (mk b (w ++ s) q e).
Proof.
  intros w b s q e Hs. unfold remove, mk. simpl before. simpl after. rewrite (back_mk w b s Hs). reflexivity.
Qed.
Lemma remove_mk1 : forall x b s q e, s <> [] -> remove 1 (mk (x :: b) s q e) = Some (mk b (x :: s) q e).
Proof. intros x b s q e Hs. exact (remove_mk [x] b s q e Hs). Qed.

(** ** Classes *)

Ltac zb :=
  unfold is_alnum, alpha_num, alphabetic, sq_plain, do_plain in *;
  unfold is_letter, is_space, is_printable, is_sq_char, is_do_char, is_non_zero, is_sign, is_exponent,
    upper_alpha, lower_alpha, numeric, ascii_printable in *;
  unfold is_upper, is_lower, is_digit in *; unfold within in *;
  lia.

Lemma letter_alphabetic : forall c, 0 <= c < 128 -> is_letter c = true <-> alphabetic c.
Proof. intros c H. split; intros; zb. Qed.
Lemma alnum_alpha_num : forall c, alpha_num c -> is_alnum c = true /\ 0 <= c < 128.
Proof. intros c H. split; zb. Qed.
Lemma not_alpha_num : forall c, 0 <= c < 128 -> ~ alpha_num c -> is_alnum c = false.
Proof. intros c H Hn. destruct (is_alnum c) eqn:E; [exfalso; apply Hn; zb | reflexivity]. Qed.
Lemma utf8_ascii : forall c, c < 128 -> utf8 c = [c].
Proof. intros c H. unfold utf8. destruct (Z.ltb_spec c 128); [reflexivity | lia]. Qed.
Lemma digit_numeric : forall c, is_digit c = true <-> numeric c.
Proof. intros c; split; intros; zb. Qed.
Lemma not_digit : forall c, ~ numeric c -> is_digit c = false.
Proof. intros c Hn. destruct (is_digit c) eqn:E; [exfalso; apply Hn; zb | reflexivity]. Qed.

Lemma word_eqb_eq : forall a b, word_eqb a b = true <-> a = b.
Proof.
  induction a as [| x a IH]; intros [| y b]; simpl; split; intros H; try congruence; try reflexivity.
  - apply andb_prop in H as [H1 H2]. apply Z.eqb_eq in H1. apply IH in H2. congruence.
  - injection H as -> ->. rewrite Z.eqb_refl. apply IH. reflexivity.
Qed.

(** ** The loop on a class of characters *)

Lemma read_while_spec : forall p w y r b acc, Forall (fun c => p c = true /\ c < 128) w -> (p y = false \/ r = []) ->
  read_while p (hd 0 (w ++ y :: r) :: b) (tl (w ++ y :: r)) acc = (acc ++ w, y :: rev w ++ b, r).
Proof.
  intros p w. induction w as [| x w IH]; intros y r b acc Hw Hy.
  - simpl. rewrite app_nil_r. destruct r as [| z r]; [reflexivity |]. simpl.
    destruct Hy as [-> | Hy]; [reflexivity | congruence].
  - inversion Hw as [| ? ? [Hp Hx] Hw']; subst. simpl app. simpl hd. simpl tl.
    destruct (w ++ y :: r) as [| z s] eqn:Es; [destruct w; discriminate |].
    simpl. rewrite Hp, (utf8_ascii x Hx).
    specialize (IH y r (x :: b) (acc ++ [x]) Hw' Hy). rewrite Es in IH. simpl in IH. rewrite IH.
    rewrite <- !app_assoc. reflexivity.
Qed.

Lemma skip_while_spec : forall p w y r b q e, Forall (fun c => p c = true /\ c < 128) w -> (p y = false \/ r = []) ->
  skip_while p (mk b (w ++ y :: r) q e) = mk (rev w ++ b) (y :: r) q e.
Proof.
  intros p w y r b q e Hw Hy. unfold skip_while, mk. simpl before. simpl after.
  rewrite (read_while_spec p w y r b [] Hw Hy). reflexivity.
Qed.

(** ** Spaces and comments *)

Lemma block_spec : forall text x r b, no_close (text ++ [42]) ->
  block (hd 0 (text ++ 42 :: 47 :: x :: r) :: b) (tl (text ++ 42 :: 47 :: x :: r)) = (47 :: 42 :: rev text ++ b, x :: r).
Proof.
  induction text as [| c text IH]; intros x r b H.
  - reflexivity.
  - simpl app. simpl hd. simpl tl.
    assert (H' : no_close (text ++ [42])) by (simpl in H; destruct (text ++ [42]); [exact Logic.I | tauto]).
    specialize (IH x r (c :: b) H').
    destruct (text ++ 42 :: 47 :: x :: r) as [| z s] eqn:Es; [destruct text; discriminate |].
    simpl in IH. simpl block. rewrite IH.
    assert (Hz : c = 42 -> z <> 47).
    { intros -> ->. destruct text as [| t text]; simpl in Es; [discriminate |]. injection Es as -> _.
      simpl in H. destruct H as [H _]. apply H. split; reflexivity. }
    simpl rev. rewrite <- app_assoc. simpl.
    destruct (Z.eqb_spec c 42) as [Hc | Hc]; [| reflexivity].
    destruct (Z.eqb_spec z 47) as [Hz' | Hz']; [exfalso; exact (Hz Hc Hz') | reflexivity].
Qed.

(** where the skipping of blanks ends *)
Definition not_blank (s : list Z) : Prop :=
  exists c d r, s = c :: d :: r /\ is_space c = false /\ c <> 37 /\ ~ (c = 47 /\ d = 42).

(** the text after the blanks: a token, or the final end of line *)
Definition goal_text (s : list Z) : Prop := s = [10] \/ not_blank s.

Lemma goal_nonempty : forall s, goal_text s -> s <> [].
Proof. intros s [-> | [c [d [r [-> _]]]]]; discriminate. Qed.

(** the spaces at the beginning of a list of blanks *)
Fixpoint spaces_of (l : list blank) : list Z * list blank :=
  match l with
  | BChar c :: r => let '(w, l) := spaces_of r in (c :: w, l)
  | _ => ([], l)
  end.

Definition no_space_first (l : list blank) : Prop := match l with BChar _ :: _ => False | _ => True end.

Lemma spaces_of_spec : forall l w l', Forall blank_ok l -> spaces_of l = (w, l') ->
  blanks_text l = w ++ blanks_text l' /\ Forall (fun c => is_space c = true /\ c < 128) w /\
  Forall blank_ok l' /\ no_space_first l' /\ (length l = length w + length l')%nat.
Proof.
  induction l as [| x l IH]; intros w l' Hl H; simpl in H.
  - injection H as <- <-. repeat split; try constructor.
  - inversion Hl as [| ? ? Hx Hl']; subst.
    destruct x as [c | t | t]; try (injection H as <- <-; repeat split; [constructor | assumption]).
    destruct (spaces_of l) as [w1 l1] eqn:E. injection H as <- <-.
    destruct (IH w1 l1 Hl' eq_refl) as [H1 [H2 [H3 [H4 H5]]]].
    repeat split; try assumption.
    + unfold blanks_text in *. simpl. rewrite H1. reflexivity.
    + constructor; [simpl in Hx; split; zb | exact H2].
    + simpl. rewrite H5. lia.
Qed.

Lemma space_first_char : forall l g, goal_text g -> Forall blank_ok l -> no_space_first l -> l <> [] ->
  exists c r, blanks_text l ++ g = c :: r /\ is_space c = false.
Proof.
  intros l g Hg Hl Hn Hne. destruct l as [| [c | t | t] l]; [congruence | destruct Hn | |].
  - eexists _, _. split; [reflexivity | reflexivity].
  - eexists _, _. split; [reflexivity | reflexivity].
Qed.

(** the result of one pass of the loop: what is left *)
Lemma filter_spaces_spec : forall l g b q e, goal_text g -> Forall blank_ok l ->
  let '(w, l') := spaces_of l in
  filter_spaces (mk b (blanks_text l ++ g) q e)
  = (negb (match tl (blanks_text l' ++ g) with [] => true | _ => false end),
     mk (rev w ++ b) (blanks_text l' ++ g) q e).
Proof.
  intros l g b q e Hg Hl. destruct (spaces_of l) as [w l'] eqn:E.
  destruct (spaces_of_spec l w l' Hl E) as [H1 [H2 [H3 [H4 H5]]]].
  unfold filter_spaces. rewrite H1, <- app_assoc.
  assert (Hy : exists y r, blanks_text l' ++ g = y :: r /\ (is_space y = false \/ r = [])).
  { destruct l' as [| x l'].
    - simpl. destruct Hg as [-> | [c [d [r [-> [Hc _]]]]]]; eexists _, _; (split; [reflexivity |]); [right; reflexivity | left; exact Hc].
    - destruct (space_first_char (x :: l') g Hg H3 H4 ltac:(discriminate)) as [c [r [Hc1 Hc2]]].
      exists c, r. split; [exact Hc1 | left; exact Hc2]. }
  destruct Hy as [y [r [Hy Hy']]]. rewrite Hy.
  rewrite (skip_while_spec is_space w y r b q e H2 Hy'). reflexivity.
Qed.

(** one comment, or nothing *)
Lemma filter_comments_other : forall s b q e c d r, s = c :: d :: r -> c <> 37 -> ~ (c = 47 /\ d = 42) ->
  filter_comments (mk b s q e) = Some (true, mk b s q e).
Proof.
  intros s b q e c d r -> H1 H2. unfold filter_comments. rewrite cur_mk. simpl hd.
  destruct (Z.eqb_spec c 37); [congruence |].
  destruct (Z.eqb_spec c 47); [| reflexivity]. subst c.
  unfold check_advance, mk. simpl. destruct (Z.eqb_spec d 42); [exfalso; apply H2; split; [reflexivity | assumption] | reflexivity].
Qed.

Lemma nonempty_cons : forall (s : list Z), s <> [] -> exists c r, s = c :: r.
Proof. intros [| c r] H; [congruence | eexists _, _; reflexivity]. Qed.

Lemma filter_comments_line : forall t s b q e, Forall ascii_printable t -> s <> [] ->
  filter_comments (mk b (37 :: t ++ 10 :: s) q e) = Some (true, mk (rev t ++ 37 :: b) (10 :: s) q e).
Proof.
  intros t s b q e Ht Hs. unfold filter_comments. rewrite cur_mk. simpl hd. simpl (37 =? 37).
  destruct (t ++ 10 :: s) as [| z r] eqn:Ez; [destruct t; discriminate |].
  rewrite advance_mk. cbv zeta iota beta. rewrite <- Ez.
  rewrite (skip_while_spec is_printable t 10 s (37 :: b) q e).
  - destruct (nonempty_cons s Hs) as [c [r' ->]]. reflexivity.
  - eapply Forall_impl; [| exact Ht]. intros c Hc. cbv beta in Hc. split; zb.
  - left. reflexivity.
Qed.

Lemma filter_comments_block : forall t s b q e, no_close (t ++ [42]) -> s <> [] ->
  exists b', filter_comments (mk b (47 :: 42 :: t ++ 42 :: 47 :: s) q e)
  = Some (negb (match tl s with [] => true | _ => false end), mk b' s q e)
  /\ (length b' = length b + 4 + length t)%nat.
Proof.
  intros t s b q e Ht Hs. unfold filter_comments. rewrite cur_mk. simpl hd. simpl (47 =? 37). simpl (47 =? 47).
  cbv iota. destruct (nonempty_cons s Hs) as [x [r ->]].
  unfold check_advance, mk. simpl after. simpl (42 =? 42). cbv iota zeta beta.
  unfold advance. simpl after.
  pose proof (block_spec t x r (42 :: 47 :: b) Ht) as Hb.
  destruct (t ++ 42 :: 47 :: x :: r) as [| z s] eqn:Ez; [destruct t; discriminate |].
  cbn [hd tl] in Hb. cbn -[block]. rewrite Hb. cbn -[block].
  eexists. split; [reflexivity |]. cbn [length]. rewrite app_length, rev_length. simpl. lia.
Qed.

(** the number of characters read grows *)
Lemma pos_mk : forall b s q e, pos (mk b s q e) = S (length b).
Proof. reflexivity. Qed.

(** one pass: either it finds the text at once, or fewer blanks are left *)
Definition pass (l : lexer) : option (bool * lexer) :=
  ldo (ok, l1) <- filter_comments l;
  if negb ok then Some (false, l1) else Some (filter_spaces l1).

Lemma skip_unfold : forall n l, skip (S n) l =
  match pass l with
  | None => None
  | Some (false, _) => Some None
  | Some (true, l2) => if Nat.eqb (pos l) (pos l2) then Some (Some l2) else skip n l2
  end.
Proof.
  intros n l. unfold pass. cbn [skip]. destruct (filter_comments l) as [[[|] l1] |]; cbn [negb]; try reflexivity.
  destruct (filter_spaces l1) as [[|] l2]; reflexivity.
Qed.

Definition more (s : list Z) : bool := match tl s with [] => false | _ => true end.

Lemma more_goal : forall s, not_blank s -> more s = true.
Proof. intros s [c [d [r [-> _]]]]. reflexivity. Qed.

(** what a pass leaves: the spaces after the first comment, if any *)
Definition left (l : list blank) : list blank :=
  match l with
  | [] => []
  | BChar _ :: _ => snd (spaces_of l)
  | BLine _ :: r | BBlock _ :: r => snd (spaces_of r)
  end.

Lemma blanks_cons : forall x l, blanks_text (x :: l) = blank_text x ++ blanks_text l.
Proof. reflexivity. Qed.

Lemma more_app : forall l g, goal_text g -> Forall blank_ok l -> l <> [] -> more (blanks_text l ++ g) = true.
Proof.
  intros l g Hg Hl Hne. destruct l as [| x l]; [congruence |]. rewrite blanks_cons, <- app_assoc.
  destruct x as [c | t | t]; simpl.
  - unfold more. simpl. pose proof (goal_nonempty g Hg). destruct (blanks_text l ++ g) eqn:E; [| reflexivity].
    apply app_eq_nil in E. tauto.
  - unfold more. simpl. destruct t; reflexivity.
  - reflexivity.
Qed.

Lemma negb_more : forall s, negb (match tl s with [] => true | _ => false end) = more s.
Proof. intros s. unfold more. destruct (tl s); reflexivity. Qed.

Lemma pass_spec : forall l g b q e, goal_text g -> Forall blank_ok l -> l <> [] ->
  exists b', (length b < length b')%nat /\
  (pass (mk b (blanks_text l ++ g) q e) = Some (more (blanks_text (left l) ++ g), mk b' (blanks_text (left l) ++ g) q e)
   \/ (left l = [] /\ g = [10] /\ exists l1, pass (mk b (blanks_text l ++ g) q e) = Some (false, l1))).
Proof.
  intros l g b q e Hg Hl Hne. destruct l as [| x l]; [congruence |]. inversion Hl as [| ? ? Hx Hl']; subst.
  assert (Hne' : blanks_text l ++ g <> []) by (intros E; apply app_eq_nil in E; exact (goal_nonempty g Hg (proj2 E))).
  destruct x as [c | t | t].
  - (* spaces *)
    pose proof (filter_spaces_spec (BChar c :: l) g b q e Hg Hl) as Hf.
    destruct (spaces_of (BChar c :: l)) as [w l'] eqn:E.
    exists (rev w ++ b). split.
    { rewrite app_length, rev_length. simpl in E. destruct (spaces_of l). injection E as <- _. simpl. lia. }
    left. unfold pass.
    rewrite blanks_cons. rewrite blanks_cons in Hf. simpl in Hx.
    destruct (nonempty_cons _ Hne') as [d [r Hd]]. rewrite <- app_assoc in *. simpl blank_text in *.
    change ([c] ++ blanks_text l ++ g) with (c :: blanks_text l ++ g) in *. rewrite Hd in *.
    rewrite (filter_comments_other (c :: d :: r) b q e c d r eq_refl); [| lia | lia].
    cbv iota beta. simpl negb. cbv iota. rewrite Hf. unfold left. rewrite E. cbn [snd]. rewrite negb_more. reflexivity.
  - (* a line *)
    simpl in Hx. rewrite blanks_cons, <- app_assoc. simpl blank_text.
    change ((37 :: t ++ [10]) ++ blanks_text l ++ g) with (37 :: (t ++ [10]) ++ blanks_text l ++ g).
    rewrite <- app_assoc. simpl ([10] ++ _). unfold pass.
    rewrite (filter_comments_line t (blanks_text l ++ g) b q e Hx Hne'). simpl negb. cbv iota beta.
    assert (Hn : Forall blank_ok (BChar 10 :: l)) by (constructor; [simpl; tauto | exact Hl']).
    pose proof (filter_spaces_spec (BChar 10 :: l) g (rev t ++ 37 :: b) q e Hg Hn) as Hf.
    simpl spaces_of in Hf. destruct (spaces_of l) as [w l'] eqn:E.
    rewrite blanks_cons, <- app_assoc in Hf. simpl blank_text in Hf.
    change ([10] ++ blanks_text l ++ g) with (10 :: blanks_text l ++ g) in Hf. rewrite Hf.
    eexists. split; [| left; unfold left; rewrite E; cbn [snd]; rewrite negb_more; reflexivity].
    rewrite !app_length, !rev_length. simpl. lia.
  - (* a block *)
    simpl in Hx. rewrite blanks_cons, <- app_assoc. simpl blank_text.
    change ((47 :: 42 :: t ++ [42; 47]) ++ blanks_text l ++ g) with (47 :: 42 :: (t ++ [42; 47]) ++ blanks_text l ++ g).
    rewrite <- app_assoc. simpl ([42; 47] ++ _). unfold pass.
    destruct (filter_comments_block t (blanks_text l ++ g) b q e Hx Hne') as [b' [Hc Hlen]].
    rewrite Hc, negb_more.
    pose proof (filter_spaces_spec l g b' q e Hg Hl') as Hf.
    destruct (spaces_of l) as [w l'] eqn:E.
    destruct (more (blanks_text l ++ g)) eqn:Em; simpl negb; cbv iota.
    + rewrite Hf. exists (rev w ++ b'). split; [rewrite app_length; lia |].
      left. unfold left. rewrite E. cbn [snd]. rewrite negb_more. reflexivity.
    + exists (rev w ++ b'). split; [rewrite app_length; lia |]. right.
      destruct l as [| x l]; [| rewrite (more_app (x :: l) g Hg Hl' ltac:(discriminate)) in Em; discriminate].
      simpl in Em. simpl in E. injection E as <- <-. split; [reflexivity |].
      split; [| eexists; reflexivity].
      destruct Hg as [Hg | Hg]; [exact Hg | rewrite (more_goal g Hg) in Em; discriminate].
Qed.

Lemma left_ok : forall l, Forall blank_ok l -> Forall blank_ok (left l) /\ (l <> [] -> length (left l) < length l)%nat.
Proof.
  intros l Hl. destruct l as [| x l]; [split; [constructor | congruence] |].
  inversion Hl as [| ? ? Hx Hl']; subst.
  assert (H : Forall blank_ok (snd (spaces_of l)) /\ (length (snd (spaces_of l)) <= length l)%nat).
  { destruct (spaces_of l) as [w l'] eqn:E. destruct (spaces_of_spec l w l' Hl' E) as [_ [_ [H [_ H5]]]].
    split; [exact H | simpl; lia]. }
  destruct x as [c | t | t]; simpl; [destruct (spaces_of l) as [w l'] eqn:E; simpl in * | |];
    (split; [apply H | intros _; destruct H; lia]).
Qed.

(** the loop finds the text after the blanks *)
Theorem skip_spec : forall n l g b q e, goal_text g -> Forall blank_ok l -> (length l < n)%nat ->
  (not_blank g -> exists b', (length b <= length b')%nat /\ (l <> [] -> length b < length b')%nat /\
     skip n (mk b (blanks_text l ++ g) q e) = Some (Some (mk b' g q e))) /\
  (g = [10] -> skip n (mk b (blanks_text l ++ g) q e) = Some None).
Proof.
  induction n as [| n IH]; intros l g b q e Hg Hl Hn; [lia |].
  destruct l as [| x l].
  - simpl blanks_text. simpl app. rewrite skip_unfold. split.
    + intros [c [d [r [-> [H1 [H2 H3]]]]]]. exists b. split; [lia |]. split; [congruence |].
      unfold pass. rewrite (filter_comments_other (c :: d :: r) b q e c d r eq_refl H2 H3). simpl negb. cbv iota.
      unfold filter_spaces. pose proof (skip_while_spec is_space [] c (d :: r) b q e (Forall_nil _) (or_introl H1)) as Hk.
      simpl app in Hk. rewrite Hk.
      simpl. rewrite Nat.eqb_refl. reflexivity.
    + intros ->. reflexivity.
  - rewrite skip_unfold.
    destruct (pass_spec (x :: l) g b q e Hg Hl ltac:(discriminate)) as [b' [Hb [Hp | [Hl0 [Hg0 [l1 Hp]]]]]]; rewrite Hp.
    + destruct (left_ok (x :: l) Hl) as [Hl1 Hl2]. specialize (Hl2 ltac:(discriminate)).
      destruct (more (blanks_text (left (x :: l)) ++ g)) eqn:Em.
      * rewrite !pos_mk. destruct (Nat.eqb_spec (S (length b)) (S (length b'))); [lia |].
        destruct (IH (left (x :: l)) g b' q e Hg Hl1 ltac:(lia)) as [IH1 IH2]. split; [| exact IH2].
        intros Hnb. destruct (IH1 Hnb) as [b'' [H1 [_ H2]]]. exists b''. split; [lia |]. split; [lia | exact H2].
      * split; [| reflexivity]. intros Hnb. exfalso.
        destruct (left (x :: l)) as [| y l'] eqn:El.
        -- simpl in Em. rewrite (more_goal g Hnb) in Em. discriminate.
        -- rewrite (more_app (y :: l') g Hg Hl1 ltac:(discriminate)) in Em. discriminate.
    + split; [| reflexivity]. intros [c [d [r [Hnb _]]]]. rewrite Hg0 in Hnb. discriminate.
Qed.
