(** Whole files; the two counters. *)
From Coq Require Import ZArith List Bool Lia.
From Verif Require Import Lexer_Model Lexer_Spec Lexer_Proofs Lexer_Number Lexer_Tokens.
Import ListNotations.
Open Scope Z_scope.

Lemma text_nonempty : forall l, text l <> [].
Proof.
  intros [| [[w t] bl] r]; simpl; [discriminate |]. intros E. apply app_eq_nil in E as [_ E].
  apply app_eq_nil in E as [_ E]. revert E. clear. induction r as [| [[w t] bl] r IH]; simpl; [discriminate |].
  intros E. apply app_eq_nil in E as [_ E]. apply app_eq_nil in E as [_ E]. exact (IH E).
Qed.

Lemma rest_nonempty : forall bl l, blanks_text bl ++ text l <> [].
Proof. intros bl l E. apply app_eq_nil in E as [_ E]. exact (text_nonempty l E). Qed.

(** the first character of a lexeme *)
Lemma lexeme_first : forall w t, lexeme w t ->
  exists c s, w = c :: s /\ is_space c = false /\ c <> 37 /\ (c = 47 -> s = [] /\ t = SLASH).
Proof.
  intros w t H. destruct H.
  - destruct H; eexists _, _; (split; [reflexivity |]); repeat split; try reflexivity; try discriminate; try lia.
  - destruct H; eexists _, _; (split; [reflexivity |]); repeat split; try reflexivity; try discriminate; try lia.
  - eexists _, _; (split; [reflexivity |]); repeat split; try reflexivity; try discriminate; try lia.
  - eexists _, _; (split; [reflexivity |]); repeat split; try reflexivity; try discriminate; try lia.
  - eexists _, _; (split; [reflexivity |]); repeat split; try reflexivity; try discriminate; try lia.
  - eexists _, _; (split; [reflexivity |]); repeat split; try reflexivity; try discriminate; try lia.
  - eexists _, _; (split; [reflexivity |]); unfold upper_alpha in H; repeat split; try zb; lia.
  - eexists _, _; (split; [reflexivity |]); unfold lower_alpha in H; repeat split; try zb; lia.
  - eexists _, _; (split; [reflexivity |]); repeat split; try reflexivity; try discriminate; try lia.
  - eexists _, _; (split; [reflexivity |]); repeat split; try reflexivity; try discriminate; try lia.
  - eexists _, _; (split; [reflexivity |]); repeat split; try reflexivity; try discriminate; try lia.
  - eexists _, _; (split; [reflexivity |]); repeat split; try reflexivity; try discriminate; try lia.
  - destruct (signed_first _ w real_first H) as [c [s [-> Hc]]]. eexists _, _; (split; [reflexivity |]).
    unfold numeric in Hc. repeat split; try zb; lia.
  - destruct (signed_first _ w rational_first H) as [c [s [-> Hc]]]. eexists _, _; (split; [reflexivity |]).
    unfold numeric in Hc. repeat split; try zb; lia.
  - destruct (signed_first _ w decimal_first H) as [c [s [-> Hc]]]. eexists _, _; (split; [reflexivity |]).
    unfold numeric in Hc. repeat split; try zb; lia.
Qed.

Lemma lexeme_not_blank : forall w t rest, lexeme w t -> follows w t rest -> rest <> [] -> not_blank (w ++ rest).
Proof.
  intros w t rest Hl Hf Hr. destruct (lexeme_first w t Hl) as [c [s [-> [H1 [H2 H3]]]]].
  assert (Hd : exists d r, s ++ rest = d :: r) by (destruct s; [destruct rest; [congruence |] |]; eexists _, _; reflexivity).
  destruct Hd as [d [r Hd]]. exists c, d, r. simpl. rewrite Hd. repeat split; try assumption.
  intros [-> ->]. destruct (H3 eq_refl) as [-> ->]. simpl in Hd. subst rest. apply Hf. reflexivity.
Qed.

Lemma lexeme_not_eof : forall w t, lexeme w t -> t <> EOF.
Proof. intros w t H. destruct H; try discriminate; destruct H; discriminate. Qed.

Lemma blanks_length : forall bl, (length bl <= length (blanks_text bl))%nat.
Proof.
  induction bl as [| x bl IH]; [simpl; lia |]. rewrite blanks_cons, app_length. destruct x; simpl; lia.
Qed.

Definition total_count (ts : list token) : Z := fold_right (fun t n => count_of t + n) 0 ts.

(** one step *)
Lemma lex_step : forall bl w t bl' (l : list item) b q e,
  Forall blank_ok bl -> items_ok ((w, t, bl') :: l) -> (b <> [] \/ bl <> [] \/ keyword w t) ->
  exists b', b' <> [] /\
    lex (mkL b (blanks_text bl ++ text ((w, t, bl') :: l)) q e)
    = Some (t, mkL b' (blanks_text bl' ++ text l) (q + count_of t) (e || is_equal t)).
Proof.
  intros bl w t bl' l b q e Hbl [Hw [Hbl' [Hf Hl]]] Hb.
  set (g := text ((w, t, bl') :: l)). set (rest := blanks_text bl' ++ text l) in *.
  assert (Hg : g = w ++ rest) by reflexivity.
  assert (Hr : rest <> []) by apply rest_nonempty.
  assert (Hnb : not_blank g) by (rewrite Hg; exact (lexeme_not_blank w t rest Hw Hf Hr)).
  destruct (nonempty_cons (blanks_text bl ++ g)) as [c [r Hc]]; [intros E; apply app_eq_nil in E as [_ E]; exact (text_nonempty _ E) |].
  assert (Ha : advance (mkL b (blanks_text bl ++ g) q e) = Some (mk b (blanks_text bl ++ g) q e)).
  { rewrite Hc. reflexivity. }
  unfold lex. rewrite Ha.
  assert (Hfuel : (length bl < S (length (after (mk b (blanks_text bl ++ g) q e))))%nat).
  { unfold mk. simpl after. pose proof (blanks_length bl). assert (Hlen : length (blanks_text bl ++ g) = S (length (tl (blanks_text bl ++ g)))) by (rewrite Hc; reflexivity).
    rewrite app_length in Hlen. assert (length g <> 0)%nat by (intros E; apply length_zero_iff_nil in E; exact (text_nonempty _ E)). lia. }
  destruct (skip_spec _ bl g b q e (or_intror Hnb) Hbl Hfuel) as [Hs _].
  destruct (Hs Hnb) as [b' [H1 [H2 H3]]]. rewrite H3.
  exists (rev w ++ b').
  assert (Hwne : w <> []) by (destruct (lexeme_first w t Hw) as [? [? [-> _]]]; discriminate).
  split.
  - intros E. apply app_eq_nil in E as [E _]. apply (f_equal (@rev Z)) in E. rewrite rev_involutive in E. exact (Hwne E).
  - rewrite Hg. apply lex_lexeme; try assumption.
    destruct Hb as [Hb | [Hb | Hb]].
    + left. destruct b; [congruence |]. destruct b'; [simpl in H1; lia | discriminate].
    + left. specialize (H2 Hb). destruct b'; [simpl in H2; lia | discriminate].
    + right. exact Hb.
Qed.

Lemma lex_end : forall bl b q e, Forall blank_ok bl ->
  exists l, lex (mkL b (blanks_text bl ++ [10]) q e) = Some (EOF, l) /\ quantifiers l = q /\ has_eq l = e.
Proof.
  intros bl b q e Hbl. destruct (nonempty_cons (blanks_text bl ++ [10])) as [c [r Hc]]; [intros E; apply app_eq_nil in E as [_ E]; discriminate |].
  assert (Ha : advance (mkL b (blanks_text bl ++ [10]) q e) = Some (mk b (blanks_text bl ++ [10]) q e)) by (rewrite Hc; reflexivity).
  unfold lex. rewrite Ha.
  assert (Hfuel : (length bl < S (length (after (mk b (blanks_text bl ++ [10%Z]) q e))))%nat).
  { unfold mk. simpl after. pose proof (blanks_length bl).
    assert (Hlen : length (blanks_text bl ++ [10]) = S (length (tl (blanks_text bl ++ [10])))) by (rewrite Hc; reflexivity).
    rewrite app_length in Hlen. simpl in Hlen. lia. }
  destruct (skip_spec _ bl [10] b q e (or_introl eq_refl) Hbl Hfuel) as [_ Hs]. rewrite (Hs eq_refl).
  eexists. split; [reflexivity |]. split; reflexivity.
Qed.

Lemma lex_all_unfold : forall n l, lex_all (S n) l =
  match lex l with
  | None => None
  | Some (t, l) => match t with EOF => Some ([], l) | _ => ldo (ts, l) <- lex_all n l; Some (t :: ts, l) end
  end.
Proof. reflexivity. Qed.

Theorem lex_items : forall l n bl b q e, Forall blank_ok bl -> items_ok l ->
  (b <> [] \/ starts_well bl l) -> (length l < n)%nat ->
  exists st, lex_all n (mkL b (blanks_text bl ++ text l) q e) = Some (tokens l, st) /\
    quantifiers st = q + total_count (tokens l) /\ has_eq st = e || existsb is_equal (tokens l).
Proof.
  induction l as [| [[w t] bl'] l IH]; intros n bl b q e Hbl Hl Hb Hn; (destruct n as [| n]; [lia |]).
  - destruct (lex_end bl b q e Hbl) as [st [H1 [H2 H3]]]. exists st. simpl text. rewrite lex_all_unfold, H1.
    split; [reflexivity |]. simpl. rewrite H2, H3, orb_false_r. split; [lia | reflexivity].
  - destruct (lex_step bl w t bl' l b q e Hbl Hl) as [b' [Hb' H1]].
    { destruct Hb as [Hb | [Hb | Hb]]; tauto. }
    destruct Hl as [Hw [Hbl' [Hf Hl]]].
    destruct (IH n bl' b' (q + count_of t) (e || is_equal t) Hbl' Hl (or_introl Hb') ltac:(simpl in Hn; lia)) as [st [H2 [H3 H4]]].
    exists st. rewrite lex_all_unfold. unfold item in *. rewrite H1.
    pose proof (lexeme_not_eof w t Hw) as Ht.
    assert (E : forall A (x y : A), match t with EOF => x | _ => y end = y) by (intros; destruct t; try reflexivity; congruence).
    rewrite E, H2. split; [reflexivity |]. simpl tokens. rewrite H3, H4. simpl.
    rewrite orb_assoc. split; [unfold total_count; simpl; lia | reflexivity].
Qed.

Lemma items_length : forall l, items_ok l -> (length l < length (text l))%nat.
Proof.
  induction l as [| [[w t] bl] l IH]; intros H; simpl; [lia |].
  destruct H as [Hw [_ [_ Hl]]]. specialize (IH Hl). destruct (lexeme_first w t Hw) as [c [s [-> _]]].
  simpl. rewrite !app_length. lia.
Qed.

Theorem lex_file_spec : forall bl l q e, file_ok bl l ->
  exists st, lex_file (file_text bl l) q e = Some (tokens l, st) /\
    quantifiers st = q + total_count (tokens l) /\ has_eq st = e || existsb is_equal (tokens l).
Proof.
  intros bl l q e [H1 [H2 H3]]. unfold lex_file, file_text.
  apply lex_items; [exact H1 | exact H2 | right; exact H3 |].
  rewrite app_length. pose proof (items_length l H2). lia.
Qed.

(** ** The two counters, on any file *)

Definition same (l l' : lexer) : Prop := quantifiers l' = quantifiers l /\ has_eq l' = has_eq l.

Lemma same_refl : forall l, same l l.
Proof. split; reflexivity. Qed.
Lemma same_trans : forall a b c, same a b -> same b c -> same a c.
Proof. intros a b c [H1 H2] [H3 H4]. split; congruence. Qed.
Lemma same_mk : forall l b a, same l (mkL b a (quantifiers l) (has_eq l)).
Proof. split; reflexivity. Qed.

Lemma advance_same : forall l l', advance l = Some l' -> same l l'.
Proof. intros l l' H. unfold advance in H. destruct (after l); [discriminate |]. injection H as <-. apply same_mk. Qed.
Lemma check_advance_same : forall c l ok l', check_advance c l = (ok, l') -> same l l'.
Proof.
  intros c l ok l' H. unfold check_advance in H. destruct (after l); [| destruct (z =? c)]; injection H as <- <-;
    try apply same_refl. apply same_mk.
Qed.
Lemma remove_same : forall n l l', remove n l = Some l' -> same l l'.
Proof.
  intros n l l' H. unfold remove in H. destruct (back n (before l) (after l)) as [[[| x b] a] |]; [| | discriminate].
  - destruct a; [discriminate |]. injection H as <-. apply same_mk.
  - injection H as <-. apply same_mk.
Qed.
Lemma skip_while_same : forall p l, same l (skip_while p l).
Proof. intros p l. unfold skip_while. destruct (read_while p (before l) (after l) []) as [[w b] a]. apply same_mk. Qed.

Ltac st1 :=
  match goal with
  | H : advance ?l = Some ?l' |- _ => apply advance_same in H
  | H : check_advance _ ?l = (_, ?l') |- _ => apply check_advance_same in H
  | H : remove _ ?l = Some ?l' |- _ => apply remove_same in H
  end.
Ltac fin := repeat st1; unfold same in *; simpl in *; intuition congruence.
(** break the matches of a hypothesis *)
Ltac brk H :=
  repeat (cbv beta zeta in H;
          match type of H with
          | match ?x with _ => _ end = Some _ => destruct x eqn:?; try discriminate H
          | (if ?x then _ else _) = Some _ => destruct x eqn:?; try discriminate H
          end).

Lemma filter_comments_same : forall l ok l', filter_comments l = Some (ok, l') -> same l l'.
Proof.
  intros l ok l' H. unfold filter_comments in H. destruct (cur l =? 37).
  - destruct (advance l) as [l1 |] eqn:E; [| discriminate]. injection H as <- <-.
    eapply same_trans; [apply advance_same; exact E | apply skip_while_same].
  - destruct (cur l =? 47); [| injection H as <- <-; apply same_refl].
    destruct (check_advance 42 l) as [[|] l1] eqn:E1.
    + destruct (advance l1) as [l2 |] eqn:E2; [| discriminate].
      destruct (block (before l2) (after l2)) as [b a]. cbn [at_end after before] in H.
      destruct a as [| y a]; [discriminate |].
      destruct (nth 1 b 0 =? 42).
      * simpl in H. injection H as <- <-. fin.
      * injection H as <- <-. fin.
    + injection H as <- <-. fin.
Qed.
Lemma filter_spaces_same : forall l ok l', filter_spaces l = (ok, l') -> same l l'.
Proof. intros l ok l' H. unfold filter_spaces in H. injection H as <- <-. apply skip_while_same. Qed.

Lemma skip_same : forall n l l', skip n l = Some (Some l') -> same l l'.
Proof.
  induction n as [| n IH]; intros l l' H; [discriminate |]. cbn [skip] in H.
  destruct (filter_comments l) as [[[|] l1] |] eqn:E1; cbn [negb] in H; try discriminate.
  destruct (filter_spaces l1) as [[|] l2] eqn:E2; cbn [negb] in H; [| discriminate].
  pose proof (filter_comments_same _ _ _ E1). pose proof (filter_spaces_same _ _ _ E2).
  assert (same l l2) by (eapply same_trans; eassumption).
  destruct (Nat.eqb (pos l) (pos l2)); [injection H as <-; assumption |].
  apply IH in H. eapply same_trans; eassumption.
Qed.

Lemma failable_same : forall m w l t l', failable m w l = Some (t, l') -> same l l' /\ t = find_word m w.
Proof.
  intros m w l t l' H. unfold failable in H. destruct (find_word m w) eqn:E.
  - injection H as <- <-. split; [apply same_refl | reflexivity].
  - destruct w as [| x [| y w]]; try (injection H as <- <-; split; [apply same_refl | reflexivity]).
    destruct (remove (length (y :: w)) l) eqn:E2; [| discriminate]. injection H as <- <-. split; [apply remove_same in E2; exact E2 | reflexivity].
Qed.

(** the counters after a token *)
Definition counted (l : lexer) (t : token) (l' : lexer) : Prop :=
  quantifiers l' = quantifiers l + count_of t /\ has_eq l' = has_eq l || is_equal t.
Definition counted_opt (l : lexer) (t : option token) (l' : lexer) : Prop :=
  match t with Some t => counted l t l' | None => same l l' end.

Lemma counted_same : forall l t l', count_of t = 0 -> is_equal t = false -> same l l' -> counted l t l'.
Proof. intros l t l' H1 H2 [H3 H4]. split; [lia | rewrite H2, orb_false_r; exact H4]. Qed.
Lemma same_counted : forall a b c t, same a b -> counted b t c -> counted a t c.
Proof. intros a b c t [H1 H2] [H3 H4]. split; congruence. Qed.
Lemma same_counted_opt : forall a b c t, same a b -> counted_opt b t c -> counted_opt a t c.
Proof. intros a b c [t |] H H'; [eapply same_counted; eassumption | eapply same_trans; eassumption]. Qed.

Lemma find_word_in : forall m w t, find_word m w = Some t -> In (w, t) m.
Proof.
  induction m as [| [k u] m IH]; intros w t H; simpl in H; [discriminate |].
  destruct (word_eqb k w) eqn:E; [| right; apply IH; exact H]. injection H as ->. apply word_eqb_eq in E. subst k. left. reflexivity.
Qed.

Lemma keyword_counted : forall l t l', is_keyword l = Some (t, l') -> counted_opt l t l'.
Proof.
  intros l t l' H. unfold is_keyword in H.
  destruct (read_while is_letter (before l) (after l) []) as [[w b] a].
  destruct (remove 1 _) as [l1 |] eqn:E1; [| discriminate]. apply remove_same in E1.
  assert (Hs : same l l1) by (eapply same_trans; [| exact E1]; apply same_mk).
  assert (Hm : (ldo par <- check_next 40 l1;
      (if negb par then ldo l <- remove_word w l1; Some (None, l) else failable keywords w l1)) = Some (t, l') -> counted_opt l t l').
  { intros H'. destruct (check_next 40 l1) as [[|] |]; [| | discriminate]; simpl in H'.
    - destruct (failable_same _ _ _ _ _ H') as [H1 H2]. apply (same_counted_opt l l1 l' t Hs).
      destruct t as [t |]; [| exact H1]. symmetry in H2. apply find_word_in in H2.
      apply counted_same; [| | exact H1]; unfold keywords in H2; simpl in H2;
        intuition (match goal with E : (_, _) = (_, _) |- _ => injection E as _ <- end; reflexivity).
    - destruct (remove_word w l1) as [l2 |] eqn:E2; [| discriminate]. injection H' as <- <-.
      simpl. eapply same_trans; [exact Hs |]. unfold remove_word in E2. destruct w; [apply advance_same in E2 | apply remove_same in E2]; exact E2. }
  destruct w as [| c [| d w]]; [exact (Hm H) | | exact (Hm H)]. injection H as <- <-. exact Hs.
Qed.

Lemma failable_counted : forall m w l t l', (forall t, In (w, t) m -> count_of t = 0 /\ is_equal t = false) ->
  failable m w l = Some (t, l') -> counted_opt l t l'.
Proof.
  intros m w l t l' Hm H. destruct (failable_same _ _ _ _ _ H) as [H1 H2]. destruct t as [t |]; [| exact H1].
  symmetry in H2. apply find_word_in in H2. destruct (Hm t H2). apply counted_same; assumption.
Qed.

Lemma operators_in : forall w t, In (w, t) operators -> w <> [33] -> w <> [33; 62] -> w <> [63] -> count_of t = 0 /\ is_equal t = false.
Proof.
  intros w t H H1 H2 H3. unfold operators in H. simpl in H.
  intuition (match goal with E : (_, _) = (_, _) |- _ => injection E as E1 E2; subst end; try congruence; reflexivity).
Qed.

Lemma utf8_short : forall c d r, utf8 c = d :: r -> d < 128 -> c = d /\ r = [].
Proof.
  intros c d r H Hd. unfold utf8 in H. destruct (Z.ltb_spec c 128).
  - injection H as -> <-. split; reflexivity.
  - assert (0 <= c / 64) by (apply Z.div_pos; lia). assert (d = 192 + c / 64) by congruence. lia.
Qed.

Lemma operator_counted : forall l t l', is_operator l = Some (t, l') -> counted_opt l t l'.
Proof.
  intros l t l' H. unfold is_operator in H.
  assert (Hq : forall w k l0, In (w, k) [([33], FORALL); ([33; 62], FORALL_TYPE); ([63], EXISTS)] -> same l l0 ->
            failable operators w (count_quantifier l0) = Some (t, l') -> counted_opt l t l').
  { intros w k l0 Hk [Hs1 Hs2] H'. destruct (failable_same _ _ _ _ _ H') as [[H1 H2] H3]. simpl in H1, H2. simpl in Hk.
    destruct Hk as [Hk | [Hk | [Hk | []]]]; injection Hk as <- <-; simpl in H3; subst t; split; simpl;
      rewrite ?orb_false_r; congruence. }
  assert (Ho : forall w l0, same l l0 -> w <> [33] -> w <> [33; 62] -> w <> [63] ->
            failable operators w l0 = Some (t, l') -> counted_opt l t l').
  { intros w l0 Hs H1 H2 H3 H'. apply (same_counted_opt l l0 l' t Hs).
    refine (failable_counted operators w l0 t l' _ H'). intros t' Ht'. exact (operators_in w t' Ht' H1 H2 H3). }
  destruct (cur l =? 33) eqn:E33.
  - destruct (check_advance 62 l) as [[|] l1] eqn:E1; apply check_advance_same in E1.
    + refine (Hq [33; 62] FORALL_TYPE l1 _ E1 H). simpl; tauto.
    + destruct (at_end l1).
      * refine (Hq [33] FORALL l1 _ E1 H). simpl; tauto.
      * destruct (check_next 32 l1) as [[|] |]; [| injection H as <- <-; exact E1 | discriminate].
        refine (Hq [33] FORALL l1 _ E1 H). simpl; tauto.
  - destruct (cur l =? 63) eqn:E63.
    + destruct (at_end l).
      * refine (Hq [63] EXISTS l _ (same_refl l) H). simpl; tauto.
      * destruct (check_next 32 l) as [[|] |]; [| injection H as <- <-; apply same_refl | discriminate].
        refine (Hq [63] EXISTS l _ (same_refl l) H). simpl; tauto.
    + destruct (cur l =? 60).
      { destruct (check_advance 61 l) as [[|] l1] eqn:E1; apply check_advance_same in E1.
        - destruct (check_advance 62 l1) as [ok l2] eqn:E2; apply check_advance_same in E2.
          refine (Ho _ l2 (same_trans _ _ _ E1 E2) _ _ _ H); destruct ok; discriminate.
        - destruct (check_advance 126 l) as [[|] l2] eqn:E2; apply check_advance_same in E2.
          + destruct (check_advance 62 l2) as [ok l3] eqn:E3; apply check_advance_same in E3.
            refine (Ho _ l3 (same_trans _ _ _ E2 E3) _ _ _ H); destruct ok; discriminate.
          + destruct (check_advance 60 l) as [ok l3] eqn:E3; apply check_advance_same in E3.
            refine (Ho _ l3 E3 _ _ _ H); destruct ok; discriminate. }
      destruct (cur l =? 61).
      { destruct (check_advance 62 l) as [ok l1] eqn:E1; apply check_advance_same in E1.
        refine (Ho _ l1 E1 _ _ _ H); destruct ok; discriminate. }
      destruct (cur l =? 126).
      { destruct (check_advance 124 l) as [[|] l1] eqn:E1; apply check_advance_same in E1.
        - refine (Ho _ l1 E1 _ _ _ H); discriminate.
        - destruct (check_advance 38 l) as [ok l2] eqn:E2; apply check_advance_same in E2.
          refine (Ho _ l2 E2 _ _ _ H); destruct ok; discriminate. }
      refine (Ho _ l (same_refl l) _ _ _ H); intros E; apply utf8_short in E as [E1 E2]; try lia; try discriminate;
        rewrite E1 in *; discriminate.
Qed.

Lemma predicate_counted : forall l t l', is_predicate l = Some (t, l') -> counted_opt l t l'.
Proof.
  intros l t l' H. unfold is_predicate in H.
  assert (Ho : forall w l0, same l l0 -> w <> [61] -> failable predicates w l0 = Some (t, l') -> counted_opt l t l').
  { intros w l0 Hs H1 H'. apply (same_counted_opt l l0 l' t Hs).
    refine (failable_counted predicates w l0 t l' _ H'). intros t' Ht'. unfold predicates in Ht'. simpl in Ht'.
    intuition (match goal with E : (_, _) = (_, _) |- _ => injection E as E1 E2; subst end; try congruence; reflexivity). }
  destruct (cur l =? 36).
  - destruct (advance l) as [l1 |] eqn:E1; [| discriminate]. apply advance_same in E1.
    destruct (dollar (before l1) (after l1) ([36] ++ utf8 (cur l1))) as [[w b] a] eqn:E2.
    refine (Ho w _ (same_trans _ _ _ E1 (same_mk l1 b a)) _ H).
    assert (Hw : forall a b w w' b' a', dollar b a w = (w', b', a') -> exists r, w' = w ++ r).
    { clear. induction a as [| x a IH]; intros b w w' b' a' H; simpl in H.
      - injection H as <- _ _. exists []. rewrite app_nil_r. reflexivity.
      - destruct a as [| y a]; [injection H as <- _ _; exists []; rewrite app_nil_r; reflexivity |].
        destruct (is_letter x).
        + apply IH in H as [r ->]. exists (utf8 x ++ r). rewrite app_assoc. reflexivity.
        + injection H as <- _ _. exists []. rewrite app_nil_r. reflexivity. }
    apply Hw in E2 as [r ->]. discriminate.
  - destruct (cur l =? 33).
    + destruct (check_advance 61 l) as [ok l1] eqn:E1; apply check_advance_same in E1.
      refine (Ho _ l1 E1 _ H). destruct ok; discriminate.
    + destruct (cur l =? 61) eqn:E61.
      * destruct (failable_same _ _ _ _ _ H) as [[H1 H2] H3]. simpl in H1, H2, H3. subst t. split; simpl; [lia |].
        rewrite orb_true_r. exact H2.
      * refine (Ho _ l (same_refl l) _ H). intros E; apply utf8_short in E as [E1 E2]; [| lia]. rewrite E1 in E61. discriminate.
Qed.

Lemma syntactic_counted : forall l t l', syntactic l = Some (t, l') -> counted_opt l t l'.
Proof.
  intros l t l' H. unfold syntactic in H. destruct (is_punctuation l) as [k |] eqn:E.
  - injection H as <- <-. apply counted_same; [| | apply same_refl]; unfold is_punctuation in E;
      repeat match type of E with (if ?x then _ else _) = _ => destruct x; [injection E as <-; reflexivity |] end; discriminate.
  - destruct (is_operator l) as [[[k |] l1] |] eqn:E1; [| | discriminate]; apply operator_counted in E1.
    + injection H as <- <-. exact E1.
    + destruct (is_keyword l1) as [[[k |] l2] |] eqn:E2; [| | discriminate]; apply keyword_counted in E2.
      * injection H as <- <-. exact (same_counted_opt l l1 l2 (Some k) E1 E2).
      * apply predicate_counted in H. apply (same_counted_opt l l2); [eapply same_trans; eassumption | exact H].
Qed.

Lemma quoted_words_counted : forall l t l', quoted_words l = Some (t, l') -> counted_opt l t l'.
Proof.
  intros l t l' H. unfold quoted_words in H. destruct (cur l =? 39); [| destruct (cur l =? 34)].
  - destruct (advance l) as [l1 |] eqn:E1; [| discriminate]. apply advance_same in E1.
    destruct (quoted is_sq_char 39 (before l1) (after l1) []) as [[[w b] a] |]; [| discriminate]. injection H as <- <-.
    apply counted_same; [reflexivity | reflexivity |]. eapply same_trans; [exact E1 | apply same_mk].
  - destruct (advance l) as [l1 |] eqn:E1; [| discriminate]. apply advance_same in E1.
    destruct (quoted is_do_char 34 (before l1) (after l1) []) as [[[w b] a] |]; [| discriminate]. injection H as <- <-.
    apply counted_same; [reflexivity | reflexivity |]. eapply same_trans; [exact E1 | apply same_mk].
  - injection H as <- <-. apply same_refl.
Qed.

Lemma alpha_numeric_same : forall w l w' l', alpha_numeric w l = Some (w', l') -> same l l'.
Proof.
  intros w l w' l' H. unfold alpha_numeric in H. destruct (read_while is_alnum (before l) (after l) w) as [[w1 b] a].
  destruct (remove 1 _) as [l1 |] eqn:E; [| discriminate]. injection H as <- <-. apply remove_same in E.
  eapply same_trans; [apply same_mk | exact E].
Qed.

Lemma lex_word_counted : forall l t l', lex_word l = Some (t, l') -> counted_opt l t l'.
Proof.
  intros l t l' H. unfold lex_word in H. destruct (cur l =? 36).
  - destruct (check_advance 36 l) as [[|] l1] eqn:E1; apply check_advance_same in E1.
    + destruct (advance l1) as [l2 |] eqn:E2; [| discriminate]. apply advance_same in E2.
      destruct (alpha_numeric [36] l2) as [[w l3] |] eqn:E3; [| discriminate]. apply alpha_numeric_same in E3. injection H as <- <-.
      apply counted_same; [reflexivity | reflexivity |]. eapply same_trans; [exact E1 | eapply same_trans; eassumption].
    + destruct (advance l) as [l2 |] eqn:E2; [| discriminate]. apply advance_same in E2.
      destruct (alpha_numeric [36] l2) as [[w l3] |] eqn:E3; [| discriminate]. apply alpha_numeric_same in E3.
      assert (Hs : same l l3) by (eapply same_trans; eassumption).
      injection H as <- <-.
      destruct (word_eqb w [36; 102; 111; 116]); [| destruct (word_eqb w [36; 102; 111; 102]); [| destruct (word_eqb w [36; 116; 102; 102])]];
        (apply counted_same; [reflexivity | reflexivity | exact Hs]).
  - destruct (is_upper (cur l)); [| destruct (is_lower (cur l))].
    + destruct (alpha_numeric [] l) as [[w l3] |] eqn:E3; [| discriminate]. apply alpha_numeric_same in E3. injection H as <- <-.
      apply counted_same; [reflexivity | reflexivity | exact E3].
    + destruct (alpha_numeric [] l) as [[w l3] |] eqn:E3; [| discriminate]. apply alpha_numeric_same in E3. injection H as <- <-.
      apply counted_same; [reflexivity | reflexivity | exact E3].
    + injection H as <- <-. apply same_refl.
Qed.

(** numbers *)
Definition keeps (f : list Z -> lexer -> nres) : Prop := forall w l ok w' l', f w l = Some (ok, w', l') -> same l l'.

Lemma orelse_keeps : forall f g, keeps f -> keeps g -> keeps (fun w l => orelse (f w l) g).
Proof.
  intros f g Hf Hg w l ok w' l' H. unfold orelse in H. destruct (f w l) as [[[[|] w1] l1] |] eqn:E; [| | discriminate].
  - injection H as <- <- <-. exact (Hf _ _ _ _ _ E).
  - eapply same_trans; [exact (Hf _ _ _ _ _ E) | exact (Hg _ _ _ _ _ H)].
Qed.
Lemma digits_same : forall w l w' l', digits w l = Some (w', l') -> same l l'.
Proof.
  intros w l w' l' H. unfold digits in H. destruct (read_while is_digit (before l) (after l) w) as [[w1 b] a].
  destruct (remove 1 _) as [l1 |] eqn:E; [| discriminate]. injection H as <- <-. apply remove_same in E.
  eapply same_trans; [apply same_mk | exact E].
Qed.
Lemma positive_keeps : keeps positive_decimal.
Proof.
  intros w l ok w' l' H. unfold positive_decimal in H. destruct (is_non_zero (cur l)); [| injection H as <- <- <-; apply same_refl].
  destruct (digits w l) as [[w1 l1] |] eqn:E; [| discriminate]. injection H as <- <- <-. exact (digits_same _ _ _ _ E).
Qed.
Lemma decimal_keeps : keeps decimal.
Proof.
  intros w l ok w' l' H. unfold decimal in H. destruct (cur l =? 48); [injection H as <- <- <-; apply same_refl | exact (positive_keeps _ _ _ _ _ H)].
Qed.
Lemma dot_keeps : keeps dot_decimal.
Proof.
  intros w l ok w' l' H. unfold dot_decimal in H. destruct (negb (cur l =? 46)); [injection H as <- <- <-; apply same_refl |].
  destruct (advance l) as [l1 |] eqn:E1; [| discriminate]. apply advance_same in E1.
  destruct (negb (is_digit (cur l1))).
  - destruct (remove 2 l1) as [l2 |] eqn:E2; [| discriminate]. apply remove_same in E2. injection H as <- <- <-. eapply same_trans; eassumption.
  - destruct (digits (w ++ [46]) l1) as [[w1 l2] |] eqn:E2; [| discriminate]. apply digits_same in E2. injection H as <- <- <-. eapply same_trans; eassumption.
Qed.
Lemma fraction_keeps : keeps decimal_fraction.
Proof.
  intros w l ok w' l' H. unfold decimal_fraction in H.
  destruct (decimal w l) as [[[[|] w1] l1] |] eqn:E1; [| | discriminate]; apply decimal_keeps in E1; simpl negb in H; cbv iota in H.
  - destruct (advance l1) as [l2 |] eqn:E2; [| discriminate]. apply advance_same in E2.
    destruct (dot_decimal w1 l2) as [[[[|] w2] l3] |] eqn:E3; [| | discriminate]; apply dot_keeps in E3.
    + injection H as <- <- <-. eapply same_trans; [exact E1 | eapply same_trans; eassumption].
    + destruct (remove 1 l3) as [l4 |] eqn:E4; [| discriminate]. apply remove_same in E4.
      destruct (remove (length w2 - length w - 1) l4) as [l5 |] eqn:E5; [| discriminate]. apply remove_same in E5.
      injection H as <- <- <-. fin.
  - injection H as <- <- <-. exact E1.
Qed.
Lemma unsigned_exp_keeps : keeps unsigned_exp_integer.
Proof.
  intros w l ok w' l' H. unfold unsigned_exp_integer in H. destruct (is_digit (cur l)); [| injection H as <- <- <-; apply same_refl].
  destruct (digits w l) as [[w1 l1] |] eqn:E; [| discriminate]. injection H as <- <- <-. exact (digits_same _ _ _ _ E).
Qed.
Lemma exp_keeps : keeps exp_integer.
Proof.
  unfold exp_integer. apply orelse_keeps; [| exact unsigned_exp_keeps].
  intros w l ok w' l' H. unfold signed_exp_integer in H. destruct (is_sign (cur l)); [| injection H as <- <- <-; apply same_refl].
  destruct (advance l) as [l1 |] eqn:E1; [| discriminate]. apply advance_same in E1. apply unsigned_exp_keeps in H. eapply same_trans; eassumption.
Qed.
Lemma exponent_keeps : keeps decimal_exponent.
Proof.
  intros w l ok w' l' H. unfold decimal_exponent in H.
  destruct (orelse (decimal_fraction w l) decimal) as [[[[|] w1] l1] |] eqn:E1; [| | discriminate];
    apply (orelse_keeps _ _ fraction_keeps decimal_keeps) in E1; simpl negb in H; cbv iota in H.
  - destruct (advance l1) as [l2 |] eqn:E2; [| discriminate]. apply advance_same in E2.
    destruct (negb (is_exponent (cur l2))).
    + destruct (remove (length w1 - length w) l2) as [l3 |] eqn:E3; [| discriminate]. apply remove_same in E3. injection H as <- <- <-. fin.
    + destruct (advance l2) as [l3 |] eqn:E3; [| discriminate]. apply advance_same in E3. apply exp_keeps in H. fin.
  - injection H as <- <- <-. exact E1.
Qed.
Lemma real_keeps : keeps unsigned_real.
Proof. unfold unsigned_real. apply orelse_keeps; [exact exponent_keeps | exact fraction_keeps]. Qed.
Lemma rational_keeps : keeps unsigned_rational.
Proof.
  intros w l ok w' l' H. unfold unsigned_rational in H.
  destruct (decimal w l) as [[[[|] w1] l1] |] eqn:E1; [| | discriminate]; apply decimal_keeps in E1; simpl negb in H; cbv iota in H.
  - destruct (advance l1) as [l2 |] eqn:E2; [| discriminate]. apply advance_same in E2.
    destruct (negb (cur l2 =? 47)).
    + destruct (remove (length w1 - length w) l2) as [l3 |] eqn:E3; [| discriminate]. apply remove_same in E3. injection H as <- <- <-. fin.
    + destruct (advance l2) as [l3 |] eqn:E3; [| discriminate]. apply advance_same in E3. apply positive_keeps in H. fin.
  - injection H as <- <- <-. exact E1.
Qed.
Lemma number_of_keeps : forall f, keeps f -> keeps (number_of f).
Proof.
  intros f Hf. unfold number_of. apply orelse_keeps; [| exact Hf].
  intros w l ok w' l' H. unfold signed in H. destruct (negb (is_sign (cur l))); [injection H as <- <- <-; apply same_refl |].
  destruct (advance l) as [l1 |] eqn:E1; [| discriminate]. apply advance_same in E1.
  destruct (f (w ++ [cur l]) l1) as [[[[|] w1] l2] |] eqn:E2; [| | discriminate]; apply Hf in E2.
  - injection H as <- <- <-. eapply same_trans; eassumption.
  - destruct (remove 1 l2) as [l3 |] eqn:E3; [| discriminate]. apply remove_same in E3. injection H as <- <- <-. fin.
Qed.
Lemma lex_number_counted : forall l t l', lex_number l = Some (t, l') -> counted_opt l t l'.
Proof.
  intros l t l' H. unfold lex_number in H.
  destruct (number_of unsigned_real [] l) as [[[[|] w1] l1] |] eqn:E1; [| | discriminate]; apply (number_of_keeps _ real_keeps) in E1.
  - injection H as <- <-. apply counted_same; [reflexivity | reflexivity | exact E1].
  - destruct (number_of unsigned_rational w1 l1) as [[[[|] w2] l2] |] eqn:E2; [| | discriminate]; apply (number_of_keeps _ rational_keeps) in E2.
    + injection H as <- <-. apply counted_same; [reflexivity | reflexivity | eapply same_trans; eassumption].
    + destruct (number_of decimal w2 l2) as [[[[|] w3] l3] |] eqn:E3; [| | discriminate]; apply (number_of_keeps _ decimal_keeps) in E3;
        injection H as <- <-.
      * apply counted_same; [reflexivity | reflexivity | fin].
      * simpl. fin.
Qed.

Lemma lex_token_counted : forall l t l', lex_token l = Some (t, l') -> counted l t l'.
Proof.
  intros l t l' H. unfold lex_token in H.
  destruct (syntactic l) as [[[k |] l1] |] eqn:E1; [| | discriminate]; apply syntactic_counted in E1; [injection H as <- <-; exact E1 |].
  destruct (quoted_words l1) as [[[k |] l2] |] eqn:E2; [| | discriminate]; apply quoted_words_counted in E2;
    [injection H as <- <-; exact (same_counted _ _ _ _ E1 E2) |].
  assert (Hs2 : same l l2) by (eapply same_trans; eassumption).
  destruct (lex_word l2) as [[[k |] l3] |] eqn:E3; [| | discriminate]; apply lex_word_counted in E3;
    [injection H as <- <-; exact (same_counted _ _ _ _ Hs2 E3) |].
  assert (Hs3 : same l l3) by (eapply same_trans; eassumption).
  destruct (lex_number l3) as [[[k |] l4] |] eqn:E4; [| | discriminate]; apply lex_number_counted in E4;
    [injection H as <- <-; exact (same_counted _ _ _ _ Hs3 E4) |].
  assert (Hs4 : same l l4) by (eapply same_trans; eassumption). injection H as <- <-.
  apply counted_same; [| | exact Hs4]; unfold special;
    repeat match goal with |- context [if ?x then _ else _] => destruct x; try reflexivity end.
Qed.

Lemma lex_counted : forall l t l', lex l = Some (t, l') -> counted l t l'.
Proof.
  intros l t l' H. unfold lex in H. destruct (advance l) as [l1 |] eqn:E1; [| discriminate]. apply advance_same in E1.
  destruct (skip (S (length (after l1))) l1) as [[l2 |] |] eqn:E2; [| | discriminate].
  - apply skip_same in E2. apply lex_token_counted in H. apply (same_counted l l2); [eapply same_trans; eassumption | exact H].
  - injection H as <- <-. apply counted_same; [reflexivity | reflexivity | exact E1].
Qed.

Theorem lex_all_counted : forall n l ts l', lex_all n l = Some (ts, l') ->
  quantifiers l' = quantifiers l + total_count ts /\ has_eq l' = has_eq l || existsb is_equal ts.
Proof.
  induction n as [| n IH]; intros l ts l' H; [discriminate |]. rewrite lex_all_unfold in H.
  destruct (lex l) as [[t l1] |] eqn:E; [| discriminate]. apply lex_counted in E as [E1 E2].
  assert (Hc : t = EOF /\ Some ([], l1) = Some (ts, l') \/
               exists ts', lex_all n l1 = Some (ts', l') /\ ts = t :: ts').
  { destruct t; try (right; destruct (lex_all n l1) as [[ts' l2] |]; [| discriminate]; injection H as <- <-; eauto).
    left. split; [reflexivity | exact H]. }
  destruct Hc as [[-> Hc] | [ts' [Hc ->]]].
  - injection Hc as <- <-. simpl in *. rewrite orb_false_r in *. split; [lia | exact E2].
  - apply IH in Hc as [H1 H2]. simpl. split; [unfold total_count in *; simpl; lia | rewrite H2, E2, orb_assoc; reflexivity].
Qed.

Theorem lex_file_counted : forall s q e ts st, lex_file s q e = Some (ts, st) ->
  quantifiers st = q + total_count ts /\ (has_eq st = true <-> e = true \/ In EQUAL ts).
Proof.
  intros s q e ts st H. apply lex_all_counted in H as [H1 H2]. simpl in H1, H2. split; [exact H1 |].
  rewrite H2, orb_true_iff, existsb_exists. split; intros [He | He]; try (left; exact He); right.
  - destruct He as [t [Ht1 Ht2]]. destruct t; try discriminate. exact Ht1.
  - exists EQUAL. split; [exact He | reflexivity].
Qed.

(** Two files with the same lexemes. *)
Theorem comments_ignored : forall bl l bl' l' q e, file_ok bl l -> file_ok bl' l' -> map fst l = map fst l' ->
  exists ts st st', lex_file (file_text bl l) q e = Some (ts, st) /\ lex_file (file_text bl' l') q e = Some (ts, st') /\
    quantifiers st = quantifiers st' /\ has_eq st = has_eq st'.
Proof.
  intros bl l bl' l' q e H H' E.
  assert (Ht : forall l : list item, tokens l = map snd (map fst l)).
  { intros m. unfold tokens. rewrite map_map. apply map_ext. intros [[w t] b]. reflexivity. }
  destruct (lex_file_spec bl l q e H) as [st [H1 [H2 H3]]]. destruct (lex_file_spec bl' l' q e H') as [st' [H1' [H2' H3']]].
  assert (E' : tokens l' = tokens l) by (rewrite !Ht, E; reflexivity). rewrite E' in *.
  exists (tokens l), st, st'. repeat split; congruence.
Qed.
