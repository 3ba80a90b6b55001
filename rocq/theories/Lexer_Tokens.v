(** Every lexeme is read as its token. *)
From Coq Require Import ZArith List Bool Lia.
From Verif Require Import Lexer_Model Lexer_Spec Lexer_Proofs Lexer_Number.
Import ListNotations.
Open Scope Z_scope.

(** ** Keywords *)

(** not a letter: nothing is read *)
Lemma keyword_other : forall x b s q e, is_letter (hd 0 s) = false -> s <> [] -> hd 0 s <> 40 ->
  is_keyword (mk (x :: b) s q e) = Some (None, mk (x :: b) s q e).
Proof.
  intros x b s q e Hl Hs Hp. destruct s as [| c r]; [congruence |]. simpl hd in *. unfold is_keyword.
  unfold mk at 1 2. simpl before. simpl after.
  pose proof (read_while_spec is_letter [] c r (x :: b) [] (Forall_nil _) (or_introl Hl)) as H.
  simpl in H. simpl hd. simpl tl. rewrite H. cbv iota beta zeta.
  change (mkL (c :: x :: b) r (quantifiers (mk (x :: b) (c :: r) q e)) (has_eq (mk (x :: b) (c :: r) q e))) with (mk (x :: b) (c :: r) q e).
  rewrite remove_mk1 by discriminate.
  assert (Hk : check_next 40 (mk b (x :: c :: r) q e) = Some false)
    by (unfold check_next, mk; simpl; rewrite (proj2 (Z.eqb_neq c 40) Hp); reflexivity).
  rewrite Hk. reflexivity.
Qed.

Lemma letters_ok : forall w, Forall alphabetic w -> Forall (fun c => is_letter c = true /\ c < 128) w.
Proof. intros w H. eapply Forall_impl; [| exact H]. intros c Hc. split; zb. Qed.

(** a word: the letters are read, then the lexer goes back, unless they are a keyword before a parenthesis *)
Lemma keyword_letters : forall w y r b q e, w <> [] -> Forall alphabetic w -> is_letter y = false ->
  is_keyword (mk b (w ++ y :: r) q e) =
  match w with
  | [_] => Some (None, mk b (w ++ y :: r) q e)
  | _ => if y =? 40
         then match find_word keywords w with
              | Some t => Some (Some t, at_last b w (y :: r) q e)
              | None => Some (None, mk b (w ++ y :: r) q e)
              end
         else Some (None, mk b (w ++ y :: r) q e)
  end.
Proof.
  intros w y r b q e Hne Hw Hy. unfold is_keyword. unfold mk at 1 2. simpl before. simpl after.
  rewrite (read_while_spec is_letter w y r b [] (letters_ok w Hw) (or_introl Hy)). cbv iota beta zeta.
  change ([] ++ w) with w. simpl quantifiers. simpl has_eq.
  change (mkL (y :: rev w ++ b) r q e) with (mk (rev w ++ b) (y :: r) q e).
  destruct (cons_split w Hne) as [v [x Ew]].
  assert (Hrm : remove 1 (mk (rev w ++ b) (y :: r) q e) = Some (mk (rev v ++ b) (x :: y :: r) q e)).
  { rewrite Ew, rev_app_distr. simpl app. apply remove_mk1. discriminate. }
  rewrite Hrm.
  assert (Hback : forall c w', w = c :: w' -> remove (length w') (mk (rev v ++ b) (x :: y :: r) q e) = Some (mk b (w ++ y :: r) q e)).
  { intros c w' E. replace (length w') with (length v)
      by (apply (f_equal (@length Z)) in Ew; rewrite E, app_length in Ew; simpl in Ew; lia).
    rewrite Ew, <- app_assoc. apply (remove_mk v b (x :: y :: r)). discriminate. }
  destruct w as [| c w']; [congruence |].
  pose proof (Hback c w' eq_refl) as Hb.
  destruct w' as [| c2 w'].
  - destruct v as [| ? [| ? ?]]; try discriminate. simpl in Ew. injection Ew as ->. reflexivity.
  - unfold check_next. unfold mk at 1. simpl after. cbv iota.
    destruct (y =? 40) eqn:E40; simpl negb; cbv iota.
    + unfold failable. destruct (find_word keywords (c :: c2 :: w')).
      * assert (Hat : at_last b (c :: c2 :: w') (y :: r) q e = mk (rev v ++ b) (x :: y :: r) q e)
          by (rewrite Ew; apply at_last_mk).
        rewrite Hat. reflexivity.
      * rewrite Hb. reflexivity.
    + unfold remove_word. rewrite Hb. reflexivity.
Qed.

Lemma find_keyword : forall w t, find_word keywords w = Some t -> keyword w t.
Proof.
  intros w t. unfold keywords, find_word.
  repeat match goal with
         | |- (if word_eqb ?k w then _ else _) = _ -> _ =>
           let E := fresh "E" in destruct (word_eqb k w) eqn:E;
           [apply word_eqb_eq in E; subst w; intros H; injection H as <-; constructor |]
         end.
  discriminate.
Qed.
Lemma keyword_find : forall w t, keyword w t -> find_word keywords w = Some t.
Proof. intros w t []; reflexivity. Qed.

(** ** Signs *)

Definition count_of (t : token) : Z := match t with FORALL | EXISTS | FORALL_TYPE => 1 | _ => 0 end.
Definition is_equal (t : token) : bool := match t with EQUAL => true | _ => false end.

(** the state after a lexeme *)
Definition after_token (b w rest : list Z) (q : Z) (e : bool) (t : token) : lexer :=
  at_last b w rest (q + count_of t) (e || is_equal t).

Lemma check_advance_yes : forall c b s q e,
  check_advance c (mkL b (c :: s) q e) = (true, mkL (c :: b) s q e).
Proof. intros. unfold check_advance. simpl. rewrite Z.eqb_refl. reflexivity. Qed.
Lemma check_advance_no : forall c b s q e, ~ next_is c s -> check_advance c (mkL b s q e) = (false, mkL b s q e).
Proof.
  intros c b s q e H. unfold check_advance. simpl. destruct s as [| x s]; [reflexivity |].
  destruct (Z.eqb_spec x c) as [-> |]; [exfalso; apply H; reflexivity | reflexivity].
Qed.

(** the special characters are looked at when everything else failed *)
Lemma special_spec : forall c t x b rest q e,
  is_punctuation (mk (x :: b) (c :: rest) q e) = None ->
  is_operator (mk (x :: b) (c :: rest) q e) = Some (None, mk (x :: b) (c :: rest) q e) ->
  is_letter c = false -> c <> 40 -> c <> 36 -> c <> 33 -> c <> 61 -> c <> 39 -> c <> 34 -> c <> 43 -> c < 128 -> ~ numeric c ->
  (c = 45 -> ~ starts_digit rest) -> rest <> [] ->
  special (mk (x :: b) (c :: rest) q e) = t ->
  lex_token (mk (x :: b) (c :: rest) q e) = Some (t, at_last (x :: b) [c] rest q e).
Proof.
  intros c t x b rest q e Hp Ho Hl H40 H36 H33 H61 H39 H34 H43 H128 Hn H45 Hr Ht.
  unfold lex_token, syntactic. rewrite Hp, Ho. cbv iota.
  rewrite keyword_other; [| exact Hl | discriminate | exact H40]. cbv iota.
  unfold is_predicate. rewrite cur_mk. simpl hd.
  rewrite (proj2 (Z.eqb_neq c 36) H36), (proj2 (Z.eqb_neq c 33) H33), (proj2 (Z.eqb_neq c 61) H61).
  rewrite (utf8_ascii c H128). unfold failable, predicates. unfold find_word.
  replace (word_eqb [61] [c]) with false by (cbn [word_eqb]; destruct (Z.eqb_spec 61 c); [congruence | reflexivity]).
  replace (word_eqb [33; 61] [c]) with false by (cbn [word_eqb]; rewrite andb_false_r; reflexivity).
  replace (word_eqb [36; 116; 114; 117; 101] [c]) with false by (cbn [word_eqb]; rewrite andb_false_r; reflexivity).
  replace (word_eqb [36; 102; 97; 108; 115; 101] [c]) with false by (cbn [word_eqb]; rewrite andb_false_r; reflexivity).
  cbv iota. unfold quoted_words. rewrite cur_mk. simpl hd.
  rewrite (proj2 (Z.eqb_neq c 39) H39), (proj2 (Z.eqb_neq c 34) H34).
  unfold lex_word. rewrite cur_mk. simpl hd. rewrite (proj2 (Z.eqb_neq c 36) H36).
  replace (is_upper c) with false by (unfold is_letter in Hl; destruct (is_upper c); [discriminate | reflexivity]).
  replace (is_lower c) with false by (unfold is_letter in Hl; destruct (is_upper c), (is_lower c); try discriminate; reflexivity).
  rewrite lex_no_number.
  - rewrite Ht. reflexivity.
  - intros [d [r [E H]]]. injection E as -> ->. contradiction.
  - discriminate.
  - simpl hd. simpl tl. intros Hc. exists rest. split; [reflexivity |]. split; [exact Hr | exact (H45 Hc)].
  - exact H43.
Qed.

Lemma lex_sign : forall w t x b rest q e, sign w t -> follows w t rest -> rest <> [] ->
  lex_token (mk (x :: b) (w ++ rest) q e) = Some (t, after_token (x :: b) w rest q e t).
Proof.
  intros w t x b rest q e Hs Hf Hr.
  assert (Hq : forall q, q + 0 = q) by (intros; lia).
  destruct Hs; unfold after_token; simpl count_of; simpl is_equal; rewrite ?orb_false_r, ?Hq;
    try reflexivity.
  - (* ! *)
    destruct rest as [| c r]; [congruence |]. unfold follows, next_is in Hf. simpl in Hf. injection Hf as ->. reflexivity.
  - (* ? *)
    destruct rest as [| c r]; [congruence |]. unfold follows, next_is in Hf. simpl in Hf. injection Hf as ->. reflexivity.
  - (* ~ *)
    destruct Hf as [H1 H2]. unfold lex_token, syntactic, is_punctuation, is_operator, mk. cbn [cur before hd Z.eqb Pos.eqb app tl].
    rewrite check_advance_no by assumption. rewrite check_advance_no by assumption. reflexivity.
  - (* <= *)
    unfold lex_token, syntactic, is_punctuation, is_operator, mk. cbn [cur before hd Z.eqb Pos.eqb app tl].
    rewrite check_advance_yes. cbv iota. rewrite check_advance_no by assumption. reflexivity.
  - (* = *)
    unfold lex_token, syntactic, is_punctuation, is_operator, mk. cbn [cur before hd Z.eqb Pos.eqb app tl].
    rewrite check_advance_no by assumption. cbv iota. unfold failable. simpl find_word. cbv iota.
    change (mkL (61 :: x :: b) rest q e) with (mk (x :: b) (61 :: rest) q e).
    rewrite keyword_other; [| reflexivity | discriminate | simpl; lia]. cbn. unfold at_last. simpl.
    rewrite orb_true_r. reflexivity.
  - (* > *) apply special_spec; try reflexivity; try discriminate; try assumption; simpl; try lia. unfold numeric; lia.
  - (* < *) apply special_spec; try reflexivity; try discriminate; try assumption; simpl; try lia; [| unfold numeric; lia].
    destruct Hf as [H1 [H2 H3]]. unfold is_operator, mk. cbn [cur before hd Z.eqb Pos.eqb app tl].
    rewrite !check_advance_no by assumption. reflexivity.
  - (* # *) apply special_spec; try reflexivity; try discriminate; try assumption; simpl; try lia. unfold numeric; lia.
  - (* / *) apply special_spec; try reflexivity; try discriminate; try assumption; simpl; try lia. unfold numeric; lia.
  - (* \ *) apply special_spec; try reflexivity; try discriminate; try assumption; simpl; try lia. unfold numeric; lia.
  - (* - *) destruct Hf as [c [Hc Hn]].
    apply special_spec; try reflexivity; try discriminate; try assumption; simpl; try lia; [unfold numeric; lia |].
    intros _ [d [r [-> Hd]]]. simpl in Hc. injection Hc as ->. contradiction.
Qed.

(** ** The stages that are passed *)

Lemma punct_other : forall c b s q e, c <> 40 -> c <> 41 -> c <> 44 -> c <> 46 -> c <> 91 -> c <> 93 -> c <> 58 ->
  is_punctuation (mk b (c :: s) q e) = None.
Proof.
  intros. unfold is_punctuation. rewrite cur_mk. simpl hd.
  repeat match goal with |- context [?a =? ?b] => rewrite (proj2 (Z.eqb_neq a b)) by assumption end. reflexivity.
Qed.

Lemma op_other : forall c b s q e, c < 128 -> c <> 33 -> c <> 63 -> c <> 60 -> c <> 61 -> c <> 126 -> c <> 124 -> c <> 38 ->
  c <> 42 -> c <> 43 -> is_operator (mk b (c :: s) q e) = Some (None, mk b (c :: s) q e).
Proof.
  intros c b s q e H H1 H2 H3 H4 H5 H6 H7 H8 H9. unfold is_operator. rewrite cur_mk. simpl hd.
  rewrite (proj2 (Z.eqb_neq c 33) H1), (proj2 (Z.eqb_neq c 63) H2), (proj2 (Z.eqb_neq c 60) H3),
    (proj2 (Z.eqb_neq c 61) H4), (proj2 (Z.eqb_neq c 126) H5), (utf8_ascii c H).
  unfold failable.
  replace (find_word operators [c]) with (@None token); [reflexivity |]. symmetry.
  unfold operators, find_word.
  repeat match goal with
         | |- (if word_eqb ?k [c] then _ else _) = _ =>
           replace (word_eqb k [c]) with false
             by (cbn [word_eqb]; rewrite ?andb_false_r; try reflexivity;
                 match goal with |- _ = (?a =? c) && true => destruct (Z.eqb_spec a c); [congruence | reflexivity] end)
         end.
  reflexivity.
Qed.

Lemma predicate_other : forall c b s q e, c < 128 -> c <> 36 -> c <> 33 -> c <> 61 ->
  is_predicate (mk b (c :: s) q e) = Some (None, mk b (c :: s) q e).
Proof.
  intros c b s q e H128 H36 H33 H61. unfold is_predicate. rewrite cur_mk. simpl hd.
  rewrite (proj2 (Z.eqb_neq c 36) H36), (proj2 (Z.eqb_neq c 33) H33), (proj2 (Z.eqb_neq c 61) H61).
  rewrite (utf8_ascii c H128). unfold failable, predicates. unfold find_word.
  replace (word_eqb [61] [c]) with false by (cbn [word_eqb]; destruct (Z.eqb_spec 61 c); [congruence | reflexivity]).
  replace (word_eqb [33; 61] [c]) with false by (cbn [word_eqb]; rewrite andb_false_r; reflexivity).
  replace (word_eqb [36; 116; 114; 117; 101] [c]) with false by (cbn [word_eqb]; rewrite andb_false_r; reflexivity).
  replace (word_eqb [36; 102; 97; 108; 115; 101] [c]) with false by (cbn [word_eqb]; rewrite andb_false_r; reflexivity).
  reflexivity.
Qed.

Lemma quoted_other : forall c b s q e, c <> 39 -> c <> 34 -> quoted_words (mk b (c :: s) q e) = Some (None, mk b (c :: s) q e).
Proof.
  intros c b s q e H1 H2. unfold quoted_words. rewrite cur_mk. simpl hd.
  rewrite (proj2 (Z.eqb_neq c 39) H1), (proj2 (Z.eqb_neq c 34) H2). reflexivity.
Qed.

(** ** Quoted words *)

Lemma quoted_spec : forall p (plain : Z -> Prop) quote l b rest acc,
  (forall c, plain c -> p c = true /\ c <> 92 /\ c < 128) -> p quote = false -> (quote = 34 \/ quote = 39) ->
  Forall (qchar_ok plain quote) l ->
  quoted p quote (hd 0 (flat_map qchar_text l ++ quote :: rest) :: b) (tl (flat_map qchar_text l ++ quote :: rest)) acc
  = Some (acc ++ flat_map qchar_value l, quote :: rev (flat_map qchar_text l) ++ b, rest).
Proof.
  intros p plain quote l b rest acc Hp Hq Hquote Hl. revert b acc.
  assert (H92 : (quote =? 92) = false) by (apply Z.eqb_neq; lia).
  induction Hl as [| x l Hx Hl IH]; intros b acc.
  - simpl. rewrite app_nil_r. destruct rest; simpl; rewrite H92, Hq; reflexivity.
  - assert (Hne : exists y s, flat_map qchar_text l ++ quote :: rest = y :: s).
    { destruct (flat_map qchar_text l); eexists _, _; reflexivity. }
    destruct Hne as [y [s Hy]]. rewrite Hy in IH. simpl in IH.
    destruct x as [c | c]; simpl in Hx; simpl flat_map; simpl app; rewrite Hy; simpl hd; simpl tl.
    + destruct (Hp c Hx) as [H1 [H2 H3]]. cbn [quoted hd]. rewrite (proj2 (Z.eqb_neq c 92) H2), H1, (utf8_ascii c H3).
      rewrite IH. rewrite <- !app_assoc. reflexivity.
    + cbn [quoted hd]. simpl (92 =? 92). cbv iota.
      assert (Hv : (if (c =? 92) || (c =? quote) then acc ++ utf8 (92 + c) else acc) = acc ++ qchar_value (Escaped c)).
      { simpl. destruct Hx as [-> | ->]; [reflexivity |].
        rewrite Z.eqb_refl, orb_true_r. destruct Hquote as [-> | ->]; reflexivity. }
      rewrite Hv, IH. rewrite <- !app_assoc. reflexivity.
Qed.

Lemma sq_plain_ok : forall c, sq_plain c -> is_sq_char c = true /\ c <> 92 /\ c < 128.
Proof. intros c H. repeat split; zb. Qed.
Lemma do_plain_ok : forall c, do_plain c -> is_do_char c = true /\ c <> 92 /\ c < 128.
Proof. intros c H. repeat split; zb. Qed.

Lemma lex_quoted : forall (single : bool) l x b rest q e,
  Forall (if single then qchar_ok sq_plain 39 else qchar_ok do_plain 34) l ->
  let quote := if single then 39 else 34 in
  let w := quote :: flat_map qchar_text l ++ [quote] in
  lex_token (mk (x :: b) (w ++ rest) q e)
  = Some ((if single then SINGLE_QUOTED else DISTINCT_OBJECT) (flat_map qchar_value l), at_last (x :: b) w rest q e).
Proof.
  intros single l x b rest q e Hl quote w. subst w.
  assert (Hquote : quote = 39 \/ quote = 34) by (subst quote; destruct single; tauto).
  assert (E : (quote :: flat_map qchar_text l ++ [quote]) ++ rest = quote :: flat_map qchar_text l ++ quote :: rest)
    by (simpl; rewrite <- app_assoc; reflexivity).
  rewrite E. clear E. unfold lex_token, syntactic.
  rewrite punct_other by lia. rewrite op_other by lia. cbv iota.
  rewrite keyword_other; [| destruct Hquote as [E | E]; rewrite E; reflexivity | discriminate | simpl hd; lia]. cbv iota.
  rewrite predicate_other by lia. cbv iota.
  assert (Hne : exists y s, flat_map qchar_text l ++ quote :: rest = y :: s).
  { destruct (flat_map qchar_text l); eexists _, _; reflexivity. }
  destruct Hne as [y [s Hy]].
  assert (Hat : forall ws, mkL (quote :: rev ws ++ quote :: x :: b) rest q e = at_last (x :: b) (quote :: ws ++ [quote]) rest q e).
  { intros ws. unfold at_last. simpl. rewrite rev_app_distr. simpl. rewrite <- app_assoc. reflexivity. }
  unfold quoted_words. rewrite cur_mk. simpl hd.
  destruct single; subst quote; cbn [Z.eqb Pos.eqb].
  - rewrite Hy, advance_mk, <- Hy. unfold mk. cbn [before after quantifiers has_eq].
    rewrite (quoted_spec is_sq_char sq_plain 39 l (39 :: x :: b) rest [] sq_plain_ok eq_refl (or_intror eq_refl) Hl).
    rewrite Hat. reflexivity.
  - rewrite Hy, advance_mk, <- Hy. unfold mk. cbn [before after quantifiers has_eq].
    rewrite (quoted_spec is_do_char do_plain 34 l (34 :: x :: b) rest [] do_plain_ok eq_refl (or_introl eq_refl) Hl).
    rewrite Hat. reflexivity.
Qed.

(** ** Words *)

Lemma alpha_numeric_spec : forall w acc b rest q e, w <> [] -> Forall alpha_num w -> word_ends rest ->
  alpha_numeric acc (mk b (w ++ rest) q e) = Some (acc ++ w, at_last b w rest q e).
Proof.
  intros w acc b rest q e Hne Hw [y [Hy [Hy1 Hy2]]]. destruct rest as [| y' r]; [discriminate |]. injection Hy as ->.
  unfold alpha_numeric. unfold mk at 1 2. simpl before. simpl after.
  rewrite (read_while_spec is_alnum w y r b acc).
  - cbv iota beta. simpl quantifiers. simpl has_eq.
    destruct (cons_split w Hne) as [v [x ->]].
    pose proof (remove_mk1 x (rev v ++ b) (y :: r) q e ltac:(discriminate)) as Hrm.
    unfold mk at 1 in Hrm. simpl hd in Hrm. simpl tl in Hrm. rewrite rev_app_distr. simpl app.
    rewrite Hrm, at_last_mk. reflexivity.
  - eapply Forall_impl; [| exact Hw]. intros c Hc. destruct (alnum_alpha_num c Hc). split; [assumption | lia].
  - left. apply not_alpha_num; assumption.
Qed.

Lemma split_letters : forall w rest, Forall alpha_num w -> word_ends rest ->
  exists ls u y r, w ++ rest = ls ++ y :: r /\ w = ls ++ u /\ Forall alphabetic ls /\ is_letter y = false /\ 0 <= y < 128 /\
    (y = 40 -> u = []) /\ (u = [] -> y :: r = rest) /\
    (forall c u', u = c :: u' -> ~ alphabetic c) /\ y :: r = u ++ rest.
Proof.
  intros w rest Hw Hr. induction Hw as [| c w Hc Hw IH].
  - destruct Hr as [y [Hy [Hy1 Hy2]]]. destruct rest as [| y' r]; [discriminate |]. injection Hy as ->.
    exists [], [], y, r. repeat split; try assumption; try lia; try constructor; try reflexivity; try discriminate.
    assert (Hn : ~ alphabetic y) by (intros H; apply Hy2; left; exact H).
    destruct (is_letter y) eqn:E; [| reflexivity]. exfalso. apply Hn. apply letter_alphabetic; assumption.
  - destruct (alnum_alpha_num c Hc) as [_ Hc'].
    destruct (is_letter c) eqn:E.
    + destruct IH as [ls [u [y [r [H1 [H2 [H3 [H4 [H5 [H6 [H7 [H8 H9]]]]]]]]]]]].
      exists (c :: ls), u, y, r. repeat split; try assumption; try (apply H5); simpl.
      * rewrite H1. reflexivity.
      * rewrite H2. reflexivity.
      * constructor; [apply letter_alphabetic; assumption | exact H3].
    + exists [], (c :: w), c, (w ++ rest). repeat split; try assumption; try constructor; try lia; try discriminate.
      * intros ->. exfalso. zb.
      * intros c' u' Eu Hal. injection Eu as <- <-. rewrite (proj2 (letter_alphabetic c Hc') Hal) in E. discriminate.
Qed.

Lemma word_stages : forall c w b rest q e, alphabetic c -> Forall alpha_num w -> word_ends rest ->
  ~ ((exists k, keyword (c :: w) k) /\ next_is 40 rest) ->
  syntactic (mk b ((c :: w) ++ rest) q e) = Some (None, mk b ((c :: w) ++ rest) q e).
Proof.
  intros c w b rest q e Hc Hw Hr Hk. unfold syntactic. simpl app.
  rewrite punct_other by zb. rewrite op_other by zb. cbv iota.
  destruct (split_letters (c :: w) rest) as [ls [u [y [r [H1 [H2 [H3 [H4 [H5 [H6 [H7 [H8 _]]]]]]]]]]]];
    [constructor; [left; exact Hc | exact Hw] | exact Hr |].
  simpl app in H1. rewrite H1.
  assert (Hne : ls <> []).
  { intros ->. simpl in H2. subst u. exact (H8 c w eq_refl Hc). }
  assert (Hkw : is_keyword (mk b (ls ++ y :: r) q e) = Some (None, mk b (ls ++ y :: r) q e)).
  { rewrite (keyword_letters ls y r b q e Hne H3 H4). destruct ls as [| a [| a2 ls]]; [congruence | reflexivity |].
    destruct (Z.eqb_spec y 40) as [-> |]; [| reflexivity].
    destruct (find_word keywords (a :: a2 :: ls)) as [t |] eqn:E; [| reflexivity]. exfalso. apply Hk.
    specialize (H6 eq_refl). subst u. rewrite app_nil_r in H2. rewrite H2. split; [exists t; apply find_keyword; exact E |].
    rewrite <- (H7 eq_refl). reflexivity. }
  rewrite Hkw. cbv iota. rewrite <- H1. apply predicate_other; zb.
Qed.

Lemma lex_upper : forall c w b rest q e, upper_alpha c -> Forall alpha_num w -> word_ends rest ->
  ~ ((exists k, keyword (c :: w) k) /\ next_is 40 rest) ->
  lex_token (mk b ((c :: w) ++ rest) q e) = Some (UPPER_WORD (c :: w), at_last b (c :: w) rest q e).
Proof.
  intros c w b rest q e Hc Hw Hr Hk. unfold lex_token. rewrite word_stages; [| left; exact Hc | assumption | assumption | assumption].
  cbv iota. simpl app. rewrite quoted_other by zb. cbv iota. unfold lex_word. rewrite cur_mk. simpl hd.
  rewrite (proj2 (Z.eqb_neq c 36)) by zb. replace (is_upper c) with true by zb.
  change (c :: w ++ rest) with ((c :: w) ++ rest).
  rewrite (alpha_numeric_spec (c :: w) [] b rest q e); [reflexivity | discriminate | | exact Hr].
  constructor; [left; left; exact Hc | exact Hw].
Qed.
Lemma lex_lower : forall c w b rest q e, lower_alpha c -> Forall alpha_num w -> word_ends rest ->
  ~ ((exists k, keyword (c :: w) k) /\ next_is 40 rest) ->
  lex_token (mk b ((c :: w) ++ rest) q e) = Some (LOWER_WORD (c :: w), at_last b (c :: w) rest q e).
Proof.
  intros c w b rest q e Hc Hw Hr Hk. unfold lex_token. rewrite word_stages; [| right; exact Hc | assumption | assumption | assumption].
  cbv iota. simpl app. rewrite quoted_other by zb. cbv iota. unfold lex_word. rewrite cur_mk. simpl hd.
  rewrite (proj2 (Z.eqb_neq c 36)) by zb. replace (is_upper c) with false by zb. replace (is_lower c) with true by zb.
  change (c :: w ++ rest) with ((c :: w) ++ rest).
  rewrite (alpha_numeric_spec (c :: w) [] b rest q e); [reflexivity | discriminate | | exact Hr].
  constructor; [left; right; exact Hc | exact Hw].
Qed.

Ltac fz := repeat first [apply Forall_nil | apply Forall_cons]; zb.

Lemma lex_key : forall w t b rest q e, keyword w t -> next_is 40 rest ->
  lex_token (mk b (w ++ rest) q e) = Some (t, at_last b w rest q e).
Proof.
  intros w t b rest q e Hk Hn. destruct rest as [| y r]; [discriminate |]. injection Hn as ->.
  assert (Hw : Forall alphabetic w) by (destruct Hk; fz).
  assert (Hne : w <> []) by (destruct Hk; discriminate).
  pose proof (keyword_letters w 40 r b q e Hne Hw eq_refl) as H.
  unfold lex_token, syntactic.
  assert (Hp : is_punctuation (mk b (w ++ 40 :: r) q e) = None) by (destruct Hk; reflexivity).
  assert (Ho : is_operator (mk b (w ++ 40 :: r) q e) = Some (None, mk b (w ++ 40 :: r) q e)) by (destruct Hk; reflexivity).
  rewrite Hp, Ho, H. destruct Hk; reflexivity.
Qed.

(** ** Words with a dollar *)

Lemma dollar_spec : forall ls y r b acc, Forall alphabetic ls -> is_letter y = false ->
  dollar b (ls ++ y :: r) acc = (acc ++ ls, rev ls ++ b, y :: r).
Proof.
  induction ls as [| c ls IH]; intros y r b acc Hl Hy; simpl app.
  - simpl. rewrite Hy, app_nil_r. destruct r; reflexivity.
  - inversion Hl as [| ? ? Hc Hl']; subst.
    assert (E : dollar b (c :: ls ++ y :: r) acc = dollar (c :: b) (ls ++ y :: r) (acc ++ [c])).
    { simpl. replace (is_letter c) with true by zb. rewrite utf8_ascii by zb. destruct ls; reflexivity. }
    rewrite E, (IH y r (c :: b) (acc ++ [c]) Hl' Hy). rewrite <- !app_assoc. simpl. rewrite <- ?app_assoc. reflexivity.
Qed.

Lemma undo_last : forall b c w rest q e, rest <> [] ->
  remove (length w) (at_last b (c :: w) rest q e) = Some (mk b (c :: w ++ rest) q e).
Proof.
  intros b c w rest q e Hr. destruct w as [| d w] using rev_ind.
  - unfold at_last, mk. destruct rest; reflexivity.
  - clear IHw. change (c :: w ++ [d]) with ((c :: w) ++ [d]). rewrite at_last_mk.
    replace (length (w ++ [d])) with (length (c :: w)) by (rewrite app_length; simpl; lia).
    rewrite remove_mk by discriminate. simpl. rewrite <- app_assoc. reflexivity.
Qed.

Lemma find_predicate : forall w, find_word predicates (36 :: w) = Some TRUE /\ w = w_true \/
  find_word predicates (36 :: w) = Some FALSE /\ w = w_false \/ find_word predicates (36 :: w) = None.
Proof.
  intros w. unfold predicates, find_word.
  replace (word_eqb [61] (36 :: w)) with false by reflexivity.
  replace (word_eqb [33; 61] (36 :: w)) with false by reflexivity.
  destruct (word_eqb [36; 116; 114; 117; 101] (36 :: w)) eqn:E1.
  - left. apply word_eqb_eq in E1. injection E1 as <-. split; reflexivity.
  - right. destruct (word_eqb [36; 102; 97; 108; 115; 101] (36 :: w)) eqn:E2.
    + left. apply word_eqb_eq in E2. injection E2 as <-. split; reflexivity.
    + right. reflexivity.
Qed.

(** the beginning of a dollar word, up to isPredicate *)
Lemma dollar_stages : forall c w x b rest q e, Forall alpha_num (c :: w) -> word_ends rest ->
  exists ls u y r, w ++ rest = ls ++ y :: r /\ w = ls ++ u /\ y :: r = u ++ rest /\
    (forall d u', u = d :: u' -> ~ alphabetic d) /\
    syntactic (mk (x :: b) (36 :: (c :: w) ++ rest) q e) =
    match find_word predicates (36 :: c :: ls) with
    | Some t => Some (Some t, at_last (x :: b) (36 :: c :: ls) (y :: r) q e)
    | None => Some (None, mk (x :: b) (36 :: (c :: w) ++ rest) q e)
    end.
Proof.
  intros c w x b rest q e Hw Hr. inversion Hw as [| ? ? Hc Hw']; subst.
  destruct (split_letters w rest Hw' Hr) as [ls [u [y [r [H1 [H2 [H3 [H4 [H5 [H6 [H7 [H8 H9]]]]]]]]]]]].
  exists ls, u, y, r. repeat split; try assumption.
  unfold syntactic. rewrite punct_other by lia. rewrite op_other by lia. cbv iota.
  rewrite keyword_other; [| reflexivity | discriminate | simpl; lia]. cbv iota.
  unfold is_predicate. rewrite cur_mk. simpl hd. simpl (36 =? 36). cbv iota.
  simpl app. rewrite advance_mk. rewrite H1. unfold mk at 1 2. cbn [before after hd tl].
  rewrite (dollar_spec ls y r (c :: 36 :: x :: b) (36 :: utf8 (cur (mk (36 :: x :: b) (c :: ls ++ y :: r) q e))) H3 H4).
  rewrite cur_mk. simpl hd. rewrite utf8_ascii by (destruct (alnum_alpha_num c Hc); lia).
  cbv iota beta. simpl quantifiers. simpl has_eq.
  replace (mkL (rev ls ++ c :: 36 :: x :: b) (y :: r) q e) with (at_last (x :: b) (36 :: c :: ls) (y :: r) q e)
    by (unfold at_last; simpl; rewrite <- !app_assoc; reflexivity).
  change ((36 :: [c]) ++ ls) with (36 :: c :: ls). unfold failable.
  destruct (find_word predicates (36 :: c :: ls)); [reflexivity |].
  rewrite undo_last by discriminate. reflexivity.
Qed.

Lemma lex_dollar : forall w x b rest q e, w <> [] -> Forall alpha_num w -> word_ends rest ->
  (forall r, 36 :: w = 36 :: w_true ++ r \/ 36 :: w = 36 :: w_false ++ r -> exists c r', r = c :: r' /\ alphabetic c) ->
  lex_token (mk (x :: b) (36 :: w ++ rest) q e)
  = Some (if word_eqb (36 :: w) [36; 102; 111; 116] then DOLLAR_FOT
          else if word_eqb (36 :: w) [36; 102; 111; 102] then DOLLAR_FOF
          else if word_eqb (36 :: w) [36; 116; 102; 102] then DOLLAR_TFF else DOLLAR_WORD (36 :: w),
          at_last (x :: b) (36 :: w) rest q e).
Proof.
  intros w x b rest q e Hne Hw Hr Hb. destruct w as [| c w]; [congruence |].
  destruct (dollar_stages c w x b rest q e Hw Hr) as [ls [u [y [r [H1 [H2 [H3 [H4 H5]]]]]]]].
  assert (Hnone : find_word predicates (36 :: c :: ls) = None).
  { destruct (find_predicate (c :: ls)) as [[_ E] | [[_ E] | E]]; [exfalso | exfalso | exact E].
    - destruct (Hb u) as [d [u' [-> Hd]]]; [left; rewrite <- E, H2; reflexivity | exact (H4 d u' eq_refl Hd)].
    - destruct (Hb u) as [d [u' [-> Hd]]]; [right; rewrite <- E, H2; reflexivity | exact (H4 d u' eq_refl Hd)]. }
  rewrite Hnone in H5. unfold lex_token. rewrite H5. cbv iota.
  rewrite quoted_other by lia. cbv iota. unfold lex_word. rewrite cur_mk. simpl hd. simpl (36 =? 36). cbv iota.
  inversion Hw as [| ? ? Hc Hw']; subst.
  unfold mk at 1. cbn [hd tl].
  rewrite check_advance_no.
  2:{ unfold next_is. simpl. intros E. injection E as ->. zb. }
  cbv iota. simpl app. rewrite advance_mk.
  change (c :: (ls ++ u) ++ rest) with ((c :: ls ++ u) ++ rest).
  rewrite (alpha_numeric_spec (c :: ls ++ u) [36] (36 :: x :: b) rest q e Hne Hw Hr). cbv iota beta.
  change ([36] ++ c :: ls ++ u) with (36 :: c :: ls ++ u).
  replace (at_last (36 :: x :: b) (c :: ls ++ u) rest q e) with (at_last (x :: b) (36 :: c :: ls ++ u) rest q e)
    by (unfold at_last; simpl; rewrite <- !app_assoc; reflexivity).
  reflexivity.
Qed.

Lemma lex_truth : forall (v : bool) x b rest q e, word_ends rest ->
  let w := if v then w_true else w_false in
  lex_token (mk (x :: b) (36 :: w ++ rest) q e) = Some (if v then TRUE else FALSE, at_last (x :: b) (36 :: w) rest q e).
Proof.
  intros v x b rest q e Hr w.
  assert (Hw : exists c w', w = c :: w' /\ Forall alpha_num (c :: w') /\ Forall alphabetic w').
  { subst w. destruct v; eexists _, _; (split; [reflexivity |]); split; fz. }
  destruct Hw as [c [w' [Ew [Hw Hw']]]]. rewrite Ew.
  destruct (dollar_stages c w' x b rest q e Hw Hr) as [ls [u [y [r [H1 [H2 [H3 [H4 H5]]]]]]]].
  assert (Hu : u = []).
  { destruct u as [| d u]; [reflexivity |]. exfalso. apply (H4 d u eq_refl). rewrite H2 in Hw'.
    apply Forall_app in Hw' as [_ Hw']. inversion Hw'; assumption. }
  subst u. rewrite app_nil_r in H2. subst ls. simpl app in H3. rewrite H3 in H5.
  unfold lex_token. rewrite H5. rewrite <- Ew. destruct v; reflexivity.
Qed.

(** ** Numbers *)

Lemma lex_numbers : forall w x b rest q e r, (exists c s, w = c :: s /\ (numeric c \/ c = 45)) ->
  lex_number (mk (x :: b) (w ++ rest) q e) = Some (Some r, at_last (x :: b) w rest q e) ->
  lex_token (mk (x :: b) (w ++ rest) q e) = Some (r, at_last (x :: b) w rest q e).
Proof.
  intros w x b rest q e r [c [s [-> Hc]]] H. unfold lex_token, syntactic. simpl app in *.
  assert (Hc' : 45 = c \/ 48 <= c <= 57) by (unfold numeric in Hc; lia).
  rewrite punct_other by lia. rewrite op_other by lia. cbv iota.
  rewrite keyword_other; [| simpl hd; zb | discriminate | simpl hd; lia]. cbv iota.
  rewrite predicate_other by lia. cbv iota. rewrite quoted_other by lia. cbv iota.
  unfold lex_word. rewrite cur_mk. simpl hd. rewrite (proj2 (Z.eqb_neq c 36)) by lia.
  replace (is_upper c) with false by zb. replace (is_lower c) with false by zb. cbv iota. rewrite H. reflexivity.
Qed.

(** ** All together *)

Lemma decimal_first : forall d, decimal_text d -> exists c s, d = c :: s /\ numeric c.
Proof. intros d [-> | [x [ds [-> [H _]]]]]; eexists _, _; (split; [reflexivity |]); unfold numeric; lia. Qed.
Lemma signed_first : forall (p : list Z -> Prop) w, (forall v, p v -> exists c s, v = c :: s /\ numeric c) -> with_sign p w ->
  exists c s, w = c :: s /\ (numeric c \/ c = 45).
Proof.
  intros p w H [Hw | [v [-> Hv]]].
  - destruct (H w Hw) as [c [s [-> Hc]]]. exists c, s. tauto.
  - exists 45, v. tauto.
Qed.
Lemma real_first : forall w, unsigned_real_text w -> exists c s, w = c :: s /\ numeric c.
Proof.
  intros w [d [f [x [-> [Hd _]]]]]. destruct (decimal_first d Hd) as [c [s [-> Hc]]]. eexists _, _. split; [reflexivity | exact Hc].
Qed.
Lemma rational_first : forall w, unsigned_rational_text w -> exists c s, w = c :: s /\ numeric c.
Proof.
  intros w [d [f [-> [Hd _]]]]. destruct (decimal_first d Hd) as [c [s [-> Hc]]]. eexists _, _. split; [reflexivity | exact Hc].
Qed.

Theorem lex_lexeme : forall w t b rest q e, lexeme w t -> follows w t rest -> rest <> [] -> (b <> [] \/ keyword w t) ->
  lex_token (mk b (w ++ rest) q e) = Some (t, after_token b w rest q e t).
Proof.
  intros w t b rest q e Hl Hf Hr Hb.
  assert (H0 : count_of t = 0 -> is_equal t = false -> after_token b w rest q e t = at_last b w rest q e).
  { intros H1 H2. unfold after_token. rewrite H1, H2, orb_false_r, Z.add_0_r. reflexivity. }
  assert (Hkw : forall k, keyword w k -> t = k -> lex_token (mk b (w ++ rest) q e) = Some (t, after_token b w rest q e t)).
  { intros k Hk ->. rewrite H0 by (destruct Hk; reflexivity). apply lex_key; [exact Hk |]. destruct Hk; exact Hf. }
  destruct Hl.
  { apply (Hkw t H eq_refl). }
  all: (destruct b as [| x b]; [destruct Hb as [Hb | Hb]; [congruence | exact (Hkw _ Hb eq_refl)] |]); clear Hkw.
  - apply lex_sign; assumption.
  - rewrite H0 by reflexivity. exact (lex_truth true x b rest q e Hf).
  - rewrite H0 by reflexivity. exact (lex_truth false x b rest q e Hf).
  - rewrite H0 by reflexivity. exact (lex_quoted true l x b rest q e H).
  - rewrite H0 by reflexivity. exact (lex_quoted false l x b rest q e H).
  - rewrite H0 by reflexivity. destruct Hf. apply lex_upper; assumption.
  - rewrite H0 by reflexivity. destruct Hf. apply lex_lower; assumption.
  - rewrite H0 by reflexivity. destruct Hf as [Hf1 Hf2].
    simpl app. rewrite (lex_dollar w x b rest q e H H1 Hf1 Hf2).
    replace (word_eqb (36 :: w) [36; 102; 111; 116]) with false; [replace (word_eqb (36 :: w) [36; 102; 111; 102]) with false; [replace (word_eqb (36 :: w) [36; 116; 102; 102]) with false; [reflexivity |] |] |];
      symmetry; apply not_true_is_false; intros E; apply word_eqb_eq in E; injection E as ->; apply H2; simpl; tauto.
  - rewrite H0 by reflexivity.
    apply (lex_dollar [102; 111; 116] x b rest q e); [discriminate | fz | exact Hf |].
    intros r [E | E]; discriminate.
  - rewrite H0 by reflexivity.
    apply (lex_dollar [102; 111; 102] x b rest q e); [discriminate | fz | exact Hf |].
    intros r [E | E]; discriminate.
  - rewrite H0 by reflexivity.
    apply (lex_dollar [116; 102; 102] x b rest q e); [discriminate | fz | exact Hf |].
    intros r [E | E]; discriminate.
  - rewrite H0 by reflexivity. apply lex_numbers; [exact (signed_first _ w real_first H) |]. apply lex_real; assumption.
  - rewrite H0 by reflexivity. apply lex_numbers; [exact (signed_first _ w rational_first H) |]. apply lex_rational; assumption.
  - rewrite H0 by reflexivity. apply lex_numbers; [exact (signed_first _ w decimal_first H) |]. apply lex_integer; assumption.
Qed.
