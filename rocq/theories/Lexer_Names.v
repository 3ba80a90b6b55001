(** The names of constants: the symbol that the parser takes from the token of a constant
    (src/Parser/tptp_parse.y), against the object that the text of the constant stands for in TPTP. *)
From Coq Require Import ZArith List Bool Lia.
From Verif Require Import Lexer_Model Lexer_Spec.
Import ListNotations.
Open Scope Z_scope.

(** ** The code: tptp_parse.y:484-503 (constant, defined_constant, defined_term), 564-574 (atomic_word,
    atomic_defined_word, number), psyntax.go:206-212: the symbol of the constant is the string of the
    token.  (A number also carries its type, which elaboration does not put in the identifier:
    syntax-translation.go:356-357.) *)
Definition constant_symbol (t : token) : option (list Z) :=
  match t with
  | LOWER_WORD w | SINGLE_QUOTED w | DISTINCT_OBJECT w | DOLLAR_WORD w | INTEGER w | RATIONAL w | REAL w => Some w
  | _ => None
  end.

(** ** The specification: what a constant stands for.  Quotes that are not needed do not count; a distinct
    object, a number and a word of TPTP are never the same thing as an atomic word. *)
Inductive object : Type :=
| OAtom (name : list Z)
| OObject (name : list Z)
| ONumber (text : list Z)
| ODefined (name : list Z).

Definition qchar_char (q : qchar) : Z := match q with Plain c => c | Escaped c => c end.

Inductive stands_for : list Z -> object -> Prop :=
| sf_lower c w : lower_alpha c -> Forall alpha_num w -> stands_for (c :: w) (OAtom (c :: w))
| sf_single l : Forall (qchar_ok sq_plain 39) l ->
    stands_for (39 :: flat_map qchar_text l ++ [39]) (OAtom (map qchar_char l))
| sf_distinct l : Forall (qchar_ok do_plain 34) l ->
    stands_for (34 :: flat_map qchar_text l ++ [34]) (OObject (map qchar_char l))
| sf_number w : with_sign unsigned_real_text w \/ with_sign unsigned_rational_text w \/ with_sign decimal_text w ->
    stands_for w (ONumber w)
| sf_defined w : w <> [] -> Forall alpha_num w -> ~ In w reserved -> stands_for (36 :: w) (ODefined (36 :: w)).

(** ** Proofs *)

Lemma plain_value : forall l l', 
  Forall (qchar_ok sq_plain 39) l -> Forall (qchar_ok sq_plain 39) l' ->
  flat_map qchar_value l = flat_map qchar_value l' -> l = l'.
Proof.
  unfold sq_plain, ascii_printable.
  induction l as [| q l IH]; intros [| q' l'] H H' E; [reflexivity | | |].
  - destruct q' as [c | c]; simpl in E; [discriminate | destruct (c =? 34); discriminate].
  - destruct q as [c | c]; simpl in E; [discriminate | destruct (c =? 34); discriminate].
  - inversion_clear H as [| ? ? H1 H2]. inversion_clear H' as [| ? ? H3 H4]. cbn [flat_map qchar_value app] in E.
    destruct q as [c | c], q' as [d | d]; simpl in H1, H3; cbn [flat_map qchar_value app] in E.
    + injection E as -> E. f_equal. apply IH; assumption.
    + destruct (Z.eqb_spec d 34); [lia |]. cbn [app] in E; injection E as E1 E. lia.
    + destruct (Z.eqb_spec c 34); [lia |]. cbn [app] in E; injection E as E1 E. lia.
    + destruct (Z.eqb_spec d 34); [lia |]. destruct (Z.eqb_spec c 34); [lia |]. cbn [app] in E. assert (E1 : 92 + c = 92 + d) by congruence.
      assert (E2 : flat_map qchar_value l = flat_map qchar_value l') by congruence. assert (c = d) by lia. subst d. f_equal. apply IH; assumption.
Qed.

(** no escaped double quote *)
Definition no_escaped_quote (l : list qchar) : Prop := ~ In (Escaped 34) l.

Lemma object_value : forall l l',
  Forall (qchar_ok do_plain 34) l -> Forall (qchar_ok do_plain 34) l' -> no_escaped_quote l -> no_escaped_quote l' ->
  flat_map qchar_value l = flat_map qchar_value l' -> l = l'.
Proof.
  unfold do_plain, ascii_printable, no_escaped_quote.
  induction l as [| q l IH]; intros [| q' l'] H H' N N' E; [reflexivity | | |].
  - destruct q' as [c | c]; simpl in E; [discriminate | destruct (c =? 34); discriminate].
  - destruct q as [c | c]; simpl in E; [discriminate | destruct (c =? 34); discriminate].
  - inversion_clear H as [| ? ? H1 H2]. inversion_clear H' as [| ? ? H3 H4]. cbn [flat_map qchar_value app] in E; simpl in N, N'.
    assert (IH' : flat_map qchar_value l = flat_map qchar_value l' -> l = l') by (intros E'; apply IH; tauto).
    destruct q as [c | c], q' as [d | d]; simpl in H1, H3; cbn [flat_map qchar_value app] in E.
    + injection E as -> E. f_equal. apply IH'; assumption.
    + destruct (Z.eqb_spec d 34); [exfalso; apply N'; left; congruence |]. cbn [app] in E; injection E as E1 E. lia.
    + destruct (Z.eqb_spec c 34); [exfalso; apply N; left; congruence |]. cbn [app] in E; injection E as E1 E. lia.
    + destruct (Z.eqb_spec d 34); [exfalso; apply N'; left; congruence |].
      destruct (Z.eqb_spec c 34); [exfalso; apply N; left; congruence |]. cbn [app] in E. assert (E1 : 92 + c = 92 + d) by congruence.
      assert (E2 : flat_map qchar_value l = flat_map qchar_value l') by congruence. assert (c = d) by lia. subst d. f_equal. apply IH'; assumption.
Qed.

(** a quoted text has one reading *)
Lemma chars_inj : forall (plain : Z -> Prop) q l l', (forall c, plain c -> c <> 92 /\ c <> q) ->
  Forall (qchar_ok plain q) l -> Forall (qchar_ok plain q) l' -> map qchar_char l = map qchar_char l' -> l = l'.
Proof.
  intros plain q l l' Hp. revert l'. induction l as [| a l IH]; intros [| b l'] H H' E; try discriminate; [reflexivity |].
  inversion_clear H as [| ? ? H1 H2]. inversion_clear H' as [| ? ? H3 H4]. cbn [flat_map qchar_value app] in E. injection E as E1 E2.
  f_equal; [| apply IH; assumption]. destruct a, b; simpl in *; subst; try reflexivity.
  - apply Hp in H1. lia.
  - apply Hp in H3. lia.
Qed.

(** the values of the characters of an unquoted word *)
Lemma lower_value : forall w l, Forall alpha_num w -> Forall (qchar_ok sq_plain 39) l ->
  (w = flat_map qchar_value l <-> w = map qchar_char l).
Proof.
  unfold sq_plain, ascii_printable, alpha_num, alphabetic, upper_alpha, lower_alpha, numeric.
  induction w as [| c w IH]; intros l Hw Hl.
  - destruct l as [| [d | d] l]; simpl; [tauto | split; discriminate | destruct (d =? 34); simpl; split; discriminate].
  - inversion_clear Hw as [| ? ? Hc Hw']. destruct l as [| q l]; [simpl; split; discriminate |].
    inversion_clear Hl as [| ? ? Hq Hl']. specialize (IH l Hw' Hl').
    destruct q as [d | d]; simpl in *.
    + split; intros E; injection E as -> E; f_equal; apply IH; exact E.
    + destruct (Z.eqb_spec d 34); [lia |]. simpl; split; intros E; injection E as E1 E2; lia.
Qed.

(** a quoted text has one reading *)
Lemma text_inj : forall (plain : Z -> Prop) q l l', (forall c, plain c -> c <> 92 /\ c <> q) ->
  Forall (qchar_ok plain q) l -> Forall (qchar_ok plain q) l' ->
  flat_map qchar_text l ++ [q] = flat_map qchar_text l' ++ [q] -> q <> 92 -> l = l'.
Proof.
  intros plain q l l' Hp. revert l'. induction l as [| a l IH]; intros [| b l'] H H' E Hq; [reflexivity | | |].
  - inversion_clear H' as [| ? ? H3 H4]. destruct b as [c | c]; simpl in E, H3; injection E as E1 E2; [| lia].
    apply Hp in H3. lia.
  - inversion_clear H as [| ? ? H1 H2]. destruct a as [c | c]; simpl in E, H1; injection E as E1 E2; [| lia].
    apply Hp in H1. lia.
  - inversion_clear H as [| ? ? H1 H2]. inversion_clear H' as [| ? ? H3 H4].
    destruct a as [c | c], b as [d | d]; simpl in E, H1, H3.
    + injection E as -> E. f_equal. apply IH; assumption.
    + injection E as E1 E. apply Hp in H1. lia.
    + injection E as E1 E. apply Hp in H3. lia.
    + injection E as -> E. f_equal. apply IH; assumption.
Qed.

Lemma sq_plain_not : forall c, sq_plain c -> c <> 92 /\ c <> 39.
Proof. unfold sq_plain. lia. Qed.
Lemma do_plain_not : forall c, do_plain c -> c <> 92 /\ c <> 34.
Proof. unfold do_plain. lia. Qed.

(** the first character of a number *)
Lemma number_first : forall w, with_sign unsigned_real_text w \/ with_sign unsigned_rational_text w \/ with_sign decimal_text w ->
  exists c r, w = c :: r /\ (c = 45 \/ numeric c).
Proof.
  assert (Hd : forall w, decimal_text w -> exists c r, w = c :: r /\ numeric c).
  { unfold decimal_text, numeric. intros w [-> | [d [ds [-> [H _]]]]]; eexists _, _; (split; [reflexivity | lia]). }
  assert (Ha : forall w v, decimal_text w -> exists c r, w ++ v = c :: r /\ numeric c).
  { intros w v H. apply Hd in H as [c [r [-> H]]]. exists c, (r ++ v). split; [reflexivity | exact H]. }
  assert (Hs : forall (p : list Z -> Prop) w, (forall w, p w -> exists c r, w = c :: r /\ numeric c) -> with_sign p w ->
             exists c r, w = c :: r /\ (c = 45 \/ numeric c)).
  { intros p w Hp [H | [v [-> H]]]; [apply Hp in H as [c [r [-> H]]]; exists c, r; tauto | exists 45, v; tauto]. }
  intros w [H | [H | H]]; (eapply Hs; [| exact H]); clear H; intros v H.
  - destruct H as [d [f [e [-> [H _]]]]]. apply Ha. exact H.
  - destruct H as [d [p [-> [H _]]]]. apply Ha. exact H.
  - apply Hd. exact H.
Qed.

(** what the token of a constant is, by the first character of its text *)
Lemma constant_cases : forall w t s, lexeme w t -> constant_symbol t = Some s ->
  (exists c r, w = c :: r /\ s = w /\ lower_alpha c /\ Forall alpha_num r) \/
  (exists l, w = 39 :: flat_map qchar_text l ++ [39] /\ Forall (qchar_ok sq_plain 39) l /\ s = flat_map qchar_value l) \/
  (exists l, w = 34 :: flat_map qchar_text l ++ [34] /\ Forall (qchar_ok do_plain 34) l /\ s = flat_map qchar_value l) \/
  (s = w /\ exists c r, w = c :: r /\ (c = 45 \/ numeric c)) \/
  (s = w /\ exists r, w = 36 :: r).
Proof.
  intros w t s H Hs. destruct H; simpl in Hs; try discriminate.
  - destruct H; discriminate.
  - destruct H; discriminate.
  - injection Hs as <-. right; left. exists l. tauto.
  - injection Hs as <-. right; right; left. exists l. tauto.
  - injection Hs as <-. left. exists c, w. tauto.
  - injection Hs as <-. do 4 right. split; [reflexivity | exists w; reflexivity].
  - injection Hs as <-. do 3 right. left. split; [reflexivity | apply number_first; tauto].
  - injection Hs as <-. do 3 right. left. split; [reflexivity | apply number_first; tauto].
  - injection Hs as <-. do 3 right. left. split; [reflexivity | apply number_first; tauto].
Qed.

Ltac first_char :=
  unfold lower_alpha, numeric in *;
  match goal with
  | E : _ :: _ = _ :: _ |- _ => injection E as ? ?; subst; exfalso; lia
  end.

Lemma atom_symbol : forall w t s v, lexeme w t -> constant_symbol t = Some s -> stands_for w (OAtom v) ->
  (s = v /\ exists c r, v = c :: r /\ lower_alpha c /\ Forall alpha_num r) \/
  exists l, Forall (qchar_ok sq_plain 39) l /\ s = flat_map qchar_value l /\ v = map qchar_char l.
Proof.
  intros w t s v Hl Hs Hf. inversion Hf as [c r Hc Hr E1 E2 | l Hq E1 E2 | | |]; subst.
  - left. pose proof (constant_cases _ _ _ Hl Hs) as HC.
    destruct HC as [[c' [r' [E [-> _]]]] | [[l [E _]] | [[l [E _]] | [[-> [c' [r' [E E']]]] | [-> [r' E]]]]]];
      try (split; [reflexivity | exists c, r; tauto]); try first_char.
  - right. exists l. split; [exact Hq |]. split; [| reflexivity]. pose proof (constant_cases _ _ _ Hl Hs) as HC.
    destruct HC as [[c' [r' [E [-> [Hc _]]]]] | [[l' [E [Hq' ->]]] | [[l' [E _]] | [[-> [c' [r' [E E']]]] | [-> [r' E]]]]]];
      try first_char.
    injection E as E. f_equal. symmetry. apply (text_inj sq_plain 39 l l'); try assumption; [exact sq_plain_not | lia].
Qed.

(** Two atomic words have the same symbol exactly when they stand for the same thing. *)
Theorem atoms_named : forall w t v s w' t' v' s',
  lexeme w t -> constant_symbol t = Some s -> stands_for w (OAtom v) ->
  lexeme w' t' -> constant_symbol t' = Some s' -> stands_for w' (OAtom v') ->
  (s = s' <-> v = v').
Proof.
  intros w t v s w' t' v' s' Hl Hs Hf Hl' Hs' Hf'.
  pose proof (atom_symbol w t s v Hl Hs Hf) as H. pose proof (atom_symbol w' t' s' v' Hl' Hs' Hf') as H'.
  assert (Hlow : forall c r, lower_alpha c -> Forall alpha_num r -> Forall alpha_num (c :: r)).
  { intros c r Hc Hr. constructor; [left; right; exact Hc | exact Hr]. }
  destruct H as [[-> [c [r [-> [Hc Hr]]]]] | [l [Hq [-> ->]]]], H' as [[-> [c' [r' [-> [Hc' Hr']]]]] | [l' [Hq' [-> ->]]]].
  - tauto.
  - apply lower_value; [apply Hlow |]; assumption.
  - pose proof (lower_value (c' :: r') l (Hlow _ _ Hc' Hr') Hq) as H. split; intros E; symmetry; apply H; symmetry; exact E.
  - split; intros E.
    + apply plain_value in E; [subst; reflexivity | assumption | assumption].
    + apply (chars_inj sq_plain 39) in E; try assumption; [subst; reflexivity | exact sq_plain_not].
Qed.

Lemma object_symbol : forall w t s v, lexeme w t -> constant_symbol t = Some s -> stands_for w (OObject v) ->
  exists l, Forall (qchar_ok do_plain 34) l /\ s = flat_map qchar_value l /\ v = map qchar_char l.
Proof.
  intros w t s v Hl Hs Hf. inversion Hf as [ | | l Hq E1 E2 | |]; subst.
  exists l. split; [exact Hq |]. split; [| reflexivity]. pose proof (constant_cases _ _ _ Hl Hs) as HC.
  destruct HC as [[c' [r' [E [-> [Hc _]]]]] | [[l' [E [Hq' ->]]] | [[l' [E [Hq' ->]]] | [[-> [c' [r' [E E']]]] | [-> [r' E]]]]]];
    try first_char.
  injection E as E. f_equal. symmetry. apply (text_inj do_plain 34 l l'); try assumption; [exact do_plain_not | lia].
Qed.

(** Two distinct objects without a double quote have the same symbol exactly when they are the same. *)
Theorem objects_named : forall w t v s w' t' v' s',
  lexeme w t -> constant_symbol t = Some s -> stands_for w (OObject v) ->
  lexeme w' t' -> constant_symbol t' = Some s' -> stands_for w' (OObject v') ->
  ~ In 34 v -> ~ In 34 v' -> (s = s' <-> v = v').
Proof.
  intros w t v s w' t' v' s' Hl Hs Hf Hl' Hs' Hf' Hn Hn'.
  destruct (object_symbol w t s v Hl Hs Hf) as [l [Hq [-> ->]]].
  destruct (object_symbol w' t' s' v' Hl' Hs' Hf') as [l' [Hq' [-> ->]]].
  assert (N : forall l, ~ In 34 (map qchar_char l) -> no_escaped_quote l).
  { intros m Hm H. apply Hm. change 34 with (qchar_char (Escaped 34)). apply in_map. exact H. }
  split; intros E.
  - apply object_value in E; try assumption; [subst; reflexivity | apply N; exact Hn | apply N; exact Hn'].
  - apply (chars_inj do_plain 34) in E; try assumption; [subst; reflexivity | exact do_plain_not].
Qed.

(** Two numbers, and two words of TPTP, have the same symbol exactly when they are written the same. *)
Theorem numbers_named : forall w t s w' t' s',
  lexeme w t -> constant_symbol t = Some s -> stands_for w (ONumber w) ->
  lexeme w' t' -> constant_symbol t' = Some s' -> stands_for w' (ONumber w') ->
  (s = s' <-> w = w').
Proof.
  assert (H : forall w t s, lexeme w t -> constant_symbol t = Some s -> stands_for w (ONumber w) -> s = w).
  { intros w t s Hl Hs Hf. inversion Hf as [ | | | w' Hn |]; subst. apply number_first in Hn as [c [r [-> Hc]]].
    pose proof (constant_cases _ _ _ Hl Hs) as HC.
    destruct HC as [[c' [r' [E [-> _]]]] | [[l [E _]] | [[l [E _]] | [[-> _] | [-> _]]]]]; try reflexivity; first_char. }
  intros w t s w' t' s' Hl Hs Hf Hl' Hs' Hf'. rewrite (H w t s Hl Hs Hf), (H w' t' s' Hl' Hs' Hf'). tauto.
Qed.

Theorem defined_named : forall w t s v w' t' s' v',
  lexeme w t -> constant_symbol t = Some s -> stands_for w (ODefined v) ->
  lexeme w' t' -> constant_symbol t' = Some s' -> stands_for w' (ODefined v') ->
  (s = s' <-> v = v').
Proof.
  assert (H : forall w t s v, lexeme w t -> constant_symbol t = Some s -> stands_for w (ODefined v) -> s = v).
  { intros w t s v Hl Hs Hf. inversion Hf; subst.
    pose proof (constant_cases _ _ _ Hl Hs) as HC.
    destruct HC as [[c' [r' [E [-> _]]]] | [[l [E _]] | [[l [E _]] | [[-> _] | [-> _]]]]]; try reflexivity; first_char. }
  intros w t s v w' t' s' v' Hl Hs Hf Hl' Hs' Hf'. rewrite (H w t s v Hl Hs Hf), (H w' t' s' v' Hl' Hs' Hf'). tauto.
Qed.

(** A word of TPTP is never taken for another constant, unless that one is quoted. *)
Theorem defined_apart : forall w t s v w' t' s' o,
  lexeme w t -> constant_symbol t = Some s -> stands_for w (ODefined v) ->
  lexeme w' t' -> constant_symbol t' = Some s' -> stands_for w' o ->
  hd 0 w' <> 39 -> hd 0 w' <> 34 -> s = s' -> o = ODefined v.
Proof.
  intros w t s v w' t' s' o Hl Hs Hf Hl' Hs' Hf' H1 H2 E. subst s'.
  assert (Hw : s = w /\ v = w /\ exists r, w = 36 :: r).
  { inversion Hf; subst. pose proof (constant_cases _ _ _ Hl Hs) as HC.
    destruct HC as [[c' [r' [E [-> _]]]] | [[l [E _]] | [[l [E _]] | [[-> _] | [-> _]]]]]; try first_char; eauto. }
  destruct Hw as [-> [-> [r ->]]].
  assert (Hw' : w' = 36 :: r).
  { pose proof (constant_cases _ _ _ Hl' Hs') as HC.
    destruct HC as [[c' [r' [E [E' _]]]] | [[l [E _]] | [[l [E _]] | [[E _] | [E _]]]]]; subst; simpl in H1, H2; congruence. }
  subst w'. inversion Hf'; subst; try reflexivity; unfold lower_alpha in *; try lia.
  exfalso. match goal with H : _ \/ _ |- _ => apply number_first in H as [c [r' [E Hc]]] end. first_char.
Qed.

Theorem defined_symbols : forall w t s v w' t' s' o,
  lexeme w t -> constant_symbol t = Some s -> stands_for w (ODefined v) ->
  lexeme w' t' -> constant_symbol t' = Some s' -> stands_for w' o ->
  hd 0 w' <> 39 -> hd 0 w' <> 34 -> (s = s' <-> o = ODefined v).
Proof.
  intros w t s v w' t' s' o Hl Hs Hf Hl' Hs' Hf' H1 H2. split.
  - exact (defined_apart w t s v w' t' s' o Hl Hs Hf Hl' Hs' Hf' H1 H2).
  - intros ->. apply (defined_named w t s v w' t' s' v); trivial.
Qed.

(** ** Three clashes: the distinct object cat and the word cat, the number 1 and the word 1 between quotes, the
    distinct objects made of an escaped double quote and of a tilde *)
Definition same_symbol (w w' : list Z) : Prop :=
  exists t t' s, lexeme w t /\ lexeme w' t' /\ constant_symbol t = Some s /\ constant_symbol t' = Some s.
Lemma lower_cat : Forall alpha_num [97; 116].
Proof. apply Forall_cons; [| apply Forall_cons; [| apply Forall_nil]]; unfold alpha_num, alphabetic, lower_alpha; lia. Qed.
Lemma c_lower : lower_alpha 99.
Proof. unfold lower_alpha. lia. Qed.
Ltac pl := repeat first [apply Forall_nil | apply Forall_cons]; cbn; unfold sq_plain, do_plain, ascii_printable; lia.
Lemma one_number : with_sign decimal_text [49].
Proof. left. right. exists 49, []. split; [reflexivity |]. split; [lia | apply Forall_nil]. Qed.

Theorem symbols_clash :
  (exists w w' v v', stands_for w (OObject v) /\ stands_for w' (OAtom v') /\ same_symbol w w') /\
  (exists w w' v v', stands_for w (ONumber v) /\ stands_for w' (OAtom v') /\ same_symbol w w') /\
  (exists w w' v v', stands_for w (OObject v) /\ stands_for w' (OObject v') /\ v <> v' /\ same_symbol w w').
Proof.
  assert (Hc : Forall (qchar_ok do_plain 34) [Plain 99; Plain 97; Plain 116]) by pl.
  assert (H1 : Forall (qchar_ok sq_plain 39) [Plain 49]) by pl.
  assert (He : Forall (qchar_ok do_plain 34) [Escaped 34]) by pl.
  assert (Ht : Forall (qchar_ok do_plain 34) [Plain 126]) by pl.
  split; [| split].
  - eexists _, _, _, _. split; [exact (sf_distinct _ Hc) |]. split; [exact (sf_lower _ _ c_lower lower_cat) |].
    eexists _, _, _. split; [exact (l_distinct _ Hc) |]. split; [exact (l_lower _ _ c_lower lower_cat) |]. split; reflexivity.
  - eexists _, _, _, _. split; [exact (sf_number _ (or_intror (or_intror one_number))) |]. split; [exact (sf_single _ H1) |].
    eexists _, _, _. split; [exact (l_integer _ one_number) |]. split; [exact (l_single _ H1) |]. split; reflexivity.
  - eexists _, _, _, _. split; [exact (sf_distinct _ He) |]. split; [exact (sf_distinct _ Ht) |]. split; [discriminate |].
    eexists _, _, _. split; [exact (l_distinct _ He) |]. split; [exact (l_distinct _ Ht) |]. split; reflexivity.
Qed.
