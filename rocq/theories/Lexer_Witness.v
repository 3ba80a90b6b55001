(** Concrete cases for the theorems on the lexer. *)
From Coq Require Import ZArith List Bool String Ascii Lia.
From Verif Require Import Lexer_Model Lexer_Spec Lexer_Proofs Lexer_Number Lexer_Tokens Lexer_Final Lexer_Names.
Import ListNotations.
Open Scope list_scope.
Open Scope Z_scope.

Definition bytes (s : string) : list Z := map (fun c => Z.of_nat (nat_of_ascii c)) (list_ascii_of_string s).
Arguments bytes s%string.
Definition nl : list Z := [10].

(** ** A file that satisfies the conditions *)

Definition sp : list blank := [BChar 32].
Definition w_blank : list blank := [BLine (bytes " a file"); BBlock (bytes " * "); BChar 10].
Definition w_items (after_or : list blank) : list item :=
  [(bytes "fof", FOF, []); ([40], LEFT_PAREN, []); (bytes "a", LOWER_WORD (bytes "a"), []); ([44], COMMA, sp);
   (bytes "axiom", LOWER_WORD (bytes "axiom"), []); ([44], COMMA, sp); ([33], FORALL, sp); ([91], LEFT_BRACKET, []);
   (bytes "X", UPPER_WORD (bytes "X"), []); ([93], RIGHT_BRACKET, sp); ([58], COLON, sp); ([40], LEFT_PAREN, []);
   (bytes "p", LOWER_WORD (bytes "p"), []); ([40], LEFT_PAREN, []); (bytes "X", UPPER_WORD (bytes "X"), []); ([41], RIGHT_PAREN, sp);
   ([124], VLINE, after_or); (bytes "X", UPPER_WORD (bytes "X"), sp); ([61], EQUAL, sp);
   ([39; 98; 92; 39; 39], SINGLE_QUOTED [98; 194; 131], sp); ([38], AND, sp); (bytes "$less", DOLLAR_WORD (bytes "$less"), []);
   ([40], LEFT_PAREN, []); (bytes "-12.5e3", REAL (bytes "-12.5e3"), []); ([44], COMMA, []); (bytes "7", INTEGER (bytes "7"), []);
   ([41], RIGHT_PAREN, []); ([41], RIGHT_PAREN, []); ([41], RIGHT_PAREN, []); ([46], DOT, [])].

(** the text *)
Example w_text : file_text w_blank (w_items sp) =
  bytes "% a file" ++ nl ++ bytes "/* * */" ++ nl
  ++ bytes "fof(a, axiom, ! [X] : (p(X) | X = 'b\'' & $less(-12.5e3,7)))." ++ nl.
Proof. vm_compute. reflexivity. Qed.

Ltac lit := repeat match goal with |- context [bytes ?s] => let v := eval vm_compute in (bytes s) in change (bytes s) with v end.
Ltac cls := unfold alpha_num, alphabetic, upper_alpha, lower_alpha, numeric, sq_plain, do_plain, ascii_printable.
Ltac num := cls; lia.
Ltac all_z := repeat first [apply Forall_nil | apply Forall_cons]; try num.
Ltac wend := eexists; split; [reflexivity | split; [lia | num]].
Ltac word := split; [wend | intros [[k E] E']; first [discriminate E' | inversion E]].
Ltac sgn := apply l_sign; constructor.

Lemma ok_cons : forall w t bl r, lexeme w t -> Forall blank_ok bl -> follows w t (blanks_text bl ++ text r) -> items_ok r ->
  items_ok ((w, t, bl) :: r).
Proof. intros w t bl r H1 H2 H3 H4. exact (conj H1 (conj H2 (conj H3 H4))). Qed.

Ltac go := first [exact Logic.I | apply ok_cons; [| assumption | | go]].

Lemma w_ok : forall bl, bl = sp \/ bl = w_blank -> file_ok w_blank (w_items bl).
Proof.
  intros bl Hbl.
  assert (Hb : Forall blank_ok w_blank).
  { unfold w_blank. lit. apply Forall_cons; [| apply Forall_cons; [| apply Forall_cons; [| apply Forall_nil]]].
    - cbn. all_z.
    - cbn. repeat split; lia.
    - cbn. lia. }
  assert (Hbl' : Forall blank_ok bl).
  { destruct Hbl as [-> | ->]; [| exact Hb]. apply Forall_cons; [left; reflexivity | apply Forall_nil]. }
  assert (Hsp : Forall blank_ok sp) by (apply Forall_cons; [left; reflexivity | apply Forall_nil]).
  assert (Hnil : Forall blank_ok []) by apply Forall_nil.
  split; [exact Hb | split; [| left; discriminate]]. unfold w_items. lit.
  go.
  all: try (apply l_sign; constructor).
  all: try (apply l_keyword; constructor).
  all: try exact Logic.I.
  all: try (apply l_lower; [num | all_z]).
  all: try (apply l_upper; [num | all_z]).
  all: try (cbn [follows]; word).
  all: try reflexivity.
  - vm_compute. discriminate.
  - exact (l_single [Plain 98; Escaped 39] ltac:(apply Forall_cons; [cbn; num | apply Forall_cons; [cbn; num | apply Forall_nil]])).
  - apply l_dollar; [discriminate | all_z | vm_compute; intuition discriminate].
  - cbn [follows]. split; [wend |]. intros r [E | E]; discriminate E.
  - apply l_real. right. eexists; split; [reflexivity |].
    exists [49; 50], [46; 53], [101; 51]. split; [reflexivity |]. split.
    + right. exists 49, [50]. split; [reflexivity |]. split; [lia | all_z].
    + right; left. split.
      * exists [53]. split; [reflexivity |]. split; [discriminate | all_z].
      * exists 101, [], [51]. split; [reflexivity |]. split; [tauto |]. split; [tauto |]. split; [discriminate | all_z].
  - cbn [follows]. eexists _, _, _. split; [reflexivity |]. num.
  - apply l_integer. left. right. exists 55, []. split; [reflexivity |]. split; [lia | apply Forall_nil].
  - cbn [follows]. eexists _, _, _. split; [reflexivity |]. num.
Qed.

(** the tokens of the file are the ones of the list, whatever stands after the bar *)
Example w_lex : exists st, lex_file (file_text w_blank (w_items sp)) 0 false = Some (tokens (w_items sp), st) /\
  quantifiers st = 1 /\ has_eq st = true.
Proof. destruct (lex_file_spec w_blank (w_items sp) 0 false (w_ok sp (or_introl eq_refl))) as [st H]. exists st. exact H. Qed.

(** ** No space after the quantifier: fof(a, axiom, ![X] : p(X)). *)
Definition q_items (after_forall : list blank) : list item :=
  [(bytes "fof", FOF, []); ([40], LEFT_PAREN, []); (bytes "a", LOWER_WORD (bytes "a"), []); ([44], COMMA, sp);
   (bytes "axiom", LOWER_WORD (bytes "axiom"), []); ([44], COMMA, sp); ([33], FORALL, after_forall); ([91], LEFT_BRACKET, []);
   (bytes "X", UPPER_WORD (bytes "X"), []); ([93], RIGHT_BRACKET, sp); ([58], COLON, sp);
   (bytes "p", LOWER_WORD (bytes "p"), []); ([40], LEFT_PAREN, []); (bytes "X", UPPER_WORD (bytes "X"), []); ([41], RIGHT_PAREN, []);
   ([41], RIGHT_PAREN, []); ([46], DOT, [])].
Lemma q_ok : file_ok [] (q_items sp).
Proof.
  assert (Hsp : Forall blank_ok sp) by (apply Forall_cons; [left; reflexivity | apply Forall_nil]).
  assert (Hnil : Forall blank_ok []) by apply Forall_nil.
  split; [exact Hnil | split; [| right; lit; constructor]]. unfold q_items. lit. go.
  all: try (apply l_sign; constructor).
  all: try (apply l_keyword; constructor).
  all: try exact Logic.I.
  all: try (apply l_lower; [num | all_z]).
  all: try (apply l_upper; [num | all_z]).
  all: try (cbn [follows]; word).
  all: try reflexivity.
Qed.
(** no lexeme begins with the two characters *)
Lemma no_lexeme : forall w t r, lexeme w t -> w <> 33 :: 91 :: r.
Proof.
  intros w t r H E. destruct H; try discriminate.
  - destruct H; discriminate.
  - destruct H; discriminate.
  - injection E as -> E. unfold upper_alpha in *. lia.
  - injection E as -> E. unfold lower_alpha in *. lia.
  - destruct (number_first w) as [c [r' [-> Hc]]]; [tauto |]. injection E as -> E. unfold numeric in *. lia.
  - destruct (number_first w) as [c [r' [-> Hc]]]; [tauto |]. injection E as -> E. unfold numeric in *. lia.
  - destruct (number_first w) as [c [r' [-> Hc]]]; [tauto |]. injection E as -> E. unfold numeric in *. lia.
Qed.

(** ** The other files *)
(** a character that begins no token, between two statements *)
Definition t_first : list Z := bytes "fof(a, axiom, p)." ++ nl.
Definition t_second : list Z := bytes "fof(b, conjecture, q)." ++ nl.
(** a comment that contains a tabulation *)
Definition c_comment : list Z := 9 :: bytes "fof(b, axiom, $false).".
(** fof(a, axiom, b != c). *)
Definition e_file : list Z := bytes "fof(a, axiom, b != c)." ++ nl.

Lemma cat_case : exists t t', lexeme (bytes "cat") t /\ lexeme (bytes "'cat'") t' /\
  stands_for (bytes "cat") (OAtom (bytes "cat")) /\ stands_for (bytes "'cat'") (OAtom (bytes "cat")) /\
  constant_symbol t = Some (bytes "cat") /\ constant_symbol t' = Some (bytes "cat").
Proof.
  assert (Hc : Forall (qchar_ok sq_plain 39) [Plain 99; Plain 97; Plain 116]) by pl.
  exists (LOWER_WORD (bytes "cat")), (SINGLE_QUOTED (bytes "cat")).
  split; [exact (l_lower _ _ c_lower lower_cat) |]. split; [exact (l_single _ Hc) |].
  split; [exact (sf_lower _ _ c_lower lower_cat) |]. split; [exact (sf_single _ Hc) |]. split; reflexivity.
Qed.

Lemma other_cases :
  (exists t t', lexeme (34 :: bytes "cat" ++ [34]) t /\ lexeme (34 :: bytes "dog" ++ [34]) t' /\
    stands_for (34 :: bytes "cat" ++ [34]) (OObject (bytes "cat")) /\ stands_for (34 :: bytes "dog" ++ [34]) (OObject (bytes "dog")) /\
    constant_symbol t = Some (bytes "cat") /\ constant_symbol t' = Some (bytes "dog")) /\
  (exists t t', lexeme (bytes "1") t /\ lexeme (bytes "-12") t' /\
    stands_for (bytes "1") (ONumber (bytes "1")) /\ stands_for (bytes "-12") (ONumber (bytes "-12")) /\
    constant_symbol t = Some (bytes "1") /\ constant_symbol t' = Some (bytes "-12")) /\
  (exists t, lexeme (bytes "$cat") t /\ stands_for (bytes "$cat") (ODefined (bytes "$cat")) /\ constant_symbol t = Some (bytes "$cat")).
Proof.
  assert (Hc : Forall (qchar_ok do_plain 34) [Plain 99; Plain 97; Plain 116]) by pl.
  assert (Hd : Forall (qchar_ok do_plain 34) [Plain 100; Plain 111; Plain 103]) by pl.
  assert (H12 : with_sign decimal_text (bytes "-12")).
  { right. exists [49; 50]. split; [reflexivity |]. right. exists 49, [50]. split; [reflexivity |]. split; [lia | all_z]. }
  assert (Hw : Forall alpha_num [99; 97; 116]).
  { apply Forall_cons; [left; right; exact c_lower | exact lower_cat]. }
  assert (Hr : ~ In [99; 97; 116] reserved) by (vm_compute; intuition discriminate).
  split; [| split].
  - exists (DISTINCT_OBJECT (bytes "cat")), (DISTINCT_OBJECT (bytes "dog")).
    split; [exact (l_distinct _ Hc) |]. split; [exact (l_distinct _ Hd) |]. split; [exact (sf_distinct _ Hc) |].
    split; [exact (sf_distinct _ Hd) |]. split; reflexivity.
  - exists (INTEGER (bytes "1")), (INTEGER (bytes "-12")).
    split; [exact (l_integer _ one_number) |]. split; [exact (l_integer _ H12) |].
    split; [exact (sf_number _ (or_intror (or_intror one_number))) |].
    split; [exact (sf_number _ (or_intror (or_intror H12))) |]. split; reflexivity.
  - exists (DOLLAR_WORD (bytes "$cat")). split; [exact (l_dollar [99; 97; 116] ltac:(discriminate) Hw Hr) |].
    split; [exact (sf_defined [99; 97; 116] ltac:(discriminate) Hw Hr) | reflexivity].
Qed.
