(** Properties C61, C62, C63 and C64: the lexer. *)
From Coq Require Import ZArith String List Bool.
From Verif Require Import Lexer_Model Lexer_Spec Lexer_Tokens Lexer_Final Lexer_Names Lexer_Witness.
Import ListNotations.
Open Scope list_scope.
Open Scope Z_scope.

(** the tokens that the parser receives *)
Definition lexed (s : list Z) (ts : list token) : Prop := exists st, lex_file s 0 false = Some (ts, st).

(** C61 refuted: without a space after the quantifier, which no lexeme needs, the tokens of the file stop there. *)
Theorem C61_space_refuted :
  exists l l' : list item, map fst l = map fst l' /\ file_ok [] l' /\ lexed (file_text [] l') (tokens l') /\
  Forall (fun '(w, t, bl) => lexeme w t /\ Forall blank_ok bl) l /\ (forall w t r, lexeme w t -> w <> 33 :: 91 :: r) /\
  exists a b, file_text [] l = a ++ 33 :: 91 :: b /\ file_text [] l' = a ++ 33 :: 32 :: 91 :: b /\
  lexed (file_text [] l) (firstn 6 (tokens l)) /\ length (tokens l) = 17%nat.
Proof.
  exists (q_items []), (q_items sp). split; [reflexivity |]. split; [exact q_ok |].
  split; [destruct (lex_file_spec [] (q_items sp) 0 false q_ok) as [st [H _]]; exists st; exact H |].
  split.
  { assert (H : forall l, items_ok l -> Forall (fun '(w, t, bl) => lexeme w t /\ Forall blank_ok bl) l).
    { induction l as [| [[w t] bl] l IH]; intros H; [apply Forall_nil |]. destruct H as [H1 [H2 [H3 H4]]].
      apply Forall_cons; [tauto | apply IH; exact H4]. }
    destruct q_ok as [_ [H' _]]. apply H in H'. unfold q_items in *.
    repeat match goal with
           | H : Forall _ (_ :: _) |- _ => inversion_clear H
           | |- Forall _ (_ :: _) => apply Forall_cons
           | |- Forall _ [] => apply Forall_nil
           end; try assumption. split; [tauto | apply Forall_nil]. }
  split; [exact no_lexeme |].
  exists (bytes "fof(a, axiom, "), (bytes "X] : p(X))." ++ nl).
  split; [vm_compute; reflexivity |]. split; [vm_compute; reflexivity |].
  split; [| reflexivity]. eexists. vm_compute. reflexivity.
Qed.
Print Assumptions C61_space_refuted.
(** C61 refuted: after a character that begins no token the rest of the file is dropped without a message. *)
Theorem C61_truncation_refuted :
  exists s s' ts ts', lexed s ts /\ lexed s' ts' /\ ts' <> [] /\ lexed (s ++ 64 :: 10 :: s') ts.
Proof.
  exists t_first, t_second. eexists _, _.
  split; [eexists; vm_compute; reflexivity |]. split; [eexists; vm_compute; reflexivity |].
  split; [discriminate |]. eexists. vm_compute. reflexivity.
Qed.
Print Assumptions C61_truncation_refuted.
(** C61 refuted: a token at the end of a file without an end of line is dropped. *)
Theorem C61_last_line_refuted : exists s ts, lexed (s ++ [10]) (ts ++ [DOT]) /\ lexed s ts.
Proof.
  exists (bytes "fof(a, axiom, p)."). eexists [_; _; _; _; _; _; _; _]. split; eexists; vm_compute; reflexivity.
Qed.
Print Assumptions C61_last_line_refuted.
(** What holds: a file made of lexemes, each followed by what it may be followed by, with any spaces and comments between them. *)
Theorem C61_tokens_partial : forall bl l q e, file_ok bl l ->
  exists st, lex_file (file_text bl l) q e = Some (tokens l, st).
Proof. intros bl l q e H. destruct (lex_file_spec bl l q e H) as [st [H' _]]. exact (ex_intro _ st H'). Qed.
Print Assumptions C61_tokens_partial.
Example C61_tokens_case : file_ok w_blank (w_items sp) /\ length (w_items sp) = 30%nat /\
  file_text w_blank (w_items sp) =
  bytes "% a file" ++ nl ++ bytes "/* * */" ++ nl
  ++ bytes "fof(a, axiom, ! [X] : (p(X) | X = 'b\'' & $less(-12.5e3,7)))." ++ nl.
Proof. split; [exact (w_ok sp (or_introl eq_refl)) |]. split; [reflexivity | exact w_text]. Qed.

(** C62 refuted: the text after a tabulation in a line comment is read. *)
Theorem C62_comment_refuted : exists c ts, ~ In 10 c /\ ts <> [] /\ lexed (37 :: c ++ [10]) ts /\ lexed [10] [].
Proof.
  exists c_comment. eexists. split; [vm_compute; intuition discriminate |].
  split; [| split; eexists; vm_compute; reflexivity]. discriminate.
Qed.
Print Assumptions C62_comment_refuted.
(** What holds: the spaces and the comments of printable characters do not change the tokens or the two counters. *)
Theorem C62_comments_partial : forall bl l bl' l' q e, file_ok bl l -> file_ok bl' l' -> map fst l = map fst l' ->
  exists ts st st', lex_file (file_text bl l) q e = Some (ts, st) /\ lex_file (file_text bl' l') q e = Some (ts, st') /\
    quantifiers st = quantifiers st' /\ has_eq st = has_eq st'.
Proof. exact comments_ignored. Qed.
Print Assumptions C62_comments_partial.
Example C62_comments_case : file_ok w_blank (w_items sp) /\ file_ok w_blank (w_items w_blank) /\
  map fst (w_items sp) = map fst (w_items w_blank) /\ file_text w_blank (w_items sp) <> file_text w_blank (w_items w_blank).
Proof.
  split; [exact (w_ok _ (or_introl eq_refl)) |]. split; [exact (w_ok _ (or_intror eq_refl)) |].
  split; [reflexivity |]. intros E. apply (f_equal (@length Z)) in E. vm_compute in E. discriminate.
Qed.

(** C63 refuted: the flag is not set by a file whose only equality is a disequality. *)
Theorem C63_disequality_refuted : exists s ts st, lex_file s 0 false = Some (ts, st) /\ In NOT_EQUAL ts /\ has_eq st = false.
Proof. exists e_file. eexists _, _. split; [vm_compute; reflexivity |]. split; [simpl; tauto | reflexivity]. Qed.
Print Assumptions C63_disequality_refuted.
(** What holds, on every file on which the lexer does not stop: the flag is set by the equality signs, and the other counter counts
    the quantifiers. *)
Theorem C63_counters_partial : forall s q e ts st, lex_file s q e = Some (ts, st) ->
  quantifiers st = q + total_count ts /\ (has_eq st = true <-> e = true \/ In EQUAL ts).
Proof. exact lex_file_counted. Qed.
Print Assumptions C63_counters_partial.
Example C63_counters_case : exists ts st, lex_file (file_text w_blank (w_items sp)) 2 false = Some (ts, st) /\ In EQUAL ts /\
  quantifiers st = 3 /\ has_eq st = true.
Proof. eexists _, _. split; [vm_compute; reflexivity |]. split; [simpl; tauto | split; reflexivity]. Qed.

(** C64 refuted: a distinct object and an atomic word, a number and a quoted word, two distinct objects with the same symbol. *)
Theorem C64_symbols_refuted :
  (exists w w' v v', stands_for w (OObject v) /\ stands_for w' (OAtom v') /\ same_symbol w w') /\
  (exists w w' v v', stands_for w (ONumber v) /\ stands_for w' (OAtom v') /\ same_symbol w w') /\
  (exists w w' v v', stands_for w (OObject v) /\ stands_for w' (OObject v') /\ v <> v' /\ same_symbol w w').
Proof. exact symbols_clash. Qed.
Print Assumptions C64_symbols_refuted.
(** What holds: within the atomic words, the distinct objects without a double quote, the numbers and the words of TPTP. *)
Theorem C64_atoms_partial : forall w t v s w' t' v' s',
  lexeme w t -> constant_symbol t = Some s -> stands_for w (OAtom v) ->
  lexeme w' t' -> constant_symbol t' = Some s' -> stands_for w' (OAtom v') ->
  (s = s' <-> v = v').
Proof. exact atoms_named. Qed.
Print Assumptions C64_atoms_partial.
Theorem C64_objects_partial : forall w t v s w' t' v' s',
  lexeme w t -> constant_symbol t = Some s -> stands_for w (OObject v) ->
  lexeme w' t' -> constant_symbol t' = Some s' -> stands_for w' (OObject v') ->
  ~ In 34 v -> ~ In 34 v' -> (s = s' <-> v = v').
Proof. exact objects_named. Qed.
Print Assumptions C64_objects_partial.
Theorem C64_numbers_partial : forall w t s w' t' s',
  lexeme w t -> constant_symbol t = Some s -> stands_for w (ONumber w) ->
  lexeme w' t' -> constant_symbol t' = Some s' -> stands_for w' (ONumber w') ->
  (s = s' <-> w = w').
Proof. exact numbers_named. Qed.
Print Assumptions C64_numbers_partial.
Theorem C64_defined_partial : forall w t s v w' t' s' o,
  lexeme w t -> constant_symbol t = Some s -> stands_for w (ODefined v) ->
  lexeme w' t' -> constant_symbol t' = Some s' -> stands_for w' o ->
  hd 0 w' <> 39 -> hd 0 w' <> 34 -> (s = s' <-> o = ODefined v).
Proof. exact defined_symbols. Qed.
Print Assumptions C64_defined_partial.
(** cat and 'cat' are one constant *)
Example C64_atoms_case : exists t t', lexeme (bytes "cat") t /\ lexeme (bytes "'cat'") t' /\
  stands_for (bytes "cat") (OAtom (bytes "cat")) /\ stands_for (bytes "'cat'") (OAtom (bytes "cat")) /\
  constant_symbol t = Some (bytes "cat") /\ constant_symbol t' = Some (bytes "cat").
Proof. exact cat_case. Qed.
(** two distinct objects, two numbers, a word of TPTP and a constant *)
Example C64_other_cases :
  (exists t t', lexeme (34 :: bytes "cat" ++ [34]) t /\ lexeme (34 :: bytes "dog" ++ [34]) t' /\
    stands_for (34 :: bytes "cat" ++ [34]) (OObject (bytes "cat")) /\ stands_for (34 :: bytes "dog" ++ [34]) (OObject (bytes "dog")) /\
    constant_symbol t = Some (bytes "cat") /\ constant_symbol t' = Some (bytes "dog")) /\
  (exists t t', lexeme (bytes "1") t /\ lexeme (bytes "-12") t' /\
    stands_for (bytes "1") (ONumber (bytes "1")) /\ stands_for (bytes "-12") (ONumber (bytes "-12")) /\
    constant_symbol t = Some (bytes "1") /\ constant_symbol t' = Some (bytes "-12")) /\
  (exists t, lexeme (bytes "$cat") t /\ stands_for (bytes "$cat") (ODefined (bytes "$cat")) /\ constant_symbol t = Some (bytes "$cat")).
Proof. exact other_cases. Qed.
