(** C106-C108: the text of formulas. *)
From Coq Require Import ZArith String List Bool Lia.
From Verif Require Import Ast_Model Lexer_Model Lexer_Spec Elab_Model Print_Model Print_Spec Fof_Proofs Print_Proofs Print_Wide Print_Narrow Print_Witness.
Import ListNotations.
Open Scope list_scope.
Open Scope Z_scope.

(** C106 is false: a binary body of a quantifier is printed without parentheses, and FOF reads only its first operand under the quantifier *)
Theorem C106_refuted : exists eqi f s q q', writable eqi f /\ print_form default_printer eqi f = Some s /\ parsed f = Some q /\
  read_as (codes "ax1") (codes "axiom") s q' /\ q' <> q.
Proof. exact (ex_intro _ 0 (ex_intro _ sc_form (ex_intro _ _ (ex_intro _ sc_true (ex_intro _ sc_read sc_wrong))))). Qed.
Print Assumptions C106_refuted.
(** a predicate written between quotes is printed without them, and the text is no formula *)
Theorem C106_quoted_refuted : exists eqi f s t p, print_form default_printer eqi f = Some s /\
  (exists st, lex_file (fof_line (codes "ax1") (codes "axiom") s) 0 false = Some (line_tokens (codes "ax1") (codes "axiom") [UPPER_WORD t], st)) /\
  parsed f = Some p /\ fof_logic [SINGLE_QUOTED t] p /\ forall q, ~ fof_logic [UPPER_WORD t] q.
Proof. exact (ex_intro _ 0 (ex_intro _ quoted_form (ex_intro _ _ (ex_intro _ _ (ex_intro _ _ quoted_unread))))). Qed.
Print Assumptions C106_quoted_refuted.
(** the type of a variable is not printed *)
Theorem C106_type_refuted : exists eqi f s x t p q, print_form default_printer eqi f = Some s /\ parsed f = Some (PQuant PQuantAll [(x, pty_const t)] p) /\
  read_as (codes "ax1") (codes "axiom") s q /\ parsed f <> Some q.
Proof.
  destruct int_lost as [P [Q R]]. do 7 eexists. split; [exact P |]. split; [exact Q |]. split; [exact R |]. rewrite Q. discriminate.
Qed.
Print Assumptions C106_type_refuted.
(** the text of a formula of FOF without a binary body under a quantifier is read as the formula, and as nothing else *)
Theorem C106_partial eqi name role f : lower_name name -> lower_name role -> writable eqi f -> scoped f ->
  exists s q, print_form default_printer eqi f = Some s /\ parsed f = Some q /\ read_as (codes name) (codes role) s q.
Proof.
  intros N R W S. destruct (printed_read eqi name role f N R W) as [s [q [P [Q H]]]]. exists s, q.
  rewrite <- (proj2 (reading_exact eqi f W) S). auto.
Qed.
Print Assumptions C106_partial.
Example C106_case : lower_name "ax1" /\ lower_name "axiom" /\ writable 0 good_form /\ scoped good_form /\
  print_form default_printer 0 good_form = Some (codes "~((! [X]: ? [Y]: p(f(X), Y)) => q) & $less(q, q) & (! [X, Y]: X = Y)").
Proof. exact (conj name_ax (conj name_axiom (conj good_writable (conj good_scoped good_text)))). Qed.
(** for every formula of FOF: what is read, and when it is the formula *)
Theorem C106_exact_partial eqi name role f : lower_name name -> lower_name role -> writable eqi f ->
  (exists s q, print_form default_printer eqi f = Some s /\ fof_reading f = Some q /\ read_as (codes name) (codes role) s q) /\
  (fof_reading f = parsed f <-> scoped f).
Proof. exact (fun N R W => conj (printed_read eqi name role f N R W) (reading_exact eqi f W)). Qed.
Print Assumptions C106_exact_partial.
Example C106_exact_case : lower_name "ax1" /\ lower_name "axiom" /\ writable 0 sc_form /\ fof_reading sc_form = Some sc_read /\ parsed sc_form = Some sc_true.
Proof. exact (conj name_ax (conj name_axiom (conj sc_writable (conj eq_refl eq_refl)))). Qed.

(** C107: the grammar of the FOF formulas is not ambiguous *)
Theorem C107 ts f g : fof_logic ts f -> fof_logic ts g -> f = g.
Proof. exact (fof_unambiguous ts f g). Qed.
Print Assumptions C107.
(** and the end of a formula is determined by what follows *)
Theorem C107_end ts f r ts' g r' : fof_logic ts f -> fof_logic ts' g -> no_op r -> no_op r' -> ts ++ r = ts' ++ r' -> f = g /\ r = r'.
Proof. exact (fof_prefix_unique ts f r ts' g r'). Qed.
Print Assumptions C107_end.
Example C107_case : fof_logic [LOWER_WORD (codes "p"); VLINE; NOT; LOWER_WORD (codes "q"); VLINE; UPPER_WORD (codes "X"); EQUAL; UPPER_WORD (codes "X")]
  (PBin PBinaryOr (PBin PBinaryOr (PPred "p" []) (PNeg (PPred "q" []))) (PPred "=" [PVar "X"; PVar "X"])).
Proof.
  apply (fl_assoc _ _ VLINE PBinaryOr as_or).
  apply (fc_more VLINE PBinaryOr [LOWER_WORD (codes "p"); VLINE; NOT; LOWER_WORD (codes "q")] _ [UPPER_WORD (codes "X"); EQUAL; UPPER_WORD (codes "X")]).
  - apply (fc_two VLINE PBinaryOr [LOWER_WORD (codes "p")] _ [NOT; LOWER_WORD (codes "q")]).
    + apply fu_atomic, at_const, ff_lower.
    + apply fu_not, fu_atomic, at_const, ff_lower.
  - apply fu_atomic. apply (at_eq [_] _ [_]); apply ft_var.
Qed.
Example C107_end_case : fof_logic [TRUE] PTop /\ no_op [RIGHT_PAREN; DOT].
Proof. exact (conj (fl_unit _ _ (fu_atomic _ _ at_true)) Logic.I). Qed.

(** C108 is false with metavariables: only the name of the variable is printed *)
Theorem C108_refuted : exists eqi i m m' s, print_form default_printer eqi (Pred 0 i [] [Meta m; Meta m']) = Some s /\
  print_form default_printer eqi (Pred 0 i [] [Meta m; Meta m]) = Some s /\ m_index m <> m_index m'.
Proof. exact (ex_intro _ 0 (ex_intro _ (mkId 1 "p") (ex_intro _ m_one (ex_intro _ m_two (ex_intro _ _ metas_same))))). Qed.
Print Assumptions C108_refuted.
(** two formulas of FOF with the same text are the same formula *)
Theorem C108_partial eqi f g s : writable eqi f -> writable eqi g ->
  print_form default_printer eqi f = Some s -> print_form default_printer eqi g = Some s -> parsed f = parsed g.
Proof. exact (printed_injective eqi f g s). Qed.
Print Assumptions C108_partial.
(** because a reader for which the body of a quantifier goes as far as possible reads the formula, and nothing else *)
Theorem C108_wide_partial eqi name role f : lower_name name -> lower_name role -> writable eqi f ->
  exists s q ts, print_form default_printer eqi f = Some s /\ parsed f = Some q /\
    (forall n e, exists st, lex_file (fof_line (codes name) (codes role) s) n e = Some (line_tokens (codes name) (codes role) ts, st)) /\
    wide_logic ts q /\ forall q', wide_logic ts q' -> q' = q.
Proof. exact (printed_wide eqi name role f). Qed.
Print Assumptions C108_wide_partial.
Example C108_case : writable 0 sc_form /\ print_form default_printer 0 sc_form = Some (codes "! [X]: p(X) => q") /\
  writable 0 good_form /\ print_form default_printer 0 good_form = Some (codes "~((! [X]: ? [Y]: p(f(X), Y)) => q) & $less(q, q) & (! [X, Y]: X = Y)").
Proof. exact (conj sc_writable (conj eq_refl (conj good_writable good_text))). Qed.
