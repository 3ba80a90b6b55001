(** Formulas, their texts, and what is read (C106-C108). *)
From Coq Require Import ZArith String List Bool Lia.
From Verif Require Import Ast_Model Lexer_Model Lexer_Spec Elab_Model Print_Model Print_Spec Fof_Proofs Print_Proofs Print_Wide Print_Narrow.
Import ListNotations.
Open Scope string_scope.
Open Scope list_scope.
Open Scope Z_scope.

(** the equality has index 0 *)
Definition w_eq : ident := mkId 0 "=".
Definition w_i : ty := TyConstr "$i" [].
Definition w_vx : tvar := mkTV "X" 0 w_i.
Definition w_vy : tvar := mkTV "Y" 1 w_i.
Definition w_x : term := Var 0 "X".
Definition w_y : term := Var 1 "Y".
Definition w_p (l : list term) : form := Pred 0 (mkId 1 "p") [] l.
Definition w_q : form := Pred 0 (mkId 2 "q") [] [].

Ltac chars := repeat (apply Forall_cons; [unfold alpha_num, alphabetic, lower_alpha, upper_alpha, numeric; lia |]); apply Forall_nil.
Lemma name_p : lower_name "p".
Proof. exists 112, []. split; [reflexivity |]. split; [unfold lower_alpha; lia |]. split; [constructor |]. intros k H. inversion H. Qed.
Lemma name_q : lower_name "q".
Proof. exists 113, []. split; [reflexivity |]. split; [unfold lower_alpha; lia |]. split; [constructor |]. intros k H. inversion H. Qed.
Lemma name_f : lower_name "f".
Proof. exists 102, []. split; [reflexivity |]. split; [unfold lower_alpha; lia |]. split; [constructor |]. intros k H. inversion H. Qed.
Lemma name_less : dollar_name "$less".
Proof.
  exists [108; 101; 115; 115]. split; [reflexivity |]. split; [discriminate |].
  split; [chars |].
  split; [cbv; intuition discriminate |]. intros r [H | H]; discriminate.
Qed.
Lemma name_x : variable_name "X".
Proof. exists 88, []. split; [reflexivity |]. split; [unfold upper_alpha; lia |]. constructor. Qed.
Lemma name_y : variable_name "Y".
Proof. exists 89, []. split; [reflexivity |]. split; [unfold upper_alpha; lia |]. constructor. Qed.
Lemma name_ax : lower_name "ax1".
Proof.
  exists 97, [120; 49]. split; [reflexivity |]. split; [unfold lower_alpha; lia |].
  split; [chars |]. intros k H. inversion H.
Qed.
Lemma name_axiom : lower_name "axiom".
Proof.
  exists 97, [120; 105; 111; 109]. split; [reflexivity |]. split; [unfold lower_alpha; lia |].
  split; [chars |]. intros k H. inversion H.
Qed.

(** ** All X. (p(X) => q) is printed without parentheses *)
Definition sc_form : form := All 0 [w_vx] (Imp 0 (w_p [w_x]) w_q).
Definition sc_true : pform := PQuant PQuantAll [("X", pty_const "$i")] (PBin PBinaryImp (PPred "p" [PVar "X"]) (PPred "q" [])).
Definition sc_read : pform := PBin PBinaryImp (PQuant PQuantAll [("X", pty_const "$i")] (PPred "p" [PVar "X"])) (PPred "q" []).
Lemma sc_writable : writable 0 sc_form.
Proof.
  split; [discriminate |]. split; [repeat constructor; exact name_x |]. split.
  - right. split; [discriminate |]. split; [left; exact name_p |]. split; [reflexivity |]. repeat constructor. exact name_x.
  - right. split; [discriminate |]. split; [left; exact name_q |]. split; [reflexivity |]. constructor.
Qed.
Lemma sc_wrong : writable 0 sc_form /\ print_form default_printer 0 sc_form = Some (codes "! [X]: p(X) => q") /\
  parsed sc_form = Some sc_true /\ read_as (codes "ax1") (codes "axiom") (codes "! [X]: p(X) => q") sc_read /\ sc_read <> sc_true.
Proof.
  split; [exact sc_writable |]. split; [reflexivity |]. split; [reflexivity |]. split; [| discriminate].
  destruct (printed_read 0 "ax1" "axiom" sc_form name_ax name_axiom sc_writable) as [s [q [P [Q R]]]].
  injection P as <-. injection Q as <-. exact R.
Qed.

(** ** ~ ! [X]: ? [Y]: ~ (p(f(X), Y)) and an equality *)
Definition good_form : form :=
  And 0 [Not 0 (Imp 0 (All 0 [w_vx] (Ex 0 [w_vy] (w_p [Fun (mkId 3 "f") [] [w_x]; w_y]))) w_q);
         Pred 0 (mkId 4 "$less") [] [Fun (mkId 5 "q") [] []; Fun (mkId 5 "q") [] []];
         All 0 [w_vx; w_vy] (Pred 0 w_eq [w_i] [w_x; w_y])].
Lemma good_writable : writable 0 good_form.
Proof.
  split; [cbn; lia |]. split; [| split; [| split; [| exact Logic.I]]].
  - split.
    + split; [discriminate |]. split; [repeat constructor; exact name_x |].
      split; [discriminate |]. split; [repeat constructor; exact name_y |].
      right. split; [discriminate |]. split; [left; exact name_p |]. split; [reflexivity |].
      constructor; [| constructor; [exact name_y | constructor]].
      split; [discriminate |]. split; [left; exact name_f |]. split; [reflexivity |]. split; [exact name_x | exact Logic.I].
    + right. split; [discriminate |]. split; [left; exact name_q |]. split; [reflexivity |]. constructor.
  - right. split; [discriminate |]. split; [right; exact name_less |]. split; [reflexivity |].
    assert (Q : writable_term 0 (Fun (mkId 5 "q") [] [])).
    { split; [discriminate |]. split; [left; exact name_q |]. split; [reflexivity | exact Logic.I]. }
    constructor; [exact Q | constructor; [exact Q | constructor]].
  - split; [discriminate |]. split; [repeat constructor; try exact name_x; exact name_y |].
    left. split; [reflexivity |]. split; [reflexivity |]. exists w_x, w_y. split; [reflexivity |]. split; [exact name_x | exact name_y].
Qed.
Lemma good_scoped : scoped good_form.
Proof. cbn. tauto. Qed.
Lemma good_text : print_form default_printer 0 good_form =
  Some (codes "~((! [X]: ? [Y]: p(f(X), Y)) => q) & $less(q, q) & (! [X, Y]: X = Y)").
Proof. reflexivity. Qed.

(** ** A predicate whose name was written between quotes *)
Definition quoted_form : form := Pred 0 (mkId 6 "P") [] [].
Lemma quoted_unread : print_form default_printer 0 quoted_form = Some (codes "P") /\
  (exists st, lex_file (fof_line (codes "ax1") (codes "axiom") (codes "P")) 0 false = Some (line_tokens (codes "ax1") (codes "axiom") [UPPER_WORD (codes "P")], st)) /\
  parsed quoted_form = Some (PPred "P" []) /\
  fof_logic [SINGLE_QUOTED (codes "P")] (PPred "P" []) /\ forall q, ~ fof_logic [UPPER_WORD (codes "P")] q.
Proof.
  split; [reflexivity |]. split; [eexists; vm_compute; reflexivity |]. split; [reflexivity |].
  split; [apply fl_unit; apply fu_atomic; apply at_const; apply ff_single |].
  intros q H. destruct forms_read as [L _]. destruct (L _ q H) as [n0 E].
  assert (X := E (S (S (S n0))) [] ltac:(lia) Logic.I). cbn in X. discriminate.
Qed.

(** ** A variable whose type is not $i *)
Definition int_form : form := All 0 [mkTV "X" 0 (TyConstr "$int" [])] (w_p [w_x]).
Lemma int_lost : print_form default_printer 0 int_form = Some (codes "! [X]: p(X)") /\
  parsed int_form = Some (PQuant PQuantAll [("X", pty_const "$int")] (PPred "p" [PVar "X"])) /\
  read_as (codes "ax1") (codes "axiom") (codes "! [X]: p(X)") (PQuant PQuantAll [("X", pty_const "$i")] (PPred "p" [PVar "X"])).
Proof.
  split; [reflexivity |]. split; [reflexivity |].
  assert (W : writable 0 (All 0 [w_vx] (w_p [w_x]))).
  { split; [discriminate |]. split; [repeat constructor; exact name_x |].
    right. split; [discriminate |]. split; [left; exact name_p |]. split; [reflexivity |]. repeat constructor. exact name_x. }
  destruct (printed_read 0 "ax1" "axiom" _ name_ax name_axiom W) as [s [q [P [Q R]]]].
  injection P as <-. injection Q as <-. exact R.
Qed.

(** ** Two metavariables of the same variable have the same text *)
Definition m_one : meta := mkMeta 10 0 "X" 1 w_i.
Definition m_two : meta := mkMeta 11 1 "X" 1 w_i.
Lemma metas_same : print_form default_printer 0 (w_p [Meta m_one; Meta m_two]) = Some (codes "p(X, X)") /\
  print_form default_printer 0 (w_p [Meta m_one; Meta m_one]) = Some (codes "p(X, X)") /\ m_index m_one <> m_index m_two.
Proof. split; [reflexivity |]. split; [reflexivity |]. discriminate. Qed.
