(** What a TPTP file is made of, following the lexical rules of the TPTP grammar quoted in
    src/Parser/tptp_lex.go (comments of lines 96-98, 337-350, 414-420, 518-785), and written
    independently of the functions of Lexer_Model.v: only the tokens are shared. *)
From Coq Require Import ZArith List Bool.
From Verif Require Import Lexer_Model.
Import ListNotations.
Open Scope Z_scope.

(** ** Character classes *)

Definition upper_alpha (c : Z) : Prop := 65 <= c <= 90.
Definition lower_alpha (c : Z) : Prop := 97 <= c <= 122.
Definition numeric (c : Z) : Prop := 48 <= c <= 57.
Definition alphabetic (c : Z) : Prop := upper_alpha c \/ lower_alpha c.
Definition alpha_num (c : Z) : Prop := alphabetic c \/ numeric c \/ c = 95.
Definition ascii_printable (c : Z) : Prop := 32 <= c <= 126.
(** the characters of a single-quoted word and of a distinct object *)
Definition sq_plain (c : Z) : Prop := ascii_printable c /\ c <> 39 /\ c <> 92.
Definition do_plain (c : Z) : Prop := ascii_printable c /\ c <> 34 /\ c <> 92.

(** ** Spaces and comments *)

Inductive blank : Type :=
| BChar (c : Z)            (* a space, a tabulation, an end of line *)
| BLine (text : list Z)    (* % text, up to the end of the line *)
| BBlock (text : list Z).  (* /* text */ *)

(** no "*/" before the end of the comment *)
Fixpoint no_close (text : list Z) : Prop :=
  match text with
  | a :: ((b :: _) as r) => ~ (a = 42 /\ b = 47) /\ no_close r
  | _ => True
  end.

Definition blank_ok (b : blank) : Prop :=
  match b with
  | BChar c => c = 32 \/ c = 9 \/ c = 10 \/ c = 13
  | BLine text => Forall ascii_printable text
  | BBlock text => no_close (text ++ [42])
  end.
Definition blank_text (b : blank) : list Z :=
  match b with
  | BChar c => [c]
  | BLine text => 37 :: text ++ [10]
  | BBlock text => 47 :: 42 :: text ++ [42; 47]
  end.
Definition blanks_text (l : list blank) : list Z := flat_map blank_text l.

(** ** Quoted words *)

Inductive qchar : Type := Plain (c : Z) | Escaped (c : Z).
Definition qchar_ok (plain : Z -> Prop) (quote : Z) (q : qchar) : Prop :=
  match q with Plain c => plain c | Escaped c => c = 92 \/ c = quote end.
Definition qchar_text (q : qchar) : list Z := match q with Plain c => [c] | Escaped c => [92; c] end.
(** The string that stands for the word: the characters themselves; an escaped character is written as
    the UTF-8 form of the rune 92 + c, which is not the character: a tilde for the double quote, two bytes
    for the single quote and the backslash. *)
Definition qchar_value (q : qchar) : list Z :=
  match q with Plain c => [c] | Escaped c => if c =? 34 then [126] else [194; 92 + c] end.

(** ** Numbers *)

Definition decimal_text (w : list Z) : Prop :=
  w = [48] \/ exists d ds, w = d :: ds /\ 49 <= d <= 57 /\ Forall numeric ds.
Definition positive_text (w : list Z) : Prop :=
  exists d ds, w = d :: ds /\ 49 <= d <= 57 /\ Forall numeric ds.
Definition digits_text (w : list Z) : Prop := w <> [] /\ Forall numeric w.
(** .5 *)
Definition fraction_text (w : list Z) : Prop := exists ds, w = 46 :: ds /\ digits_text ds.
(** e5, E+5, e-5 *)
Definition exponent_text (w : list Z) : Prop :=
  exists e s ds, w = e :: s ++ ds /\ (e = 101 \/ e = 69) /\ (s = [] \/ s = [43] \/ s = [45]) /\ digits_text ds.

Definition unsigned_real_text (w : list Z) : Prop :=
  exists d f e, w = d ++ f ++ e /\ decimal_text d /\
    ((fraction_text f /\ e = []) \/ (fraction_text f /\ exponent_text e) \/ (f = [] /\ exponent_text e)).
Definition unsigned_rational_text (w : list Z) : Prop :=
  exists d p, w = d ++ 47 :: p /\ decimal_text d /\ positive_text p.
(** no sign or - ; the grammar of TPTP allows + too *)
Definition with_sign (p : list Z -> Prop) (w : list Z) : Prop := p w \/ exists v, w = 45 :: v /\ p v.

(** ** Lexemes: the text of one token *)

(** $true, $false, $fot, $fof, $tff, without the dollar *)
Definition w_true : list Z := [116; 114; 117; 101].
Definition w_false : list Z := [102; 97; 108; 115; 101].
Definition reserved : list (list Z) := [[102; 111; 116]; [102; 111; 102]; [116; 102; 102]].

Inductive keyword : list Z -> token -> Prop :=
| k_fof : keyword [102; 111; 102] FOF
| k_cnf : keyword [99; 110; 102] CNF
| k_thf : keyword [116; 104; 102] THF
| k_tff : keyword [116; 102; 102] TFF
| k_tcf : keyword [116; 99; 102] TCF
| k_tpi : keyword [116; 112; 105] TPI
| k_include : keyword [105; 110; 99; 108; 117; 100; 101] INCLUDE.

Inductive sign : list Z -> token -> Prop :=
(* punctuation *)
| p_lparen : sign [40] LEFT_PAREN | p_rparen : sign [41] RIGHT_PAREN | p_comma : sign [44] COMMA | p_dot : sign [46] DOT
| p_lbracket : sign [91] LEFT_BRACKET | p_rbracket : sign [93] RIGHT_BRACKET | p_colon : sign [58] COLON
(* operators *)
| o_forall : sign [33] FORALL | o_exists : sign [63] EXISTS | o_forall_type : sign [33; 62] FORALL_TYPE
| o_not : sign [126] NOT | o_vline : sign [124] VLINE | o_and : sign [38] AND
| o_equiv : sign [60; 61; 62] EQUIV | o_imply : sign [61; 62] IMPLY | o_left_imply : sign [60; 61] LEFT_IMPLY
| o_xor : sign [60; 126; 62] XOR | o_notvline : sign [126; 124] NOTVLINE | o_notand : sign [126; 38] NOTAND
| o_star : sign [42] STAR | o_plus : sign [43] PLUS | o_subtype : sign [60; 60] SUBTYPE
(* predicates *)
| r_equal : sign [61] EQUAL | r_not_equal : sign [33; 61] NOT_EQUAL
(* special characters *)
| s_arrow : sign [62] ARROW | s_less : sign [60] LESS_SIGN | s_hash : sign [35] HASH | s_slash : sign [47] SLASH
| s_slosh : sign [92] SLOSH | s_dash : sign [45] DASH.

Inductive lexeme : list Z -> token -> Prop :=
| l_keyword w t : keyword w t -> lexeme w t
| l_sign w t : sign w t -> lexeme w t
| l_true : lexeme (36 :: w_true) TRUE
| l_false : lexeme (36 :: w_false) FALSE
| l_single l : Forall (qchar_ok sq_plain 39) l ->
    lexeme (39 :: flat_map qchar_text l ++ [39]) (SINGLE_QUOTED (flat_map qchar_value l))
| l_distinct l : Forall (qchar_ok do_plain 34) l ->
    lexeme (34 :: flat_map qchar_text l ++ [34]) (DISTINCT_OBJECT (flat_map qchar_value l))
| l_upper c w : upper_alpha c -> Forall alpha_num w -> lexeme (c :: w) (UPPER_WORD (c :: w))
| l_lower c w : lower_alpha c -> Forall alpha_num w -> lexeme (c :: w) (LOWER_WORD (c :: w))
| l_dollar w : w <> [] -> Forall alpha_num w -> ~ In w reserved -> lexeme (36 :: w) (DOLLAR_WORD (36 :: w))
| l_dollar_fot : lexeme [36; 102; 111; 116] DOLLAR_FOT
| l_dollar_fof : lexeme [36; 102; 111; 102] DOLLAR_FOF
| l_dollar_tff : lexeme [36; 116; 102; 102] DOLLAR_TFF
| l_real w : with_sign unsigned_real_text w -> lexeme w (REAL w)
| l_rational w : with_sign unsigned_rational_text w -> lexeme w (RATIONAL w)
| l_integer w : with_sign decimal_text w -> lexeme w (INTEGER w).

(** ** Which texts may follow a lexeme *)

Definition next_is (c : Z) (rest : list Z) : Prop := hd_error rest = Some c.
(** the next character is an ASCII character that does not continue a word *)
Definition word_ends (rest : list Z) : Prop :=
  exists c, hd_error rest = Some c /\ 0 <= c < 128 /\ ~ alpha_num c.
Definition number_ends (rest : list Z) : Prop :=
  exists c d r, rest = c :: d :: r /\ ~ numeric c /\ c <> 46 /\ c <> 101 /\ c <> 69 /\ c <> 47.

Definition follows (w : list Z) (t : token) (rest : list Z) : Prop :=
  match t with
  | FOF | CNF | THF | TFF | TCF | TPI | INCLUDE => next_is 40 rest
  | FORALL | EXISTS => next_is 32 rest
  | NOT => ~ next_is 124 rest /\ ~ next_is 38 rest
  | LEFT_IMPLY | EQUAL => ~ next_is 62 rest
  | LESS_SIGN => ~ next_is 61 rest /\ ~ next_is 126 rest /\ ~ next_is 60 rest
  | SLASH => ~ next_is 42 rest
  | DASH => exists c, hd_error rest = Some c /\ ~ numeric c
  | LOWER_WORD _ | UPPER_WORD _ => word_ends rest /\ ~ ((exists k, keyword w k) /\ next_is 40 rest)
  | TRUE | FALSE | DOLLAR_FOT | DOLLAR_FOF | DOLLAR_TFF => word_ends rest
  (* the letters at the beginning of the word are not "true" or "false" *)
  | DOLLAR_WORD v => word_ends rest /\
      forall r, v = 36 :: w_true ++ r \/ v = 36 :: w_false ++ r -> exists c r', r = c :: r' /\ alphabetic c
  | INTEGER _ | REAL _ | RATIONAL _ => number_ends rest
  | _ => True
  end.

(** ** Files: lexemes, each followed by spaces and comments, the last character is an end of line *)

Definition item : Type := (list Z * token * list blank)%type.
Fixpoint text (l : list item) : list Z :=
  match l with
  | [] => [10]
  | (w, _, bl) :: r => w ++ blanks_text bl ++ text r
  end.
Fixpoint items_ok (l : list item) : Prop :=
  match l with
  | [] => True
  | (w, t, bl) :: r =>
    lexeme w t /\ Forall blank_ok bl /\ follows w t (blanks_text bl ++ text r) /\ items_ok r
  end.
Definition tokens (l : list item) : list token := map (fun '(_, t, _) => t) l.

(** the first character of the file is a space, a comment, or the beginning of a keyword *)
Definition starts_well (bl : list blank) (l : list item) : Prop :=
  bl <> [] \/ match l with [] => True | (w, t, _) :: _ => keyword w t end.

Definition file_text (bl : list blank) (l : list item) : list Z := blanks_text bl ++ text l.
Definition file_ok (bl : list blank) (l : list item) : Prop :=
  Forall blank_ok bl /\ items_ok l /\ starts_well bl l.
