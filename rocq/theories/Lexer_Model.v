(** Model of src/Parser/tptp_lex.go: the lexer of TPTP files.

    A file is a list of bytes.  The lexer keeps a position and the current character: here the bytes
    already read, the last one first, and the bytes to come; the current character is the last one read
    (0 before the first one, the zero value of the field).

    Simplifications:
    - the line counter is left out (messages);
    - a Go run-time error is recovered by ParseTPTPFile (836-840) and becomes Glob.Fatal: run-time errors
      and lexer.Error are both [None], the process stops with a message;
    - yylval.str is the value of the token (word sets it to the empty string before the only code that
      reads it, number: 424, 503-512). *)
From Coq Require Import ZArith List Bool.
Import ListNotations.
Open Scope Z_scope.

(** ** Characters *)

(** unicode.IsLetter, IsUpper, IsLower, IsDigit on the runes 0-255 *)
Definition within (a b c : Z) : bool := (a <=? c) && (c <=? b).
Definition is_upper (c : Z) : bool := within 65 90 c || within 192 214 c || within 216 222 c.
Definition is_lower (c : Z) : bool := within 97 122 c || (c =? 181) || within 223 246 c || within 248 255 c.
Definition is_letter (c : Z) : bool := is_upper c || is_lower c || (c =? 170) || (c =? 186).
Definition is_digit (c : Z) : bool := within 48 57 c.

(** string(rune): UTF-8 *)
Definition utf8 (c : Z) : list Z := if c <? 128 then [c] else [192 + c / 64; 128 + c mod 64].

(** ** Tokens: tptp_parse.y:79-94, [EOF] is FAILURE_TOKEN (49-51), which is the end of the input for the
    parser *)
Inductive token : Type :=
| EOF
| FOF | CNF | THF | TFF | TCF | TPI | INCLUDE | DOLLAR_FOT | DOLLAR_FOF | DOLLAR_TFF
| LEFT_PAREN | RIGHT_PAREN | COMMA | DOT | LEFT_BRACKET | RIGHT_BRACKET | COLON
| FORALL | EXISTS | NOT | VLINE | AND | EQUIV | IMPLY | LEFT_IMPLY | XOR | NOTVLINE | NOTAND | STAR | PLUS
| FORALL_TYPE | SUBTYPE
| EQUAL | NOT_EQUAL | TRUE | FALSE
| SINGLE_QUOTED (s : list Z) | DISTINCT_OBJECT (s : list Z)
| DOLLAR_DOLLAR_WORD (s : list Z) | DOLLAR_WORD (s : list Z) | UPPER_WORD (s : list Z) | LOWER_WORD (s : list Z)
| ARROW | LESS_SIGN | HASH | SLASH | SLOSH | DASH
| INTEGER (s : list Z) | REAL (s : list Z) | RATIONAL (s : list Z).

(** ** State: 43-47 TPTPLex; tptp_parse.y:40-41 the two global counters *)
Record lexer : Type := mkL { before : list Z; after : list Z; quantifiers : Z; has_eq : bool }.
Definition cur (l : lexer) : Z := hd 0 (before l).
Definition pos (l : lexer) : nat := length (before l).
Definition count_quantifier (l : lexer) : lexer := mkL (before l) (after l) (quantifiers l + 1) (has_eq l).
Definition set_eq (l : lexer) : lexer := mkL (before l) (after l) (quantifiers l) true.

(** 72-75 advance *)
Definition advance (l : lexer) : option lexer :=
  match after l with [] => None | x :: r => Some (mkL (x :: before l) r (quantifiers l) (has_eq l)) end.
(** 64-70 checkAdvance *)
Definition check_advance (c : Z) (l : lexer) : bool * lexer :=
  match after l with
  | x :: r => if x =? c then (true, mkL (x :: before l) r (quantifiers l) (has_eq l)) else (false, l)
  | [] => (false, l)
  end.
(** 77-85 remove, for a number of characters that is not negative *)
Fixpoint back (n : nat) (b a : list Z) : option (list Z * list Z) :=
  match n with
  | O => Some (b, a)
  | S n => match b with [] => None | x :: b => back n b (x :: a) end
  end.
Definition remove (n : nat) (l : lexer) : option lexer :=
  match back n (before l) (after l) with
  | None => None
  | Some ([], a) => match a with [] => None | x :: a => Some (mkL [x] a (quantifiers l) (has_eq l)) end
  | Some (b, a) => Some (mkL b a (quantifiers l) (has_eq l))
  end.
(** remove(len(word) - 1): with an empty word one character is taken instead *)
Definition remove_word (w : list Z) (l : lexer) : option lexer :=
  match w with [] => advance l | _ :: r => remove (length r) l end.
(** 87-90 checkNext *)
Definition check_next (c : Z) (l : lexer) : option bool :=
  match after l with [] => None | x :: _ => Some (x =? c) end.
(** pos >= len(s) *)
Definition at_end (l : lexer) : bool := match after l with [] => true | _ => false end.

Notation "'ldo' p <- x ; y" := (match x with Some p => y | None => None end)
  (at level 61, p pattern, x at next level, right associativity).

(** ** Spaces and comments *)

(** 147-149 isPrintableChar *)
Definition is_printable (c : Z) : bool := within 32 126 c.
Definition is_space (c : Z) : bool := (c =? 32) || (c =? 10) || (c =? 13) || (c =? 9).

(** the loops  for pos < len(s) && p(c) { word += string(c); advance() }  : result word, read, to come *)
Fixpoint read_while (p : Z -> bool) (b a w : list Z) : list Z * list Z * list Z :=
  match a with
  | [] => (w, b, a)
  | x :: a' => if p (hd 0 b) then read_while p (x :: b) a' (w ++ utf8 (hd 0 b)) else (w, b, a)
  end.
Definition skip_while (p : Z -> bool) (l : lexer) : lexer :=
  let '(_, b, a) := read_while p (before l) (after l) [] in mkL b a (quantifiers l) (has_eq l).

(** 110-115 and 152-154: the loop on the text of a block comment *)
Fixpoint block (b a : list Z) : list Z * list Z :=
  match a with
  | [] => (b, a)
  | x :: a' => if hd 0 b =? 42 then (if x =? 47 then (x :: b, a') else block (x :: b) a') else block (x :: b) a'
  end.

(** 100-130 filterComments; [false]: the next char is EOF *)
Definition filter_comments (l : lexer) : option (bool * lexer) :=
  if cur l =? 37 then
    ldo l <- advance l;
    let l := skip_while is_printable l in
    Some (negb (at_end l), l)
  else if cur l =? 47 then
    let '(ok, l) := check_advance 42 l in
    if ok then
      ldo l <- advance l;
      let '(b, a) := block (before l) (after l) in
      let l := mkL b a (quantifiers l) (has_eq l) in
      if at_end l then None
      else
        ldo l <- (if nth 1 (before l) 0 =? 42 then advance l else Some l);
        Some (negb (at_end l), l)
    else Some (negb (at_end l), l)
  else Some (true, l).
(** 132-141 filterSpaces *)
Definition filter_spaces (l : lexer) : bool * lexer :=
  let l := skip_while is_space l in (negb (at_end l), l).

(** 794-801: the loop of Lex; [Some None]: end of file.  One more turn than the number of characters is enough. *)
Fixpoint skip (fuel : nat) (l : lexer) : option (option lexer) :=
  match fuel with
  | O => None
  | S fuel =>
    ldo (ok, l1) <- filter_comments l;
    if negb ok then Some None
    else
      let '(ok, l2) := filter_spaces l1 in
      if negb ok then Some None
      else if Nat.eqb (pos l) (pos l2) then Some (Some l2) else skip fuel l2
  end.

(** ** Syntactic tokens *)

Fixpoint word_eqb (a b : list Z) : bool :=
  match a, b with
  | [], [] => true
  | x :: a, y :: b => (x =? y) && word_eqb a b
  | _, _ => false
  end.
Fixpoint find_word (m : list (list Z * token)) (w : list Z) : option token :=
  match m with
  | [] => None
  | (k, t) :: m => if word_eqb k w then Some t else find_word m w
  end.

(** 865-876 manageFailableReturn *)
Definition failable (m : list (list Z * token)) (w : list Z) (l : lexer) : option (option token * lexer) :=
  match find_word m w with
  | Some t => Some (Some t, l)
  | None => match w with
            | [] | [_] => Some (None, l)
            | _ :: r => ldo l <- remove (length r) l; Some (None, l)
            end
  end.

(** 182-190: fof cnf thf tff tcf tpi include *)
Definition keywords : list (list Z * token) :=
  [([102; 111; 102], FOF); ([99; 110; 102], CNF); ([116; 104; 102], THF); ([116; 102; 102], TFF);
   ([116; 99; 102], TCF); ([116; 112; 105], TPI); ([105; 110; 99; 108; 117; 100; 101], INCLUDE)].
(** 161-193 isKeyword *)
Definition is_keyword (l : lexer) : option (option token * lexer) :=
  let '(w, b, a) := read_while is_letter (before l) (after l) [] in
  let l := mkL b a (quantifiers l) (has_eq l) in
  ldo l <- remove 1 l;
  match w with
  | [_] => Some (None, l)
  | _ =>
    ldo par <- check_next 40 l;
    if negb par then ldo l <- remove_word w l; Some (None, l)
    else failable keywords w l
  end.

(** 196-208 isPunctuation: ( ) , . [ ] : *)
Definition is_punctuation (l : lexer) : option token :=
  let c := cur l in
  if c =? 40 then Some LEFT_PAREN else if c =? 41 then Some RIGHT_PAREN else if c =? 44 then Some COMMA
  else if c =? 46 then Some DOT else if c =? 91 then Some LEFT_BRACKET else if c =? 93 then Some RIGHT_BRACKET
  else if c =? 58 then Some COLON else None.

(** 212-228 *)
Definition operators : list (list Z * token) :=
  [([33], FORALL); ([33; 62], FORALL_TYPE); ([63], EXISTS); ([126], NOT); ([124], VLINE); ([38], AND);
   ([60; 61; 62], EQUIV); ([61; 62], IMPLY); ([60; 61], LEFT_IMPLY); ([60; 126; 62], XOR); ([126; 124], NOTVLINE);
   ([126; 38], NOTAND); ([42], STAR); ([43], PLUS); ([60; 60], SUBTYPE)].
(** 211-276 isOperator *)
Definition is_operator (l : lexer) : option (option token * lexer) :=
  let c := cur l in
  if c =? 33 then
    let '(ok, l) := check_advance 62 l in
    if ok then failable operators [33; 62] (count_quantifier l)
    else if at_end l then failable operators [33] (count_quantifier l)
    else ldo sp <- check_next 32 l;
         if sp then failable operators [33] (count_quantifier l) else Some (None, l)
  else if c =? 63 then
    if at_end l then failable operators [63] (count_quantifier l)
    else ldo sp <- check_next 32 l;
         if sp then failable operators [63] (count_quantifier l) else Some (None, l)
  else if c =? 60 then
    let '(ok, l1) := check_advance 61 l in
    if ok then
      let '(ok, l2) := check_advance 62 l1 in
      failable operators (if ok then [60; 61; 62] else [60; 61]) l2
    else
      let '(ok, l1) := check_advance 126 l in
      if ok then
        let '(ok, l2) := check_advance 62 l1 in
        failable operators (if ok then [60; 126; 62] else [60]) l2
      else
        let '(ok, l1) := check_advance 60 l in
        failable operators (if ok then [60; 60] else [60]) l1
  else if c =? 61 then
    let '(ok, l) := check_advance 62 l in
    failable operators (if ok then [61; 62] else [61]) l
  else if c =? 126 then
    let '(ok, l1) := check_advance 124 l in
    if ok then failable operators [126; 124] l1
    else let '(ok, l1) := check_advance 38 l in
         failable operators (if ok then [126; 38] else [126]) l1
  else failable operators (utf8 c) l.

(** 280-285: = != $true $false *)
Definition predicates : list (list Z * token) :=
  [([61], EQUAL); ([33; 61], NOT_EQUAL); ([36; 116; 114; 117; 101], TRUE); ([36; 102; 97; 108; 115; 101], FALSE)].
(** 293-301: the loop on the letters after $, while len(s) > pos + 1 *)
Fixpoint dollar (b a w : list Z) : list Z * list Z * list Z :=
  match a with
  | [] | [_] => (w, b, a)
  | x :: a' => if is_letter x then dollar (x :: b) a' (w ++ utf8 x)
               else (w, b, a)
  end.
(** 279-311 isPredicate.  (After advance, remove(1) goes back to where the loop was.) *)
Definition is_predicate (l : lexer) : option (option token * lexer) :=
  let c := cur l in
  if c =? 36 then
    ldo l <- advance l;
    let '(w, b, a) := dollar (before l) (after l) ([36] ++ utf8 (cur l)) in
    failable predicates w (mkL b a (quantifiers l) (has_eq l))
  else if c =? 33 then
    let '(ok, l) := check_advance 61 l in
    failable predicates (if ok then [33; 61] else [33]) l
  else if c =? 61 then failable predicates [61] (set_eq l)
  else failable predicates (utf8 c) l.

(** 313-331 SyntacticLex *)
Definition syntactic (l : lexer) : option (option token * lexer) :=
  match is_punctuation l with
  | Some t => Some (Some t, l)
  | None =>
    ldo (t, l) <- is_operator l;
    match t with
    | Some t => Some (Some t, l)
    | None =>
      ldo (t, l) <- is_keyword l;
      match t with
      | Some t => Some (Some t, l)
      | None => is_predicate l
      end
    end
  end.

(** ** Quoted words *)

(** 399-402 isSqChar, 405-408 isDoChar *)
Definition is_sq_char (c : Z) : bool := within 32 38 c || within 40 91 c || within 93 126 c.
Definition is_do_char (c : Z) : bool := within 32 33 c || within 35 91 c || within 93 126 c.
(** 365-379 singleQuoted, 381-395 distinctObject; [q] is the quote.  [string('\\' + c)] is the rune whose
    number is the sum of the two. *)
Fixpoint quoted (p : Z -> bool) (q : Z) (b a w : list Z) : option (list Z * list Z * list Z) :=
  if hd 0 b =? 92 then
    match a with
    | [] => None
    | x :: a1 =>
      let w := if (x =? 92) || (x =? q) then w ++ utf8 (92 + x) else w in
      match a1 with
      | [] => None
      | y :: a2 => quoted p q (y :: x :: b) a2 w
      end
    end
  else if p (hd 0 b) then
    match a with
    | [] => None
    | y :: a1 => quoted p q (y :: b) a1 (w ++ utf8 (hd 0 b))
    end
  else Some (w, b, a).
(** 352-363 quotedWords *)
Definition quoted_words (l : lexer) : option (option token * lexer) :=
  if cur l =? 39 then
    ldo l <- advance l;
    ldo (w, b, a) <- quoted is_sq_char 39 (before l) (after l) [];
    Some (Some (SINGLE_QUOTED w), mkL b a (quantifiers l) (has_eq l))
  else if cur l =? 34 then
    ldo l <- advance l;
    ldo (w, b, a) <- quoted is_do_char 34 (before l) (after l) [];
    Some (Some (DISTINCT_OBJECT w), mkL b a (quantifiers l) (has_eq l))
  else Some (None, l).

(** ** Words *)

Definition is_alnum (c : Z) : bool := is_letter c || is_digit c || (c =? 95).
(** 459-467 alphaNumeric *)
Definition alpha_numeric (w : list Z) (l : lexer) : option (list Z * lexer) :=
  let '(w, b, a) := read_while is_alnum (before l) (after l) w in
  ldo l <- remove 1 (mkL b a (quantifiers l) (has_eq l));
  Some (w, l).
(** 421-456 word *)
Definition lex_word (l : lexer) : option (option token * lexer) :=
  if cur l =? 36 then
    let '(ok, l1) := check_advance 36 l in
    if ok then
      ldo l <- advance l1; ldo (w, l) <- alpha_numeric [36] l; Some (Some (DOLLAR_DOLLAR_WORD w), l)
    else
      ldo l <- advance l; ldo (w, l) <- alpha_numeric [36] l;
      Some (Some (if word_eqb w [36; 102; 111; 116] then DOLLAR_FOT
                  else if word_eqb w [36; 102; 111; 102] then DOLLAR_FOF
                  else if word_eqb w [36; 116; 102; 102] then DOLLAR_TFF
                  else DOLLAR_WORD w), l)
  else if is_upper (cur l) then ldo (w, l) <- alpha_numeric [] l; Some (Some (UPPER_WORD w), l)
  else if is_lower (cur l) then ldo (w, l) <- alpha_numeric [] l; Some (Some (LOWER_WORD w), l)
  else Some (None, l).

(** 480-497 specialChars *)
Definition special (l : lexer) : token :=
  let c := cur l in
  if c =? 62 then ARROW else if c =? 60 then LESS_SIGN else if c =? 35 then HASH else if c =? 47 then SLASH
  else if c =? 92 then SLOSH else if c =? 45 then DASH else EOF.

(** ** Numbers.  The functions give a boolean, the text read so far (yylval.str) and the state. *)

Definition nres : Type := option (bool * list Z * lexer).
(** a || b *)
Definition orelse (x : nres) (f : list Z -> lexer -> nres) : nres :=
  ldo (ok, w, l) <- x;
  if ok then Some (true, w, l) else f w l.

Definition is_sign (c : Z) : bool := (c =? 45) || (c =? 43).
Definition is_exponent (c : Z) : bool := (c =? 101) || (c =? 69).
Definition is_non_zero (c : Z) : bool := within 49 57 c.

(** 600-608, 628-636, 664-672: the loop on the digits, the step back, and one more character if it is the last but one *)
Definition digits (w : list Z) (l : lexer) : option (list Z * lexer) :=
  let '(w, b, a) := read_while is_digit (before l) (after l) w in
  ldo l <- remove 1 (mkL b a (quantifiers l) (has_eq l));
  Some (match after l with [_] => w ++ utf8 (cur l) | _ => w end, l).
(** 595-611 positiveDecimal *)
Definition positive_decimal (w : list Z) (l : lexer) : nres :=
  if is_non_zero (cur l) then ldo (w, l) <- digits w l; Some (true, w, l) else Some (false, w, l).
(** 586-592 decimal *)
Definition decimal (w : list Z) (l : lexer) : nres :=
  if cur l =? 48 then Some (true, w ++ [48], l) else positive_decimal w l.
(** 614-639 dotDecimal *)
Definition dot_decimal (w : list Z) (l : lexer) : nres :=
  if negb (cur l =? 46) then Some (false, w, l)
  else
    ldo l <- advance l;
    if negb (is_digit (cur l)) then ldo l <- remove 2 l; Some (false, w, l)
    else ldo (w, l) <- digits (w ++ [46]) l; Some (true, w, l).
(** 566-583 decimalFraction.  (len(str) - pos is at least 1 after decimal.) *)
Definition decimal_fraction (w : list Z) (l : lexer) : nres :=
  ldo (ok, w1, l) <- decimal w l;
  if negb ok then Some (false, w1, l)
  else
    ldo l <- advance l;
    ldo (ok, w2, l) <- dot_decimal w1 l;
    if ok then Some (true, w2, l)
    else
      ldo l <- remove 1 l;
      ldo l <- remove (length w2 - length w - 1) l;
      Some (false, firstn (length w) w2, l).
(** 659-675 unsignedExpInteger *)
Definition unsigned_exp_integer (w : list Z) (l : lexer) : nres :=
  if is_digit (cur l) then ldo (w, l) <- digits w l; Some (true, w, l) else Some (false, w, l).
(** 647-656 signedExpInteger *)
Definition signed_exp_integer (w : list Z) (l : lexer) : nres :=
  if is_sign (cur l) then ldo l' <- advance l; unsigned_exp_integer (w ++ [cur l]) l' else Some (false, w, l).
(** 642-644 expInteger *)
Definition exp_integer (w : list Z) (l : lexer) : nres :=
  orelse (signed_exp_integer w l) unsigned_exp_integer.
(** 546-563 decimalExponent *)
Definition decimal_exponent (w : list Z) (l : lexer) : nres :=
  ldo (ok, w1, l) <- orelse (decimal_fraction w l) decimal;
  if negb ok then Some (false, w1, l)
  else
    ldo l <- advance l;
    if negb (is_exponent (cur l)) then
      ldo l <- remove (length w1 - length w) l;
      Some (false, firstn (length w) w1, l)
    else
      ldo l' <- advance l;
      exp_integer (w1 ++ [cur l]) l'.
(** 541-543 unsignedReal *)
Definition unsigned_real (w : list Z) (l : lexer) : nres :=
  orelse (decimal_exponent w l) decimal_fraction.
(** 736-753 unsignedRational *)
Definition unsigned_rational (w : list Z) (l : lexer) : nres :=
  ldo (ok, w1, l) <- decimal w l;
  if negb ok then Some (false, w1, l)
  else
    ldo l <- advance l;
    if negb (cur l =? 47) then
      ldo l <- remove (length w1 - length w) l;
      Some (false, firstn (length w) w1, l)
    else
      ldo l <- advance l;
      positive_decimal (w1 ++ [47]) l.
(** 524-538 signedReal, 687-702 signedInteger, 719-733 signedRational *)
Definition signed (unsigned : list Z -> lexer -> nres) (w : list Z) (l : lexer) : nres :=
  if negb (is_sign (cur l)) then Some (false, w, l)
  else
    ldo l' <- advance l;
    ldo (ok, w1, l1) <- unsigned (w ++ [cur l]) l';
    if ok then Some (true, w1, l1)
    else ldo l <- remove 1 l1; Some (false, firstn (length w1 - 1) w1, l).
(** 519-521 real, 682-684 integer, 714-716 rational; 705-707 unsignedInteger is decimal *)
Definition number_of (unsigned : list Z -> lexer -> nres) (w : list Z) (l : lexer) : nres :=
  orelse (signed unsigned w l) unsigned.
(** 503-512 number *)
Definition lex_number (l : lexer) : option (option token * lexer) :=
  ldo (ok, w, l) <- number_of unsigned_real [] l;
  if ok then Some (Some (REAL w), l)
  else
    ldo (ok, w, l) <- number_of unsigned_rational w l;
    if ok then Some (Some (RATIONAL w), l)
    else
      ldo (ok, w, l) <- number_of decimal w l;
      if ok then Some (Some (INTEGER w), l) else Some (None, l).

(** ** 790-829 Lex.  (At the end of the file only the counters of the state that is given are meaningful.) *)
Definition lex_token (l : lexer) : option (token * lexer) :=
  ldo (t, l) <- syntactic l;
  match t with
  | Some t => Some (t, l)
  | None =>
    ldo (t, l) <- quoted_words l;
    match t with
    | Some t => Some (t, l)
    | None =>
      ldo (t, l) <- lex_word l;
      match t with
      | Some t => Some (t, l)
      | None =>
        ldo (t, l) <- lex_number l;
        match t with
        | Some t => Some (t, l)
        | None => Some (special l, l)
        end
      end
    end
  end.
Definition lex (l : lexer) : option (token * lexer) :=
  ldo l <- advance l;
  ldo r <- skip (S (length (after l))) l;
  match r with
  | None => Some (EOF, l)
  | Some l => lex_token l
  end.

(** The tokens that the parser gets, the end of the input left out: the parser does not ask for more.  The number of
    tokens asked for is bounded by [fuel]. *)
Fixpoint lex_all (fuel : nat) (l : lexer) : option (list token * lexer) :=
  match fuel with
  | O => None
  | S fuel =>
    ldo (t, l) <- lex l;
    match t with
    | EOF => Some ([], l)
    | _ => ldo (ts, l) <- lex_all fuel l; Some (t :: ts, l)
    end
  end.
Definition lex_file (s : list Z) (qn : Z) (eq : bool) : option (list token * lexer) :=
  lex_all (S (length s)) (mkL [] s qn eq).
