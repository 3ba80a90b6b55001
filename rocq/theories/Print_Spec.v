(** What the texts must say, independently of the functions of Print_Model.v: the grammar of the FOF formulas
    of src/Parser/tptp_parse.y on the tokens of the lexer, and the parsed formula that a formula of AST is. *)
From Coq Require Import ZArith List Bool String Ascii.
From Verif Require Import Ast_Model Lexer_Model Lexer_Spec Elab_Model Print_Model.
Import ListNotations.
Open Scope Z_scope.

(** ** The grammar: tptp_parse.y, section FOF *)

(** tptp_parse.y:564-570 atomic_word, atomic_defined_word; 484-494 functors and constants *)
Inductive fof_functor : token -> string -> Prop :=
| ff_lower s : fof_functor (LOWER_WORD (codes s)) s
| ff_single s : fof_functor (SINGLE_QUOTED (codes s)) s
| ff_dollar s : fof_functor (DOLLAR_WORD (codes s)) s.

(** 446-472 fof_term, fof_arguments and the kinds of terms; 502-508 defined_term, variable; 571-574 number *)
Inductive fof_term : list token -> pterm -> Prop :=
| ft_const t s : fof_functor t s -> fof_term [t] (PFun s [] None)
| ft_fun t s ts l : fof_functor t s -> fof_args ts l ->
    fof_term (t :: LEFT_PAREN :: ts ++ [RIGHT_PAREN]) (PFun s l None)
| ft_int s : fof_term [INTEGER (codes s)] (PFun s [] (Some p_int))
| ft_rat s : fof_term [RATIONAL (codes s)] (PFun s [] (Some p_rat))
| ft_real s : fof_term [REAL (codes s)] (PFun s [] (Some p_real))
| ft_distinct s : fof_term [DISTINCT_OBJECT (codes s)] (PFun s [] None)
| ft_var s : fof_term [UPPER_WORD (codes s)] (PVar s)
with fof_args : list token -> list pterm -> Prop :=
| fa_one ts t : fof_term ts t -> fof_args ts [t]
| fa_cons ts t ts' l : fof_term ts t -> fof_args ts' l -> fof_args (ts ++ COMMA :: ts') (t :: l).

(** 414-418 fof_variable_list *)
Inductive fof_vars : list token -> list (string * ptype) -> Prop :=
| fv_one s : fof_vars [UPPER_WORD (codes s)] [(s, pty_const "$i")]
| fv_cons s ts l : fof_vars ts l -> fof_vars (UPPER_WORD (codes s) :: COMMA :: ts) ((s, pty_const "$i") :: l).

(** 420-439 fof_atomic_formula *)
Inductive fof_atomic : list token -> pform -> Prop :=
| at_const t s : fof_functor t s -> fof_atomic [t] (PPred s [])
| at_pred t s ts l : fof_functor t s -> fof_args ts l ->
    fof_atomic (t :: LEFT_PAREN :: ts ++ [RIGHT_PAREN]) (PPred s l)
| at_true : fof_atomic [TRUE] PTop
| at_false : fof_atomic [FALSE] PBot
| at_eq ts t ts' t' : fof_term ts t -> fof_term ts' t' -> fof_atomic (ts ++ EQUAL :: ts') (PPred "=" [t; t']).

(** 370-376 fof_binary_nonassoc *)
Inductive nonassoc : token -> (pform -> pform -> pform) -> Prop :=
| na_equiv : nonassoc EQUIV (PBin PBinaryEqu)
| na_imply : nonassoc IMPLY (PBin PBinaryImp)
| na_left : nonassoc LEFT_IMPLY mk_previmp
| na_xor : nonassoc XOR mk_pxor
| na_notor : nonassoc NOTVLINE mk_pnotor
| na_notand : nonassoc NOTAND mk_pnotand.
(** 382-388 fof_or_formula, fof_and_formula *)
Inductive assoc : token -> pbinop -> Prop :=
| as_or : assoc VLINE PBinaryOr
| as_and : assoc AND PBinaryAnd.

(** 361-412 fof_logic_formula; [fof_unit] is fof_unit_formula, fof_unary_formula and fof_unitary_formula, which occur
    together wherever one of them does *)
Inductive fof_logic : list token -> pform -> Prop :=
| fl_unit ts f : fof_unit ts f -> fof_logic ts f
| fl_nonassoc ts f o mk ts' g : nonassoc o mk -> fof_unit ts f -> fof_unit ts' g -> fof_logic (ts ++ o :: ts') (mk f g)
| fl_assoc ts f o b : assoc o b -> fof_chain o b ts f -> fof_logic ts f
with fof_chain : token -> pbinop -> list token -> pform -> Prop :=
| fc_two o b ts f ts' g : fof_unit ts f -> fof_unit ts' g -> fof_chain o b (ts ++ o :: ts') (PBin b f g)
| fc_more o b ts f ts' g : fof_chain o b ts f -> fof_unit ts' g -> fof_chain o b (ts ++ o :: ts') (PBin b f g)
with fof_unit : list token -> pform -> Prop :=
| fu_not ts f : fof_unit ts f -> fof_unit (NOT :: ts) (PNeg f)
| fu_neq ts t ts' t' : fof_term ts t -> fof_term ts' t' -> fof_unit (ts ++ NOT_EQUAL :: ts') (PNeg (PPred "=" [t; t']))
| fu_all vs l ts f : fof_vars vs l -> fof_unit ts f ->
    fof_unit (FORALL :: LEFT_BRACKET :: vs ++ RIGHT_BRACKET :: COLON :: ts) (PQuant PQuantAll l f)
| fu_ex vs l ts f : fof_vars vs l -> fof_unit ts f ->
    fof_unit (EXISTS :: LEFT_BRACKET :: vs ++ RIGHT_BRACKET :: COLON :: ts) (PQuant PQuantEx l f)
| fu_atomic ts f : fof_atomic ts f -> fof_unit ts f
| fu_paren ts f : fof_logic ts f -> fof_unit (LEFT_PAREN :: ts ++ [RIGHT_PAREN]) f.

(** ** The parsed formula of a formula *)

(** only the types without arguments *)
Definition parsed_ty (t : ty) : option ptype := match t with TyConstr s [] => Some (pty_const s) | _ => None end.
Fixpoint somes {A} (l : list (option A)) : option (list A) :=
  match l with
  | [] => Some []
  | x :: r => match x, somes r with Some x, Some r => Some (x :: r) | _, _ => None end
  end.
Fixpoint parsed_term (t : term) : option pterm :=
  match t with
  | Fun f [] args => option_map (fun l => PFun (id_name f) l None) (somes (map parsed_term args))
  | Var _ n => Some (PVar n)
  | _ => None
  end.
Definition parsed_var (v : tvar) : option (string * ptype) := option_map (fun t => (tv_name v, t)) (parsed_ty (tv_ty v)).
(** a list of at least two formulas is a chain of binary connectives *)
Definition chain (b : pbinop) (l : list pform) : option pform :=
  match l with
  | x :: y :: r => Some (fold_left (PBin b) r (PBin b x y))
  | _ => None
  end.
Fixpoint parsed (f : form) : option pform :=
  match f with
  | All _ vs g => match somes (map parsed_var vs), parsed g with Some l, Some q => Some (PQuant PQuantAll l q) | _, _ => None end
  | Ex _ vs g => match somes (map parsed_var vs), parsed g with Some l, Some q => Some (PQuant PQuantEx l q) | _, _ => None end
  | Or _ fs => match somes (map parsed fs) with Some l => chain PBinaryOr l | None => None end
  | And _ fs => match somes (map parsed fs) with Some l => chain PBinaryAnd l | None => None end
  | Equ _ a b => match parsed a, parsed b with Some a, Some b => Some (PBin PBinaryEqu a b) | _, _ => None end
  | Imp _ a b => match parsed a, parsed b with Some a, Some b => Some (PBin PBinaryImp a b) | _, _ => None end
  | Not _ g => option_map PNeg (parsed g)
  | Pred _ i tys args => option_map (PPred (id_name i)) (somes (map parsed_term args))
  | Top _ => Some PTop
  | Bot _ => Some PBot
  end.

(** ** Names and formulas that can be written in FOF *)

(** a lower-case word that is not a keyword *)
Definition lower_name (n : string) : Prop :=
  exists c w, codes n = c :: w /\ lower_alpha c /\ Forall alpha_num w /\ forall k, ~ keyword (codes n) k.
(** a dollar word: $less; neither reserved nor begun by the letters of $true and $false *)
Definition dollar_name (n : string) : Prop :=
  exists w, codes n = 36 :: w /\ w <> [] /\ Forall alpha_num w /\ ~ In w reserved /\
    forall r, w = w_true ++ r \/ w = w_false ++ r -> exists c r', r = c :: r' /\ alphabetic c.
Definition symbol_name (n : string) : Prop := lower_name n \/ dollar_name n.
Definition variable_name (n : string) : Prop := exists c w, codes n = c :: w /\ upper_alpha c /\ Forall alpha_num w.

Section Writable.
(** the index of the equality *)
Variable eqi : Z.

(** terms of functions and variables *)
Fixpoint writable_term (t : term) : Prop :=
  match t with
  | Fun f tys args => id_index f <> eqi /\ symbol_name (id_name f) /\ tys = [] /\
      (fix all (l : list term) : Prop := match l with [] => True | t :: r => writable_term t /\ all r end) args
  | Var _ n => variable_name n
  | _ => False
  end.
(** formulas of the grammar: the chains have at least two elements, the variables are of type $i *)
Fixpoint writable (f : form) : Prop :=
  match f with
  | All _ vs g | Ex _ vs g =>
    vs <> [] /\ Forall (fun v => variable_name (tv_name v) /\ tv_ty v = TyConstr "$i" []) vs /\ writable g
  | Or _ fs | And _ fs => (2 <= List.length fs)%nat /\
      (fix all (l : list form) : Prop := match l with [] => True | g :: r => writable g /\ all r end) fs
  | Equ _ a b | Imp _ a b => writable a /\ writable b
  | Not _ g => writable g
  | Pred _ i tys args =>
    (id_index i = eqi /\ id_name i = "="%string /\ exists a b, args = [a; b] /\ writable_term a /\ writable_term b) \/
    (id_index i <> eqi /\ symbol_name (id_name i) /\ tys = [] /\ Forall writable_term args)
  | Top _ | Bot _ => True
  end.
End Writable.

(** ** The formulas whose text has the right scopes *)

Definition binary (f : form) : bool := match f with Or _ _ | And _ _ | Equ _ _ _ | Imp _ _ _ => true | _ => false end.
(** no quantifier has a binary formula as its body *)
Fixpoint scoped (f : form) : Prop :=
  match f with
  | All _ _ g | Ex _ _ g => binary g = false /\ scoped g
  | Or _ fs | And _ fs => (fix all (l : list form) : Prop := match l with [] => True | g :: r => scoped g /\ all r end) fs
  | Equ _ a b | Imp _ a b => scoped a /\ scoped b
  | Not _ g => scoped g
  | _ => True
  end.

(** ** What the text of a formula says in FOF *)

(** the body of a quantifier is the first operand of the formula under it; [k] puts the quantifiers before the
    first operand *)
Fixpoint narrow (k : pform -> pform) (f : form) : option pform :=
  match f with
  | All _ vs g => match somes (map parsed_var vs) with Some l => narrow (fun q => k (PQuant PQuantAll l q)) g | None => None end
  | Ex _ vs g => match somes (map parsed_var vs) with Some l => narrow (fun q => k (PQuant PQuantEx l q)) g | None => None end
  | Or _ fs => match somes (map (narrow (fun q => q)) fs) with Some (x :: r) => chain PBinaryOr (k x :: r) | _ => None end
  | And _ fs => match somes (map (narrow (fun q => q)) fs) with Some (x :: r) => chain PBinaryAnd (k x :: r) | _ => None end
  | Equ _ a b => match narrow (fun q => q) a, narrow (fun q => q) b with Some a, Some b => Some (PBin PBinaryEqu (k a) b) | _, _ => None end
  | Imp _ a b => match narrow (fun q => q) a, narrow (fun q => q) b with Some a, Some b => Some (PBin PBinaryImp (k a) b) | _, _ => None end
  | Not _ g => option_map (fun q => k (PNeg q)) (narrow (fun q => q) g)
  | Pred _ i tys args => option_map (fun l => k (PPred (id_name i) l)) (somes (map parsed_term args))
  | Top _ => Some (k PTop)
  | Bot _ => Some (k PBot)
  end.
Definition fof_reading (f : form) : option pform := narrow (fun q => q) f.

(** ** Reading a printed line *)

(** the tokens of the line of an axiom *)
Definition line_tokens (name role : list Z) (ts : list token) : list token :=
  [FOF; LEFT_PAREN; LOWER_WORD name; COMMA; LOWER_WORD role; COMMA] ++ ts ++ [RIGHT_PAREN; DOT].
(** the text [s], written on the line of an axiom, is read as the formula [q] and as no other one *)
Definition read_as (name role s : list Z) (q : pform) : Prop :=
  exists ts, (forall n e, exists st, lex_file (fof_line name role s) n e = Some (line_tokens name role ts, st)) /\
    fof_logic ts q /\ forall q', fof_logic ts q' -> q' = q.

(** ** The same grammar with wide scopes: the body of a quantifier extends as far as possible, and a quantified
    formula is an operand only in parentheses *)
Inductive wide_logic : list token -> pform -> Prop :=
| wl_unit ts f : wide_unit ts f -> wide_logic ts f
| wl_nonassoc ts f o mk ts' g : nonassoc o mk -> wide_unit ts f -> wide_unit ts' g -> wide_logic (ts ++ o :: ts') (mk f g)
| wl_assoc ts f o b : assoc o b -> wide_chain o b ts f -> wide_logic ts f
| wl_all vs l ts f : fof_vars vs l -> wide_logic ts f ->
    wide_logic (FORALL :: LEFT_BRACKET :: vs ++ RIGHT_BRACKET :: COLON :: ts) (PQuant PQuantAll l f)
| wl_ex vs l ts f : fof_vars vs l -> wide_logic ts f ->
    wide_logic (EXISTS :: LEFT_BRACKET :: vs ++ RIGHT_BRACKET :: COLON :: ts) (PQuant PQuantEx l f)
with wide_chain : token -> pbinop -> list token -> pform -> Prop :=
| wc_two o b ts f ts' g : wide_unit ts f -> wide_unit ts' g -> wide_chain o b (ts ++ o :: ts') (PBin b f g)
| wc_more o b ts f ts' g : wide_chain o b ts f -> wide_unit ts' g -> wide_chain o b (ts ++ o :: ts') (PBin b f g)
with wide_unit : list token -> pform -> Prop :=
| wu_not ts f : wide_unit ts f -> wide_unit (NOT :: ts) (PNeg f)
| wu_neq ts t ts' t' : fof_term ts t -> fof_term ts' t' -> wide_unit (ts ++ NOT_EQUAL :: ts') (PNeg (PPred "=" [t; t']))
| wu_atomic ts f : fof_atomic ts f -> wide_unit ts f
| wu_paren ts f : wide_logic ts f -> wide_unit (LEFT_PAREN :: ts ++ [RIGHT_PAREN]) f.
