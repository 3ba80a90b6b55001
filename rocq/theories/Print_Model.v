(** Model of the text of types, terms and formulas: src/AST/modular-printing.go, src/AST/printers.go, the
    methods ToString of src/AST/ty-syntax.go, termsDef.go, formsDef.go and quantifiers.go, and the printer of
    src/Mods/rocq/output.go.

    A text is the list of its bytes. Simplifications:
    - the global variable [printer] is an argument; [None] is a call of Glob.Anomaly;
    - the chain of connectives (StrConn, 139-166) is resolved: a printer lists all its connectives;
    - the debug messages are left out. *)
From Coq Require Import ZArith List Bool String Ascii.
From Verif Require Import Ast_Model.
Import ListNotations.
Open Scope Z_scope.

Definition codes (s : string) : list Z := map (fun c => Z.of_nat (nat_of_ascii c)) (list_ascii_of_string s).
Arguments codes s%string.

(** strings.Join, and Lib/list.go:131-152 List.ToString with WithEmpty("") *)
Fixpoint join (sep : list Z) (l : list (list Z)) : list Z :=
  match l with
  | [] => []
  | [x] => x
  | x :: r => x ++ sep ++ join sep r
  end.

Fixpoint all_some {A} (l : list (option A)) : option (list A) :=
  match l with
  | [] => Some []
  | None :: _ => None
  | Some x :: r => match all_some r with Some r' => Some (x :: r') | None => None end
  end.

(** ** Actions: modular-printing.go:63-132 *)

(** 63-70; the action on a typed variable is given the text of the type *)
Record action : Type := mkAction {
  generic : list Z -> list Z;
  on_id : Z -> list Z -> list Z;
  on_bound : list Z -> Z -> list Z;
  on_meta : list Z -> Z -> list Z;
  on_type : list Z -> list Z;
  on_typed_var : list Z -> list Z -> list Z }.

(** 72-90 Compose: p, then q *)
Definition compose (p q : action) : action := mkAction
  (fun s => generic q (generic p s))
  (fun ix n => on_id q ix (on_id p ix n))
  (fun n i => on_bound q (on_bound p n i) i)
  (fun n i => on_meta q (on_meta p n i) i)
  (fun n => on_type q (on_type p n))
  (fun n t => on_typed_var q (on_typed_var p n t) t).

(** 116-118 *)
Definition ident_action : action := mkAction (fun s => s) (fun _ n => n) (fun n _ => n) (fun n _ => n) (fun n => n) (fun n _ => n).

(** printers.go:61-71: is there a space that is between no parentheses? At a character the code counts the
    character before it, so [depth] counts the characters before the first one of [s]. A byte of a character
    of several bytes is none of the characters that are looked at. *)
Fixpoint shallow_space (depth : Z) (s : list Z) : bool :=
  match s with
  | [] => false
  | c :: r =>
    if (c =? 32) && (depth =? 0) then true
    else shallow_space (if c =? 40 then depth + 1 else if c =? 41 then depth - 1 else depth) r
  end.
(** printers.go:46-75: the generic action of RemoveSuperfluousParenthesesAction; the parentheses are those of
    SurComplexChildStart and SurComplexChildEnd, the same for all the printers *)
Definition strip (s : list Z) : list Z :=
  match s with
  | 40 :: r =>
    match rev r with
    | 41 :: m => if shallow_space 0 (rev m) then s else rev m
    | _ => s
    end
  | _ => s
  end.
(** printers.go:44-80 *)
Definition strip_action : action := mkAction strip (fun _ n => n) (fun n _ => n) (fun n _ => n) (fun n => n) (fun n _ => n).
(** printers.go:81-95 SanitizerAction, for forbidden strings of one character *)
Definition sanitizer (forbidden : list Z) : action := mkAction
  (fun s => map (fun c => if existsb (Z.eqb c) forbidden then 95 else c) s)
  (fun _ n => n) (fun n _ => n) (fun n _ => n) (fun n => n) (fun n _ => n).

(** modular-printing.go:330-337 PrintIDAction *)
Definition print_id : action := mkAction
  (fun s => s) (fun ix n => n ++ 95 :: codes (dec ix)) (fun n _ => n) (fun n _ => n) (fun n => n) (fun n _ => n).
(** 339-352 QuoteID; the first character is upper case (the letters that are not ASCII are left out) *)
Definition quote_id : action := mkAction
  (fun s => s)
  (fun _ n => match n with c :: _ => if (65 <=? c) && (c <=? 90) then 39 :: n ++ [39] else n | [] => n end)
  (fun n _ => n) (fun n _ => n) (fun n => n) (fun n _ => n).

(** ** Printers *)

Record printer : Type := mkPrinter {
  act : action;
  c_all : list Z; c_ex : list Z; c_and : list Z; c_or : list Z; c_imp : list Z; c_equ : list Z; c_not : list Z;
  c_top : list Z; c_bot : list Z; c_pi : list Z; c_map : list Z; c_prod : list Z;
  sep_vars_form : list Z; sep_args : list Z; sep_ty_args : list Z; sep_args_ty_args : list Z; sep_ty_vars : list Z;
  quant_start : list Z; quant_end : list Z }.

(** 253-288, 300-304 *)
Definition default_printer : printer := mkPrinter strip_action
  (codes "!") (codes "?") (codes " & ") (codes " | ") (codes "=>") (codes "<=>") (codes "~")
  (codes "$true") (codes "$false") (codes "!>") (codes ">") (codes "*")
  (codes ": ") (codes ", ") (codes ", ") (codes " ; ") (codes ", ") (codes "[") (codes "]").

Fixpoint is_prefix (k s : list Z) : bool :=
  match k, s with
  | [], _ => true
  | a :: k', b :: s' => (a =? b) && is_prefix k' s'
  | _ :: _, [] => false
  end.
(** strings.ReplaceAll; [skip] characters are part of a replaced occurrence *)
Fixpoint replace_all (skip : nat) (k v s : list Z) : list Z :=
  match s with
  | [] => []
  | c :: r =>
    match skip with
    | S n => replace_all n k v r
    | O => if is_prefix k s then v ++ replace_all (List.length k - 1) k v r else c :: replace_all 0 k v r
    end
  end.
(** Mods/rocq/output.go:103-114: in the order of the source; the order of a Go map is not fixed, but no key
    has a common part with another one and the texts put in place contain no dollar *)
Definition sanitize_type (s : list Z) : list Z :=
  replace_all 0 (codes "$tType") (codes "Type") (replace_all 0 (codes "$o") (codes "Prop")
    (replace_all 0 (codes "$i") (codes "goeland_U") s)).
(** output.go:115-127 *)
Definition rocq_action : action :=
  compose (compose
    (mkAction (fun s => s) (fun _ n => n) (fun n _ => n) (fun n i => n ++ 95 :: codes (dec i)) sanitize_type
       (fun n t => codes "(" ++ n ++ codes " : " ++ sanitize_type t ++ codes ")"))
    (sanitizer [64])) strip_action.
(** output.go:72-97 *)
Definition rocq_printer : printer := mkPrinter rocq_action
  (codes "forall") (codes "exists") (codes " /\ ") (codes " \/ ") (codes "->") (codes "<->") (codes "~")
  (codes "True") (codes "False") (codes "forall") (codes "->") (codes "*")
  (codes ", ") (codes ", ") (codes ", ") (codes ", ") (codes " ") [] [].

(** ** Texts *)

Section Text.
Variable p : printer.
(** the index of AST.Id_eq: maker.go:63-69 *)
Variable eqi : Z.

(** 92-114 *)
Definition str (s : list Z) : list Z := generic (act p) s.
Definition str_id (i : ident) : list Z := str (on_id (act p) (id_index i) (codes (id_name i))).
Definition str_bound (n : string) (ix : Z) : list Z := str (on_bound (act p) (codes n) ix).
Definition str_meta (n : string) (ix : Z) : list Z := str (on_meta (act p) (codes n) ix).
Definition str_ty (n : string) : list Z := str (on_type (act p) (codes n)).

(** 168-181 SurroundQuantified, SurroundArgs, SurroundChild *)
Definition surround_quantified (s : list Z) : list Z := quant_start p ++ s ++ quant_end p.
Definition surround_args (s : list Z) : list Z := match s with [] => [] | _ => 40 :: s ++ [41] end.
Definition surround_child (s : list Z) : list Z := 40 :: s ++ [41].
Definition child (s : list Z) : list Z := str (surround_child s).

(** ty-syntax.go:69, 89, 116, 153-161, 196-201, 229-235, 257-267 *)
Fixpoint print_ty (t : ty) : list Z :=
  match t with
  | TyVar r => str_bound r 0
  | TyBound n i => str_bound n i
  | TyMeta n i _ => str_meta n i
  | TyConstr s args => str_ty s ++ surround_args (join (sep_args p) (map print_ty args))
  | TyProd args => join (c_prod p) (map (fun t => child (print_ty t)) args)
  | TyFunc a b => child (print_ty a) ++ 32 :: c_map p ++ 32 :: child (print_ty b)
  | TyPi vars b =>
    c_pi p ++ 32 :: surround_quantified (join (sep_ty_vars p) (map (fun v => codes v) vars))
    ++ sep_vars_form p ++ str (print_ty b)
  end.

(** 188-217 OnFunctionalArgs *)
Definition on_functional (i : ident) (tys con : list Z) (args : list (list Z)) : option (list Z) :=
  if id_index i =? eqi then
    match args with
    | [a; b] | [_; a; b] => Some (a ++ 32 :: str_id i ++ 32 :: b)
    | _ => None
    end
  else
    let arguments := join (sep_args p) args in
    Some (str_id i ++ surround_args (match tys with [] => arguments | _ => tys ++ con ++ arguments end)).
Definition print_tys (tys : list ty) : list Z := join (sep_ty_args p) (map print_ty tys).

(** termsDef.go:62, 120-127, 267, 318 *)
Fixpoint print_term (t : term) : option (list Z) :=
  match t with
  | TId i => Some (str_id i)
  | Fun f tys args =>
    match all_some (map print_term args) with
    | Some l => on_functional f (print_tys tys) (sep_args_ty_args p) l
    | None => None
    end
  | Var i n => Some (str_bound n i)
  | Meta m => Some (str_meta (m_name m) (m_index m))
  end.

(** quantifiers.go:83-95 *)
Definition print_quant (conn : list Z) (vars : list tvar) (body : option (list Z)) : option (list Z) :=
  match body with
  | Some b =>
    Some (conn ++ 32 :: surround_quantified
            (join (sep_ty_vars p) (map (fun v => str (on_typed_var (act p) (codes (tv_name v)) (print_ty (tv_ty v)))) vars))
          ++ sep_vars_form p ++ str b)
  | None => None
  end.
(** formsDef.go:254-259, 378-383 *)
Definition print_list (conn : list Z) (l : list (option (list Z))) : option (list Z) :=
  match all_some l with Some l => Some (join conn (map child l)) | None => None end.
(** formsDef.go:469-475, 581-587 *)
Definition print_bin (conn : list Z) (a b : option (list Z)) : option (list Z) :=
  match a, b with
  | Some a, Some b => Some (child a ++ 32 :: conn ++ 32 :: child b)
  | _, _ => None
  end.

(** formsDef.go:254, 378, 469, 581, 706-711, 847-854, 1012, 1040; quantifiers.go:83 *)
Fixpoint print_form (f : form) : option (list Z) :=
  match f with
  | All _ vars g => print_quant (c_all p) vars (print_form g)
  | Ex _ vars g => print_quant (c_ex p) vars (print_form g)
  | Or _ fs => print_list (c_or p) (map print_form fs)
  | And _ fs => print_list (c_and p) (map print_form fs)
  | Equ _ a b => print_bin (c_equ p) (print_form a) (print_form b)
  | Imp _ a b => print_bin (c_imp p) (print_form a) (print_form b)
  | Not _ g => match print_form g with Some s => Some (c_not p ++ child s) | None => None end
  | Pred _ i tys args =>
    match all_some (map print_term args) with
    | Some l => on_functional i (print_tys tys) (sep_args_ty_args p) l
    | None => None
    end
  | Top _ => Some (c_top p)
  | Bot _ => Some (c_bot p)
  end.
End Text.

(** Mods/tptp/proof.go:516-520: the line of an axiom and of the conjecture *)
Definition fof_line (name role text : list Z) : list Z :=
  codes "fof(" ++ name ++ codes ", " ++ role ++ codes ", " ++ text ++ codes ")." ++ [10; 10].
