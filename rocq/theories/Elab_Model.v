(** Model of src/Parser/psyntax.go (parse-time types, terms and formulas) and of src/Engine: the
    elaboration of parsed formulas into the formulas of AST.

    Simplifications:
    - a PAtomicType is a [ptype]; the type assertions PAtomicType(...) of the Go code are the
      function [is_atomic_ptype] (a failed assertion is [EPanic]);
    - the contexts are values: the code appends to slices, but each context is used linearly (the
      context given to a call is not used again after it), so no two of them share a changed cell;
    - Typing.AddToGlobalEnv (syntax-translation.go:373) is left out: it fills the table of the
      type checker with the types of the numbers and does not change the formula;
    - the arguments source_form, source_term, source_type are left out (error messages), and the
      debug messages too. *)
From Coq Require Import ZArith List Bool String.
From Verif Require Import Ast_Model.
Import ListNotations.
Open Scope Z_scope.

(** ** Parse-time syntax: Parser/psyntax.go *)

(** psyntax.go:107-112 *)
Inductive ptybin := PTypeProd | PTypeMap.

(** psyntax.go:57-61 PTypeVar, 70-75 PTypeFun, 114-118 PTypeBin, 136-140 PTypeQuant *)
Inductive ptype : Type :=
| PTyVar (name : string)
| PTyFun (symbol : string) (args : list ptype)
| PTyBin (op : ptybin) (l r : ptype)
| PTyQuant (vars : list (string * ptype)) (body : ptype).

Definition ptybin_eqb (a b : ptybin) : bool :=
  match a, b with PTypeProd, PTypeProd | PTypeMap, PTypeMap => true | _, _ => false end.

(** psyntax.go:63-68, 79-94, 123-128, 145-159 Equals *)
Fixpoint ptype_eqb (a b : ptype) {struct a} : bool :=
  match a, b with
  | PTyVar n, PTyVar m => String.eqb m n
  | PTyFun s l, PTyFun s' l' => list_eqb ptype_eqb l l' && String.eqb s' s
  | PTyBin o l r, PTyBin o' l' r' => ptybin_eqb o' o && ptype_eqb l l' && ptype_eqb r r'
  | PTyQuant v t, PTyQuant v' t' =>
    (fix go (v v' : list (string * ptype)) : bool :=
       match v, v' with
       | [], [] => true
       | (n, t1) :: v, (n', t1') :: v' => String.eqb n n' && ptype_eqb t1 t1' && go v v'
       | _, _ => false
       end) v v' && ptype_eqb t t'
  | _, _ => false
  end.

(** psyntax.go:95-98: the types that are PAtomicType *)
Definition is_atomic_ptype (t : ptype) : bool :=
  match t with PTyVar _ | PTyFun _ _ => true | _ => false end.

(** psyntax.go:98-101 MkTypeConst *)
Definition pty_const (s : string) : ptype := PTyFun s [].

(** psyntax.go:183-197 PFun (the third component is DefinedType), PVar *)
Inductive pterm : Type :=
| PVar (name : string)
| PFun (symbol : string) (args : list pterm) (defined : option ptype).

(** psyntax.go:223-238 *)
Inductive pbinop := PBinaryOr | PBinaryAnd | PBinaryImp | PBinaryEqu.
Inductive pquant := PQuantAll | PQuantEx.

(** psyntax.go:249-286 PConst, PPred, PUnary, PBin, PQuant *)
Inductive pform : Type :=
| PTop | PBot
| PPred (symbol : string) (args : list pterm)
| PNeg (f : pform)
| PBin (op : pbinop) (l r : pform)
| PQuant (q : pquant) (vars : list (string * ptype)) (f : pform).

Definition pbinop_eqb (a b : pbinop) : bool :=
  match a, b with
  | PBinaryOr, PBinaryOr | PBinaryAnd, PBinaryAnd | PBinaryImp, PBinaryImp | PBinaryEqu, PBinaryEqu => true
  | _, _ => false
  end.

(** psyntax.go:309-331: the makers of the derived connectives *)
Definition mk_previmp (l r : pform) : pform := PBin PBinaryImp r l.
Definition mk_pxor (l r : pform) : pform :=
  PBin PBinaryAnd (PBin PBinaryOr l r) (PNeg (PBin PBinaryAnd l r)).
Definition mk_pnotor (l r : pform) : pform := PNeg (PBin PBinaryOr l r).
Definition mk_pnotand (l r : pform) : pform := PNeg (PBin PBinaryAnd l r).

(** ** Results *)

(** [EFatal]: Glob.Fatal; [EAnomaly]: Glob.Anomaly; [EPanic]: a Go run-time error (index out of range,
    failed type assertion) *)
Inductive eres (A : Type) : Type := EOk (a : A) | EFatal | EAnomaly | EPanic.
Arguments EOk {A}. Arguments EFatal {A}. Arguments EAnomaly {A}. Arguments EPanic {A}.

Definition ebind {A B} (x : eres A) (f : A -> eres B) : eres B :=
  match x with EOk a => f a | EFatal => EFatal | EAnomaly => EAnomaly | EPanic => EPanic end.
Notation "'edo' p <- x ; y" := (ebind x (fun p => y)) (at level 61, p pattern, x at next level, right associativity).

(** ** Engine/tptp-defined-types.go *)

(** 45: the context, in the order of the slice *)
Definition context := list (string * ptype).

(** 56-60, 78-93, 109-118 *)
Definition p_ttype : ptype := pty_const "$tType".
Definition p_int : ptype := pty_const "$int".
Definition p_rat : ptype := pty_const "$rat".
Definition p_real : ptype := pty_const "$real".
Definition p_prop : ptype := pty_const "$o".
Definition p_number : ptype := PTyVar "number".
Definition bin_poly (out : ptype) : ptype :=
  PTyQuant [("number"%string, p_ttype)] (PTyBin PTypeMap (PTyBin PTypeProd p_number p_number) out).
Definition un_poly (out : ptype) : ptype :=
  PTyQuant [("number"%string, p_ttype)] (PTyBin PTypeMap p_number out).
Definition p_quotient : ptype :=
  PTyQuant [("number"%string, p_ttype); ("rat_or_real"%string, p_ttype)]
           (PTyBin PTypeMap (PTyBin PTypeProd p_number p_number) (PTyVar "rat_or_real")).

Open Scope string_scope.
(** 95-132: the calls of mkDefined: name, number of arguments, allowed types are restricted to the
    numbers or not, type *)
Definition defined_table : list (string * (nat * bool * ptype)) :=
  [("$less", (2%nat, true, bin_poly p_prop)); ("$lesseq", (2%nat, true, bin_poly p_prop));
   ("$greater", (2%nat, true, bin_poly p_prop)); ("$greatereq", (2%nat, true, bin_poly p_prop));
   ("$sum", (2%nat, true, bin_poly p_number)); ("$difference", (2%nat, true, bin_poly p_number));
   ("$product", (2%nat, true, bin_poly p_number)); ("$quotient_e", (2%nat, true, bin_poly p_number));
   ("$quotient_t", (2%nat, true, bin_poly p_number)); ("$quotient_f", (2%nat, true, bin_poly p_number));
   ("$remainder_e", (2%nat, true, bin_poly p_number)); ("$remainder_t", (2%nat, true, bin_poly p_number));
   ("$remainder_f", (2%nat, true, bin_poly p_number)); ("$quotient", (2%nat, true, p_quotient));
   ("$uminus", (1%nat, true, un_poly p_number)); ("$floor", (1%nat, true, un_poly p_number));
   ("$ceiling", (1%nat, true, un_poly p_number)); ("$truncate", (1%nat, true, un_poly p_number));
   ("$round", (1%nat, true, un_poly p_number));
   ("$is_int", (1%nat, true, un_poly p_prop)); ("$is_rat", (1%nat, true, un_poly p_prop));
   ("$to_int", (1%nat, true, un_poly p_int)); ("$to_rat", (1%nat, true, un_poly p_rat));
   ("$to_real", (1%nat, true, un_poly p_real)); ("=", (2%nat, false, bin_poly p_prop))].

(** 51-143 initialContext *)
Definition initial_context : context :=
  ([("$tType", p_ttype); ("$int", p_ttype); ("$rat", p_ttype); ("$real", p_ttype); ("$i", p_ttype); ("$o", p_ttype)]
  ++ map (fun e => (fst e, snd (snd e))) defined_table)%list.
Close Scope string_scope.

(** lookup of a name in an association list (a Go map), first entry *)
Fixpoint assoc {A} (s : string) (l : list (string * A)) : option A :=
  match l with
  | [] => None
  | (k, a) :: r => if String.eqb k s then Some a else assoc s r
  end.

(** 145-147 isDefined *)
Definition is_defined (s : string) : bool := match assoc s defined_table with Some _ => true | None => false end.
(** 149-155 isAllowed *)
Definition is_allowed (s : string) (t : ptype) : bool :=
  match assoc s defined_table with
  | Some (_, true, _) => existsb (ptype_eqb t) [p_int; p_rat; p_real]
  | _ => true
  end.

(** ** Engine/pretyper.go *)

(** 99-106 lookupInContext: from the end *)
Definition lookup_ctx (con : context) (s : string) : option ptype := assoc s (rev con).

(** 108-114 isTyConstr *)
Definition is_ty_constr (t : ptype) : bool :=
  match t with PTyFun s _ => String.eqb s "$tType" | _ => false end.

(** 131-160 parserTermToType (the argument of a type term is a type term, always atomic, so that the
    Anomaly of 144 is not reachable) *)
Fixpoint term_to_type (t : pterm) : ptype :=
  match t with
  | PVar n => PTyVar n
  | PFun s args _ => PTyFun s (map term_to_type args)
  end.

(** 207-244 instantiateRec *)
Fixpoint instantiate_rec (t : ptype) (inst : list (string * ptype)) {struct t} : eres ptype :=
  match t with
  | PTyVar n => match assoc n inst with Some v => EOk v | None => EFatal end
  | PTyFun s args =>
    edo args' <- (fix go (l : list ptype) : eres (list ptype) :=
                    match l with
                    | [] => EOk []
                    | a :: r => edo a' <- instantiate_rec a inst;
                                if is_atomic_ptype a' then edo r' <- go r; EOk (a' :: r') else EPanic
                    end) args;
    EOk (PTyFun s args')
  | PTyBin op l r =>
    edo l' <- instantiate_rec l inst;
    edo r' <- instantiate_rec r inst;
    match op with PTypeProd => EOk (PTyBin PTypeProd l' r') | PTypeMap => EOk r' end
  | PTyQuant _ _ => EAnomaly
  end.

(** 194-197: the instance built from the first arguments; a missing argument is an index out of range.
    The latest entry of a name comes first (the map is overwritten). *)
Fixpoint type_args (vs : list (string * ptype)) (args : list pterm) (inst : list (string * ptype))
  : eres (list (string * ptype)) :=
  match vs, args with
  | [], _ => EOk inst
  | (n, _) :: vs, a :: args => type_args vs args ((n, term_to_type a) :: inst)
  | _ :: _, [] => EPanic
  end.

(** 171-205 instantiateType *)
Definition instantiate_type (t : ptype) (args : list pterm) : eres ptype :=
  match t with
  | PTyVar _ | PTyFun _ _ => match args with [] => EOk t | _ => EFatal end
  | PTyBin PTypeMap _ r => EOk r
  | PTyBin PTypeProd _ _ => EFatal
  | PTyQuant vs body => edo inst <- type_args vs args []; instantiate_rec body inst
  end.

(** 48 defaultType *)
Definition default_type : ptype := pty_const "$i".

(** 51-97 pretype, for one term *)
Definition pretype1 (con : context) (t : pterm) : eres ptype :=
  let '(name, args, def) := match t with PVar n => (n, [], None) | PFun s a d => (s, a, d) end in
  match lookup_ctx con name with
  | Some ty => instantiate_type ty args
  | None => match def with Some d => EOk d | None => EOk default_type end
  end.
Fixpoint pretype (con : context) (l : list pterm) : eres (list ptype) :=
  match l with
  | [] => EOk []
  | t :: r => edo ty <- pretype1 con t; edo tys <- pretype con r; EOk (ty :: tys)
  end.

(** 116-129 splitTypes, the list of types: the arguments whose type is $tType *)
Fixpoint split_types (l : list pterm) (tys : list ptype) : list ptype :=
  match l, tys with
  | t :: r, ty :: tys => if is_ty_constr ty then term_to_type t :: split_types r tys else split_types r tys
  | _, _ => []
  end.

(** ** Engine/syntax-translation.go *)

(** 482-492 flattenProd *)
Fixpoint flatten_prod (t : ty) : list ty :=
  match t with TyProd args => flat_map flatten_prod args | _ => [t] end.

(** 414-434 fail_if_forbidden *)
Definition forbidden (t : ptype) : bool :=
  match t with PTyBin PTypeMap _ _ | PTyQuant _ _ => true | _ => false end.

(** 393-480 elaborateType; [top] is from_top_level.  The two components of a mapping type are
    elaborated twice (439-440, 448-451), the second time with the tables already filled. *)
Fixpoint elab_type (top : bool) (t : ptype) (g : gen) {struct t} : eres (ty * gen) :=
  match t with
  | PTyVar n => if top then EOk (TyVar n, g) else let '(i, g) := maker_var n g in EOk (TyBound n i, g)
  | PTyFun s args =>
    edo (args', g) <- (fix go (l : list ptype) (g : gen) : eres (list ty * gen) :=
                         match l with
                         | [] => EOk ([], g)
                         | a :: r => edo (a', g) <- elab_type top a g; edo (r', g) <- go r g; EOk (a' :: r', g)
                         end) args g;
    EOk (TyConstr s args', g)
  | PTyBin op l r =>
    if forbidden l || forbidden r then EFatal
    else
      edo (l', g) <- elab_type top l g;
      edo (r', g) <- elab_type top r g;
      match op with
      | PTypeProd => EOk (TyProd (flatten_prod l' ++ flatten_prod r'), g)
      | PTypeMap => edo (l'', g) <- elab_type top l g;
                    edo (r'', g) <- elab_type top r g;
                    EOk (TyFunc l'' r'', g)
      end
  | PTyQuant vs body =>
    edo (b, g) <- elab_type top body g;
    match b with
    | TyPi _ _ => EAnomaly
    | _ => EOk (TyPi (map fst vs) b, g)
    end
  end.

(** ListMap of elaborateType (192-196, 360-364) *)
Fixpoint elab_types (l : list ptype) (g : gen) : eres (list ty * gen) :=
  match l with
  | [] => EOk ([], g)
  | a :: r => edo (a', g) <- elab_type false a g; edo (r', g) <- elab_types r g; EOk (a' :: r', g)
  end.

(** 514-543: the type of an elaborated argument of a defined symbol *)
Definition tyarg_to_term (t : ty) : eres pterm :=
  match t with
  | TyConstr s _ => EOk (PFun s [] None)
  | TyBound n _ => EOk (PVar n)
  | _ => EAnomaly
  end.
Fixpoint tyargs_to_terms (l : list ty) : eres (list pterm) :=
  match l with
  | [] => EOk []
  | a :: r => edo a' <- tyarg_to_term a; edo r' <- tyargs_to_terms r; EOk (a' :: r')
  end.
Definition defined_arg_type (con : context) (arg : term) (inferred : option ptype) : eres ptype :=
  edo (name, tas) <- match arg with
                     | Fun p tys _ => edo tas <- tyargs_to_terms tys; EOk (id_name p, tas)
                     | Var _ n => EOk (n, [])
                     | _ => EAnomaly
                     end;
  match lookup_ctx con name with
  | Some t => instantiate_type t tas
  | None => match inferred with Some t => EOk t | None => EPanic end
  end.
Fixpoint defined_arg_types (con : context) (args : list term) (inferred : list ptype) : eres (list ptype) :=
  match args with
  | [] => EOk []
  | a :: r => edo t <- defined_arg_type con a (hd_error inferred);
              edo ts <- defined_arg_types con r (tl inferred);
              EOk (t :: ts)
  end.

(** 494-589 elaborateDefinedFunctionals *)
Definition elab_defined (con : context) (name : string) (inferred : list ptype) (args : list term)
  : eres (list ptype) :=
  match assoc name defined_table with
  | None => EPanic
  | Some (len, _, _) =>
    if negb (Nat.eqb (List.length args) len) then EFatal
    else
      edo tys <- defined_arg_types con args inferred;
      match find (is_allowed name) tys with
      | None => EFatal
      | Some t =>
        if String.eqb name "$quotient"
        then match tys with
             | [] => EPanic
             | t0 :: _ => EOk [t; if ptype_eqb t0 p_int then p_rat else t]
             end
        else EOk [t]
      end
  end.

(** 325-383 elaborateTerm; result: context, term, typed flag *)
Fixpoint elab_term (con : context) (t : pterm) (g : gen) {struct t} : eres (context * term * bool * gen) :=
  match t with
  | PVar n => let '(i, g) := maker_var n g in EOk (con, Var i n, false, g)
  | PFun s args def =>
    edo tys <- pretype con args;
    let typed_args := split_types args tys in
    edo (con, args', b, g) <-
      (fix go (con : context) (l : list pterm) (tys : list ptype) (b : bool) (g : gen)
         : eres (context * list term * bool * gen) :=
         match l, tys with
         | t :: r, ty :: tys =>
           if is_ty_constr ty then go con r tys b g
           else edo (con, t', b1, g) <- elab_term con t g;
                edo (con, r', b, g) <- go con r tys (b || b1) g;
                EOk (con, t' :: r', b, g)
         | _, _ => EOk (con, [], b, g)
         end) con args tys false g;
    edo (typed_args, b) <-
      (if is_defined s
       then edo ta <- elab_defined con s (skipn (List.length typed_args) tys) args'; EOk (ta, b)
       else EOk (typed_args, match typed_args with [] => false | _ => true end));
    let '(p, g) := maker_id s g in
    edo (tys', g) <- elab_types typed_args g;
    edo (con, g) <- match def with
                    | Some d => edo (_, g) <- elab_type false d g; EOk (con ++ [(s, d)], g)
                    | None => EOk (con, g)
                    end;
    EOk (con, Fun p tys' args', b || match typed_args with [] => false | _ => true end, g)
  end.

(** 174-181, 339-346: the loop on the arguments that are not types *)
Fixpoint elab_args (con : context) (l : list pterm) (tys : list ptype) (b : bool) (g : gen)
  : eres (context * list term * bool * gen) :=
  match l, tys with
  | t :: r, ty :: tys =>
    if is_ty_constr ty then elab_args con r tys b g
    else edo (con, t', b1, g) <- elab_term con t g;
         edo (con, r', b, g) <- elab_args con r tys (b || b1) g;
         EOk (con, t' :: r', b, g)
  | _, _ => EOk (con, [], b, g)
  end.

(** 162-169 pretypeVars (pretyper.go) *)
Fixpoint pretype_vars (vs : list (string * ptype)) (g : gen) : eres (list tvar * gen) :=
  match vs with
  | [] => EOk ([], g)
  | (n, t) :: r =>
    edo (t', g) <- elab_type false t g;
    let '(i, g) := maker_var n g in
    edo (r', g) <- pretype_vars r g;
    EOk (mkTV n i t' :: r', g)
  end.

(** the makers of formulas: AST/formsDef.go, one index each *)
Definition mk_indexed (k : Z -> form) (g : gen) : form * gen :=
  let '(i, g) := maker_index_formula g in (k i, g).

(** 167-199: the case PPred of elaborateForm *)
Definition elab_pred (con : context) (s : string) (args : list pterm) (g : gen) : eres (context * form * bool * gen) :=
  edo tys <- pretype con args;
  let typed_args := split_types args tys in
  edo (con, args', b, g) <- elab_args con args tys false g;
  edo (typed_args, b) <-
    (if is_defined s
     then edo ta <- elab_defined con s (skipn (List.length typed_args) tys) args'; EOk (ta, b)
     else EOk (typed_args, match typed_args with [] => false | _ => true end));
  let '(p, g) := maker_id s g in
  edo (tys', g) <- elab_types typed_args g;
  let '(f, g) := mk_indexed (fun i => Pred i p tys' args') g in
  EOk (con, f, b, g).

(** 308-318 flatten *)
Fixpoint pflatten (f : pform) (op : pbinop) : list pform :=
  match f with
  | PBin o l r => if pbinop_eqb o op then pflatten l op ++ pflatten r op else [f]
  | _ => [f]
  end.

Definition is_assoc (op : pbinop) : bool := match op with PBinaryOr | PBinaryAnd => true | _ => false end.
Definition assoc_maker (op : pbinop) (fs : list form) (i : Z) : form :=
  match op with PBinaryOr => Or i fs | _ => And i fs end.

(** 154-265 elaborateForm with 267-306 maybeFlattenOr/And/Bin; [fl] is Glob.Flatten().

    [elab_gen fl f None] elaborates [f], its list has one element; [elab_gen fl f (Some op)]
    elaborates in turn the formulas of [pflatten f op] (the loop of 299-304): the two calls are one
    function because the elements of the list are not immediate subformulas.  The lemma
    [elab_gen_flatten] of Elab_Proofs.v says so. *)
Fixpoint elab_gen (fl : bool) (f : pform) (mode : option pbinop) (con : context) (g : gen) {struct f}
  : eres (context * list form * bool * gen) :=
  let two o l r con g :=
    edo (con, fl1, b1, g) <- elab_gen fl l o con g;
    edo (con, fl2, b2, g) <- elab_gen fl r o con g;
    EOk (con, fl1 ++ fl2, b1 || b2, g) in
  let wrap con b '(f, g) := EOk (con, [f], b, g) in
  let single con g :=
    match f with
    | PTop => wrap con false (mk_indexed Top g)
    | PBot => wrap con false (mk_indexed Bot g)
    | PPred s args =>
      edo (con, f, b, g) <- elab_pred con s args g; EOk (con, [f], b, g)
    | PNeg h =>
      edo (con, hs, b, g) <- elab_gen fl h None con g;
      wrap con b (mk_indexed (fun i => Not i (hd (Bot 0) hs)) g)
    | PBin op l r =>
      if is_assoc op
      then
        edo (con, fs, b, g) <- two (if fl then Some op else None) l r con g;
        wrap con b (mk_indexed (assoc_maker op fs) g)
      else
        edo (con, fs, b, g) <- two None l r con g;
        wrap con b (mk_indexed (fun i => match op with
                                         | PBinaryImp => Imp i (hd (Bot 0) fs) (hd (Bot 0) (tl fs))
                                         | _ => Equ i (hd (Bot 0) fs) (hd (Bot 0) (tl fs))
                                         end) g)
    | PQuant q vs h =>
      edo (vs', g) <- pretype_vars vs g;
      if match q with PQuantEx => existsb (fun v => is_ttype (tv_ty v)) vs' | PQuantAll => false end
      then EAnomaly
      else
        edo (con, hs, b, g) <- elab_gen fl h None (con ++ vs) g;
        match vs' with
        | [] => EOk (con, hs, b, g)
        | _ => wrap con b (mk_indexed (fun i => match q with
                                                | PQuantAll => All i vs' (hd (Bot 0) hs)
                                                | PQuantEx => Ex i vs' (hd (Bot 0) hs)
                                                end) g)
        end
    end in
  match mode, f with
  | Some op, PBin o l r => if pbinop_eqb o op then two mode l r con g else single con g
  | _, _ => single con g
  end.

(** 149-151 elaborateParsingForm *)
Definition elab_form (fl : bool) (con : context) (f : pform) (g : gen) : eres (context * form * bool * gen) :=
  edo (con, fs, b, g) <- elab_gen fl f None con g;
  EOk (con, hd (Bot 0) fs, b, g).

(** ** Statements *)

(** psyntax.go:360-420 PStatement: role, formula or typed constant.  Only the combinations the parser builds
    (tptp_parse.y:134-146, 513) are represented. *)
Inductive prole := RAxiom | RConjecture | RNegConjecture | RType | RUnknown.
Inductive pstmt : Type :=
| PSForm (r : prole) (f : pform)
| PSType (r : prole) (name : string) (t : ptype)
| PSInclude (file : string).

(** Core/statement.go:57-62 *)
Inductive cstmt : Type :=
| CSForm (r : prole) (f : form)
| CSType (r : prole) (p : ident) (t : ty)
| CSInclude (file : string).

(** 73-123 elaborateParsingStatement *)
Definition elab_stmt (fl : bool) (con : context) (s : pstmt) (g : gen) : eres (context * cstmt * bool * gen) :=
  match s with
  | PSForm r f => edo (con, f', b, g) <- elab_form fl con f g; EOk (con, CSForm r f', b, g)
  | PSType r n t =>
    let '(p, g) := maker_id n g in
    edo (t', g) <- elab_type true t g;
    EOk (con ++ [(n, t)], CSType r p t', true, g)
  | PSInclude file => EOk (con, CSInclude file, false, g)
  end.

Fixpoint elab_stmts (fl : bool) (con : context) (l : list pstmt) (g : gen) : eres (list cstmt * bool * gen) :=
  match l with
  | [] => EOk ([], false, g)
  | s :: r => edo (con, s', b, g) <- elab_stmt fl con s g;
              edo (r', b', g) <- elab_stmts fl con r g;
              EOk (s' :: r', b || b', g)
  end.

(** 61-71 ToInternalSyntax *)
Definition to_internal_syntax (fl : bool) (l : list pstmt) (g : gen) : eres (list cstmt * bool * gen) :=
  elab_stmts fl initial_context l g.
