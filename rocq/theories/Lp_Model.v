(** Model of the printing of a GS3 proof as a Lambdapi script: Mods/lambdapi/proof.go, context.go and utils.go.

    The text is data: the statement is a formula, the proof a tree [lp]. The variables of the script are v0, v1, ...: the name
    of a variable is its number, and [None] is the empty string, what the map of names gives for a key it does not have
    (Glob/map.go:76-86). The map of names and the counter are global variables of the package, so they are passed along.
    Comments (proof.go:106), the preamble (context.go:170-172) and the problem name are left out. The type strings are empty in
    the code (proof.go:157-167, 210-220) and are left out.

    An index out of range, a failed type assertion, a nil term and Glob.Fatal (proof.go:103) are [Crash]. *)
From Coq Require Import ZArith List Bool String.
From Verif Require Import Ast_Model Unif_Model GsProof_Model Tptp_Model.
Import ListNotations.
Open Scope list_scope.
Open Scope Z_scope.

(** ** The names: utils.go *)

(** the keys of the map: formulas, the terms of the delta rules, and the variables of the quantifiers *)
Inductive key : Type := KForm (f : form) | KTerm (t : term) | KVar (v : tvar).
(** key.Equals(otherKey): Glob/map.go:67 *)
Definition key_eqb (a b : key) : bool :=
  match a, b with
  | KForm f, KForm g => form_eqb f g
  | KTerm t, KTerm u => term_eqb t u
  | KVar v, KVar w => tvar_eqb v w
  | _, _ => false
  end.
(** utils.go:40 varCounter and 47 context *)
Record names_st : Type := mkNames { ctx : list (key * nat); counter : nat }.
(** utils.go:57-59 getFromContext *)
Definition get_from (st : names_st) (k : key) : option nat := option_map snd (List.find (fun e => key_eqb (fst e) k) (ctx st)).
(** utils.go:49-55 addToContext, with getIncreasedCounter (42-45) *)
Definition add_to (st : names_st) (k : key) : nat * names_st :=
  match get_from st k with
  | Some n => (n, st)
  | None => (counter st, mkNames (ctx st ++ [(k, counter st)]) (S (counter st)))
  end.

(** ** The text of a proof *)

(** λ (v : ϵ (f)) and λ (v : τ ()) *)
Inductive binder : Type := BForm (n : nat) (f : form) | BTerm (n : nat) (t : term).
(** the term of a rule: its variables (of a quantifier), its formulas, its term, its premises, the hypothesis it is applied to *)
Inductive lp : Type :=
| LEmpty
| LAxiom (f : form) (x y : option nat)
| LNtop (y : option nat)
| LBot (x : option nat)
| LRule (r : rule) (vars : list nat) (args : list form) (t : option term) (kids : list (list binder * lp)) (x : option nat).

(** proof.go:126-131 getPosAndNeg; MakerNot gives the formula an index *)
Definition pos_and_neg (f : form) : form * form := match f with Not _ g => (g, f) | _ => (f, Not 0 f) end.
(** proof.go:109-124 closureAxiom *)
Definition closure_axiom (f : form) (st : names_st) : lp :=
  let '(pos, neg) := pos_and_neg f in
  match pos with
  | Pred _ _ _ _ => LAxiom pos (get_from st (KForm pos)) (get_from st (KForm neg))
  | Top _ => LNtop (get_from st (KForm neg))
  | Bot _ => LBot (get_from st (KForm pos))
  | _ => LEmpty
  end.

(** GetChildFormulas: AST/formsDef.go:288, 412, 524, 639, 755, 984, 1024, 1052; quantifiers.go:97-99 *)
Definition child_forms (f : form) : list form :=
  match f with
  | All _ _ g | Ex _ _ g | Not _ g => [g]
  | Or _ l | And _ l => l
  | Equ _ a b | Imp _ a b => [a; b]
  | Pred _ _ _ _ | Top _ | Bot _ => []
  end.
(** the formulas given to a rule: proof.go:257-354 (alphaNotNot to gammaNotEx) *)
Definition composing (r : rule) (f : form) : out (list form) :=
  match r with
  | AND | OR | IMP | EQU | EX | ALL => Ok (child_forms f)
  | NNOT | NOR | NIMP | NAND | NEQU | NALL | NEX => do g <- at_ (child_forms f) 0; Ok (child_forms g)
  | AX | W | NOT | R | REWRITE => Ok []
  end.
(** the variables of the quantifier: proof.go:299-302, 316-321, 328-331, 345-350 *)
Definition quant_vars (r : rule) (f : form) : list tvar :=
  match r, f with
  | EX, Ex _ vs _ => vs
  | NALL, Not _ (All _ vs _) => vs
  | ALL, All _ vs _ => vs
  | NEX, Not _ (Ex _ vs _) => vs
  | _, _ => []
  end.
(** toLambdaIntroString (utils.go:65-67) for each variable: proof.go:173-177, 226-230 *)
Fixpoint add_vars (vs : list tvar) (st : names_st) : list nat * names_st :=
  match vs with
  | [] => ([], st)
  | v :: r => let '(n, st) := add_to st (KVar v) in let '(ns, st) := add_vars r st in (n :: ns, st)
  end.
(** toLambdaString (utils.go:61-63) for each formula: proof.go:191-193, 247-249 *)
Fixpoint add_forms (fs : list form) (st : names_st) : list binder * names_st :=
  match fs with
  | [] => ([], st)
  | f :: r => let '(n, st) := add_to st (KForm f) in let '(bs, st) := add_forms r st in (BForm n f :: bs, st)
  end.
(** the term bound by a delta rule: proof.go:242-246. A nil key makes the next lookup panic. *)
Definition add_term_to (t : option term) (st : names_st) : out (list binder * names_st) :=
  match t with
  | None => Crash
  | Some t => let '(n, st) := add_to st (KTerm t) in Ok ([BTerm n t], st)
  end.

(** proof.go:60-107 makeProofStep; 133-145 allRules; 147-186 allRulesQuantUniv; 201-237 allRulesQuantExist; the premises are
    printed by getRecursionUnivStr (188-199) and getRecursionExistStr (239-255) *)
Fixpoint proof_step (s : sequent) (st : names_st) : out (lp * names_st) :=
  let '(Seq _ r _ _ t _ ks _ _) := s in
  do f <- target_form s;
  let premises (bind_term : bool) (st : names_st) :=
    (fix go (i : nat) (l : list sequent) (st : names_st) : out (list (list binder * lp) * names_st) :=
       match l with
       | [] => Ok ([], st)
       | k :: rest =>
         do p <- (if bind_term then add_term_to t st else Ok ([], st));
         do fs <- forms_of s i;
         let '(bs, st) := add_forms fs (snd p) in
         do a <- proof_step k st;
         do b <- go (S i) rest (snd a);
         Ok ((fst p ++ bs, fst a) :: fst b, snd b)
       end) 0%nat ks st in
  match r with
  | AX => Ok (closure_axiom f st, st)
  | NNOT | AND | NOR | NIMP | OR | NAND | IMP | EQU | NEQU =>
    do args <- composing r f;
    do q <- premises false st;
    Ok (LRule r [] args None (fst q) (get_from (snd q) (KForm f)), snd q)
  | EX | NALL =>
    do args <- composing r f;
    do a <- at_ args 0;
    let '(vs, st) := add_vars (quant_vars r f) st in
    do q <- premises true st;
    Ok (LRule r vs [a] None (fst q) (get_from (snd q) (KForm f)), snd q)
  | ALL | NEX =>
    do args <- composing r f;
    do a <- at_ args 0;
    let '(vs, st) := add_vars (quant_vars r f) st in
    match t with
    | None => Crash
    | Some u =>
      do q <- premises false st;
      Ok (LRule r vs [a] (Some u) (fst q) (get_from (snd q) (KForm f)), snd q)
    end
  | W => Crash
  | NOT | R | REWRITE => Ok (LEmpty, st)
  end.

(** ** The statement *)

(** proof.go:357-368 processMainFormula *)
Definition process_main (f : form) : out (list form * form) :=
  match f with
  | Not _ g => Ok ([], g)
  | And _ l => match rev l with Not _ g :: r => Ok (rev r, g) | _ => Crash end
  | _ => Ok ([], f)
  end.
(** proof.go:380-387 makeImpChain *)
Definition imp_chain (l : list form) : out form :=
  match rev l with
  | [] => Crash
  | c :: r => Ok (fold_left (fun f a => Imp 0 a f) r c)
  end.
(** a script: symbol goeland : ϵ statement → ϵ ⊥ ≔ λ (v : ϵ formula), proof *)
Record script : Type := mkScript { sc_statement : form; sc_var : nat; sc_formula : form; sc_proof : lp }.
(** proof.go:44-58 makeLambdaPiProofFromGS3, with makeTheorem (371-377), on the names left by the scripts made before *)
Definition make_script (s : sequent) (st : names_st) : out (script * names_st) :=
  do f <- target_form s;
  do p <- process_main f;
  do statement <- imp_chain (fst p ++ [Not 0 (snd p)]);
  let '(n, st) := add_to st (KForm f) in
  do q <- proof_step s st;
  Ok (mkScript statement n f (fst q), snd q).
Definition no_names : names_st := mkNames [] 0.

(** ** The declarations: context.go *)
Section Declarations.
(** AST.Id_eq *)
Variable id_eq : Z.
(** mapDefault applied to symbol %s; (output.go:94-97) *)
Variable show : string -> string.

(** context.go:255-270 clean *)
Definition clean (set add : list string) : list string := filter (fun x => negb (existsb (String.eqb x) set)) add.
Definition add_all {A} (f : A -> list string) (l : list A) (start : list string) : list string :=
  fold_left (fun acc x => acc ++ clean acc (f x)) l start.
(** context.go:242-252 getContextFromTerm *)
Fixpoint term_context (t : term) : list string :=
  match t with
  | Fun p _ l => add_all term_context l [show (id_name p)]
  | _ => []
  end.
(** context.go:174-207 getContextFromFormula *)
Fixpoint form_context (f : form) : list string :=
  match f with
  | All _ _ g | Ex _ _ g | Not _ g => form_context g
  | And _ l | Or _ l => add_all form_context l []
  | Imp _ a b | Equ _ a b => let r := clean [] (form_context a) in r ++ clean r (form_context b)
  | Pred _ p _ l => add_all term_context l (if id_index p =? id_eq then [] else [show (id_name p)])
  | Top _ | Bot _ => []
  end.
(** context.go:44-67 makeContextIfNeeded: the symbols, and the metavariables (272-278 contextualizeMetas). [registered] are the
    axioms of dmt when it is loaded. *)
Definition context_of (registered : option (list form)) (root : form) (metas : list meta) : list string * list string :=
  let root := match registered with None => root | Some l => And 0 (l ++ [root]) end in
  (form_context root, map (fun m => (m_name m ++ "_" ++ dec (m_index m))%string) metas).
End Declarations.
