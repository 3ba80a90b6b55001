(** Model of the printing of a GS3 proof as a Rocq script: Mods/rocq/proof.go and the declarations of Mods/rocq/context.go.

    The text is data: the statement is a formula, the script a list of [tactic]s, a printed term a tree of names. The name of
    a hypothesis is its number (introName: proof.go:301-303). What the printer does to the names (Mods/rocq/output.go:105-126)
    is left out: a symbol is printed with its name. The problem name is left out. The counter dummy (proof.go:50) is a value
    that is passed along. A list of hypotheses is copied before it is given to a child, so Append and Upd are values.

    An index out of range, a failed type assertion and Glob.Anomaly are [Crash]. *)
From Coq Require Import ZArith List Bool String Ascii.
From Verif Require Import Ast_Model Unif_Model GsProof_Model Tptp_Model.
Import ListNotations.
Open Scope list_scope.
Open Scope Z_scope.

Inductive pterm : Type := PT (s : string) (l : list pterm).
(** the text of a step. The first argument of [TAlpha] and [TBeta] is the lemma applied, empty when the hypothesis is. *)
Inductive tactic : Type :=
| TIntros (ns : list nat)                                  (* intros H0 H1. *)
| TAlpha (lemma : string) (h : nat) (ns : list nat)        (* apply (lemma _ _ H). intros H1 H2. *)
| TBeta (lemma : string) (h : nat) (nss : list (list nat)) (* apply (lemma _ _ H); [ intros H1 | intros H2 ]. *)
| TNotAll (h : nat) (x : string) (ns : list nat)           (* apply H. intros x. apply NNPP. intros H1. *)
| TElim (h : nat) (x : string) (ns : list nat)             (* elim H. intros x. intros H1. *)
| TGeneralize (h : nat) (t : pterm) (ns : list nat)        (* generalize (H (t)). intros H1. *)
| TNotEx (h : nat) (t : pterm) (ns : list nat)             (* apply H. exists (t). apply NNPP. intros H1. *)
| TAuto | TCongruence
| TClearVar (x : string) | TClear (h : nat)
| TRewrite (i h : nat)                                     (* rewrite Hi in H. *)
| TNothing.

(** proof.go:286-290 introduce; 292-298 introduceList *)
Definition introduce_list (fl hyps : list form) : list nat * list form := (seq (List.length hyps) (List.length fl), hyps ++ fl).

(** proof.go:400-402 isGroundTerm, on a name *)
Fixpoint has_sko (s : string) : bool :=
  String.prefix "sko" s || match s with EmptyString => false | String _ r => has_sko r end.
(** output.go:117: the name of a metavariable *)
Definition meta_text (m : meta) : string := (m_name m ++ "_" ++ dec (m_index m))%string.
(** AST/termsDef.go ToString of a term: only the names *)
Fixpoint text_sko (t : term) : bool :=
  match t with
  | TId p => has_sko (id_name p)
  | Fun p _ l => has_sko (id_name p) || existsb text_sko l
  | Var _ n => has_sko n
  | Meta m => has_sko (meta_text m)
  end.
Fixpoint text (t : term) : pterm :=
  match t with
  | TId p => PT (id_name p) []
  | Fun p _ l => PT (id_name p) (map text l)
  | Var _ n => PT n []
  | Meta m => PT (meta_text m) []
  end.
(** proof.go:391-398 hasBeenCreated *)
Definition been_created (created : list term) (t : term) : bool := existsb (fun u => term_eqb u t) created.
Definition goeland_I : pterm := PT "goeland_I" [].
(** proof.go:353-364 findInConstants *)
Definition find_in (created : list term) (t : term) : out pterm :=
  if been_created created t then match t with Fun p _ _ => Ok (PT (id_name p) []) | _ => Crash end
  else if text_sko t then Ok goeland_I else Ok (text t).
(** proof.go:331-351 getRealConstantName *)
Fixpoint real_name (created : list term) (t : term) : out pterm :=
  match t with
  | Fun p _ l =>
    if has_sko (id_name p) then find_in created t
    else
      do l <- (fix go (l : list term) : out (list pterm) :=
                 match l with [] => Ok [] | a :: r => do a <- real_name created a; do r <- go r; Ok (a :: r) end) l;
      Ok (PT (id_name p) l)
  | _ => find_in created t
  end.
Definition real_name_opt (created : list term) (t : option term) : out pterm :=
  match t with None => Ok goeland_I | Some t => real_name created t end.
(** proof.go:322-329 addTermGenerated *)
Definition add_term (created : list term) (d : Z) (t : option term) : out (list term * string * Z) :=
  match t with
  | None => Ok (created, ("x" ++ dec d)%string, d + 1)
  | Some (Fun p tys l) => Ok (created ++ [Fun p tys l], id_name p, d)
  | Some _ => Crash
  end.

Section Rocq.
(** AST.Id_eq *)
Variable id_eq : Z.

(** what makeStep returns: the text, the hypotheses of the children, the constants, the counter *)
Definition stepped : Type := (tactic * list (list form) * list term * Z)%type.

(** proof.go:188-193 alphaStep *)
Definition alpha_step (s : sequent) (hyps : list form) (target : nat) (lemma : string) (created : list term) (d : Z) : out stepped :=
  do fs <- forms_of s 0;
  let '(ns, hs) := introduce_list fs hyps in
  Ok (TAlpha lemma target ns, [hs], created, d).
(** proof.go:195-208 betaStep *)
Fixpoint beta_hyps (s : sequent) (hyps : list form) (i : nat) (ks : list sequent) : out (list (list nat) * list (list form)) :=
  match ks with
  | [] => Ok ([], [])
  | _ :: r =>
    do fs <- forms_of s i;
    let '(ns, hs) := introduce_list fs hyps in
    do p <- beta_hyps s hyps (S i) r;
    Ok (ns :: fst p, hs :: snd p)
  end.
Definition beta_step (s : sequent) (hyps : list form) (target : nat) (lemma : string) (created : list term) (d : Z) : out stepped :=
  do p <- beta_hyps s hyps 0 (s_kids s);
  Ok (TBeta lemma target (fst p), snd p, created, d).
(** proof.go:210-218 deltaStep *)
Definition delta_step (s : sequent) (hyps : list form) (target : nat) (tac : nat -> string -> list nat -> tactic) (created : list term) (d : Z) : out stepped :=
  do fs <- forms_of s 0;
  let '(ns, hs) := introduce_list fs hyps in
  do c <- add_term created d (s_term s);
  let '(created, name, d) := c in
  Ok (tac target name ns, [hs], created, d).
(** proof.go:220-226 gammaStep *)
Definition gamma_step (s : sequent) (hyps : list form) (target : nat) (tac : nat -> pterm -> list nat -> tactic) (created : list term) (d : Z) : out stepped :=
  do fs <- forms_of s 0;
  let '(ns, hs) := introduce_list fs hyps in
  do t <- real_name_opt created (s_term s);
  Ok (tac target t ns, [hs], created, d).
(** proof.go:372-390 cleanHypotheses *)
Definition clean_hyps (f : form) (hyps : list form) (created : list term) (d : Z) : out stepped :=
  do i <- get f hyps;
  Ok (TClear i, [upd i (Top 0) hyps], created, d).
(** proof.go:228-245 rewriteStep; sequent.go:148-150 GetRewriteWith *)
Definition s_rew (s : sequent) : nat := let '(Seq _ _ _ w _ _ _ _ _) := s in w.
Definition rewrite_step (s : sequent) (hyps : list form) (target : nat) (created : list term) (d : Z) : out stepped :=
  do w <- at_ (s_hyps s) (s_rew s);
  do fs <- forms_of s 0;
  do f <- at_ fs 0;
  do i <- get w hyps;
  Ok (TRewrite i target, [upd target f hyps], created, d).

(** proof.go:101-186 makeStep. The index of an equality that is not found is 0. *)
Definition make_step (s : sequent) (hyps : list form) (created : list term) (d : Z) : out stepped :=
  do f <- target_form s;
  do target <- match index_of f hyps with Some i => Ok i | None => if is_equal id_eq f then Ok 0%nat else Crash end;
  match s_rule s with
  | AX => Ok (if is_equal id_eq f then TCongruence else TAuto, [hyps], created, d)
  | NNOT => alpha_step s hyps target "" created d
  | AND => alpha_step s hyps target "goeland_and_s" created d
  | NOR => alpha_step s hyps target "goeland_notor_s" created d
  | NIMP => alpha_step s hyps target "goeland_notimply_s" created d
  | NAND => beta_step s hyps target "goeland_notand_s" created d
  | NEQU => beta_step s hyps target "goeland_notequiv_s" created d
  | OR => beta_step s hyps target "goeland_or_s" created d
  | IMP => beta_step s hyps target "goeland_imply_s" created d
  | EQU => beta_step s hyps target "goeland_equiv_s" created d
  | NALL => delta_step s hyps target TNotAll created d
  | EX => delta_step s hyps target TElim created d
  | ALL => gamma_step s hyps target TGeneralize created d
  | NEX => gamma_step s hyps target TNotEx created d
  | W =>
    match s_term s with
    | Some (Fun p _ _) => Ok (TClearVar (id_name p), [hyps], created, d)
    | Some _ => Crash
    | None => clean_hyps f hyps created d
    end
  | REWRITE => rewrite_step s hyps target created d
  | NOT | R => Ok (TNothing, [hyps], created, d)
  end%string.
(** proof.go:80-95 followProofSteps; 97-100 makeProofStep *)
Fixpoint follow (s : sequent) (hyps : list form) (created : list term) (d : Z) : out (list tactic * Z) :=
  let '(Seq _ _ _ _ _ _ ks _ _) := s in
  do p <- (if is_empty s then Ok ([], None, created, d)
           else do x <- make_step s hyps created d; let '(t, hs, c, d) := x in Ok ([t], Some hs, c, d));
  let '(ts, hs, created, d) := p in
  do q <- (fix go (i : nat) (l : list sequent) (d : Z) : out (list tactic * Z) :=
             match l with
             | [] => Ok ([], d)
             | k :: r =>
               do h <- match hs with None => Ok hyps | Some hs => at_ hs i end;
               do a <- follow k h created d;
               do b <- go (S i) r (snd a);
               Ok (fst a ++ fst b, snd b)
             end) 0%nat ks d;
  Ok (ts ++ fst q, snd q).

(** proof.go:248-260 processMainFormula *)
Definition main_formula (f : form) : out (list form * form) :=
  match f with
  | Not _ g => Ok ([], g)
  | And _ l => match last l (Top 0) with Not _ g => Ok (removelast l, g) | _ => Crash end
  | _ => Ok ([], f)
  end.
(** proof.go:274-283 makeImpChain *)
Definition imp_chain (l : list form) (c : form) : form := fold_right (fun a f => Imp 0 a f) c l.
(** proof.go:52-78 makeRocqProofFromGS3, with makeTheorem (262-272): the statement and the script. [registered] are the axioms
    of dmt when it is loaded. *)
Definition rocq (registered : list form) (s : sequent) : out (form * list tactic) :=
  do f <- target_form s;
  do m <- main_formula f;
  let '(axs, c) := m in
  let all := axs ++ registered in
  do k <- match all, axs with
          | [], _ | _, [] => Ok s
          | _, _ => at_ (s_kids s) 0
          end;
  let intros := match all with [] => [] | _ => [TIntros (seq 0 (List.length all))] end ++ [TIntros [List.length all]] in
  do p <- follow k (all ++ [Not 0 c]) [] 0;
  Ok (imp_chain all (Not 0 (Not 0 c)), intros ++ fst p).
End Rocq.

(** ** context.go: the declarations

    A line declares a name with a type. Two lines are the same text when the names and the types are equal. *)
Section Context.
(** AST.Id_eq *)
Variable id_eq : Z.
(** Typing/env-and-context.go:142-144 QueryGlobalEnv *)
Variable env : string -> option ty.
Definition decl : Type := (string * ty)%type.
Definition decl_eqb (a b : decl) : bool := String.eqb (fst a) (fst b) && ty_eqb (snd a) (snd b).
(** AST/ty-syntax.go:492-510 mkDefaultFunctionalType, MkDefaultPredType, MkDefaultFunctionType *)
Definition default_type (n : nat) (out : ty) : ty :=
  match n with O => out | _ => TyFunc (TyProd (repeat (TyConstr "$i" []) n)) out end.
Definition pred_type (n : nat) : ty := default_type n (TyConstr "$o" []).
Definition function_type (n : nat) : ty := default_type n (TyConstr "$i" []).
(** context.go:161-171 clean *)
Definition clean_decls (set add : list decl) : list decl := filter (fun d => negb (existsb (decl_eqb d) set)) add.
(** the loops append what is not there *)
Definition add_decls {A} (f : A -> list decl) (l : list A) (start : list decl) : list decl :=
  fold_left (fun result a => result ++ clean_decls result (f a)) l start.
(** context.go:140-159 getContextFromTerm *)
Fixpoint term_decls (t : term) : list decl :=
  match t with
  | Fun p _ l =>
    let ty := match env (id_name p) with Some ty => ty | None => function_type (List.length l) end in
    add_decls term_decls l [(id_name p, ty)]
  | _ => []
  end.
(** context.go:97-138 getContextFromFormula *)
Fixpoint form_decls (f : form) : list decl :=
  match f with
  | All _ _ g | Ex _ _ g => form_decls g
  | And _ l | Or _ l => add_decls form_decls l []
  | Imp _ a b | Equ _ a b => let r := clean_decls [] (form_decls a) in r ++ clean_decls r (form_decls b)
  | Not _ g => clean_decls [] (form_decls g)
  | Pred _ p _ l =>
    let ty := match env (id_name p) with Some ty => ty | None => pred_type (List.length l) end in
    add_decls term_decls l (if id_index p =? id_eq then [] else [(id_name p, ty)])
  | Top _ | Bot _ => []
  end.
(** context.go:51-88 makeContextIfNeeded, when the context is printed; contextualizeMetas (173-179) is not modelled *)
Definition context (registered : option (list form)) (root : form) : list decl :=
  form_decls (match registered with Some l => And 0 (l ++ [root]) | None => root end).
End Context.
(** the names that the preamble declares: context.go:90-95, 181-249 *)
Definition preamble : list string :=
  ["goeland_notnot"; "goeland_nottrue"; "goeland_and"; "goeland_or"; "goeland_imply"; "goeland_equiv"; "goeland_notand"; "goeland_notor"; "goeland_notimply";
   "goeland_notequiv"; "goeland_ex"; "goeland_all"; "goeland_notex"; "goeland_notall"; "goeland_and_s"; "goeland_or_s"; "goeland_imply_s"; "goeland_equiv_s";
   "goeland_notand_s"; "goeland_notor_s"; "goeland_notimply_s"; "goeland_notequiv_s"; "goeland_ex_s"; "goeland_notall_s"; "goeland_U"; "goeland_I"]%string.
