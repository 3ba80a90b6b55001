(** Model of the printing of a GS3 proof in TPTP format: Mods/tptp/proof.go.

    The text is a list of [line]s: names, formulas and terms are kept as data instead of being printed. Two different
    names are printed differently (a prefix, a number, then ext1, ext2...). The variables shared by the package (the counter
    of steps, the constants created) and the counter of AST.MakerNewId are the state [tst]. The pointers SetId, SetChildren,
    SetTermGenerated write through are values here: what is written to a child is read only below.

    An index out of range, a nil dereference and Glob.Anomaly are [Crash]; the recursion on the tree, whose formulas are
    changed on the way, has fuel. Copies of formulas are the formulas; the index of a formula built here is 0. *)
From Coq Require Import ZArith List Bool String.
From Verif Require Import Ast_Model Unif_Model GsProof_Model.
Import ListNotations.
Open Scope list_scope.
Open Scope Z_scope.

(** the names f%d, f%dext1, f%dext2ext1..., ax%d, ac%d: proof.go:60-61, 354, 364-365, 377, 402, 451-452, 516, 574-577 *)
Inductive sid : Type := SF (n : Z) (ext : list nat) | SAx (n : Z) | SCut (i : nat).
(** fof(name, plain, [left] --> [right], inference(rule, [status(thm), pos, term], [premises])) *)
Record tstep : Type := mkStep {
  t_name : sid; t_left : list form; t_right : list form; t_rule : string; t_pos : option nat; t_term : option term; t_prem : list sid }.
(** the declaration of an axiom, of the conjecture, a step, a text that is not a step (proof.go:195), nothing (proof.go:328) *)
Inductive line : Type := LAxiom (n : Z) (f : form) | LConj (f : form) | LStep (s : tstep) | LText (t : term) | LNone.

(** proof.go:55-59 and the counter of AST/maker.go:101-108 *)
Record tst : Type := mkTst { cnt : Z; orig : list (option term); made : list term; ids : Z }.

(** sequent.go:106-108 GetTargetForm *)
Definition target_form (s : sequent) : out form := match nth_error (s_hyps s) (s_on s) with Some f => Ok f | None => Crash end.
(** sequent.go:156-158 SetId *)
Definition with_id (i : Z) (s : sequent) : sequent := let '(Seq h r o w t f k p _) := s in Seq h r o w t f k p i.
(** sequent.go:122-124 GetResultFormulasOfChild *)
Definition forms_of (s : sequent) (i : nat) : out (list form) := match nth_error (s_forms s) i with Some l => Ok l | None => Crash end.
(** Lib/list.go:197-209 ListAdd *)
Definition list_add (l xs : list form) : list form := fold_left (fun l y => if mem y l then l else l ++ [y]) xs l.
(** Lib/list.go:75-77 Upd *)
Fixpoint upd {A} (i : nat) (x : A) (l : list A) : list A :=
  match l, i with [], _ => [] | _ :: r, O => x :: r | y :: r, S i => y :: upd i x r end.
Fixpoint omap {A B} (f : A -> out B) (l : list A) : out (list B) :=
  match l with [] => Ok [] | a :: r => do b <- f a; do r <- omap f r; Ok (b :: r) end.

(** proof.go:599-610 get *)
Definition get (f : form) (l : list form) : out nat := match index_of f l with Some i => Ok i | None => Crash end.
(** proof.go:112-127 findIndexPos *)
Definition index_pos (f : form) (l : list form) (target : nat) : out nat := match f with Not _ g => get g l | _ => Ok target end.

Section Tptp.
(** AST.Id_eq, whose index is tested by Equals *)
Variable id_eq : Z.
(** prefix_const: proof.go:62, output.go:65-67 *)
Variable prefix : string.
(** proof.go:63 dummyTerm *)
Variable dummy : term.

(** proof.go:612-620 isPredEqual *)
Definition is_equal (f : form) : bool :=
  match f with
  | Not _ (Pred _ p _ _) | Pred _ p _ _ => id_index p =? id_eq
  | _ => false
  end.

(** AST/formula.go:65-112 calls a method of the term to replace, which may be nil, for each term it meets *)
Fixpoint has_args (f : form) : bool :=
  match f with
  | All _ _ g | Ex _ _ g | Not _ g => has_args g
  | Or _ fs | And _ fs => existsb has_args fs
  | Equ _ a b | Imp _ a b => has_args a || has_args b
  | Pred _ _ _ args => match args with [] => false | _ => true end
  | Top _ | Bot _ => false
  end.
Definition replace_opt (old : option term) (new : term) (f : form) : out form :=
  match old with
  | Some t => match replace_term t new f with Some (g, _) => Ok g | None => Crash end
  | None => if has_args f then Crash else Ok f
  end.
(** ReplaceSubTermBy, where Equals of nil is false *)
Definition replace_sub_opt (old : option term) (new : term) (t : term) : term :=
  match old with Some o => replace_sub o new t | None => t end.
(** proof.go:637-669 updateSkolemSymbol, with sequent.go:126-134 GetResultFormulasOfChildren *)
Fixpoint update (old : option term) (new : term) (s : sequent) : out sequent :=
  let '(Seq h r o w t fs ks p i) := s in
  match nth_error h o with
  | None => Crash
  | Some f =>
    do f <- replace_opt old new f;
    do fs <- (if (List.length fs <? List.length ks)%nat then Crash
              else omap (omap (replace_opt old new)) (firstn (List.length ks) fs));
    do ks <- (fix go (l : list sequent) : out (list sequent) :=
                match l with [] => Ok [] | k :: r => do k <- update old new k; do r <- go r; Ok (k :: r) end) ks;
    Ok (Seq (upd o f h) r o w (option_map (replace_sub_opt old new) t) fs ks p i)
  end.

(** proof.go:673-682 createNewConstant *)
Definition new_constant (t : option term) (st : tst) : term * tst :=
  let c := Fun (mkId (ids st) (prefix ++ dec (Z.of_nat (List.length (made st))))%string) [] [] in
  (c, mkTst (cnt st) (orig st ++ [t]) (made st ++ [c]) (ids st + 1)).
(** proof.go:692-699 getCreatedFromOriginal; the method of a nil term is a panic *)
Fixpoint created_from (o : list (option term)) (m : list term) (t : term) : out term :=
  match o with
  | [] => Ok t
  | None :: _ => Crash
  | Some u :: o =>
    if term_eqb u t then match m with c :: _ => Ok c | [] => Crash end
    else created_from o (tl m) t
  end.
(** proof.go:684-690 findInConstants *)
Definition find_constant (t : option term) (st : tst) : out term :=
  match t with None => Ok dummy | Some t => created_from (orig st) (made st) t end.

(** proof.go:209-214 (with incrByOne, 622-629) and the same loop in the other steps: numbers for the children *)
Fixpoint number (n : Z) (ks : list sequent) : list Z * list sequent :=
  match ks with
  | [] => ([], [])
  | k :: r => let '(l, r) := number (n + 1) r in (n + 1 :: l, with_id (n + 1) k :: r)
  end.
Definition with_kids (ks : list sequent) (s : sequent) : sequent := let '(Seq h r o w t f _ p i) := s in Seq h r o w t f ks p i.
Definition numbered (s : sequent) (st : tst) : list Z * sequent * tst :=
  let '(l, ks) := number (cnt st) (s_kids s) in
  (l, with_kids ks s, mkTst (cnt st + Z.of_nat (List.length (s_kids s))) (orig st) (made st) (ids st)).
Definition fnames (l : list Z) : list sid := map (fun n => SF n []) l.

(** what makeStep returns: lines, hypotheses of the children, the sequent as changed, the number for the child of a weakening *)
Definition stepped : Type := (list line * list (list form) * sequent * Z * tst)%type.

(** the hypotheses with the formulas generated for each child: proof.go:233-240, 336-343, 434-441 *)
Fixpoint child_hyps (s : sequent) (hyps : list form) (i : nat) (ks : list sequent) : out (list (list form)) :=
  match ks with
  | [] => Ok []
  | _ :: r => do fs <- forms_of s i; do l <- child_hyps s hyps (S i) r; Ok (list_add hyps fs :: l)
  end.

(** proof.go:207-227 alphaStep *)
Definition alpha_step (s : sequent) (hyps : list form) (target : nat) (rule : string) (st : tst) : out stepped :=
  let '(l, s, st) := numbered s st in
  do fs <- forms_of s 0;
  Ok ([LStep (mkStep (SF (s_id s) []) hyps [] rule (Some target) None (fnames l))], [list_add hyps fs], s, -1, st).
(** proof.go:229-251 betaStep *)
Definition beta_step (s : sequent) (hyps : list form) (target : nat) (rule : string) (st : tst) : out stepped :=
  let '(l, s, st) := numbered s st in
  do hs <- child_hyps s hyps 0 (s_kids s);
  Ok ([LStep (mkStep (SF (s_id s) []) hyps [] rule (Some target) None (fnames l))], hs, s, -1, st).
(** proof.go:253-278 deltaStep *)
Definition delta_step (s : sequent) (hyps : list form) (target : nat) (rule : string) (st : tst) : out stepped :=
  let '(l, s, st) := numbered s st in
  let '(c, st) := new_constant (s_term s) st in
  do s <- update (s_term s) c s;
  do fs <- forms_of s 0;
  Ok ([LStep (mkStep (SF (s_id s) []) hyps [] rule (Some target) (Some c) (fnames l))], [list_add hyps fs], s, -1, st).
(** proof.go:280-303 gammaStep *)
Definition gamma_step (s : sequent) (hyps : list form) (target : nat) (rule : string) (st : tst) : out stepped :=
  let '(l, s, st) := numbered s st in
  do u <- find_constant (s_term s) st;
  do fs <- forms_of s 0;
  Ok ([LStep (mkStep (SF (s_id s) []) hyps [] rule (Some target) (Some u) (fnames l))], [list_add hyps fs], s, -1, st).
(** proof.go:305-322 weakenStep *)
Definition weaken_step (s : sequent) (hyps : list form) (target : nat) (st : tst) : out stepped :=
  let child := cnt st + 1 in
  let hyps := remove_at target hyps in
  Ok ([LStep (mkStep (SF (s_id s) []) hyps [] "leftWeaken" (Some target) None [SF child []])], [hyps], s, child,
      mkTst child (orig st) (made st) (ids st)).

(** the nth element of a list, changed: resultHyps[0] = ..., resultHyps[1] = ... *)
Definition at_ {A} (l : list A) (i : nat) : out A := match nth_error l i with Some x => Ok x | None => Crash end.
(** proof.go:331-427 EquStep *)
Definition equ_step (s : sequent) (hyps : list form) (target : nat) (st : tst) : out stepped :=
  let '(l, s, st) := numbered s st in
  do hs <- child_hyps s hyps 0 (s_kids s);
  match nth_error hyps target with
  | Some (Equ _ a b) =>
    let id := s_id s in
    let ab := Imp 0 a b in
    let ba := Imp 0 b a in
    let na := Not 0 a in
    let nb := Not 0 b in
    let first := mkStep (SF id []) hyps [] "leftIff" (Some target) None [SF id [1%nat]] in
    let h := list_add hyps [ab; ba] in
    do i1 <- get ab h;
    let s1 := mkStep (SF id [1%nat]) h [] "leftImp2" (Some i1) None [SF id [2%nat]; SF id [3%nat]] in
    let h2 := list_add h [na] in
    do i2 <- get ba h2;
    do c0 <- at_ l 0;
    let s2 := mkStep (SF id [2%nat]) h2 [] "leftImp2" (Some i2) None [SF c0 []; SF id [2; 1]%nat] in
    do r0 <- at_ hs 0;
    let hs := upd 0 (list_add r0 h2) hs in
    let h2c := list_add h2 [a] in
    do i2a <- get a h2c;
    do i2c <- index_pos a h2c i2a;
    let s2c := mkStep (SF id [2; 1]%nat) h2c [] "leftHyp" (Some i2c) None [] in
    let h3 := list_add h [b] in
    do i3 <- get ba h3;
    do c1 <- at_ l 1;
    let s3 := mkStep (SF id [3%nat]) h3 [] "leftImp2" (Some i3) None [SF id [3; 1]%nat; SF c1 []] in
    do r1 <- at_ hs 1;
    let hs := upd 1 (list_add r1 h3) hs in
    let h3c := list_add h3 [nb] in
    do i3b <- get b h3c;
    do i3c <- index_pos b h3c i3b;
    let s3c := mkStep (SF id [3; 1]%nat) h3c [] "leftHyp" (Some i3c) None [] in
    Ok (map LStep [s3c; s3; s2c; s2; s1; first], hs, s, -1, st)
  | _ => Crash
  end.
(** proof.go:429-487 NotEquStep *)
Definition nequ_step (s : sequent) (hyps : list form) (target : nat) (st : tst) : out stepped :=
  let '(l, s, st) := numbered s st in
  do hs <- child_hyps s hyps 0 (s_kids s);
  match nth_error hyps target with
  | Some (Not _ (Equ _ a b)) =>
    let id := s_id s in
    let nab := Not 0 (Imp 0 a b) in
    let nba := Not 0 (Imp 0 b a) in
    let first := mkStep (SF id []) hyps [] "leftNotIff" (Some target) None [SF id [1%nat]; SF id [2%nat]] in
    let h1 := list_add hyps [nab] in
    do i1 <- get nab h1;
    do c1 <- at_ l 1;
    let s1 := mkStep (SF id [1%nat]) h1 [] "leftNotImplies" (Some i1) None [SF c1 []] in
    do r1 <- at_ hs 1;
    let hs := upd 1 (list_add r1 h1) hs in
    let h2 := list_add hyps [nba] in
    do i2 <- get nba h2;
    do c0 <- at_ l 0;
    let s2 := mkStep (SF id [2%nat]) h2 [] "leftNotImplies" (Some i2) None [SF c0 []] in
    do r0 <- at_ hs 0;
    let hs := upd 0 (list_add r0 h2) hs in
    Ok (map LStep [s2; s1; first], hs, s, -1, st)
  | _ => Crash
  end.

(** proof.go:107-110, 129-205 makeStep, with 631-635 updateId *)
Definition make_step (s : sequent) (hyps : list form) (cur : Z) (st : tst) : out stepped :=
  let s := if cur =? -1 then s else with_id cur s in
  do f <- target_form s;
  do target <- get f hyps;
  match s_rule s with
  | AX =>
    if is_equal f then Ok ([LStep (mkStep (SF (s_id s) []) hyps [] "congruence" None None [])], [hyps], s, -1, st)
    else
      do i <- index_pos f hyps target;
      Ok ([LStep (mkStep (SF (s_id s) []) hyps [] "leftHyp" (Some i) None [])], [hyps], s, -1, st)
  | NNOT => alpha_step s hyps target "leftNotNot" st
  | AND => alpha_step s hyps target "leftAnd" st
  | NOR => alpha_step s hyps target "leftNotOr" st
  | NIMP => alpha_step s hyps target "leftNotImplies" st
  | NAND => beta_step s hyps target "leftNotAnd" st
  | NEQU => nequ_step s hyps target st
  | OR => beta_step s hyps target "leftOr" st
  | IMP => beta_step s hyps target "leftImp2" st
  | EQU => equ_step s hyps target st
  | NALL => delta_step s hyps target "leftNotAll" st
  | EX => delta_step s hyps target "leftExists" st
  | ALL => gamma_step s hyps target "leftForall" st
  | NEX => gamma_step s hyps target "leftNotEx" st
  | W =>
    match s_term s with
    | Some t => do u <- find_constant (Some t) st; Ok ([LText u], [hyps], s, -1, st)
    | None => weaken_step s hyps target st
    end
  | REWRITE =>
    (* sequent.go:148-150 GetRewriteWith, and the formula the target is rewritten to, are read first *)
    let '(Seq h _ _ w _ _ _ _ _) := s in
    do _ <- at_ h w;
    do fs <- forms_of s 0;
    do _ <- at_ fs 0;
    Ok ([LNone], [], s, -1, st)
  | R | NOT => Ok ([LNone], [hyps], s, -1, st)
  end.

(** proof.go:88-105 followProofSteps: the children, then the sequent *)
Section Kids.
Variable rec : sequent -> list form -> tst -> out (list line * tst).
Fixpoint each (hs : nat -> out (list form)) (i : nat) (ks : list sequent) (st : tst) : out (list line * tst) :=
  match ks with
  | [] => Ok ([], st)
  | k :: r =>
    do h <- hs i;
    do (l, st) <- rec k h st;
    do (l', st) <- each hs (S i) r st;
    Ok (l ++ l', st)
  end.
End Kids.
Fixpoint follow (n : nat) (s : sequent) (hyps : list form) (cur : Z) (st : tst) : out (list line * tst) :=
  match n with
  | O => Out
  | S n =>
    if is_empty s then each (fun k h st => follow n k h cur st) (fun _ => Ok hyps) 0 (s_kids s) st
    else
      do (own, hs, s, cur, st) <- make_step s hyps cur st;
      do (l, st) <- each (fun k h st => follow n k h cur st) (fun i => do h <- at_ hs i; Ok (list_add hyps h)) 0 (s_kids s) st;
      Ok (l ++ own, st)
  end.

(** proof.go:492-508 processMainFormula *)
Definition main_formula (f : form) : out (list form * form) :=
  match f with
  | Not _ g => Ok ([], g)
  | And _ fs =>
    match rev fs with
    | [] => Crash
    | Not _ g :: r => Ok (rev r, g)
    | g :: r => Ok (rev r, g)
    end
  | _ => Ok ([], f)
  end.
(** proof.go:511-522 makeTheorem *)
Definition theorem (axioms : list form) (c : form) : list line := map (fun f => LAxiom (form_index f) f) axioms ++ [LConj c].
(** proof.go:525-564 performFirstStep, with 0 for nextId *)
Definition first_steps (axioms : list form) (c : form) (st : tst) : list line * Z * tst :=
  let no := cnt st + 1 in
  let hy := cnt st + 2 in
  let next := cnt st + 3 in
  ([LStep (mkStep (SF hy []) (axioms ++ [c]) [c] "hyp" (Some (List.length axioms)) None []);
    LStep (mkStep (SF no []) axioms [c; Not 0 c] "rightNot" (Some 1%nat) None [SF hy []]);
    LStep (mkStep (SF 0 []) axioms [c] "cut" (Some 1%nat) None [SF no []; SF next []])],
   next, mkTst next (orig st) (made st) (ids st)).
(** proof.go:567-595 performCutAxiomStep: the last cut is printed first *)
Fixpoint cut_axioms (axioms : list form) (c : form) (i : nat) (rest : list form) : list line :=
  match rest with
  | [] => []
  | f :: r =>
    let next := match r with [] => SF 0 [] | _ => SCut (S i) end in
    cut_axioms axioms c (S i) r ++
    [LStep (mkStep (SCut i) (firstn i axioms) [c] "cut" (Some 0%nat) None [SAx (form_index f); next])]
  end.
(** proof.go:65-84 makeTptpProofFromGS3 *)
Definition tptp (n : nat) (s : sequent) (st : tst) : out (list line * tst) :=
  do f <- target_form s;
  do (axioms, c) <- main_formula f;
  let hyps := axioms ++ [Not 0 c] in
  let '(first, next, st) := first_steps axioms c st in
  do s <- match axioms with [] => Ok s | _ => at_ (s_kids s) 0 end;
  do (l, st) <- follow n s hyps next st;
  Ok (theorem axioms c ++ l ++ first ++ cut_axioms axioms c 0 axioms, st).
End Tptp.
