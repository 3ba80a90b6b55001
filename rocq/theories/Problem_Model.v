(** Model of src/main.go: from the statements of a problem to the formula given to the search.

    Simplifications: the deduction-modulo plugin is off (its registration is in Dmt_Model.v); the
    statements of an included file are given with the include ([None]: the file is not found or
    not readable), already elaborated, so the variables of all files were drawn before (the code
    draws the variables of an included file when it reaches the include: only the numbers differ);
    the search bound and the equality flag are left out. *)
From Coq Require Import ZArith List Bool String.
From Verif Require Import Ast_Model.
Import ListNotations.
Open Scope Z_scope.

(** Core/statement.go:57-62 Statement and 92-99 FormulaRole.  The boolean of an include is the
    second result of Engine.ToInternalSyntax (main.go:260): the file has typed statements. *)
Inductive stmt : Type :=
| SAxiom (f : option form)
| SConjecture (f : option form)
| SNegConjecture (f : option form)
| SType (given : bool)
| SUnknown
| SInclude (file : option (bool * list stmt)).

(** variables of StatementListToFormula, and the globals it changes *)
Record pstate : Type := mkP
  { and_list : list form;            (* main.go:233 *)
    neg_conj : option form;          (* main.go:235 *)
    typed : bool;                    (* main.go:234 is_typed_problem *)
    p_gen : gen;
    conj_found : bool }.             (* Glob.SetConjecture *)

(** AST/formsDef.go:332 MakerAnd, 666 MakerNot *)
Definition maker_and (fs : list form) (g : gen) : form * gen :=
  let '(i, g') := maker_index_formula g in (And i fs, g').
Definition maker_not (f : form) (g : gen) : form * gen :=
  let '(i, g') := maker_index_formula g in (Not i f, g').

(** main.go:317-336 *)
Definition p_finish (p : pstate) : option form * gen :=
  match neg_conj p with
  | None => match and_list p with
            | [] => (None, p_gen p)
            | l => let '(f, g) := maker_and l (p_gen p) in (Some f, g)
            end
  | Some c => match and_list p with
              | [] => (Some c, p_gen p)
              | l => let '(f, g) := maker_and (flatten_and l ++ [c]) (p_gen p) in (Some f, g)
              end
  end.

(** main.go:338-348 (dmt not loaded) *)
Definition do_axiom (f : form) (p : pstate) : option pstate :=
  match rename_variables f (p_gen p) with
  | Some (f', g') => Some (mkP (and_list p ++ [f']) (neg_conj p) (typed p) g' (conj_found p))
  | None => None
  end.

(** one iteration of the loop of main.go:244-315; [None] is Glob.Fatal or Glob.Anomaly *)
Fixpoint p_step (s : stmt) (p : pstate) {struct s} : option pstate :=
  match s with
  | SAxiom (Some f) => do_axiom f p
  | SAxiom None => None
  | SConjecture fo =>
    match neg_conj p, fo with
    | None, Some f =>
      match rename_variables f (p_gen p) with
      | Some (f', g') => let '(nf, g'') := maker_not f' g' in
                         Some (mkP (and_list p) (Some nf) (typed p) g'' true)
      | None => None
      end
    | _, _ => None
    end
  | SNegConjecture fo =>
    match neg_conj p, fo with
    | None, Some f =>
      match rename_variables f (p_gen p) with
      | Some (f', g') => Some (mkP (and_list p) (Some f') (typed p) g' true)
      | None => None
      end
    | _, _ => None
    end
  | SType given => if given then Some p else None
  | SUnknown => None
  | SInclude None => None
  | SInclude (Some (is_typed, l)) =>
    (* main.go:246-273.  The flag [is_typed] of line 260 is overwritten on line 262 by the result
       of the recursive call. *)
    match (fix run (l : list stmt) (q : pstate) : option pstate :=
             match l with
             | [] => Some q
             | s :: r => match p_step s q with Some q' => run r q' | None => None end
             end) l (mkP [] None false (p_gen p) (conj_found p)) with
    | None => None
    | Some q =>
      let '(fo, g') := p_finish q in
      let is_typed := typed q in
      Some (mkP (match fo with Some f => and_list p ++ [f] | None => and_list p end)
                (neg_conj p) (typed p || is_typed) g' (conj_found q))
    end
  end.

(** main.go:244 *)
Definition p_run : list stmt -> pstate -> option pstate :=
  fix run l q := match l with
                 | [] => Some q
                 | s :: r => match p_step s q with Some q' => run r q' | None => None end
                 end.

(** main.go:228-336; result: formula (None: nil), typed flag, conjecture flag *)
Definition statement_list_to_formula (l : list stmt) (g : gen) : option (option form * bool * bool) :=
  match p_run l (mkP [] None false g false) with
  | Some q => Some (fst (p_finish q), typed q, conj_found q)
  | None => None
  end.
