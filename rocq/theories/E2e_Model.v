(** Model of the loading of a problem: src/main.go presearchLoader, from the parsed statements to the formula given to the search.

    Simplifications: the text is parsed elsewhere (Tptp parser models); the search bound and the equality flag are left out; the
    statements [include] are left out ([to_stmt] gives an unreadable file, so the model stops with a fatal error); the module dmt
    is off; the type checker is a parameter (Typing_Model.v has its model), its verdict can only stop the run. *)
From Coq Require Import ZArith List Bool String.
From Verif Require Import Ast_Model Problem_Model Elab_Model.
Import ListNotations.
Open Scope Z_scope.

(** AST/maker.go:67-73 Init with 76-82 Reset: the symbol = and a predicate (one formula index) *)
Definition init_tables : gen := snd (maker_index_formula (snd (maker_id "=" gen0))).

(** Core/statement.go:57-99: what main.go:244-315 reads of a statement: the role, then the formula or the typing *)
Definition to_stmt (s : cstmt) : stmt :=
  match s with
  | CSForm RAxiom f => SAxiom (Some f)
  | CSForm RConjecture f => SConjecture (Some f)
  | CSForm RNegConjecture f => SNegConjecture (Some f)
  | CSForm RType _ => SType false
  | CSType RAxiom _ _ => SAxiom None
  | CSType RConjecture _ _ => SConjecture None
  | CSType RNegConjecture _ _ => SNegConjecture None
  | CSType RType _ _ => SType true
  | CSForm RUnknown _ | CSType RUnknown _ _ => SUnknown
  | CSInclude _ => SInclude None
  end.

(** main.go:228-336 with the counters it leaves: formula, typed flag, conjecture flag, counters *)
Definition assemble (l : list stmt) (g : gen) : option (option form * bool * bool * gen) :=
  match p_run l (mkP [] None false g false) with
  | Some q => let '(fo, g') := p_finish q in Some (fo, typed q, conj_found q, g')
  | None => None
  end.

(** what happens before the search: a formula, whether a conjecture was found (Glob.SetConjecture), and the counters; or the run
    stops *)
Inductive loaded : Type := Loaded (f : form) (cj : bool) (g : gen) | Stopped.

(** main.go:128-181 presearchLoader and 405-410 checkForTypedProof *)
Definition presearch (fl : bool) (check : form -> bool) (l : list pstmt) (g : gen) : loaded :=
  match to_internal_syntax fl l g with
  | EOk (l', is_typed, g1) =>
    match assemble (map to_stmt l') g1 with
    | Some (Some f, is_typed_include, cj, g2) =>
      if is_typed || is_typed_include then if check f then Loaded f cj g2 else Stopped else Loaded f cj g2
    | _ => Stopped
    end
  | _ => Stopped
  end.
