(** Model of the literals given to the SAT solver: src/Mods/equality/sateq/satbuilder_mappings.go, lit.go, satbuilder.go:88-96 (addClause) and
    problem.go:249-262 (solve).  SatEq_Model names a literal by its key; here are the literals.

    Simplifications: gini.Lit() (library) makes the next variable, whose positive literal is twice its number and negative literal that plus one;
    gini.Value (library) is an assignment of the variables.  The mappings are asked for the keys in the order of the clauses; asking for more
    keys, as the builder may do before, is any list of calls. *)
From Coq Require Import List Bool Arith Lia.
From Verif Require Import SatEq_Model.
Import ListNotations.
Open Scope list_scope.

(** 38-44: the mapping of a key, and its index in the mappings that have one map for each index *)
Definition place (v : var) : nat * nat :=
  match v with
  | VS _ _ => (0, 0) | VE i _ _ => (1, i) | VR _ _ => (2, 0) | VO _ _ => (3, 0) | VC _ => (4, 0) | VPhi i _ _ => (5, i) | VPsi i _ _ => (6, i)
  | VF i _ _ => (7, i) | VT i _ _ _ => (8, i)
  end.
Definition place_eqb (p q : nat * nat) : bool := (fst p =? fst q) && (snd p =? snd q).
(** the == of Go on keys *)
Definition key_eqb (v w : var) : bool :=
  match v, w with
  | VS a b, VS a' b' | VR a b, VR a' b' | VO a b, VO a' b' => (a =? a') && (b =? b')
  | VC a, VC a' => a =? a'
  | VE i a b, VE i' a' b' | VPhi i a b, VPhi i' a' b' | VPsi i a b, VPsi i' a' b' | VF i a b, VF i' a' b' => (i =? i') && (a =? a') && (b =? b')
  | VT i a b c, VT i' a' b' c' => (i =? i') && (a =? a') && (b =? b') && (c =? c')
  | _, _ => false
  end.
(** satbuilder.go:52-66 the fields of the builder: the number of variables of the solver, the mappings and lits *)
Record builder := mkB { b_vars : nat; b_maps : nat * nat -> list (var * nat); b_lits : list nat }.
Definition new_builder : builder := mkB 0 (fun _ => []) [].
Fixpoint assoc (v : var) (l : list (var * nat)) : option nat :=
  match l with [] => None | (w, n) :: r => if key_eqb w v then Some n else assoc v r end.
Definition lookup (b : builder) (v : var) : option nat := assoc v (b_maps b (place v)).
(** 46-55 getIdAndRegister *)
Definition get_id (b : builder) (v : var) : nat * builder :=
  match lookup b v with
  | Some n => (n, b)
  | None =>
    let k := S (b_vars b) in
    (2 * k, mkB k (fun p => if place_eqb p (place v) then (v, 2 * k) :: b_maps b p else b_maps b p) (b_lits b ++ [2 * k]))
  end.
(** lit.go:53-55 Not *)
Definition not_lit (n : nat) : nat := if Nat.even n then n + 1 else n - 1.
Definition get_lit (b : builder) (l : lit) : nat * builder :=
  let '(n, b) := get_id b (snd l) in (if fst l then n else not_lit n, b).
Fixpoint get_clause (b : builder) (c : list lit) : list nat * builder :=
  match c with [] => ([], b) | l :: r => let '(n, b) := get_lit b l in let '(ns, b) := get_clause b r in (n :: ns, b) end.
Fixpoint get_clauses (b : builder) (cs : list (list lit)) : list (list nat) * builder :=
  match cs with [] => ([], b) | c :: r => let '(n, b) := get_clause b c in let '(ns, b) := get_clauses b r in (n :: ns, b) end.
Fixpoint ask (b : builder) (l : list var) : builder := match l with [] => b | v :: r => ask (snd (get_id b v)) r end.
(** gini.Value *)
Definition value (g : nat -> bool) (n : nat) : bool := if Nat.even n then g (Nat.div2 n) else negb (g (Nat.div2 n)).
(** problem.go:249-262 solve: the values of the literals of lits *)
Definition assignment (g : nat -> bool) (lits : list nat) : list (nat * bool) := map (fun n => (n, value g n)) lits.
(** the reading truthValue[lit] of subsgatherer.go: a literal that is not there is false *)
Definition read (m : list (nat * bool)) (n : nat) : bool := match List.find (fun e => fst e =? n) m with Some e => snd e | None => false end.
Definition truth_of (b : builder) (g : nat -> bool) (v : var) : bool :=
  match lookup b v with Some n => read (assignment g (b_lits b)) n | None => false end.
(** the solver as SatEq_Model sees it *)
Definition through (solver : list (list nat) -> option (nat -> bool)) (before : list var) (cs : list (list lit)) : option (var -> bool) :=
  let '(ns, b) := get_clauses (ask new_builder before) cs in
  match solver ns with Some g => Some (truth_of b g) | None => None end.
