(** Observations on runs of the concurrent models. *)
From Coq Require Import ZArith List Bool String.
From Verif Require Import Ast_Model Conc_Model.
Import ListNotations.
Open Scope Z_scope.

(** indices handed to newly created identifiers, variables and metavariables *)
Definition created_terms (l : list result) : list Z :=
  flat_map (fun r => match r with
                     | RId _ i true | RVar _ i true | RMeta _ i _ => [i]
                     | _ => [] end) l.
Definition created_tymetas (l : list result) : list Z :=
  flat_map (fun r => match r with RTyMeta _ i => [i] | _ => [] end) l.
Definition created_forms (l : list result) : list Z :=
  flat_map (fun r => match r with RForm i => [i] | _ => [] end) l.

(** the identifiers returned: (name, index) *)
Definition ids_returned (l : list result) : list (string * Z) :=
  flat_map (fun r => match r with RId s i _ => [(s, i)] | _ => [] end) l.
Definition vars_returned (l : list result) : list (string * Z) :=
  flat_map (fun r => match r with RVar s i _ => [(s, i)] | _ => [] end) l.

(** the call asks for the identifier named [s] *)
Definition asks_id (s : string) (c : call) : bool :=
  match c with CId x | CNewId x => String.eqb x s | _ => false end.
Definition asks_new_id (s : string) (c : call) : bool :=
  match c with CNewId x => String.eqb x s | _ => false end.

(** a generator state in which tables contain only indices already drawn, each name of one table
    with its own index *)
Definition gen_ok (g : gen) : Prop :=
  (forall s i, In (s, i) (idTable g) -> i < cpt_term g) /\
  (forall s i, In (s, i) (idVar g) -> i < cpt_term g) /\
  (forall s s' i, In (s, i) (idTable g) -> In (s', i) (idTable g) -> s = s') /\
  (forall s s' i, In (s, i) (idVar g) -> In (s', i) (idVar g) -> s = s') /\
  (forall s s' i, In (s, i) (idTable g) -> In (s', i) (idVar g) -> False).

(** all goroutines have finished *)
Definition n_all (st : nstate) : list Z := flat_map n_got (n_threads st).
Definition t_finished (st : tstate) : Prop := forall p prog, In (p, prog) (t_threads st) -> p = PIdle /\ prog = [].
(** the goroutine is executing a task *)
Definition executing (th : tpc * list (nat * task)) : bool :=
  match fst th with PRun _ _ | PLoaded _ _ _ | PStored _ _ => true | _ => false end.

(** sequential meaning of a list of counter operations: final counter and number of callbacks *)
Fixpoint seq_counter (c : Z) (fired : nat) (l : list (nat * task)) : Z * nat :=
  match l with
  | [] => (c, fired)
  | (_, TInc) :: r => seq_counter (c + 1) fired r
  | (_, TDec) :: r => seq_counter (c - 1) (if c - 1 =? 0 then S fired else fired) r
  end.
