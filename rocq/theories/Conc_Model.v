(** Concurrent models: the generators of src/AST/maker.go, the node counter of src/Glob/helper.go and
    the task list / counter of src/Glob/syncTaskList.go, syncCounter.go.

    A goroutine is a list of calls still to make plus a program counter.  One step of a goroutine
    is one mutex-protected section, or one unprotected read or write.  A schedule is the list of
    goroutine numbers in the order they take steps. *)
From Coq Require Import ZArith List Bool String.
From Verif Require Import Ast_Model.
Import ListNotations.
Open Scope Z_scope.

Fixpoint upd_nth {A} (n : nat) (x : A) (l : list A) : list A :=
  match n, l with
  | _, [] => []
  | O, _ :: r => x :: r
  | S n', y :: r => y :: upd_nth n' x r
  end.

(** ** AST/maker.go *)

Inductive call : Type :=
| CId (s : string)       (* MakerId, maker.go:90-99 *)
| CNewId (s : string)    (* MakerNewId, maker.go:101-108 *)
| CVar (s : string)      (* MakerVar, maker.go:111-120 (also MakerTypedVar, MakerTyBV) *)
| CNewVar (s : string)   (* MakerNewVar, maker.go:122-129 *)
| CMeta (s : string)     (* MakerMeta, maker.go:132-151 *)
| CTyMeta (s : string)   (* MkTyMeta, ty-syntax.go:299-305 *)
| CForm.                 (* MakerIndexFormula, maker.go:164-170 *)

(** where a goroutine is: between calls, or after the first locked section of a call *)
Inductive pc : Type :=
| Idle
| IdMiss (s : string)                    (* maker.go:94-98 with ok = false *)
| VarMiss (s : string)                   (* maker.go:115-119 with ok = false *)
| MetaSeen (s : string) (n : option Z).  (* maker.go:136-150; the result of the map lookup *)

(** what a completed call returned *)
Inductive result : Type :=
| RId (s : string) (i : Z) (created : bool)
| RVar (s : string) (i : Z) (created : bool)
| RMeta (s : string) (i occ : Z)
| RTyMeta (s : string) (i : Z)
| RForm (i : Z).

Record mstate : Type := mkM { m_gen : gen; m_threads : list (pc * list call); m_log : list result }.

(** one locked section of goroutine state [(p, prog)] *)
Definition msection (g : gen) (p : pc) (prog : list call) : option (gen * (pc * list call) * list result) :=
  match p with
  | IdMiss s => let '(i, g') := maker_new_id s g in Some (g', (Idle, prog), [RId s (id_index i) true])
  | VarMiss s => let '(i, g') := maker_new_var s g in Some (g', (Idle, prog), [RVar s i true])
  | MetaSeen s n =>
    let k := match n with Some i => i | None => 0 end in
    Some (mkGen (cpt_term g + 1) (cpt_formula g) (count_meta g) (idTable g) (idVar g) ((s, k + 1) :: occMeta g),
          (Idle, prog), [RMeta s (cpt_term g) k])
  | Idle =>
    match prog with
    | [] => None
    | CId s :: r =>
      match lookup s (idTable g) with
      | Some i => Some (g, (Idle, r), [RId s i false])
      | None => Some (g, (IdMiss s, r), [])
      end
    | CNewId s :: r => let '(i, g') := maker_new_id s g in Some (g', (Idle, r), [RId s (id_index i) true])
    | CVar s :: r =>
      match lookup s (idVar g) with
      | Some i => Some (g, (Idle, r), [RVar s i false])
      | None => Some (g, (VarMiss s, r), [])
      end
    | CNewVar s :: r => let '(i, g') := maker_new_var s g in Some (g', (Idle, r), [RVar s i true])
    | CMeta s :: r => Some (g, (MetaSeen s (lookup s (occMeta g)), r), [])
    | CTyMeta s :: r =>
      Some (mkGen (cpt_term g) (cpt_formula g) (count_meta g + 1) (idTable g) (idVar g) (occMeta g),
            (Idle, r), [RTyMeta s (count_meta g)])
    | CForm :: r => let '(i, g') := maker_index_formula g in Some (g', (Idle, r), [RForm i])
    end
  end.

Definition mstep (t : nat) (st : mstate) : mstate :=
  match nth_error (m_threads st) t with
  | None => st
  | Some (p, prog) =>
    match msection (m_gen st) p prog with
    | None => st
    | Some (g', th, out) => mkM g' (upd_nth t th (m_threads st)) (m_log st ++ out)
    end
  end.

Fixpoint mrun (sched : list nat) (st : mstate) : mstate :=
  match sched with [] => st | t :: r => mrun r (mstep t st) end.

Definition minit (g : gen) (progs : list (list call)) : mstate := mkM g (map (fun p => (Idle, p)) progs) [].

(** ** Glob/helper.go:195-200 IncrCptNode: locked increment, then an unlocked read *)
Inductive npc : Type := NIdle | NIncremented.
(** a goroutine: program counter, calls still to make, values returned so far *)
Record nthread : Type := mkN { n_pc : npc; n_todo : nat; n_got : list Z }.
Record nstate : Type := mkNS { n_cpt : Z; n_threads : list nthread }.
Definition nstep (t : nat) (st : nstate) : nstate :=
  match nth_error (n_threads st) t with
  | None => st
  | Some th =>
    match n_pc th, n_todo th with
    | NIdle, O => st
    | NIdle, S k => mkNS (n_cpt st + 1) (upd_nth t (mkN NIncremented k (n_got th)) (n_threads st))
    | NIncremented, k => mkNS (n_cpt st) (upd_nth t (mkN NIdle k (n_got th ++ [n_cpt st])) (n_threads st))
    end
  end.
Fixpoint nrun (sched : list nat) (st : nstate) : nstate :=
  match sched with [] => st | t :: r => nrun r (nstep t st) end.
(** helper.go: cpt_node starts at [c] *)
Definition ninit (c : Z) (calls : list nat) : nstate := mkNS c (map (fun k => mkN NIdle k []) calls).

(** ** Glob/syncTaskList.go and syncCounter.go *)

(** syncCounter.go:59-69: the two tasks a SyncCounter puts in its list *)
Inductive task : Type := TInc | TDec.

(** program counter of a goroutine *)
Inductive tpc : Type :=
| PIdle                                 (* between two AddTask calls *)
| PWork                                 (* at the head of the doTasks loop, syncTaskList.go:60-63 *)
| PRun (id : nat) (t : task)            (* task popped and unlocked, line 65, not yet started *)
| PLoaded (id : nat) (t : task) (v : Z) (* read sc.counter, value v *)
| PStored (id : nat) (t : task).        (* wrote sc.counter; decrement still has its test to do *)

Record tstate : Type := mkT
  { q_tasks : list (nat * task);                        (* stl.tasks *)
    t_threads : list (tpc * list (nat * task));         (* goroutines: pc and AddTask calls to make *)
    t_counter : Z;                                      (* sc.counter *)
    t_fired : nat;                                      (* calls of WhenFinished *)
    t_done : list (nat * task) }.                       (* completed tasks, in completion order *)

Definition tstep (n : nat) (st : tstate) : tstate :=
  match nth_error (t_threads st) n with
  | None => st
  | Some (p, prog) =>
    let th x := upd_nth n x (t_threads st) in
    match p with
    | PIdle =>
      match prog with
      | [] => st
      | x :: r =>      (* syncTaskList.go:49-57: Unlock runs before doTasks (defers are LIFO) *)
        mkT (q_tasks st ++ [x])
            (th (match q_tasks st with [] => PWork | _ => PIdle end, r))
            (t_counter st) (t_fired st) (t_done st)
      end
    | PWork =>         (* 62-64, 72-77 *)
      match q_tasks st with
      | [] => mkT [] (th (PIdle, prog)) (t_counter st) (t_fired st) (t_done st)
      | (i, t) :: q => mkT q (th (PRun i t, prog)) (t_counter st) (t_fired st) (t_done st)
      end
    | PRun i t => mkT (q_tasks st) (th (PLoaded i t (t_counter st), prog)) (t_counter st) (t_fired st) (t_done st)
    | PLoaded i t v =>
      mkT (q_tasks st) (th (PStored i t, prog)) (match t with TInc => v + 1 | TDec => v - 1 end)
          (t_fired st) (t_done st)
    | PStored i t =>
      mkT (q_tasks st) (th (PWork, prog)) (t_counter st)
          (match t with
           | TDec => if t_counter st =? 0 then S (t_fired st) else t_fired st
           | TInc => t_fired st
           end)
          (t_done st ++ [(i, t)])
    end
  end.
Fixpoint trun (sched : list nat) (st : tstate) : tstate :=
  match sched with [] => st | t :: r => trun r (tstep t st) end.
Definition tinit (c : Z) (progs : list (list (nat * task))) : tstate :=
  mkT [] (map (fun p => (PIdle, p)) progs) c O [].
