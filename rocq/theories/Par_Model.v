(** Model of src/Lib/par.go: GenericParallel / genericSelect.

    Each worker sends exactly one value on its own channel (par.go:54-58; the callers in
    Typing/rules.go:267-286 send once).  [reflect.Select] (par.go:75) may pick any channel
    that has a value; since every worker eventually sends, the result depends on the order
    in which deliveries are picked.  State: values not yet picked, accumulated result. *)
From Coq Require Import List.
Import ListNotations.

Section Par.
Context {T : Type}.
Variable reconciliation : T -> T -> T.   (* par.go:50 *)
Variable neutral : T.                    (* par.go:51 *)

Definition pstate := (list T * T)%type.

(** par.go:59, 67-68 *)
Definition pinit (vals : list T) : pstate := (vals, neutral).

(** par.go:74-79, one iteration of the loop; the position of the picked worker is arbitrary *)
Inductive pstep : pstate -> pstate -> Prop :=
| pick l1 v l2 r : pstep (l1 ++ v :: l2, r) (l1 ++ l2, reconciliation r v).

Inductive psteps : pstate -> pstate -> Prop :=
| pdone s : psteps s s
| pmore s s' s'' : pstep s s' -> psteps s' s'' -> psteps s s''.
End Par.
