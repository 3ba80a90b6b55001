(** Independent description of the rule families, branches and reintroduction. *)
From Coq Require Import ZArith List Bool String.
From Verif Require Import Ast_Model Rules_Model Sem_Spec.
Import ListNotations.
Open Scope Z_scope.

(** ** Rule families (C19) *)
Inductive atomic : form -> Prop :=
| at_pred i p tys args : atomic (Pred i p tys args)
| at_top i : atomic (Top i)
| at_bot i : atomic (Bot i).
Inductive literal : form -> Prop :=
| lit_pos f : atomic f -> literal f
| lit_neg i f : atomic f -> literal (Not i f).
Inductive conjunctive : form -> Prop :=
| cj_and i fs : conjunctive (And i fs)
| cj_nor i j fs : conjunctive (Not i (Or j fs))
| cj_nimp i j a b : conjunctive (Not i (Imp j a b))
| cj_nn i j f : conjunctive (Not i (Not j f)).
Inductive disjunctive : form -> Prop :=
| dj_or i fs : disjunctive (Or i fs)
| dj_nand i j fs : disjunctive (Not i (And j fs))
| dj_imp i a b : disjunctive (Imp i a b)
| dj_equ i a b : disjunctive (Equ i a b)
| dj_nequ i j a b : disjunctive (Not i (Equ j a b)).
Inductive universal : form -> Prop :=
| un_all i vs f : universal (All i vs f)
| un_nex i j vs f : universal (Not i (Ex j vs f)).
Inductive existential : form -> Prop :=
| ex_ex i vs f : existential (Ex i vs f)
| ex_nall i j vs f : existential (Not i (All j vs f)).

(** the first variable of a universal formula *)
Definition head_var (f : form) : option tvar :=
  match f with
  | All _ (x :: _) _ | Not _ (Ex _ (x :: _) _) => Some x
  | _ => None
  end.

(** ** Meaning of lists of formulas *)
Definition all_hold {I} (l : list fat) (v : val I) : Prop := forall x, In x l -> holds (ft_form x) v.

(** ** Queues (C25) *)
Definition in_queues (x : fat) (q : queues) : Prop :=
  In x (q_lf q) \/ In x (q_atomic q) \/ In x (q_alpha q) \/ In x (q_beta q) \/ In x (q_delta q) \/ In x (q_gamma q).
(** each queue holds formulas of its family only *)
Definition sorted_queues (q : queues) : Prop :=
  (forall x, In x (q_atomic q) -> literal (ft_form x)) /\
  (forall x, In x (q_alpha q) -> conjunctive (ft_form x)) /\
  (forall x, In x (q_beta q) -> disjunctive (ft_form x)) /\
  (forall x, In x (q_delta q) -> existential (ft_form x)) /\
  (forall x, In x (q_gamma q) -> universal (ft_form x)).

(** ** Reintroduction (C26): successive calls, with the positions they select *)
Inductive calls (lim : Z) : list Z -> list nat -> list Z -> Prop :=
| calls_nil l : calls lim l [] l
| calls_cons l l1 i p l2 : reintroduce l None lim = Some (l1, i) -> calls lim l1 p l2 ->
    calls lim l (i :: p) l2.
(** counters differ by at most one *)
Definition within_one (l : list Z) : Prop := forall a b, In a l -> In b l -> a <= b + 1.
(** how many calls can be spent on counters not above [c] *)
Fixpoint gap (c : Z) (l : list Z) : Z :=
  match l with [] => 0 | x :: r => Z.max 0 (c + 1 - x) + gap c r end.
