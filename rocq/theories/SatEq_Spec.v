(** What the SAT-based equality reasoning should do, stated without its heap, indexes and clauses. *)
From Coq Require Import ZArith List Bool.
From Verif Require Import Ast_Model Unif_Model Unif_Spec Bse_Spec SatEq_Model.
Import ListNotations.
Open Scope list_scope.
Open Scope nat_scope.

(** ** Classes *)
(** the calls name classes that were allocated before, [n] of them at the start *)
Fixpoint valid_ops (n : nat) (l : list op) : Prop :=
  match l with
  | [] => True
  | Make :: r => valid_ops (S n) r
  | Find x :: r => x < n /\ valid_ops n r
  | Merge a b :: r => a < n /\ b < n /\ valid_ops n r
  end.
Definition merges (l : list op) : list (nat * nat) := flat_map (fun o => match o with Merge a b => [(a, b)] | _ => [] end) l.
(** the equivalence closure of some pairs *)
Inductive linked (ps : list (nat * nat)) : nat -> nat -> Prop :=
| lk_pair a b : In (a, b) ps -> linked ps a b
| lk_refl a : linked ps a a
| lk_sym a b : linked ps a b -> linked ps b a
| lk_trans a b c : linked ps a b -> linked ps b c -> linked ps a c.

(** ** Problems *)
(** the equations of the goal follow from the assumptions and from the bindings, the metavariables being rigid *)
Definition goal_solved (es : list (term * term)) (sg : list (meta * term)) (g : list (term * term)) : Prop :=
  forall s t, In (s, t) g -> solution es s t sg.
Definition some_solved (es : list (term * term)) (sg : list (meta * term)) (gs : list (list (term * term))) : Prop :=
  exists g, In g gs /\ goal_solved es sg g.
(** first-order terms, each symbol with one number of arguments *)
Definition well_pair (ar : signature) (e : term * term) : Prop := well ar (fst e) /\ well ar (snd e).
Definition well_problem (ar : signature) (es : list (term * term)) (gs : list (list (term * term))) : Prop :=
  Forall (well_pair ar) es /\ Forall (Forall (well_pair ar)) gs.

(** ** Assignments *)
Definition sat_clause (truth : var -> bool) (c : list lit) : Prop := exists l, In l c /\ truth (snd l) = fst l.
Definition sat_all (truth : var -> bool) (cs : list (list lit)) : Prop := forall c, In c cs -> sat_clause truth c.
(** what is asked from the solver *)
Definition sound_solver (sat : list (list lit) -> option (var -> bool)) : Prop :=
  forall cs truth, sat cs = Some truth -> sat_all truth cs.
Definition chooses (choice : list trec -> option trec) : Prop :=
  (forall l t, choice l = Some t -> In t l) /\ (forall l, l <> [] -> choice l <> None).

(** no two records of applications of a symbol to congruent arguments are in different classes *)
Definition closed_classes (h : heap) (pb : problem) : Prop :=
  forall i l t u, In (i, l) (pb_funs pb) -> In t l -> In u l -> tr_congruent h t u = Ok true -> congruent h (tr_class t) (tr_class u) = true.
(** the heap left by earlier problems *)
Definition earlier (h : heap) : Prop := exists l, valid_ops 0 l /\ run_ops l [] = Ok h.
(** a constant or a metavariable *)
Definition atom (t : term) : Prop := match t with Meta _ => True | Fun _ _ [] => True | _ => False end.
(** the applications of a symbol with arguments are all in one class *)
Definition single_classes (h : heap) (pb : problem) : Prop :=
  forall i l t u, In (i, l) (pb_funs pb) -> In t l -> In u l -> tr_args t <> [] -> congruent h (tr_class t) (tr_class u) = true.
