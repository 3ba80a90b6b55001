(** What the decision of a branching node should be, independently of how it is computed (C27, C28). *)
From Coq Require Import ZArith List.
From Verif Require Import Ast_Model Sem_Spec Unif_Spec Unif_Model Closure_Model Select_Model.
Import ListNotations.
Open Scope list_scope.

(** the same bindings in the same order *)
Definition same_binding (a b : mixed) : Prop :=
  match a, b with
  | MTy n i f v, MTy n' i' f' v' => same_ty (TyMeta n i f) (TyMeta n' i' f') /\ same_ty v v'
  | MTerm k v, MTerm k' v' => m_index k = m_index k' /\ same_term v v'
  | _, _ => False
  end.
Definition same_bindings (s t : list mixed) : Prop := Forall2 same_binding s t.

(** [ent s t]: the substitution s closes what t closes.  It does not see how a substitution is written, the empty one
    asks for nothing, and the merges of the node close what both their parts close. *)
Definition entailment (ent : list mixed -> list mixed -> Prop) : Prop :=
  (forall s t, same_bindings s t -> ent s t) /\ (forall s t u, ent s t -> same_bindings t u -> ent s u) /\
  (forall s, ent s []).
Definition merges (ent : list mixed -> list mixed -> Prop) (mg : list mixed -> list mixed -> out (list mixed)) (current : saf) (l : list answer) : Prop :=
  forall a s m, In a l -> In s (an_substs a) -> mg (fst s) (fst current) = Ok m -> ent m (fst s) /\ ent m (fst current).
(** C27: the substitution closes every child that needs one *)
Definition closes_all (ent : list mixed -> list mixed -> Prop) (l : list answer) (s : saf) : Prop :=
  forall a, In a l -> an_substs a <> [] -> exists t, In t (an_substs a) /\ ent (fst s) (fst t).

(** a child that wants a substitution, and not just the one the node works with *)
Definition wants (current : saf) (a : answer) : Prop :=
  an_substs a <> [] /\ ~ exists s, an_substs a = [s] /\ same_bindings (fst s) (fst current).
Definition returns_just (current : saf) (a : answer) : Prop := exists s, an_substs a = [s] /\ same_bindings (fst s) (fst current).
Inductive at_most (P : answer -> Prop) : nat -> list answer -> Prop :=
| am_nil n : at_most P n []
| am_skip n a l : ~ P a -> at_most P n l -> at_most P n (a :: l)
| am_one n a l : at_most P n l -> at_most P (S n) (a :: l).
(** an answer lists each substitution once *)
Definition distinct (a : answer) : Prop := ForallOrdPairs (fun s t => ~ same_bindings (fst s) (fst t)) (an_substs a).
(** the same substitutions, written the same *)
Definition same_set (l r : list saf) : Prop :=
  (forall s, In s l -> exists t, In t r /\ same_bindings (fst s) (fst t)) /\ (forall t, In t r -> exists s, In s l /\ same_bindings (fst s) (fst t)).

(** *** the meaning of substitutions *)
Definition binds (s : list mixed) : list (meta * term) := flat_map (fun b => match b with MTerm k v => [(k, v)] | _ => [] end) s.
(** algebras in which the type arguments do not matter *)
Definition typeless (A : alg) : Prop := forall p tys tys' l, a_fun A p tys l = a_fun A p tys' l.
Definition consequence (s t : list mixed) : Prop := forall A w, typeless A -> solves A w (binds s) -> solves A w (binds t).
