(** What the containers of src/Glob are expected to be. *)
From Coq Require Import ZArith List Bool Lia PeanoNat.
From Verif Require Import Glob_Model.
Import ListNotations.
Open Scope list_scope.

(** An [Equals] is an equivalence. *)
Record equivalence {A} (e : A -> A -> bool) : Prop := {
  e_refl : forall x, e x x = true;
  e_sym : forall x y, e x y = true -> e y x = true;
  e_trans : forall x y z, e x y = true -> e y z = true -> e x z = true
}.
(** No element appears twice. *)
Fixpoint distinct {A} (e : A -> A -> bool) (l : list A) : Prop :=
  match l with [] => True | x :: r => (forall y, In y r -> e x y = false) /\ distinct e r end.
(** An element appears. *)
Definition appears {A} (e : A -> A -> bool) (x : A) (l : list A) : Prop := exists y, In y l /\ e y x = true.
(** No two neighbours are both the element. *)
Fixpoint apart {A} (e : A -> A -> bool) (x : A) (l : list A) : Prop :=
  match l with
  | a :: (b :: _) as r => (e a x = true -> e b x = false) /\ apart e x r
  | _ => True
  end.
Definition occurrences {A} (e : A -> A -> bool) (x : A) (l : list A) : nat := length (filter (fun y => e y x) l).
Definition others {A} (e : A -> A -> bool) (x : A) (l : list A) : list A := filter (fun y => negb (e y x)) l.

(** Calls on a map, and what is expected for a key: the last value set since it was last removed. *)
Inductive map_call (A B : Type) := CSet (k : A) (v : B) | CUnset (k : A) | CClear.
Arguments CSet {A B}. Arguments CUnset {A B}. Arguments CClear {A B}.
Definition expected {A B} (e : A -> A -> bool) (calls : list (map_call A B)) (k : A) : option B :=
  fold_left (fun acc c => match c with
    | CSet k' v => if e k' k then Some v else acc
    | CUnset k' => if e k' k then None else acc
    | CClear => None
    end) calls None.
Definition run_map {A B} (e : A -> A -> bool) (calls : list (map_call A B)) : gmap :=
  fold_left (fun m c => match c with
    | CSet k v => fst (m_set e m k v)
    | CUnset k => m_unset e m k
    | CClear => m_clear m
    end) calls (empty_map (A := A) (B := B)).

(** Slices that are in the memory. *)
Definition valid (h : memory) (s : slice) : Prop := s_arr s < length h /\ s_len s <= length (nth (s_arr s) h []).
(** A slice reads nothing of the array of [s] beyond the elements of [s]. *)
Definition clear_of (s t : slice) : Prop := s_arr t = s_arr s -> s_len t <= s_len s.

(** Two triplets have the same components in some order. *)
Definition arranged {A} (e : A -> A -> bool) (p q : A * A * A) : Prop :=
  let '(a, b, c) := p in let '(x, y, z) := q in
  (e a x = true /\ e b y = true /\ e c z = true) \/ (e a x = true /\ e b z = true /\ e c y = true) \/
  (e a y = true /\ e b x = true /\ e c z = true) \/ (e a y = true /\ e b z = true /\ e c x = true) \/
  (e a z = true /\ e b x = true /\ e c y = true) \/ (e a z = true /\ e b y = true /\ e c x = true).
