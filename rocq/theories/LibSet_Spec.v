(** Independent specification for Lib.Set: mathematical finite sets as predicates,
    lawful orders, height-balanced trees. *)
From Coq Require Import ZArith List Bool.
From Verif Require Import LibSet_Model.
Import ListNotations.
Open Scope Z_scope.

(** Laws of the Ordered interface: [ltb] is a strict weak order whose incomparability is
    [eqb].  (Metavariables, for example, are compared by index only.) *)
Record Lawful {A} (eqb ltb : A -> A -> bool) : Prop := {
  lt_irrefl : forall x, ltb x x = false;
  lt_trans : forall x y z, ltb x y = true -> ltb y z = true -> ltb x z = true;
  eq_iff : forall x y, eqb x y = true <-> (ltb x y = false /\ ltb y x = false);
  eq_trans : forall x y z, eqb x y = true -> eqb y z = true -> eqb x z = true
}.

Section Den.
Context {A : Type}.
Variable eqb : A -> A -> bool.

(** The set denoted by a program, as a predicate; equality of elements is [eqb]. *)
Fixpoint den (e : sexp A) (x : A) : Prop :=
  match e with
  | SEmpty => False
  | SSingleton y => eqb x y = true
  | SAdd e vs => den e x \/ exists y, In y vs /\ eqb x y = true
  | SRemove e y => den e x /\ eqb x y = false
  | SUnion a b => den a x \/ den b x
  | SInter a b => den a x /\ den b x
  | SDiff a b => den a x /\ ~ den b x
  | SCopy e => den e x
  end.

(** Listing without repetition, up to [eqb]. *)
Inductive NoDupE : list A -> Prop :=
| NoDupE_nil : NoDupE []
| NoDupE_cons x l : (forall y, In y l -> eqb x y = false) -> NoDupE l -> NoDupE (x :: l).

(** Programs that use only Add, Singleton, Union and Inter (no removal, no copy). *)
Fixpoint grow_only (e : sexp A) : bool :=
  match e with
  | SEmpty => true
  | SSingleton _ => true
  | SAdd e _ => grow_only e
  | SRemove _ _ => false
  | SUnion a b => grow_only a && grow_only b
  | SInter a b => grow_only a && grow_only b
  | SDiff _ _ => false
  | SCopy _ => false
  end.

(** Programs without Copy. *)
Fixpoint copy_free (e : sexp A) : bool :=
  match e with
  | SEmpty => true
  | SSingleton _ => true
  | SAdd e _ => copy_free e
  | SRemove e _ => copy_free e
  | SUnion a b => copy_free a && copy_free b
  | SInter a b => copy_free a && copy_free b
  | SDiff a b => copy_free a && copy_free b
  | SCopy _ => false
  end.

End Den.

(** The real height and size of a tree, and height balance. *)
Fixpoint theight {A} (t : tree A) : Z :=
  match t with Leaf => 0 | Node _ l _ r => 1 + Z.max (theight l) (theight r) end.
Fixpoint tsize {A} (t : tree A) : Z :=
  match t with Leaf => 0 | Node _ l _ r => 1 + tsize l + tsize r end.
Fixpoint balanced {A} (t : tree A) : Prop :=
  match t with
  | Leaf => True
  | Node _ l _ r => Z.abs (theight l - theight r) <= 1 /\ balanced l /\ balanced r
  end.
