(** Model of src/Lib/sets.go : AVL trees used as sets.

    Nodes are mutable heap cells in Go.  This file models the operations as functions on
    trees, which is exact as long as every set handle is used linearly (the old handle is
    not read after Add/Remove).  The aliasing behaviour is modelled in LibSetHeap_Model.v.
    A nil-pointer dereference (a Go panic) is the value [None] of an option. *)
From Coq Require Import ZArith List Bool.
Import ListNotations.
Open Scope Z_scope.

(** sets.go:56-61  type Node.  [Leaf] is the nil pointer.  Fields: height, left, value, right. *)
Inductive tree (A : Type) : Type :=
| Leaf : tree A
| Node : Z -> tree A -> A -> tree A -> tree A.
Arguments Leaf {A}.
Arguments Node {A} _ _ _ _.

Section SetModel.
Context {A : Type}.
(** Lib/comparable_list.go, Lib/sets.go:56 : the Ordered interface gives Less and Equals. *)
Variable eqb : A -> A -> bool.
Variable ltb : A -> A -> bool.

(** sets.go:63-68 *)
Definition height (t : tree A) : Z :=
  match t with Leaf => 0 | Node h _ _ _ => h end.

(** sets.go:70-78 *)
Definition mkNode (x : A) : tree A := Node 1 Leaf x Leaf.

(** sets.go:80-85 *)
Definition balance (t : tree A) : Z :=
  match t with Leaf => 0 | Node _ l _ r => height l - height r end.

(** sets.go:87-89, combined with the assignment [node.height = newHeight(node)]
    of lines 95, 96, 104, 105, 149, 192: rebuild a node with a fresh height. *)
Definition mk (l : tree A) (x : A) (r : tree A) : tree A :=
  Node (1 + Z.max (height l) (height r)) l x r.

(** sets.go:91-98.  w.left = nil makes [n.right] panic. *)
Definition rotateLeft (w : tree A) : option (tree A) :=
  match w with
  | Node _ (Node _ nl nx nr) x r => Some (mk nl nx (mk nr x r))
  | _ => None
  end.

(** sets.go:100-107 *)
Definition rotateRight (w : tree A) : option (tree A) :=
  match w with
  | Node _ l x (Node _ nl nx nr) => Some (mk (mk l x nl) nx nr)
  | _ => None
  end.

(** sets.go:109-134.  Called on a non-nil node only (the nil case is unreachable; Go would
    return nil). *)
Definition rebalance (t : tree A) : option (tree A) :=
  match t with
  | Leaf => Some Leaf
  | Node h l x r =>
    if 1 <? balance t then
      if 0 <? balance l then rotateLeft t
      else match rotateRight l with
           | Some l' => rotateLeft (Node h l' x r)
           | None => None
           end
    else if balance t <? -1 then
      if balance r <? 0 then rotateRight t
      else match rotateLeft r with
           | Some r' => rotateRight (Node h l x r')
           | None => None
           end
    else Some t
  end.

(** sets.go:136-152 *)
Fixpoint insert (t : tree A) (x : A) : option (tree A) :=
  match t with
  | Leaf => Some (mkNode x)
  | Node h l v r =>
    if eqb v x then Some t
    else if ltb x v then
      match insert l x with
      | Some l' => rebalance (mk l' v r)
      | None => None
      end
    else
      match insert r x with
      | Some r' => rebalance (mk l v r')
      | None => None
      end
  end.

(** sets.go:154-159.  Called on a non-nil node only; [d] is the value returned for nil
    (Go would panic) and is never used for a non-empty tree. *)
Fixpoint minValue (d : A) (t : tree A) : A :=
  match t with
  | Leaf => d
  | Node _ Leaf v _ => v
  | Node _ l _ _ => minValue d l
  end.

(** sets.go:161-194.  Structural recursion fails at line 184 only formally: [remove(node.right, newVal)]
    is a recursive call on the right child, so the recursion is structural. *)
Fixpoint remove (t : tree A) (x : A) : option (tree A) :=
  match t with
  | Leaf => Some Leaf
  | Node h l v r =>
    if ltb x v then
      match remove l x with
      | Some l' => rebalance (mk l' v r)
      | None => None
      end
    else if ltb v x then
      match remove r x with
      | Some r' => rebalance (mk l v r')
      | None => None
      end
    else
      match l, r with
      | Leaf, Leaf => Some Leaf
      | Leaf, Node _ rl rv rr => rebalance (mk rl rv rr)
      | Node _ ll lv lr, Leaf => rebalance (mk ll lv lr)
      | Node _ _ _ _, Node _ _ _ _ =>
        let nv := minValue v r in
        match remove r nv with
        | Some r' => rebalance (mk l nv r')
        | None => None
        end
      end
  end.

(** sets.go:196-206 : left, then right, then the node itself *)
Fixpoint elements (t : tree A) : list A :=
  match t with
  | Leaf => []
  | Node _ l v r => elements l ++ (elements r ++ [v])
  end.

(** sets.go:208-221 *)
Fixpoint find (t : tree A) (x : A) : bool :=
  match t with
  | Leaf => false
  | Node _ l v r =>
    if eqb x v then true
    else if ltb x v then find l x else find r x
  end.

(** sets.go:223-229 *)
Fixpoint cardinal (t : tree A) : Z :=
  match t with
  | Leaf => 0
  | Node _ l _ r => 1 + cardinal l + cardinal r
  end.

(** sets.go:231-241 : every copied node gets height 1 (mkNode), not the source height *)
Fixpoint nodeCpy (t : tree A) : tree A :=
  match t with
  | Leaf => Leaf
  | Node _ l v r => Node 1 (nodeCpy l) v (nodeCpy r)
  end.

(** sets.go:258-263 *)
Fixpoint set_add (t : tree A) (vs : list A) : option (tree A) :=
  match vs with
  | [] => Some t
  | x :: vs' => match insert t x with
                | Some t' => set_add t' vs'
                | None => None
                end
  end.

(** sets.go:265-267 *)
Definition set_singleton (x : A) : option (tree A) := insert Leaf x.

(** sets.go:281-286 *)
Definition set_union (t0 t1 : tree A) : option (tree A) := set_add t0 (elements t1).

(** sets.go:288-296 *)
Fixpoint inter_loop (t0 acc : tree A) (xs : list A) : option (tree A) :=
  match xs with
  | [] => Some acc
  | x :: xs' =>
    if find t0 x then
      match insert acc x with
      | Some acc' => inter_loop t0 acc' xs'
      | None => None
      end
    else inter_loop t0 acc xs'
  end.
Definition set_inter (t0 t1 : tree A) : option (tree A) := inter_loop t0 Leaf (elements t1).

(** sets.go:298-303 *)
Fixpoint diff_loop (t0 : tree A) (xs : list A) : option (tree A) :=
  match xs with
  | [] => Some t0
  | x :: xs' => match remove t0 x with
                | Some t' => diff_loop t' xs'
                | None => None
                end
  end.
Definition set_diff (t0 t1 : tree A) : option (tree A) := diff_loop t0 (elements t1).

(** sets.go:305-307 *)
Definition set_disjoint (t0 t1 : tree A) : bool := negb (existsb (find t0) (elements t1)).

(** sets.go:313-315 *)
Definition set_isEmpty (t : tree A) : bool :=
  match t with Leaf => true | Node _ _ _ _ => false end.

(** sets.go:321-329.  [res.Add(x)] at line 325 discards its result.  [insert] on the nil
    root allocates a node that is not stored anywhere, so [res] stays the empty set. *)
Fixpoint filter_loop (p : A -> bool) (res : tree A) (xs : list A) : tree A :=
  match xs with
  | [] => res
  | x :: xs' =>
    if p x then
      let _ := insert res x in   (* result dropped *)
      filter_loop p res xs'
    else filter_loop p res xs'
  end.
Definition set_filter (p : A -> bool) (t : tree A) : tree A := filter_loop p Leaf (elements t).

(** Programs over sets: every handle is consumed by the operation applied to it, i.e. the
    histories in which the mutable implementation and this functional one coincide. *)
Inductive sexp : Type :=
| SEmpty : sexp
| SSingleton : A -> sexp
| SAdd : sexp -> list A -> sexp
| SRemove : sexp -> A -> sexp
| SUnion : sexp -> sexp -> sexp
| SInter : sexp -> sexp -> sexp
| SDiff : sexp -> sexp -> sexp
| SCopy : sexp -> sexp.

Definition bind2 (a b : option (tree A)) (f : tree A -> tree A -> option (tree A)) : option (tree A) :=
  match a, b with Some x, Some y => f x y | _, _ => None end.
Definition bind1 (a : option (tree A)) (f : tree A -> option (tree A)) : option (tree A) :=
  match a with Some x => f x | None => None end.

Fixpoint run (e : sexp) : option (tree A) :=
  match e with
  | SEmpty => Some Leaf
  | SSingleton x => set_singleton x
  | SAdd e vs => bind1 (run e) (fun t => set_add t vs)
  | SRemove e x => bind1 (run e) (fun t => remove t x)
  | SUnion a b => bind2 (run a) (run b) set_union
  | SInter a b => bind2 (run a) (run b) set_inter
  | SDiff a b => bind2 (run a) (run b) set_diff
  | SCopy e => bind1 (run e) (fun t => Some (nodeCpy t))
  end.

End SetModel.
Arguments sexp : clear implicits.
