(** Model of the containers of src/Glob: list.go, set.go, map.go, pair.go, triplet.go, int_functions.go.

    The elements are of any type with an [Equals].  The synchronised variants are the same functions under a mutex.  A list owns its
    array: NewList keeps the slice it is given, and Slice hands it out, here nothing else writes in it.  The lists of int_functions.go
    are slices, which share arrays: they are modelled with a memory below. *)
From Coq Require Import ZArith List Bool Lia PeanoNat.
Import ListNotations.
Open Scope list_scope.

Section Containers.
Context {A B : Type}.
Variable eqA : A -> A -> bool. (* x.Equals(y) *)
Variable eqB : B -> B -> bool.

(** ** list.go *)
(** The array of a list and the number of its elements; the rest of the array is what was there before. *)
Record glist := mkL { l_arr : list A; l_len : nat }.
Definition l_vals (l : glist) : list A := firstn (l_len l) (l_arr l).
(** list.go:45-47 NewList *)
Definition new_list (s : list A) : glist := mkL s (length s).
(** list.go:123-125 remove: append(values[:i], values[i+1:]...); [None] is a slice out of range *)
Definition l_remove (i : nat) (l : glist) : option glist :=
  if i + 1 <=? l_len l then
    Some (mkL (firstn i (l_arr l) ++ firstn (l_len l - (i + 1)) (skipn (i + 1) (l_arr l)) ++ skipn (l_len l - 1) (l_arr l)) (l_len l - 1))
  else None.
(** list.go:130-140 RemoveAll: the range is over the slice as it was at the start, so the elements are read in the same array, up to the length
    at the start; [i--] changes the copy of the index *)
Fixpoint remove_from (x : A) (i n : nat) (l : glist) : option glist :=
  match n with
  | O => Some l
  | S n =>
    match nth_error (l_arr l) i with
    | None => None
    | Some v =>
      if eqA v x then match l_remove i l with None => None | Some l => remove_from x (i + 1) n l end
      else remove_from x (i + 1) n l
    end
  end.
Definition remove_all (x : A) (l : glist) : option glist := remove_from x 0 (l_len l) l.
(** list.go:243-250 getIndexOf *)
Fixpoint index_from (i : nat) (l : list A) (x : A) : option nat :=
  match l with [] => None | y :: r => if eqA y x then Some i else index_from (S i) r x end.
Definition index_of (l : list A) (x : A) : option nat := index_from 0 l x.
(** list.go:212-215 contains *)
Definition contains (l : list A) (x : A) : bool := match index_of l x with Some _ => true | None => false end.
(** list.go:220-231 ContainsAll *)
Definition contains_all (l xs : list A) : bool := forallb (contains l) xs.
(** list.go:282-291 AppendIfNotContains; utils.go:46-54 is the same on slices *)
Fixpoint append_new (l xs : list A) : list A :=
  match xs with [] => l | x :: r => append_new (if contains l x then l else l ++ [x]) r end.
(** list.go:181-200 Equals *)
Fixpoint list_equals (l1 l2 : list A) : bool :=
  match l1, l2 with
  | [], [] => true
  | x :: r, y :: q => eqA x y && list_equals r q
  | _, _ => false
  end.

(** ** set.go *)
(** set.go:46-48 NewSet *)
Definition new_set (s : list A) : list A := s.
(** set.go:63-65 Append *)
Definition set_append (l xs : list A) : list A := append_new l xs.

(** ** map.go: the keys and the values *)
Definition gmap : Type := list A * list B.
Definition empty_map : gmap := ([], []).
(** map.go:65-73 getExists *)
Fixpoint get_in (keys : list A) (vals : list B) (k : A) : option B :=
  match keys, vals with
  | x :: r, v :: q => if eqA x k then Some v else get_in r q k
  | _, _ => None
  end.
Definition m_get (m : gmap) (k : A) : option B := get_in (fst m) (snd m) k.
(** map.go:122-136 set; the old value is answered when there is one *)
Fixpoint set_in (keys : list A) (vals : list B) (k : A) (v : B) : option (B * list B) :=
  match keys, vals with
  | x :: r, w :: q => if eqA x k then Some (w, v :: q) else match set_in r q k v with Some (o, q') => Some (o, w :: q') | None => None end
  | _, _ => None
  end.
Definition m_set (m : gmap) (k : A) (v : B) : gmap * option B :=
  match set_in (fst m) (snd m) k v with
  | Some (o, vals) => ((fst m, vals), Some o)
  | None => ((fst m ++ [k], snd m ++ [v]), None)
  end.
(** map.go:138-149 Unset, with remove of list.go *)
Definition remove_at {C} (i : nat) (l : list C) : list C := firstn i l ++ skipn (i + 1) l.
Definition m_unset (m : gmap) (k : A) : gmap :=
  match index_of (fst m) k with Some i => (remove_at i (fst m), remove_at i (snd m)) | None => m end.
(** map.go:102-111 GetKey *)
Definition m_key (m : gmap) (v : B) : option A :=
  (fix go (keys : list A) (vals : list B) : option A :=
     match keys, vals with x :: r, w :: q => if eqB w v then Some x else go r q | _, _ => None end) (fst m) (snd m).
(** map.go:159-166 Clear *)
Definition m_clear (_ : gmap) : gmap := empty_map.
(** map.go:179-187 CopyInto *)
Definition m_copy_into (m other : gmap) : gmap := fold_left (fun o kv => fst (m_set o (fst kv) (snd kv))) (combine (fst m) (snd m)) other.

(** ** pair.go, triplet.go *)
(** pair.go:76-82 Equals *)
Definition pair_equals (p q : A * B) : bool := eqA (fst p) (fst q) && eqB (snd p) (snd q).
(** pair.go:96-103 Equals of unordered pairs *)
Definition upair_equals (p q : A * A) : bool :=
  (eqA (fst p) (fst q) && eqA (snd p) (snd q)) || (eqA (fst p) (snd q) && eqA (snd p) (fst q)).
End Containers.
Arguments glist : clear implicits.
Section Triplets.
Context {A : Type}.
Variable eqA : A -> A -> bool.
(** triplet.go:78-84 Equals, when the three types are the same: the second component is compared with the third of the other *)
Definition triplet_equals (p q : A * A * A) : bool :=
  let '(a, b, c) := p in let '(a', b', c') := q in eqA a a' && eqA b b' && eqA b c'.
(** triplet.go:98-104 contains, containsAll *)
Definition ut_contains (p : A * A * A) (x : A) : bool := let '(a, b, c) := p in eqA a x || eqA b x || eqA c x.
Definition ut_contains_all (p q : A * A * A) : bool := let '(a, b, c) := q in ut_contains p a && ut_contains p b && ut_contains p c.
(** triplet.go:106-112 Equals of unordered triplets *)
Definition utriplet_equals (p q : A * A * A) : bool := ut_contains_all p q && ut_contains_all q p.
End Triplets.

(** ** int_functions.go: slices of integers in a memory of arrays.  A slice is the number of its array and its length; it begins where the
    array does, and its capacity is the rest of the array.  [grow] is the capacity of a new array, which the Go language leaves open. *)
Record slice := mkS { s_arr : nat; s_len : nat }.
Definition memory := list (list Z).
Section Ints.
Variable grow : nat -> nat.
Definition s_vals (h : memory) (s : slice) : list Z := firstn (s_len s) (nth (s_arr s) h []).
Fixpoint write {C} (l : list C) (i : nat) (x : C) : list C :=
  match l, i with
  | [], _ => []
  | _ :: r, O => x :: r
  | y :: r, S i => y :: write r i x
  end.
(** append of one element: in place when there is room *)
Definition s_append (h : memory) (s : slice) (x : Z) : memory * slice :=
  let a := nth (s_arr s) h [] in
  if s_len s <? length a then (write h (s_arr s) (write a (s_len s) x), mkS (s_arr s) (s_len s + 1))
  else (h ++ [firstn (s_len s) a ++ [x] ++ repeat 0%Z (grow (s_len s))], mkS (length h) (s_len s + 1)).
(** int_functions.go:65-72 ContainsInt *)
Definition contains_int (h : memory) (x : Z) (s : slice) : bool := existsb (Z.eqb x) (s_vals h s).
(** int_functions.go:57-63 AppendIfNotContainsInt *)
Definition append_new_int (h : memory) (s : slice) (x : Z) : memory * slice := if contains_int h x s then (h, s) else s_append h s x.
(** int_functions.go:74-80 UnionIntList: the elements of the second list are read one after the other in its array *)
Fixpoint union_from (i n : nat) (h : memory) (res s2 : slice) : memory * slice :=
  match n with
  | O => (h, res)
  | S n => let '(h, res) := append_new_int h res (nth i (nth (s_arr s2) h []) 0%Z) in union_from (S i) n h res s2
  end.
Definition union_int (h : memory) (s1 s2 : slice) : memory * slice := union_from 0 (s_len s2) h s1 s2.
(** int_functions.go:82-90 InterIntList: the result starts as a new empty slice *)
Fixpoint inter_from (i n : nat) (h : memory) (res s1 s2 : slice) : memory * slice :=
  match n with
  | O => (h, res)
  | S n =>
    let x := nth i (nth (s_arr s1) h []) 0%Z in
    let '(h, res) := if contains_int h x s2 then append_new_int h res x else (h, res) in inter_from (S i) n h res s1 s2
  end.
Definition inter_int (h : memory) (s1 s2 : slice) : memory * slice := inter_from 0 (s_len s1) (h ++ [[]]) (mkS (length h) 0) s1 s2.
End Ints.
