(** Heap-level model of src/Lib/sets.go: nodes are mutable cells addressed by pointers, so
    that two handles to the same tree share cells, as in the Go code. *)
From Coq Require Import ZArith List Bool.
From Verif Require Import LibSet_Model.
Import ListNotations.
Open Scope Z_scope.

(** Outcome of a heap operation: a value, a Go panic (nil or dangling dereference), or
    exhausted recursion fuel (excluded by the theorems). *)
Inductive res (B : Type) : Type := Ok (b : B) | Panic | NoFuel.
Arguments Ok {B} _. Arguments Panic {B}. Arguments NoFuel {B}.
Definition rbind {B C} (m : res B) (f : B -> res C) : res C :=
  match m with Ok b => f b | Panic => Panic | NoFuel => NoFuel end.
Notation "'do' x <- m ; k" := (rbind m (fun x => k)) (at level 200, x pattern, right associativity).

Section Heap.
Context {A : Type}.
Variable eqb ltb : A -> A -> bool.

(** sets.go:56-61 *)
Definition ptr := option nat.
Record hnode := HN { hheight : Z; hleft : ptr; hright : ptr; hvalue : A }.
Definition heap := list hnode.

Definition load (h : heap) (p : ptr) : res hnode :=
  match p with
  | None => Panic
  | Some a => match nth_error h a with Some n => Ok n | None => Panic end
  end.
Fixpoint upd (h : heap) (a : nat) (n : hnode) : heap :=
  match h, a with
  | [], _ => []
  | _ :: h', O => n :: h'
  | m :: h', S a' => m :: upd h' a' n
  end.
Definition store (h : heap) (p : ptr) (n : hnode) : res heap :=
  match p with None => Panic | Some a => Ok (upd h a n) end.
Definition alloc (h : heap) (n : hnode) : heap * ptr := (h ++ [n], Some (length h)).

(** sets.go:63-68 *)
Definition hheightp (h : heap) (p : ptr) : res Z :=
  match p with None => Ok 0 | Some _ => do n <- load h p; Ok (hheight n) end.

(** sets.go:80-85 *)
Definition hbalance (h : heap) (p : ptr) : res Z :=
  match p with
  | None => Ok 0
  | Some _ => do n <- load h p; do a <- hheightp h (hleft n); do b <- hheightp h (hright n); Ok (a - b)
  end.

(** sets.go:87-89 *)
Definition hnewHeight (h : heap) (p : ptr) : res Z :=
  do n <- load h p; do a <- hheightp h (hleft n); do b <- hheightp h (hright n); Ok (1 + Z.max a b).

Definition set_left (h : heap) (p q : ptr) : res heap :=
  do n <- load h p; store h p (HN (hheight n) q (hright n) (hvalue n)).
Definition set_right (h : heap) (p q : ptr) : res heap :=
  do n <- load h p; store h p (HN (hheight n) (hleft n) q (hvalue n)).
Definition fix_height (h : heap) (p : ptr) : res heap :=
  do n <- load h p; do k <- hnewHeight h p; store h p (HN k (hleft n) (hright n) (hvalue n)).

(** sets.go:91-98 *)
Definition hrotateLeft (h : heap) (w : ptr) : res (heap * ptr) :=
  do wn <- load h w;
  let n := hleft wn in
  do nn <- load h n;
  do h1 <- set_left h w (hright nn);
  do h2 <- set_right h1 n w;
  do h3 <- fix_height h2 w;
  do h4 <- fix_height h3 n;
  Ok (h4, n).

(** sets.go:100-107 *)
Definition hrotateRight (h : heap) (w : ptr) : res (heap * ptr) :=
  do wn <- load h w;
  let n := hright wn in
  do nn <- load h n;
  do h1 <- set_right h w (hleft nn);
  do h2 <- set_left h1 n w;
  do h3 <- fix_height h2 w;
  do h4 <- fix_height h3 n;
  Ok (h4, n).

(** sets.go:109-134 *)
Definition hrebalance (h : heap) (p : ptr) : res (heap * ptr) :=
  do b <- hbalance h p;
  if 1 <? b then
    do n <- load h p;
    do bl <- hbalance h (hleft n);
    if 0 <? bl then hrotateLeft h p
    else
      do hq <- hrotateRight h (hleft n);
      do h1 <- set_left (fst hq) p (snd hq);
      hrotateLeft h1 p
  else if b <? -1 then
    do n <- load h p;
    do br <- hbalance h (hright n);
    if br <? 0 then hrotateRight h p
    else
      do hq <- hrotateLeft h (hright n);
      do h1 <- set_right (fst hq) p (snd hq);
      hrotateRight h1 p
  else Ok (h, p).

(** sets.go:136-152; [fuel] bounds the recursion depth *)
Fixpoint hinsert (fuel : nat) (h : heap) (p : ptr) (x : A) : res (heap * ptr) :=
  match fuel with
  | O => NoFuel
  | S fuel' =>
    match p with
    | None => Ok (alloc h (HN 1 None None x))
    | Some _ =>
      do n <- load h p;
      if eqb (hvalue n) x then Ok (h, p)
      else if ltb x (hvalue n) then
        do hq <- hinsert fuel' h (hleft n) x;
        do h1 <- set_left (fst hq) p (snd hq);
        do h2 <- fix_height h1 p;
        hrebalance h2 p
      else
        do hq <- hinsert fuel' h (hright n) x;
        do h1 <- set_right (fst hq) p (snd hq);
        do h2 <- fix_height h1 p;
        hrebalance h2 p
    end
  end.

(** sets.go:258-263 *)
Fixpoint hadd (fuel : nat) (h : heap) (p : ptr) (vs : list A) : res (heap * ptr) :=
  match vs with
  | [] => Ok (h, p)
  | x :: vs' => do hq <- hinsert fuel h p x; hadd fuel (fst hq) (snd hq) vs'
  end.

(** sets.go:208-221 *)
Fixpoint hfind (fuel : nat) (h : heap) (p : ptr) (x : A) : res bool :=
  match fuel with
  | O => NoFuel
  | S fuel' =>
    match p with
    | None => Ok false
    | Some _ =>
      do n <- load h p;
      if eqb x (hvalue n) then Ok true
      else if ltb x (hvalue n) then hfind fuel' h (hleft n) x else hfind fuel' h (hright n) x
    end
  end.
End Heap.
Arguments hnode : clear implicits.
Arguments heap : clear implicits.
