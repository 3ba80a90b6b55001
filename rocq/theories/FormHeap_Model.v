(** Model of the in-place update performed by ReplaceMetaByTerm on And/Or formulas
    (src/AST/form-list.go:44-49): the slice of subformulas of an And/Or is a heap cell shared by
    every copy of the Go value.  Types and terms are immutable values as in Ast_Model. *)
From Coq Require Import ZArith List Bool String.
From Verif Require Import Ast_Model.
Import ListNotations.
Open Scope Z_scope.

(** formsDef.go: values whose And/Or children live in a heap cell (the backing array of Lib.List) *)
Inductive hform : Type :=
| HAll (ix : Z) (vars : list tvar) (f : hform)
| HEx (ix : Z) (vars : list tvar) (f : hform)
| HOr (ix : Z) (a : nat)
| HAnd (ix : Z) (a : nat)
| HEqu (ix : Z) (f g : hform)
| HImp (ix : Z) (f g : hform)
| HNot (ix : Z) (f : hform)
| HPred (ix : Z) (p : ident) (tys : list ty) (args : list term)
| HTop (ix : Z)
| HBot (ix : Z).

(** address -> backing array; addresses are positions, allocation appends *)
Definition fheap := list (list hform).

Fixpoint set_nth {A} (n : nat) (x : A) (l : list A) : list A :=
  match n, l with
  | _, [] => []
  | O, _ :: r => x :: r
  | S n', y :: r => y :: set_nth n' x r
  end.

(** list.go:75-77 Upd *)
Definition hupd (h : fheap) (a i : nat) (f : hform) : fheap :=
  match nth_error h a with
  | Some cell => set_nth a (set_nth i f cell) h
  | None => h
  end.

(** The formula a value denotes in a heap; [None] when the fuel (nesting depth) is exceeded or an
    address is dangling. *)
Fixpoint habs (fuel : nat) (h : fheap) (f : hform) : option form :=
  match fuel with
  | O => None
  | S n =>
    let cell a k :=
      match nth_error h a with
      | None => None
      | Some l =>
        match fold_right (fun g acc => match habs n h g, acc with
                                       | Some x, Some r => Some (x :: r)
                                       | _, _ => None end) (Some []) l with
        | Some r => Some (k r)
        | None => None
        end
      end in
    match f with
    | HAll i vs g => option_map (All i vs) (habs n h g)
    | HEx i vs g => option_map (Ex i vs) (habs n h g)
    | HOr i a => cell a (Or i)
    | HAnd i a => cell a (And i)
    | HEqu i a b => match habs n h a, habs n h b with Some x, Some y => Some (Equ i x y) | _, _ => None end
    | HImp i a b => match habs n h a, habs n h b with Some x, Some y => Some (Imp i x y) | _, _ => None end
    | HNot i g => option_map (Not i) (habs n h g)
    | HPred i p tys args => Some (Pred i p tys args)
    | HTop i => Some (Top i)
    | HBot i => Some (Bot i)
    end
  end.

(** Copy: formsDef.go:112-114, 167-169, 246-252, 370-376, 449-456, 561-568, 698-704, 856-870 *)
Fixpoint hcopy (fuel : nat) (h : fheap) (f : hform) : option (fheap * hform) :=
  match fuel with
  | O => None
  | S n =>
    let cell a k :=
      match nth_error h a with
      | None => None
      | Some l =>
        match (fix go h l := match l with
                 | [] => Some (h, [])
                 | x :: r => match hcopy n h x with
                             | Some (h1, x') => match go h1 r with
                                                | Some (h2, r') => Some (h2, x' :: r')
                                                | None => None end
                             | None => None end
                 end) h l with
        | Some (h', l') => Some (app h' [l'], k (List.length h'))
        | None => None
        end
      end in
    match f with
    | HAll i vs g => match hcopy n h g with Some (h', g') => Some (h', HAll i vs g') | None => None end
    | HEx i vs g => match hcopy n h g with Some (h', g') => Some (h', HEx i vs g') | None => None end
    | HOr i a => cell a (HOr i)
    | HAnd i a => cell a (HAnd i)
    | HEqu i a b => match hcopy n h a with
                    | Some (h1, a') => match hcopy n h1 b with
                                       | Some (h2, b') => Some (h2, HEqu i a' b') | None => None end
                    | None => None end
    | HImp i a b => match hcopy n h a with
                    | Some (h1, a') => match hcopy n h1 b with
                                       | Some (h2, b') => Some (h2, HImp i a' b') | None => None end
                    | None => None end
    | HNot i g => match hcopy n h g with Some (h', g') => Some (h', HNot i g') | None => None end
    | _ => Some (h, f)
    end
  end.

(** ReplaceMetaByTerm: same lines as [replace_meta] in Ast_Model.v; the loop of form-list.go:44-49
    writes each result back into the shared cell. Quantifiers work on a copy of their body
    (quantifiers.go:201 GetForm). *)
Fixpoint hreplace (fuel : nat) (h : fheap) (m : meta) (t : term) (f : hform) : option (fheap * hform) :=
  match fuel with
  | O => None
  | S n =>
    let cell a (res : hform) :=
      match nth_error h a with
      | None => None
      | Some l =>
        match (fix go h i l := match l with
                 | [] => Some h
                 | x :: r => match hreplace n h m t x with
                             | Some (h1, x') => go (hupd h1 a i x') (S i) r
                             | None => None end
                 end) h O l with
        | Some h' => Some (h', res)
        | None => None
        end
      end in
    let quant (k : hform -> hform) g :=
      match hcopy n h g with
      | Some (h1, g1) => match hreplace n h1 m t g1 with
                         | Some (h2, g2) => Some (h2, k g2) | None => None end
      | None => None
      end in
    match f with
    | HAll i vs g => quant (HAll i vs) g
    | HEx i vs g => quant (HEx i vs) g
    | HOr i a => cell a f
    | HAnd i a => cell a f
    | HEqu i a b => match hreplace n h m t a with
                    | Some (h1, a') => match hreplace n h1 m t b with
                                       | Some (h2, b') => Some (h2, HEqu i a' b') | None => None end
                    | None => None end
    | HImp i a b => match hreplace n h m t a with
                    | Some (h1, a') => match hreplace n h1 m t b with
                                       | Some (h2, b') => Some (h2, HImp i a' b') | None => None end
                    | None => None end
    | HNot i g => match hreplace n h m t g with Some (h', g') => Some (h', HNot i g') | None => None end
    | HPred i p tys args => Some (h, HPred i p tys (map (replace_sub (Meta m) t) args))
    | HTop _ | HBot _ => Some (h, f)
    end
  end.
