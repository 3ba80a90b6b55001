(** Model of Core/global_unifier.go: the substitutions that close a whole subtree of the search, from the closure of the
    leaves (Search/destructive.go:1077-1223) through the merges of the branching nodes (destructive.go:461-464,
    child_management.go:147-152 and 237-242) and the choice of the father (destructive.go:526-539), to the substitution
    that is applied to the final proof (destructive.go:144-146).

    Proofs are asked for: without them (Glob.GetProof) every operation leaves the unifier empty.  Slices are lists: the
    aliasing of the slices of different states is not modelled.  Printing and copying are left out.  The merge of two
    substitutions is a parameter, [None] when it did not succeed. *)
From Coq Require Import ZArith List Bool.
From Verif Require Import Ast_Model Unif_Model Closure_Model Select_Model.
Import ListNotations.
Open Scope list_scope.

(** global_unifier.go:44 and 61-63: a cleaned substitution, with the actual ones found with it *)
Definition subst : Type := list mixed.
Definition unifier : Type := list (subst * list subst).

(** matching_substitutions.go:286-299 MergeMixedSubstitutions when all the bindings are on terms ([Out]: a binding on a type) *)
Definition mix (fe : nat) (add : term -> term -> substs -> out substs) (s t : subst) : out (option subst) :=
  do s <- to_substs s; do t <- to_substs t; do m <- merge fe add s t;
  Ok (if is_failure m then None else Some (map (fun b => MTerm (fst b) (snd b)) m)).

(** global_unifier.go:83-97 AddSubstitutions: there is no break, the actual one goes to every pair with an equal key *)
Definition add_substs (u : unifier) (cleaned actual : subst) : unifier :=
  if existsb (fun p => same_subst (fst p) cleaned) u
  then map (fun p => if same_subst (fst p) cleaned then (fst p, snd p ++ [actual]) else p) u
  else u ++ [(cleaned, [actual])].

(** global_unifier.go:137-146 GetUnifier *)
Definition get_unifier (u : unifier) : subst :=
  match u with
  | (_, s :: _) :: _ => s
  | _ => []
  end.

(** global_unifier.go:229-238 appendNewUnifiersIfNeeded *)
Fixpoint append_new (u : unifier) (res : subst) (new : list subst) : unifier :=
  match u with
  | [] => [(res, new)]
  | p :: r => if same_subst (fst p) res then (fst p, snd p ++ new) :: r else p :: append_new r res new
  end.

(** global_unifier.go:204-227 PruneMetasInSubsts.  [position] is the index of lines 207-215 (the last one that matches);
    line 218 computes the list without this binding (Lib/list.go:242-250) and drops it. *)
Fixpoint position (m : meta) (s : subst) (j : nat) (found : option nat) : option nat :=
  match s with
  | [] => found
  | MTerm k _ :: r => position m r (S j) (if meta_eqb k m then Some j else found)
  | MTy _ _ _ _ :: r => position m r (S j) found
  end.
Fixpoint remove_at (s : subst) (j : nat) : subst :=
  match s, j with
  | [], _ => []
  | _ :: r, O => r
  | b :: r, S j => b :: remove_at r j
  end.
Definition prune_key (metas : list meta) (s : subst) : subst :=
  fold_left (fun (s : subst) m => let _ := option_map (remove_at s) (position m s 0 None) in s) metas s.
Definition regroup (u : unifier) : unifier := fold_left (fun acc p => append_new acc (fst p) (snd p)) u [].
Definition prune_metas (metas : list meta) (u : unifier) : unifier :=
  regroup (map (fun p => (prune_key metas (fst p), snd p)) u).

Section Merge.
Variable mg : subst -> subst -> out (option subst).

(** global_unifier.go:99-111 PruneUncompatibleSubstitutions *)
Fixpoint prune (s : subst) (u : unifier) : out unifier :=
  match u with
  | [] => Ok []
  | p :: r =>
    do m <- mg s (fst p); do r <- prune s r;
    Ok (match m with Some _ => p :: r | None => r end)
  end.

(** global_unifier.go:188-195 the actual substitutions of two pairs *)
Fixpoint merge_row (s : subst) (l : list subst) : out (list subst) :=
  match l with
  | [] => Ok []
  | t :: r => do m <- mg s t; do r <- merge_row s r; Ok (match m with Some x => x :: r | None => r end)
  end.
Fixpoint merge_actual (l1 l2 : list subst) : out (list subst) :=
  match l1 with
  | [] => Ok []
  | s :: r => do a <- merge_row s l2; do b <- merge_actual r l2; Ok (a ++ b)
  end.
(** global_unifier.go:183-199 the two loops on the pairs *)
Fixpoint merge_pair (p : subst * list subst) (v : unifier) (acc : unifier) : out unifier :=
  match v with
  | [] => Ok acc
  | q :: r =>
    do res <- mg (fst q) (fst p);
    match res with
    | None => merge_pair p r acc
    | Some res => do new <- merge_actual (snd p) (snd q); merge_pair p r (append_new acc res new)
    end
  end.
Fixpoint merge_pairs (u v acc : unifier) : out unifier :=
  match u with
  | [] => Ok acc
  | p :: r => do acc <- merge_pair p v acc; merge_pairs r v acc
  end.
(** global_unifier.go:165-202 Merge: an empty unifier is neutral *)
Definition merge_unif (u v : unifier) : out unifier :=
  match u, v with
  | [], _ => Ok v
  | _, [] => Ok u
  | _, _ => merge_pairs u v []
  end.
(** global_unifier.go:71-80 MergeUnifierList ([Crash]: ls[0] of an empty list) *)
Fixpoint merge_rest (u : unifier) (l : list unifier) : out unifier :=
  match l with
  | [] => Ok u
  | v :: r => do u <- merge_unif u v; merge_rest u r
  end.
Definition merge_list (l : list unifier) : out unifier :=
  match l with
  | [] => Crash
  | u :: r => merge_rest u r
  end.

(** ** the unifier of a closed tree *)
(** A leaf with what its closure adds, pairs of a cleaned and an actual substitution (destructive.go:1100, 1136-1139 and
    1218-1222); a node whose father chose a substitution it had sent (526-539), with the substitution applied there; a
    branching node with the substitution applied there, the metavariables it introduced and its children in the order of
    their answers. *)
Inductive ptree : Type :=
| PLeaf (l : list (subst * subst))
| PChosen (chosen applied : subst) (t : ptree)
| PNode (applied : subst) (mc : list meta) (children : list ptree).

Definition leaf_unif (l : list (subst * subst)) : unifier := fold_left (fun u p => add_substs u (fst p) (snd p)) l [].
(** destructive.go:534-539 *)
Definition choose_unif (chosen applied : subst) (u : unifier) : out unifier :=
  do u <- prune chosen u;
  Ok (match u with [] => add_substs [] applied applied | _ => u end).
(** destructive.go:461-464, child_management.go:147-152, 237-242 *)
Definition node_unif (applied : subst) (mc : list meta) (us : list unifier) : out unifier :=
  do u <- merge_list us;
  do u <- merge_unif u (add_substs [] applied applied);
  Ok (prune_metas mc u).
Fixpoint tree_unif (t : ptree) : out unifier :=
  match t with
  | PLeaf l => Ok (leaf_unif l)
  | PChosen chosen applied t => do u <- tree_unif t; choose_unif chosen applied u
  | PNode applied mc l =>
    do us <- (fix go (l : list ptree) : out (list unifier) :=
      match l with
      | [] => Ok []
      | t :: r => do u <- tree_unif t; do us <- go r; Ok (u :: us)
      end) l;
    node_unif applied mc us
  end.
Fixpoint trees_unif (l : list ptree) : out (list unifier) :=
  match l with
  | [] => Ok []
  | t :: r => do u <- tree_unif t; do us <- trees_unif r; Ok (u :: us)
  end.
End Merge.
