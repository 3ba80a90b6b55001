(** The processes of a search and the branches they work on (C144, C145). *)
From Coq Require Import ZArith List Bool String.
From Verif Require Import LibSet_Model Ast_Model Rules_Model Expand_Model Sem_Spec Unif_Model Unif_Spec Closure_Model Closure_Proofs Select_Model GlobUnif_Model Leaf_Model Up_Model Round_Model.
Import ListNotations.
Open Scope list_scope.

Fixpoint leaves (p : proc) : list proc :=
  match p with
  | PLeaf _ _ _ _ => [p]
  | PNode _ _ _ _ ch => flat_map leaves ch
  | PKept p _ => leaves p
  end.
(** each branch has a leaf, whose closing substitutions are those found by the search for contradictions on the branch *)
Definition works_on (eqi : Z) (name_id : string -> ident) (ty_arity : string -> nat) (n fe : nat) (same : list term -> list term -> bool)
  (forb : state -> list (list mixed)) (p : proc) (branches : list state) : Prop :=
  forall st, In st branches -> exists mm ap l f, In (PLeaf mm ap l f) (leaves p) /\
    state_real eqi name_id ty_arity n fe same st (forb st) = Ok (Some (f, l)).
