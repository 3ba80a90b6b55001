(** The leaves that search again on a branch to which substitutions were applied (C144, C145). *)
From Coq Require Import ZArith List Bool String.
From Verif Require Import LibSet_Model Ast_Model Rules_Model Expand_Model Expand_Spec Sem_Spec Unif_Model Unif_Spec UnifLoss_Model Closure_Model Closure_Spec Closure_Proofs Select_Model Select_Spec Select_Final GlobUnif_Model Leaf_Model Up_Model Round_Model
  Verdict_Spec Apply_Model Apply_Spec Apply_Proofs.
Import ListNotations.
Open Scope list_scope.

(** Substitutions handed to a process one after the other: the branch and the applied substitution become [st'] and [ap'].  No
    type is bound and no equation is dropped by the merges (C36). *)
Inductive handed (ar : signature) (n fe : nat) (same : list term -> list term -> bool) (st : state) (ap : saf) : state -> saf -> Prop :=
| ha_none : handed ar n fe same st ap st ap
| ha_one st1 ap1 s st2 ap2 : handed ar n fe same st ap st1 ap1 -> apply_substitution same (merge_mixed n fe) st1 ap1 s = Ok (st2, ap2) ->
    plain_subst ar (fst s) -> okS ar (binds (fst ap1)) -> okS ar (binds (fst s)) -> merge fe (add_unif_s true n fe) (binds (fst ap1)) (binds (fst s)) <> Out ->
    handed ar n fe same st ap st2 ap2.
(** The state kept by the leaf holds formulas of the branch: the new ones are put in the queues of their kinds (destructive.go:305-345). *)
Definition kept_from (st st1 : state) : Prop := incl (forms_of st1) (forms_of st).
(** Each branch has a leaf, whose closing substitutions are those found on the branch by the search for contradictions, possibly
    the one made after the substitutions of its father are applied. *)
Definition works_after (ar : signature) (eqi : Z) (name_id : string -> ident) (ty_arity : string -> nat) (n fe : nat) (same : list term -> list term -> bool)
  (forb : state -> list (list mixed)) (p : proc) (branches : list state) : Prop :=
  forall st, In st branches -> exists mm ap0 ap l f st1 st', In (PLeaf mm ap l f) (leaves p) /\ kept_from st st1 /\ handed ar n fe same st1 ap0 st' ap /\
    (forall x, In x (q_lf (st_q st') ++ q_atomic (st_q st')) -> first_order ar (ft_form x)) /\
    ((state_strict eqi name_id ty_arity n fe same st' (forb st') <> Out /\ state_real eqi name_id ty_arity n fe same st' (forb st') = Ok (Some (f, l))) \/
     (again_strict eqi name_id ty_arity n fe st' (forb st') <> Out /\ again_real eqi name_id ty_arity n fe st' (forb st') = Ok (Some (f, l)))).
