(** Model of what a node with children sends to its father: Search/child_management.go:122-158 childrenClosedByThemselves and
    160-249 passSubstToParent.

    Simplifications: the proof, the global unifier (GlobUnif_Model.v), the files of exchanges and the debug messages are left out; the
    closing of the children is in Proto_Model.v.  The merge and the restriction are those of Select_Model.v and
    Restrict_Model.v.  An anomaly stops the program ([Crash]). *)
From Coq Require Import ZArith List Bool.
From Verif Require Import Ast_Model Unif_Model Closure_Model Dmt_Model Select_Model GlobUnif_Model Restrict_Model Leaf_Model.
Import ListNotations.
Open Scope list_scope.
Open Scope Z_scope.

(** The arguments of sendSubToFather (Search/children.go:192-236): the node says that it is closed in both cases.  [up_need]: an answer
    is awaited; [up_substs]: the substitutions found; [up_again]: the formulas whose metavariables are to be introduced again. *)
Record sent : Type := mkSent { up_need : bool; up_substs : list saf; up_again : list Z }.

Section Up.
(** RemoveElementWithoutMM and MergeMixedSubstitutions *)
Variable restr : subst -> list meta -> out subst.
Variable mg : subst -> subst -> out subst.

(** child_management.go:203-209: the first entry with this substitution gets the formulas; [None]: there is none *)
Fixpoint add_to (c : subst) (fl : list form) (res : list saf) : option (list saf) :=
  match res with
  | [] => None
  | e :: r =>
    if same_subst (fst e) c then Some (add_formulas e fl :: r)
    else match add_to c fl r with Some r => Some (e :: r) | None => None end
  end.
(** child_management.go:203-214 *)
Definition record (c : subst) (fl : list form) (res : list saf) : list saf :=
  match add_to c fl res with Some res => res | None => res ++ [(c, fl)] end.
(** child_management.go:177-228 *)
Fixpoint pass_loop (mm : list meta) (applied : saf) (l : list saf) (res : list saf) (again : list Z) : out (list saf * list Z) :=
  match l with
  | [] => Ok (res, again)
  | s :: r =>
    do m <- merge_saf mg s applied;
    do c <- restr (fst m) mm;
    match c with
    | [] => pass_loop mm applied r res again
    | _ => pass_loop mm applied r (record c (snd s) res) (union_int again (formulas_of c))
    end
  end.
(** child_management.go:160-249 *)
Definition pass_up (mm : list meta) (applied : saf) (l : list saf) (again : list Z) : out sent :=
  do x <- pass_loop mm applied l [] again;
  let found := remove_empty (fst x) in
  Ok (mkSent (match found with [] => false | _ => true end) found (snd x)).
(** child_management.go:122-158; [None]: the error of lines 140-142, nothing is sent *)
Definition by_itself (mm : list meta) (applied current : saf) (again : list Z) : out (option sent) :=
  do c <- restr (fst applied) mm;
  if saf_empty current
  then Ok (Some (mkSent false (match c with [] => [] | _ => [(c, snd applied)] end) again))
  else Ok None.
End Up.

Definition node_pass (n fe : nat) : list meta -> saf -> list saf -> list Z -> out sent := pass_up (restrict_mixed fe (add_unif n fe)) (merge_mixed n fe).
Definition node_itself (n fe : nat) : list meta -> saf -> saf -> list Z -> out (option sent) := by_itself (restrict_mixed fe (add_unif n fe)).
