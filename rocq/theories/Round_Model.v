(** Model of one round of answers in a tree of processes, from the leaves to the root: each process computes its answer from the
    answers of its children (Search/destructive.go:440-496 waitChildren, when no order comes from the father), a leaf from its closing substitutions (ManageClosureRule).

    A substitution handed back to the children (passSubstToChildren) makes a new round: a child that had sent it answers at once
    ([PKept]), another one waits, with this substitution, for the process it launches on its state (waitFather): it is a node with one child.

    Simplifications: the children are listed in the order of their answers; a process that hands a substitution back to its
    children, or one of whose children stays open, sends nothing in this round ([None]).  The parts are those of Leaf_Model.v,
    Select_Model.v and Up_Model.v. *)
From Coq Require Import ZArith List Bool.
From Verif Require Import Ast_Model Unif_Model Closure_Model Dmt_Model Select_Model GlobUnif_Model Restrict_Model Leaf_Model Up_Model.
Import ListNotations.
Open Scope list_scope.
Open Scope Z_scope.

(** [mm]: the metavariables of the father (state.go GetMM); [ap]: the substitution applied to the process; [l]: the closing
    substitutions of a leaf, found on the formula [f]; [cur]: the substitution the node has sent to its children. *)
Inductive proc : Type :=
| PLeaf (mm : list meta) (ap : saf) (l : list subst) (f : form)
| PNode (mm : list meta) (ap cur : saf) (again : list Z) (ch : list proc)
| PKept (p : proc) (s : saf).

Section Round.
Variables n fe : nat.

Definition all_answers (ask : proc -> out (option (list saf))) : list proc -> out (option (list answer)) :=
  fix all (l : list proc) : out (option (list answer)) :=
  match l with
  | [] => Ok (Some [])
  | p :: r =>
    do x <- ask p;
    match x with
    | None => Ok None
    | Some s => do y <- all r; Ok (match y with None => None | Some l => Some (mkAns true s :: l) end)
    end
  end.
(** destructive.go:453-471 *)
Definition node_answer (mm : list meta) (ap cur : saf) (again : list Z) (l : list answer) : out (option (list saf)) :=
  do v <- select (merge_mixed n fe) cur (List.length l) (map Answer l);
  match v with
  | (CloseByItself, _) =>
    do x <- node_itself n fe mm ap cur again;
    match x with None => Crash | Some st => Ok (Some (up_substs st)) end
  | (SubstForParent, r) => do st <- node_pass n fe mm ap r again; Ok (Some (up_substs st))
  | _ => Ok None
  end.
(** destructive.go:525-542 waitFather: the substitution comes from this child; it is sent again, with the formulas of the last time *)
Definition kept (s : saf) (l : list saf) : option saf :=
  fold_left (fun acc e => if same_subst (fst e) (fst s) then Some (add_formulas s (snd e)) else acc) l None.
(** the substitutions a process sends to its father *)
Fixpoint report (p : proc) : out (option (list saf)) :=
  match p with
  | PLeaf mm ap l f => do x <- leaf n fe mm ap [] l f; Ok (match x with None => None | Some rp => Some (rp_substs rp) end)
  | PNode mm ap cur again ch =>
    do l <- all_answers report ch;
    match l with None => Ok None | Some l => node_answer mm ap cur again l end
  | PKept p s =>
    do l <- report p;
    Ok (match l with None => None | Some l => match kept s l with None => None | Some t => Some [t] end end)
  end.
End Round.
