(** Specification for C148: when a list of recorded steps is a tableau above a branch. Independent of the model. *)
From Coq Require Import ZArith List Bool String.
From Verif Require Import LibSet_Model Ast_Model GsProof_Model.
Import ListNotations.
Open Scope list_scope.

(** the formula of a step is one of the branch *)
Definition present (f : form) (br : list form) : Prop := exists g, In g br /\ form_eqb g f = true.

(** a step is made on a formula of the branch; with one list of results and no children the list goes on below; with no result the
    branch ends; with children, each one is a tableau above the branch with the results it has *)
Fixpoint made (p : pstep) (br : list form) (next : list form -> Prop) {struct p} : Prop :=
  let '(PS f _ _ _ rs cs) := p in
  present f br /\
  match cs with
  | [] => match rs with [] => True | [r] => next (br ++ r) | _ => False end
  | _ =>
      (fix each (rs : list (list form)) (cs : list (list pstep)) {struct cs} : Prop :=
         match rs, cs with
         | [], [] => True
         | r :: rs, c :: cs =>
             (fix chain (c : list pstep) (br : list form) {struct c} : Prop :=
                match c with [] => False | q :: t => made q br (chain t) end) c (br ++ r) /\ each rs cs
         | _, _ => False
         end) rs cs
  end.
Fixpoint tableau (l : list pstep) (br : list form) : Prop :=
  match l with [] => False | q :: t => made q br (tableau t) end.

(** steps with one list of results lead from a branch to a longer one *)
Fixpoint leads (l : list pstep) (br br' : list form) : Prop :=
  match l with
  | [] => br' = br
  | PS f _ _ _ rs cs :: t => present f br /\ cs = [] /\ exists r, rs = [r] /\ leads t (br ++ r) br'
  end.

(** a proof of one step, and one that ends with a step, which is no rewriting *)
Definition one_step (c : list pstep) : Prop := exists z, c = [z] /\ ps_name z <> "Rewrite"%string.
Definition ends_plain (c : list pstep) : Prop := exists a z, c = a ++ [z] /\ ps_name z <> "Rewrite"%string.
