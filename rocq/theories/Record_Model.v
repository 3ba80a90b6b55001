(** Model of the proof that a process records when its children answer: Search/child_management.go:358-380 updateProof, and of the
    successive updates made when the father answers several times, Search/destructive.go:503-640 waitFather.

    A step is [GsProof_Model.pstep]. The field Rule is compared with "Rewrite" in the code and the field Rule_name is here: the two are
    set together to that value (destructive.go:1027-1028, child_management.go:337-338). The copies of lists are the identity. The option
    to record the proof is on. [None] is an index out of range, which stops the program. *)
From Coq Require Import ZArith List Bool String.
From Verif Require Import LibSet_Model Ast_Model GsProof_Model.
Import ListNotations.
Open Scope list_scope.
Open Scope Z_scope.

Definition is_rewrite (p : pstep) : bool := String.eqb (ps_name p) "Rewrite".
(** Search/state.go:235-239 SetCurrentProofChildren *)
Definition set_children (p : pstep) (cs : list (list pstep)) : pstep :=
  let '(PS f d i n rs _) := p in PS f d i n rs cs.

(** child_management.go:361-374; [proof] and [cur] are the lists of steps and the current step of the state *)
Definition update_proof (overwrite : bool) (proof : list pstep) (cur : pstep) (ch : list (list pstep)) : option (list pstep) :=
  if overwrite then
    match rev proof, ch with
    | lst :: _, c :: _ =>
        if is_rewrite lst then
          match c with
          | [] => None
          | c0 :: _ =>
              if negb (is_rewrite c0) || negb (ps_node c0 =? ps_node lst)
              then Some ((removelast proof ++ [set_children lst []]) ++ c)
              else Some (removelast proof ++ c)
          end
        else Some (removelast proof ++ c)
    | _, _ => None
    end
  else Some (proof ++ [set_children cur ch]).

(** destructive.go:638, with child_management.go:145 and 171: after each answer of the father the process launches one child on its own
    state, waits for it with overwrite, and records the proof [c] of that child. The steps and the current step stay those of the process. *)
Definition answered (proof : list pstep) (cur : pstep) (cs : list (list pstep)) : option (list pstep) :=
  fold_left (fun p c => match p with Some p => update_proof true p cur [c] | None => None end) cs (Some proof).
