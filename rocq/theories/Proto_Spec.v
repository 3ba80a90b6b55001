(** What is expected of the processes of the destructive search. *)

Require Import Coq.Lists.List Coq.Arith.PeanoNat Coq.Bool.Bool.
From Verif Require Import Proto_Model.
Import ListNotations.

(** The configurations of the runs of doOneStep. *)
Definition reach (complete dmt : bool) (g : cfg) : Prop :=
  exists id l, run complete dmt (start id) l = Some g.

(** The next instruction of the process ends the program: there is nothing
    else it can do. *)
Definition must_fail (x : ctl) : Prop :=
  (exists kill kept, x = Closing kill [] kept KCrash)
  \/ (exists w s, x = Waiting w s /\ s_rem s = 0 /\ decide w s = DChildren []).

(** Something happens: a process goes on, two processes meet, or the program
    is ended by a process whose next instruction is to end it. *)
Definition moves (complete dmt : bool) (g : cfg) : Prop :=
  exists a g', exec complete dmt g a = Some g'
               /\ forall p, a = ACrash p -> must_fail (c_ctl g p).

(** The search is over and every process it launched has ended. *)
Definition all_over (g : cfg) : Prop :=
  c_main g = MDone /\ forall p, p < c_n g -> c_ctl g p = Dead.

(** The last answer of a process. *)
Fixpoint last_answer (l : list event) (p : nat) : option answer :=
  match l with
  | [] => None
  | e :: r => if e_pid e =? p then Some (e_ans e) else last_answer r p
  end.

Definition closed_last (l : list event) (p : nat) : Prop :=
  exists a, last_answer l p = Some a /\ closed a = true.

(** A process that answers closed answers either for its children, all of
    which have answered closed, or a substitution it has already answered
    closed with. *)
Definition justified (l : list event) (e : event) : Prop :=
  closed (e_ans e) = true ->
  (forall k, In k (e_kids e) -> closed_last l k)
  \/ (exists s e', substs (e_ans e) = [s] /\ In e' l /\ e_pid e' = e_pid e
                   /\ closed (e_ans e') = true /\ In s (substs (e_ans e'))).

Fixpoint all_justified (l : list event) : Prop :=
  match l with
  | [] => True
  | e :: r => justified r e /\ all_justified r
  end.

(** The father finds the slot of the child that answers. *)
Definition slot_found (g : cfg) : Prop :=
  forall p w s c, p < c_n g -> c_ctl g p = Waiting w s -> In c (w_alive w) ->
  In (c_orig g c) (w_order w).

(** A node that is closed has the proof of each of its children, in order. *)
Definition proofs_complete (g : cfg) : Prop :=
  forall p w s, p < c_n g -> c_ctl g p = Waiting w s -> s_rem s = 0 ->
  (forall l, decide w s <> DChildren l) ->
  s_tab s = map Some (c_kids g p).

(** The substitution the answers are compared with is the one the children
    were given. *)
Definition current_is_sent (g : cfg) : Prop :=
  forall p w s, p < c_n g -> c_ctl g p = Waiting w s -> w_cur w = w_sent w.

(** The children are launched again with all that failed forbidden. *)
Definition failures_forbidden (g : cfg) : Prop :=
  forall p todo w, p < c_n g -> c_ctl g p = SendSub None todo w ->
  forall x b, In (x, b) (w_failed w) -> In x (w_forb w).

(** A closed answer that rests on a finite tree of closed answers: those of
    all the children of the process, or an earlier one of the process itself
    with the same substitution. *)
Inductive supported (l : list event) : event -> Prop :=
| Sup_kids : forall e, In e l -> closed (e_ans e) = true ->
    (forall k, In k (e_kids e) -> exists e', e_pid e' = k /\ supported l e') ->
    supported l e
| Sup_again : forall e e' s, In e l -> closed (e_ans e) = true ->
    substs (e_ans e) = [s] -> e_pid e' = e_pid e -> In s (substs (e_ans e')) ->
    supported l e' -> supported l e.

(** ** What a father makes of the substitutions of its children *)

(** The last answer of [k] is closed, with the substitutions [l]. *)
Definition answered (g : cfg) (k : nat) (l : list nat) : Prop :=
  exists a, last_answer (c_log g) k = Some a /\ closed a = true /\ substs a = l.

(** All the children waited for have answered. *)
Definition all_in (g : cfg) (p : nat) (w : wargs) (s : sel) : Prop :=
  p < c_n g /\ c_ctl g p = Waiting w s /\ s_rem s = 0.

(** A child that has answered closed with [l] is closed by [v]: it needs no
    substitution, or the one it was given (what it finds from there extends
    it), or [v] is one of those it gives the choice of. *)
Definition accepts (cur : option nat) (l : list nat) (v : nat) : Prop :=
  l = [] \/ (exists c, cur = Some c /\ In c l) \/ In v l.

(** Each substitution passed to the father closes all the children
    (child_management.go 163: All children agree on the substitution(s)). *)
Definition agreed (g : cfg) (w : wargs) (s : sel) : Prop :=
  forall r v, decide w s = DParent r -> In v r ->
  forall k, In k (w_alive w) -> exists l, answered g k l /\ accepts (w_cur w) l v.

(** The child asks for nothing but the substitution it was given. *)
Definition content (cur : option nat) (l : list nat) : Prop :=
  l = [] \/ exists c, cur = Some c /\ l = [c].

(** No child gives twice the same substitution. *)
Definition no_repeat (g : cfg) (w : wargs) : Prop :=
  forall k l, In k (w_alive w) -> answered g k l -> NoDup l.
