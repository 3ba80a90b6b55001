(** Concrete graphs. *)
From Coq Require Import List Bool Arith Relations Lia.
From Verif Require Import Unif_Model GsGraph_Model GsGraph_Spec.
Import ListNotations.
Open Scope list_scope.

(** adding a vertex leaves no room for its edges *)
Lemma bare_edge : run Nat.eqb make_graph [AddVertex 1; AddEdge 1 1] = Crash.
Proof. reflexivity. Qed.
Lemma bare_search : (do g <- run Nat.eqb make_graph [AddVertex 1]; search Nat.eqb g [1]) = Crash.
Proof. reflexivity. Qed.
(** cleaning 2 removes one of the two edges from 1 to 2 *)
Definition twice : list (op nat) := [AddEdge 1 2; AddEdge 1 2; Clean 2].
Lemma twice_search : (do g <- run Nat.eqb make_graph twice; search Nat.eqb g [1]) = Ok [1; 2].
Proof. reflexivity. Qed.
Lemma twice_unrecorded x y : ~ recorded twice x y.
Proof.
  intros (p & q & E & N1 & N2).
  destruct p as [|a p]; [injection E as <- <- <-; apply N2; cbn; auto|].
  destruct p as [|b p]; [injection E as <- <- <- <-; apply N2; cbn; auto|].
  destruct p as [|c p]; [discriminate|]. destruct p; discriminate.
Qed.
Lemma twice_unreachable : ~ reachable twice [1] 2.
Proof.
  intros (s & [<-|[]] & _ & P). apply clos_rt_rt1n in P. inversion P as [|y z H]; subst. exact (twice_unrecorded _ _ H).
Qed.

(** a cycle, a branch, a cleaned vertex *)
Definition ops : list (op nat) := [AddEdge 1 2; AddEdge 2 3; AddEdge 3 1; AddEdge 2 4; AddEdge 5 5; Clean 3; AddEdge 4 6].
Lemma ops_search : (do g <- run Nat.eqb make_graph ops; search Nat.eqb g [1; 9]) = Ok [1; 2; 4; 6].
Proof. reflexivity. Qed.
Lemma ops_no_bare : no_bare_vertex ops.
Proof. intros u H. cbn in H. repeat destruct H as [H|H]; try discriminate. contradiction. Qed.
Lemma ops_once : once ops.
Proof.
  intros p u v q E (p' & q' & E' & _).
  assert (F : forall a : op nat, count_occ (fun a b : op nat => ltac:(decide equality; apply Nat.eq_dec)) ops a <= 1).
  { intros a. destruct (in_dec (fun a b : op nat => ltac:(decide equality; apply Nat.eq_dec)) a ops) as [H|H].
    - cbn in H. repeat destruct H as [<-|H]; try (vm_compute; lia).
    - rewrite (proj1 (count_occ_not_In _ _ _) H). lia. }
  specialize (F (AddEdge u v)). rewrite E, E', !count_occ_app in F. cbn in F.
  repeat match type of F with context [if ?x then _ else _] => destruct x; [|congruence] end. lia.
Qed.
