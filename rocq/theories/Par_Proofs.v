From Coq Require Import List Lia.
From Verif Require Import Par_Model.
Import ListNotations.

Section P.
Context {T : Type}.
Variable f : T -> T -> T.
Variable e : T.
Hypothesis assoc : forall x y z, f x (f y z) = f (f x y) z.
Hypothesis comm : forall x y, f x y = f y x.

Lemma fold_mid l1 v l2 r : fold_left f (l1 ++ v :: l2) r = fold_left f (l1 ++ l2) (f r v).
Proof.
  revert r. induction l1 as [|x l1 IH]; intros r; simpl; [reflexivity|].
  rewrite IH. f_equal. rewrite <- !assoc. f_equal. apply comm.
Qed.
Lemma pstep_inv s s' : pstep f s s' -> fold_left f (fst s) (snd s) = fold_left f (fst s') (snd s').
Proof. destruct 1; simpl. apply fold_mid. Qed.
Lemma psteps_inv s s' : psteps f s s' -> fold_left f (fst s) (snd s) = fold_left f (fst s') (snd s').
Proof. induction 1 as [|s s' s'' H _ IH]; [reflexivity|]. rewrite (pstep_inv _ _ H). exact IH. Qed.

Theorem par_result vals s : psteps f (pinit e vals) s -> (forall s', ~ pstep f s s') ->
  s = ([], fold_left f vals e).
Proof.
  intros H Stop. pose proof (psteps_inv _ _ H) as K. simpl in K. destruct s as [[|v l] r].
  - simpl in K. rewrite K. reflexivity.
  - exfalso. apply (Stop (l, f r v)). exact (pick f [] v l r).
Qed.

Inductive pcount : nat -> pstate (T:=T) -> pstate (T:=T) -> Prop :=
| pc0 s : pcount 0 s s
| pcS n s s' s'' : pstep f s s' -> pcount n s' s'' -> pcount (S n) s s''.

Theorem par_terminates vals n s : pcount n (pinit e vals) s -> n <= length vals.
Proof.
  intros H. assert (K : n + length (fst s) = length vals); [|lia].
  change (length vals) with (length (fst (pinit e vals))).
  induction H as [s|n s s' s'' H _ IH]; [reflexivity|].
  destruct H as [l1 v l2 r]; cbn [fst] in *. rewrite app_length in *. simpl length in *. lia.
Qed.
End P.
