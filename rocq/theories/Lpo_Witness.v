(** Concrete terms and comparisons. *)
From Coq Require Import ZArith List Bool String Lia.
From Verif Require Import Ast_Model Sem_Spec Ast_Proofs Unif_Spec Lpo_Model Lpo_Spec Lpo_Proofs Lpo_Final.
Import ListNotations.
Open Scope Z_scope.

Definition ia := mkId 1 "a". Definition ib := mkId 2 "b". Definition i_f := mkId 3 "f". Definition ig := mkId 4 "g".
Definition ta := Fun ia [] []. Definition tb := Fun ib [] [].
Definition tf s t := Fun i_f [] [s; t]. Definition tg s := Fun ig [] [s].
Definition war2 (p : ident) : nat := match id_index p with 3 => 2%nat | 4 => 1%nat | _ => 0%nat end.
Definition mX (i : Z) : term := Meta (mkMeta i 0 "X" 0 tType).
(** f(g(a), b) < f(g(b), a) *)
Definition s1 := tf (tg ta) tb. Definition t1 := tf (tg tb) ta.
Lemma s1_ground : ground war2 s1 /\ ground war2 t1.
Proof. split; repeat constructor. Qed.
Lemma s1_less : ordered s1 t1 1.
Proof. exists (mkCmp 1 true None). repeat split. Qed.
(** f(X, b) < g(f(X, b)), and X, Y are not comparable *)
Definition s2 := tf (mX 0) tb. Definition t2 := tg (tf (mX 0) tb).
Lemma s2_proper : proper war2 s2 /\ proper war2 t2.
Proof. split; repeat constructor. Qed.
Lemma s2_less : ordered s2 t2 1.
Proof. exists (mkCmp 1 true None). repeat split. Qed.
Lemma xy_open : exists n, compare (mX 0) (mX 1) = Some (mkCmp 1 false n).
Proof. eexists. reflexivity. Qed.
(** two constants that differ in their types only *)
Definition c_int := Fun ia [TyConstr "$int" []] []. Definition c_rat := Fun ia [TyConstr "$rat" []] [].
Lemma c_types : ordered c_int c_rat 0 /\ ground war2 c_int /\ ground war2 c_rat /\ ~ same_term c_int c_rat.
Proof.
  split; [exists (mkCmp 0 true None); repeat split|]. split; [repeat constructor|]. split; [repeat constructor|].
  intros H. apply term_eqb_reflect in H. discriminate.
Qed.
(** the same symbol with different numbers of arguments *)
Lemma overloaded : compare (Fun ia [] []) (Fun ia [] [tb]) = None.
Proof. reflexivity. Qed.
(** an infinite descent: names b, ab, aab, ... *)
Fixpoint as_b (n : nat) : string := match n with O => "b"%string | S n => String (Ascii.ascii_of_nat 97) (as_b n) end.
Definition descent (n : nat) : term := Fun (mkId 0 (as_b n)) [] [].
Lemma as_b_lt n : String.compare (as_b (S n)) (as_b n) = Lt.
Proof. induction n as [|n IH]; [reflexivity|]. cbn in *. exact IH. Qed.
Lemma descent_ground n : ground (fun _ => 0%nat) (descent n).
Proof. repeat constructor. Qed.
Lemma descent_less n : ordered (descent (S n)) (descent n) 1.
Proof.
  apply (ordered_less (fun _ => 0%nat)); try apply descent_ground. apply less_prec; [left; apply as_b_lt|intros s []].
Qed.
Lemma descent_infinite : ~ well_founded (fun s t => ground (fun _ => 0%nat) s /\ ordered s t 1).
Proof.
  intros W. assert (K : forall t, Acc (fun s t => ground (fun _ => 0%nat) s /\ ordered s t 1) t -> forall n, t <> descent n).
  { intros t H. induction H as [t _ IH]. intros n ->. apply (IH (descent (S n))) with (S n); auto. split; [apply descent_ground|apply descent_less]. }
  apply (K (descent 0) (W _) 0%nat). reflexivity.
Qed.
