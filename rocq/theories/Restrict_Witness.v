(** Concrete substitutions to restrict. *)
From Coq Require Import ZArith List Bool String Lia.
From Verif Require Import Ast_Model Occ_Spec Sem_Spec Unif_Model Unif_Spec UnifLoss_Model Elim_Proofs Unif_Witness Restrict_Model Restrict_Spec.
Import ListNotations.
Open Scope list_scope.
Open Scope Z_scope.

Ltac inb := repeat match goal with H : In _ (_ :: _) |- _ => destruct H as [H|H] | H : In _ [] |- _ => destruct H | H : (_, _) = (_, _) |- _ => injection H as <- <- end.
(** *** p(X1, X2) against p(X3, X3), where X3 is local: the branch closes when X1 = X2, the parent hears nothing *)
Definition t_sh := fn 30 [vX 1; vX 2].
Definition q_sh := fn 30 [vX 3; vX 3].
Definition s_sh : substs := [(mX 1, vX 3); (mX 2, vX 3)].
Definition mm_sh : list meta := [mX 1; mX 2].
Lemma sh_unif : add_unif 30 30 t_sh q_sh [] = Ok s_sh.
Proof. vm_compute. reflexivity. Qed.
Lemma sh_ok : okS war s_sh /\ solved s_sh.
Proof.
  split.
  - split; [repeat constructor; cbn; intuition lia|]. intros k t H. unfold s_sh in H. inb; cbn; unfold pmeta; cbn; repeat split; lia.
  - split; [repeat constructor; cbn; intuition lia|]. intros k t b H Hb. unfold s_sh in H. inb; cbn in *; intuition lia.
Qed.
Lemma sh_restrict : restrict 30 (add_unif 30 30) s_sh mm_sh = Ok [].
Proof. vm_compute. reflexivity. Qed.
Lemma sh_shared : shared mm_sh s_sh.
Proof.
  exists (mX 1), (mX 2), (mX 3), (mX 3). cbn. split; [auto|]. split; [auto|]. split; [lia|]. split; [reflexivity|]. split; [auto|]. split; [auto|].
  intros [H|(k & t & H & _ & N & _)]; [cbn in H; intuition lia|]. unfold s_sh in H. inb; apply (N (mX 3)); reflexivity.
Qed.
(** nothing left of X1 = X2 *)
Lemma sh_loses : ~ keeps mm_sh s_sh [].
Proof.
  intros K. destruct (K (mkAlg Z (fun p _ _ => p) (fun i => i) (fun i => i)) (fun i => i)) as (v & Ag & Hs); [intros k t []|].
  pose proof (Hs (mX 1) (vX 3) (or_introl eq_refl)) as H1. pose proof (Hs (mX 2) (vX 3) (or_intror (or_introl eq_refl))) as H2.
  pose proof (Ag (mX 1) (or_introl eq_refl)) as G1. pose proof (Ag (mX 2) (or_intror (or_introl eq_refl))) as G2. cbn in *. congruence.
Qed.

(** *** A restriction that drops bindings and keeps what matters: X5, X6 and X7 are local, X6 becomes relevant *)
Definition s_kp : substs := [(mX 2, vX 6); (mX 1, fn 20 [vX 6]); (mX 3, vX 6); (mX 5, fn 30 [vX 7; vX 6]); (mX 4, vX 7)].
Definition mm_kp : list meta := [mX 1; mX 2; mX 3; mX 4].
Definition r_kp : substs := [(mX 1, fn 20 [vX 6]); (mX 3, vX 6); (mX 2, vX 6)].
Lemma kp_ok : okS war s_kp /\ solved s_kp.
Proof.
  split.
  - split; [repeat constructor; cbn; intuition lia|]. intros k t H. unfold s_kp in H. inb; cbn; unfold pmeta; cbn; repeat split; lia.
  - split; [repeat constructor; cbn; intuition lia|]. intros k t b H Hb. unfold s_kp in H. inb; cbn in *; intuition lia.
Qed.
Lemma kp_restrict : restrict 30 (add_unif 30 30) s_kp mm_kp = Ok r_kp /\ restrict 30 (add_unif_s true 30 30) s_kp mm_kp <> Out /\ r_kp <> s_kp.
Proof. split; [vm_compute; reflexivity|]. split; vm_compute; discriminate. Qed.
Lemma kp_not_shared : ~ shared mm_kp s_kp.
Proof.
  intros (k & k' & n & n' & H1 & H2 & Nk & En & _ & _ & Nr).
  assert (R : m_index n <> 6).
  { intros E. apply Nr. rewrite E. right. exists (mX 1), (fn 20 [vX 6]). split; [cbn; auto|]. split; [cbn; auto|]. split; [discriminate|cbn; auto]. }
  assert (L : forall a b, In (a, Meta b) s_kp -> m_index b = 6 \/ m_index a = 4).
  { intros a b [E|[E|[E|[E|[E|[]]]]]]; try discriminate E; injection E as <- <-; auto. }
  destruct (L _ _ H1), (L _ _ H2); congruence.
Qed.
(** the same restriction takes several rounds *)
Lemma kp_rounds : rounds 1 s_kp (mkR mm_kp [] []) = None.
Proof. vm_compute. reflexivity. Qed.
(** *** a unifier of f(X1, g(X2)) and f(g(X3), X1) *)
Lemma general_case : let v := fun i => if (i =? 1) then fn 20 [ka] else ka in
  (forall i, well war (v i)) /\ same_term (tsub v t_ok) (tsub v q_ok).
Proof.
  split; [intros i; cbn; destruct (i =? 1); wellt|]. apply Ast_Proofs.term_eqb_reflect. vm_compute. reflexivity.
Qed.
