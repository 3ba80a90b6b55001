(** Concrete unification problems. *)
From Coq Require Import ZArith List Bool String.
From Verif Require Import Ast_Model Ast_Proofs Sem_Spec Unif_Model Unif_Spec UnifLoss_Model.
Import ListNotations.
Open Scope list_scope.
Open Scope Z_scope.

Definition mX (i : Z) : meta := mkMeta i 0 "X" 0 (TyConstr "$i" []).
Definition vX (i : Z) : term := Meta (mX i).
Definition fn (i : Z) (l : list term) : term := Fun (mkId i "f") [] l.
(** symbols: 10 and 11 constants, 20 unary, 30 binary, 40 ternary *)
Definition war : signature :=
  mkSig (fun i => if (i =? 20)%Z then 1 else if (i =? 30)%Z then 2 else if (i =? 40)%Z then 3 else 0)%nat (fun _ => True) (fun _ => True).
Definition ka := fn 10 [].
Definition kb := fn 11 [].
Ltac wellt := cbn; unfold pmeta; cbn; repeat match goal with |- _ /\ _ => split | |- True => exact I | |- _ = _ => reflexivity | |- _ <= _ => discriminate end.
Lemma ok_nil ar : okS ar [].
Proof. split; [constructor|intros k t []]. Qed.

(** *** A lost binding: f(X1, X2, b) and f(X2, a, X1) are not unifiable, and {X1 := b, X2 := b} comes out *)
Definition t_lost := fn 40 [vX 1; vX 2; kb].
Definition q_lost := fn 40 [vX 2; ka; vX 1].
Definition s_lost : substs := [(mX 1, kb); (mX 2, kb)].
Lemma lost_well : well war t_lost /\ well war q_lost.
Proof. split; wellt. Qed.
Lemma lost_result : add_unif 30 30 t_lost q_lost [] = Ok s_lost /\ is_failure s_lost = false.
Proof. split; vm_compute; reflexivity. Qed.
Lemma lost_not_unifier : ~ same_term (ssubst s_lost t_lost) (ssubst s_lost q_lost).
Proof.
  intros H. apply term_eqb_reflect in H. vm_compute in H. discriminate.
Qed.
Lemma lost_not_unifiable : forall w, ~ same_term (tsub w t_lost) (tsub w q_lost).
Proof.
  intros w H. apply term_eqb_reflect in H. unfold t_lost, q_lost, fn, vX in H. cbn [tsub map] in H.
  cbn [term_eqb list_eqb id_eqb id_index Z.eqb andb] in H. cbn in H.
  rewrite !andb_true_iff in H. destruct H as (H1 & H2 & H3 & _). change (term_eqb kb (w 1) = true) in H3. change (term_eqb (w 2) ka = true) in H2.
  apply term_eqb_reflect in H1, H2, H3. pose proof (same_term_trans _ _ _ (same_term_trans _ _ _ H3 H1) H2) as H.
  apply term_eqb_reflect in H. vm_compute in H. discriminate.
Qed.
Lemma lost_flagged : add_unif_s true 30 30 t_lost q_lost [] = Out.
Proof. vm_compute. reflexivity. Qed.
(** the same in a merge *)
Definition m1_lost : substs := [(mX 5, q_lost)].
Definition m2_lost : substs := [(mX 5, t_lost)].
Definition m_lost : substs := [(mX 5, fn 40 [kb; kb; kb]); (mX 1, kb); (mX 2, kb)].
Lemma merge_lost : merge 30 (add_unif 30 30) m1_lost m2_lost = Ok m_lost /\ is_failure m_lost = false.
Proof. split; vm_compute; reflexivity. Qed.
Lemma ok_one ar k t : pmeta ar k -> well ar t -> okS ar [(k, t)].
Proof. intros H W. split; [repeat constructor; auto|]. intros k' t' [E|[]]. injection E as <- <-. auto. Qed.

(** *** A run that loses nothing: f(X1, g(X2)) and f(g(X3), X1) *)
Definition t_ok := fn 30 [vX 1; fn 20 [vX 2]].
Definition q_ok := fn 30 [fn 20 [vX 3]; vX 1].
Definition s_ok : substs := [(mX 1, fn 20 [vX 2]); (mX 3, vX 2)].
Lemma ok_well : well war t_ok /\ well war q_ok.
Proof. split; wellt. Qed.
Lemma ok_result : add_unif 30 30 t_ok q_ok [] = Ok s_ok /\ is_failure s_ok = false /\ add_unif_s true 30 30 t_ok q_ok [] <> Out.
Proof. split; [vm_compute; reflexivity|]. split; [vm_compute; reflexivity|]. vm_compute. discriminate. Qed.
(** *** A merge that loses nothing *)
Definition m1_ok : substs := [(mX 1, vX 2)].
Definition m2_ok : substs := [(mX 2, fn 20 [vX 3]); (mX 3, ka)].
Definition m_ok : substs := [(mX 1, fn 20 [ka]); (mX 2, fn 20 [ka]); (mX 3, ka)].
Lemma m2_ok_ok : okS war m2_ok.
Proof.
  split; [repeat constructor; cbn; intuition discriminate|]. intros k t [E|[E|[]]]; injection E as <- <-; (split; wellt).
Qed.
Lemma merge_ok_result : merge 30 (add_unif 30 30) m1_ok m2_ok = Ok m_ok /\ is_failure m_ok = false /\
  merge 30 (add_unif_s true 30 30) m1_ok m2_ok <> Out.
Proof. split; [vm_compute; reflexivity|]. split; [vm_compute; reflexivity|]. vm_compute. discriminate. Qed.

(** *** Unifiable terms reported as not unifiable: f(X1, X2, X3) and f(X3, X1, X2); k(X1, X1) and
    k(k(k(X4, X5), X6), k(k(X5, X6), X4)) *)
Definition t_cyc := fn 40 [vX 1; vX 2; vX 3].
Definition q_cyc := fn 40 [vX 3; vX 1; vX 2].
Lemma cyc_well : well war t_cyc /\ well war q_cyc.
Proof. split; wellt. Qed.
Lemma cyc_fails : add_unif 30 30 t_cyc q_cyc [] = Ok failure.
Proof. vm_compute. reflexivity. Qed.
Lemma cyc_unifiable : exists w, same_term (tsub w t_cyc) (tsub w q_cyc).
Proof. exists (fun _ => ka). repeat constructor. Qed.
Definition t_cyc2 := fn 30 [vX 1; vX 1].
Definition q_cyc2 := fn 30 [fn 30 [fn 30 [vX 4; vX 5]; vX 6]; fn 30 [fn 30 [vX 5; vX 6]; vX 4]].
Lemma cyc2_well : well war t_cyc2 /\ well war q_cyc2.
Proof. split; wellt. Qed.
Lemma cyc2_fails : add_unif 30 30 t_cyc2 q_cyc2 [] = Ok failure.
Proof. vm_compute. reflexivity. Qed.
Lemma cyc2_unifiable : exists w, same_term (tsub w t_cyc2) (tsub w q_cyc2).
Proof. exists (fun i => if i =? 1 then fn 30 [fn 30 [ka; ka]; ka] else ka). repeat constructor. Qed.
(** the reason: Eliminate rejects cycles of metavariables *)
Definition s_cyc : substs := [(mX 1, vX 2); (mX 2, vX 3); (mX 3, vX 1)].
Lemma s_cyc_fails : eliminate_both 30 s_cyc = Some failure.
Proof. vm_compute. reflexivity. Qed.
(** a system without cycle *)
Definition s_acyc : substs := [(mX 1, fn 30 [vX 2; vX 3]); (mX 2, fn 20 [vX 3]); (mX 3, fn 20 [vX 4])].
Lemma s_acyc_unif : exists w, unifies w s_acyc.
Proof.
  exists (fun i => if i =? 3 then fn 20 [ka] else if i =? 2 then fn 20 [fn 20 [ka]] else if i =? 1 then fn 30 [fn 20 [fn 20 [ka]]; fn 20 [ka]] else ka).
  intros k t [E|[E|[E|[]]]]; injection E as <- <-; cbn; repeat constructor.
Qed.

(** *** A crash: f(a) against f, one symbol with two arities *)
Lemma arity_crash : add_unif 30 30 (fn 20 [ka]) (fn 20 []) [] = Crash.
Proof. vm_compute. reflexivity. Qed.
Lemma merge_incompatible : forall w, ~ (unifies w m1_lost /\ unifies w m2_lost).
Proof.
  intros w [H1 H2]. apply (lost_not_unifiable w). eapply same_term_trans; [apply same_term_sym, (H2 (mX 5) t_lost (or_introl eq_refl))|].
  exact (H1 (mX 5) q_lost (or_introl eq_refl)).
Qed.
Lemma ok_differ : t_ok <> q_ok.
Proof. discriminate. Qed.
Lemma apart2 : forall b, In b (Occ_Spec.t_metas t_cyc2) -> ~ In b (Occ_Spec.t_metas q_cyc2).
Proof. cbn. intros b [<-|[<-|[]]]; intuition discriminate. Qed.
Lemma s_acyc_hyps : NoDup (keys s_acyc) /\ proper s_acyc /\ (forall k t, In (k, t) s_acyc -> is_fun t = true).
Proof.
  split; [repeat constructor; cbn; intuition discriminate|]. split; [cbv; intuition discriminate|].
  intros k t [E|[E|[E|[]]]]; injection E as <- <-; reflexivity.
Qed.
Lemma s_acyc_result : exists s', eliminate 30 s_acyc = Some s' /\ s' <> failure /\ s' <> s_acyc.
Proof. eexists. split; [vm_compute; reflexivity|]. split; discriminate. Qed.
Lemma set_old : exists s k v, NoDup (keys s) /\ 0 <= m_index k /\ exists u i, sget (sset s k v) k = Some (u, i) /\ ~ same_term u v.
Proof.
  exists [(mX 1, ka)], (mX 1), kb. split; [repeat constructor; intros []|]. split; [discriminate|]. exists ka, 0%nat.
  split; [reflexivity|]. intros H. apply term_eqb_reflect in H. discriminate.
Qed.
Lemma equals_dup : exists s1 s2, substs_eqb s1 s2 = true /\ ~ same_map s1 s2.
Proof. exists [(mX 1, ka); (mX 1, ka)], [(mX 1, ka); (mX 2, kb)]. split; [reflexivity|]. intros H. exact (H 2). Qed.
Lemma maps_hyps : NoDup (keys s_acyc) /\ ~ In (m_index (mX 9)) (keys s_acyc) /\ nth_error s_acyc 1 = Some (mX 2, fn 20 [vX 3]) /\ m_index (mX 2) <> -1.
Proof. split; [apply s_acyc_hyps|]. split; [cbn; intuition discriminate|]. split; [reflexivity|discriminate]. Qed.
Lemma m1_ok_ok : okS war m1_ok.
Proof. apply ok_one; wellt. Qed.
Lemma m_lost_ok : okS war m1_lost /\ okS war m2_lost.
Proof. split; apply ok_one; try apply lost_well; wellt. Qed.
