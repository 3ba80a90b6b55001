(** The consequences of Elim_Proofs.v and UnifLoss_Proofs.v on terms themselves. *)
From Coq Require Import ZArith List Bool String Lia PeanoNat Permutation.
From Verif Require Import Ast_Model Ast_Proofs Occ_Spec Sem_Spec Unif_Model Unif_Spec UnifLoss_Model Elim_Proofs UnifRun_Proofs UnifLoss_Proofs.
Import ListNotations.
Open Scope list_scope.
Open Scope Z_scope.

(** ** The algebra of terms up to names *)
Definition plain_meta (i : Z) : meta := mkMeta i 0 "" 0 (TyConstr "" []).
Definition T : alg := mkAlg term (fun p tys l => Fun (mkId p "") tys l) (fun i => TId (mkId i "")) (fun i => Var i "").
Definition erase (t : term) : term := tev T (fun i => Meta (plain_meta i)) t.
Lemma erase_fun p tys l : erase (Fun p tys l) = Fun (mkId (id_index p) "") tys (map erase l).
Proof. reflexivity. Qed.
Lemma erase_same t : forall u, erase t = erase u -> same_term t u.
Proof.
  induction t as [i|p tys l IH|i n|m] using term_ind'; intros [j|q tys' l'|j n'|m'] E; try discriminate E.
  - injection E as E. constructor. exact E.
  - rewrite !erase_fun in E. injection E as E1 E2 E3. subst tys'. constructor; [exact E1| |].
    + clear. induction tys as [|a r IHr]; constructor; auto. apply same_ty_refl.
    + clear E1. revert l' E3. induction IH as [|a r Ha Hr IHr]; intros [|b l'] E; try discriminate; constructor.
      * apply Ha. injection E as E _. exact E.
      * apply IHr. injection E as _ E. exact E.
  - injection E as ->. constructor.
  - injection E as E. constructor. exact E.
Qed.
Definition sval (s : substs) (i : Z) : term := match assoc i s with Some u => erase u | None => Meta (plain_meta i) end.
Lemma sval_ssubst s t : tev T (sval s) t = erase (ssubst s t).
Proof.
  induction t as [i|p tys l IH|i n|m] using term_ind'; try reflexivity.
  - cbn [ssubst]. rewrite erase_fun. cbn. f_equal. rewrite map_map. apply map_ext_in. rewrite Forall_forall in IH. exact IH.
  - cbn. unfold sval. destruct (assoc (m_index m) s); reflexivity.
Qed.
Lemma assoc_in s k t : NoDup (keys s) -> In (k, t) s -> assoc (m_index k) s = Some t.
Proof.
  induction s as [|[k' t'] s IH]; [intros _ []|]. cbn. intros N [E|H].
  - injection E as -> ->. rewrite Z.eqb_refl. reflexivity.
  - inversion N as [|? ? N1 N2]; subst. destruct (Z.eqb_spec (m_index k') (m_index k)) as [E|_]; [|auto].
    destruct N1. rewrite E. eapply keys_in; eauto.
Qed.
Lemma assoc_none s b : assoc b s = None <-> ~ In b (keys s).
Proof.
  induction s as [|[k' t'] s IH]; cbn; [tauto|]. destruct (Z.eqb_spec (m_index k') b); [intuition congruence|]. rewrite IH. unfold keys. intuition.
Qed.
Lemma assoc_some s b t : assoc b s = Some t -> exists k, In (k, t) s /\ m_index k = b.
Proof.
  induction s as [|[k' t'] s IH]; cbn; [discriminate|]. destruct (Z.eqb_spec (m_index k') b).
  - injection 1 as ->. eauto.
  - intros H. destruct (IH H) as (k & H1 & H2). eauto.
Qed.
Lemma ssubst_free s t : (forall b, In b (t_metas t) -> ~ In b (keys s)) -> ssubst s t = t.
Proof.
  induction t as [i|p tys l IH|i n|m] using term_ind'; intros H; try reflexivity.
  - cbn. f_equal. rewrite <- (map_id l) at 2. apply map_ext_in. intros a Ha. rewrite Forall_forall in IH. apply (IH a Ha).
    intros b Hb. apply H. cbn. apply in_flat_map. eauto.
  - cbn. assert (E : assoc (m_index m) s = None) by (apply assoc_none, H; left; reflexivity). rewrite E. reflexivity.
Qed.
(** a solved form solves itself *)
Lemma solved_solves s : solved s -> solves T (sval s) s.
Proof.
  intros [N H] k t Hin. unfold sval at 1. rewrite (assoc_in s k t N Hin), sval_ssubst. f_equal. symmetry. apply ssubst_free.
  intros b Hb. apply (H k t b Hin Hb).
Qed.
(** what a solved form entails holds once it is applied *)
Lemma solved_apply s a b : solved s -> (forall A w, solves A w s -> tev A w a = tev A w b) -> same_term (ssubst s a) (ssubst s b).
Proof. intros So H. apply erase_same. rewrite <- !sval_ssubst. apply (H T (sval s)), solved_solves, So. Qed.

(** ** Unification *)
(** With the initial substitution: its bindings hold too, and the result is in solved form. *)
Theorem add_unifies ar n fe t1 t2 s s' : okS ar s -> well ar t1 -> well ar t2 ->
  add_unif_s true n fe t1 t2 s <> Out -> add_unif n fe t1 t2 s = Ok s' -> is_failure s' = false ->
  same_term (ssubst s' t1) (ssubst s' t2) /\ (forall k t, In (k, t) s -> same_term (ssubst s' (Meta k)) (ssubst s' t)) /\ solved s'.
Proof.
  intros O W1 W2 NL E F. pose proof (add_sound ar n fe t1 t2 s s' O W1 W2 NL E F) as H.
  pose proof (add_safe ar n fe t1 t2 s O W1 W2) as Q. rewrite E in Q. destruct Q as [Q|[_ So]]; [congruence|].
  split; [apply solved_apply; [exact So|]; intros A w Hw; apply (H A w Hw)|]. split; [|exact So].
  intros k t Hin. apply solved_apply; [exact So|]. intros A w Hw. apply (proj1 (H A w Hw) k t Hin).
Qed.

(** ** Elimination *)
Lemma eliminate_both_solved n s s' : NoDup (keys s) -> proper s -> eliminate_both n s = Some s' -> s' = failure \/ solved s'.
Proof.
  intros N P. unfold eliminate_both, eliminate. destruct (eliminate_meta_ok s N) as (I & N' & _).
  assert (P' : proper (eliminate_meta s)).
  { intros H. apply P. apply keys_ex in H. destruct H as (k & t & Hin & <-). eapply keys_in, I, Hin. }
  rewrite (is_failure_proper _ P'). apply elim_loop_solved, P'.
Qed.
Lemma eliminate_solved n s s' : proper s -> eliminate n s = Some s' -> s' = failure \/ solved s'.
Proof. intros P. unfold eliminate. rewrite (is_failure_proper _ P). apply elim_loop_solved, P. Qed.
(** without cycle: an equivalent solved form comes out *)
Theorem eliminate_complete s : NoDup (keys s) -> proper s -> acyclic s ->
  exists n0, forall n, (n0 <= n)%nat -> exists s', eliminate n s = Some s' /\ is_failure s' = false /\ solved s' /\
    keys s' = keys s /\ forall A w, solves A w s' <-> solves A w s.
Proof.
  intros N P Ac. destruct (elim_loop_total s N P) as (n0 & H). exists n0. intros n Hn. specialize (H n Hn).
  unfold eliminate. rewrite (is_failure_proper _ P). destruct (elim_loop n s) as [s'|] eqn:E; [|congruence]. exists s'. split; [reflexivity|].
  destruct (elim_loop_pc n s s' N P E) as [(_ & C)|(_ & So & K & Eq)].
  - destruct Ac as (r & R). apply cyclic_bad in C. destruct C as (B & HB & C). destruct (ranked_not_bad r s B N R HB C).
  - split; [apply is_failure_proper; unfold proper; rewrite K; exact P|]. auto.
Qed.
Fixpoint tsize (t : term) : nat := match t with Fun _ _ l => S (list_sum (map tsize l)) | _ => 1%nat end.
Lemma same_size t u : same_term t u -> tsize t = tsize u.
Proof.
  revert u. induction t as [i|p tys l IH|i n|m] using term_ind'; intros u H; inversion H; subst; try reflexivity.
  match goal with Hl : Forall2 same_term l _ |- _ => cbn; f_equal; f_equal; revert IH; clear - Hl; induction Hl as [|a b r1 r2 Hab Hr IHr] end; [reflexivity|]. intros IH. inversion IH; subst. cbn. f_equal; auto.
Qed.
Lemma size_pos t : (1 <= tsize t)%nat.
Proof. destruct t; cbn; lia. Qed.
Lemma list_sum_in l x : In x l -> (x <= list_sum l)%nat.
Proof. induction l as [|a l IH]; [intros []|]. intros [->|H]; cbn; [lia|]. specialize (IH H). unfold list_sum in IH. lia. Qed.
Lemma tsub_size w t b : In b (t_metas t) -> (tsize (w b) <= tsize (tsub w t))%nat.
Proof.
  induction t as [i|p tys l IH|i n|m] using term_ind'; cbn [t_metas]; intros H; try (destruct H; fail).
  - cbn [t_metas] in H. apply in_flat_map in H. destruct H as (a & Ha & Hb). rewrite Forall_forall in IH. specialize (IH a Ha Hb).
    cbn. rewrite map_map. pose proof (list_sum_in (map (fun x => tsize (tsub w x)) l) (tsize (tsub w a))) as Q.
    assert (In (tsize (tsub w a)) (map (fun x => tsize (tsub w x)) l)) by (apply in_map_iff; eauto). specialize (Q H). lia.
  - destruct H as [<-|[]]. reflexivity.
Qed.
(** solvable bindings to applications have no cycle *)
Lemma unifiable_acyclic s w : unifies w s -> (forall k t, In (k, t) s -> is_fun t = true) -> acyclic s.
Proof.
  intros U F. exists (fun b => tsize (w b)). intros k t b Hin _ Hb. rewrite (same_size _ _ (U k t Hin)).
  specialize (F k t Hin). destruct t as [|p tys l| |]; try discriminate. cbn in Hb. apply in_flat_map in Hb. destruct Hb as (a & Ha & Hb).
  pose proof (tsub_size w a b Hb). cbn. rewrite map_map. apply Nat.lt_succ_r. etransitivity; [exact H|]. apply list_sum_in. apply in_map_iff. eauto.
Qed.

(** ** Finite maps *)
Lemma sget_assoc s k : m_index k <> -1 -> option_map fst (sget s k) = assoc (m_index k) s.
Proof.
  intros H. unfold sget. destruct (Z.eqb_spec (m_index k) (-1)); [contradiction|]. generalize 0%nat.
  induction s as [|[k' v] s IH]; intros i; [reflexivity|]. cbn. unfold meta_eqb. destruct (m_index k' =? m_index k); [reflexivity|apply IH].
Qed.
Lemma assoc_app s t i : assoc i (s ++ t) = match assoc i s with Some v => Some v | None => assoc i t end.
Proof. induction s as [|[k v] s IH]; cbn; [reflexivity|]. destruct (m_index k =? i); auto. Qed.
Lemma sset_assoc s k v i : assoc i (sset s k v) =
  match assoc i s with Some u => Some u | None => if m_index k =? i then Some v else None end.
Proof.
  unfold sset. destruct (has_subst s k) eqn:E; [|rewrite assoc_app; reflexivity].
  destruct (assoc i s) eqn:A; [reflexivity|]. destruct (Z.eqb_spec (m_index k) i) as [<-|]; [|reflexivity].
  apply has_subst_ok in E. apply assoc_none in A. contradiction.
Qed.
Lemma sremove_assoc s j k v i : NoDup (keys s) -> nth_error s j = Some (k, v) ->
  assoc i (sremove s j) = if m_index k =? i then None else assoc i s.
Proof.
  intros N H. destruct (sremove_keys s j k v H N) as [N1 N2]. destruct (Z.eqb_spec (m_index k) i) as [<-|Hne]; [apply assoc_none, N2|].
  destruct (assoc i s) as [t|] eqn:E.
  - destruct (assoc_some _ _ _ E) as (k' & Hin & <-). apply (sremove_in _ _ _ _ H) in Hin. destruct Hin as [Q|Hin]; [injection Q as -> ->; contradiction|].
    apply assoc_in; auto.
  - apply assoc_none. apply assoc_none in E. intros Q. apply E. apply keys_ex in Q. destruct Q as (k' & t' & Q1 & <-).
    eapply keys_in. apply (sremove_in _ _ _ _ H). right. exact Q1.
Qed.
Lemma substs_eqb_same s1 s2 : NoDup (keys s1) -> NoDup (keys s2) -> (substs_eqb s1 s2 = true <-> same_map s1 s2).
Proof.
  intros N1 N2. unfold substs_eqb. rewrite andb_true_iff, Nat.eqb_eq, forallb_forall. split.
  - intros [L H].
    assert (G : forall k t, In (k, t) s1 -> exists t', assoc (m_index k) s2 = Some t' /\ same_term t t').
    { intros k t Hin. specialize (H _ Hin). apply existsb_exists in H. destruct H as ([k' t'] & H1 & H2). unfold bind_eqb in H2. cbn in H2.
      apply andb_true_iff in H2. destruct H2 as [H2 H3]. apply meta_eqb_idx in H2. apply term_eqb_reflect in H3.
      exists t'. split; [rewrite H2; apply assoc_in; auto|exact H3]. }
    assert (I12 : incl (keys s1) (keys s2)).
    { intros b Hb. apply keys_ex in Hb. destruct Hb as (k & t & Hin & <-). destruct (G k t Hin) as (t' & E & _).
      destruct (assoc_some _ _ _ E) as (k' & H1 & <-). eapply keys_in; eauto. }
    assert (I21 : incl (keys s2) (keys s1)).
    { apply NoDup_length_incl; [exact N1| |exact I12]. unfold keys. rewrite !map_length. lia. }
    intros i. destruct (assoc i s1) as [t|] eqn:E1.
    + destruct (assoc_some _ _ _ E1) as (k & Hin & <-). destruct (G k t Hin) as (t' & E & Q). rewrite E. exact Q.
    + destruct (assoc i s2) eqn:E2; [|exact I]. apply assoc_none in E1. destruct (assoc_some _ _ _ E2) as (k & Hin & <-). apply E1, I21. eapply keys_in; eauto.
  - intros H. split.
    + assert (I12 : incl (keys s1) (keys s2)).
      { intros b Hb. specialize (H b). destruct (assoc b s1) eqn:E1; [|apply assoc_none in E1; contradiction].
        destruct (assoc b s2) eqn:E2; [|contradiction]. destruct (assoc_some _ _ _ E2) as (k & Hin & <-). eapply keys_in; eauto. }
      assert (I21 : incl (keys s2) (keys s1)).
      { intros b Hb. specialize (H b). destruct (assoc b s2) eqn:E2; [|apply assoc_none in E2; contradiction].
        destruct (assoc b s1) eqn:E1; [|contradiction]. destruct (assoc_some _ _ _ E1) as (k & Hin & <-). eapply keys_in; eauto. }
      pose proof (NoDup_incl_length N1 I12). pose proof (NoDup_incl_length N2 I21). unfold keys in *. rewrite !map_length in *. lia.
    + intros [k t] Hin. specialize (H (m_index k)). rewrite (assoc_in _ _ _ N1 Hin) in H.
      destruct (assoc (m_index k) s2) as [t'|] eqn:E2; [|contradiction]. destruct (assoc_some _ _ _ E2) as (k' & Hin' & Ek).
      apply existsb_exists. exists (k', t'). split; [exact Hin'|]. unfold bind_eqb. cbn. apply andb_true_iff.
      split; [apply meta_eqb_idx; auto|apply term_eqb_reflect; exact H].
Qed.

(** ** Merging *)
Lemma elim_round_self n todo : forall s c p, In p todo -> occur_check (fst p) (snd p) = false ->
  elim_round n todo s c = None \/ elim_round n todo s c = Some (failure, false).
Proof.
  induction todo as [|[k v] r IH]; intros s c p Hin0 Hp; [destruct Hin0|]. destruct Hin0 as [E|Hin].
  - subst p. cbn in *. rewrite Hp. auto.
  - cbn. destruct (occur_check k v); [|auto]. destruct (elim_inside n k v s) as [[s' c']|]; [|auto]. destruct (is_failure s'); [auto|]. eapply IH; eauto.
Qed.

Lemma elim_meta_keeps s e e' : m_index e' = -1 -> forall todo res,
  In (e, Meta e') todo -> (forall k t, In (k, t) todo -> m_index k = m_index e -> t = Meta e' /\ k = e) ->
  (has_subst res e = false \/ In (e, Meta e') res) -> In (e, Meta e') (elim_meta_loop s todo res).
Proof.
  intros He'.
  assert (Mon : forall todo res, In (e, Meta e') res -> In (e, Meta e') (elim_meta_loop s todo res)).
  { induction todo as [|[k v] r IH]; intros res H; [exact H|]. cbn. apply IH. destruct (_ && _); [exact H|].
    unfold sset. destruct (has_subst res k); [exact H|apply in_or_app; auto]. }
  induction todo as [|[k v] r IH]; intros res Hin Hu Hr; [destruct Hin|]. cbn [elim_meta_loop].
  destruct Hr as [Hr|Hr].
  2:{ apply Mon. destruct (_ && _); [exact Hr|]. unfold sset. destruct (has_subst res k); [exact Hr|apply in_or_app; auto]. }
  destruct (meta_eqb k e) eqn:Ek.
  - apply meta_eqb_idx in Ek. destruct (Hu k v (or_introl eq_refl) Ek) as [-> ->]. apply Mon.
    replace (sget s (to_meta (Meta e'))) with (@None (term * nat)).
    2:{ unfold sget. cbn [to_meta]. rewrite He'. reflexivity. }
    rewrite !andb_false_r. unfold sset. rewrite Hr. apply in_or_app. right. left. reflexivity.
  - apply meta_eqb_nidx in Ek. apply IH.
    + destruct Hin as [E|Hin]; [injection E as -> _; contradiction|exact Hin].
    + intros k' t' H. apply Hu. right. exact H.
    + left. destruct (_ && _); [exact Hr|]. apply has_subst_no. rewrite sset_keys. apply has_subst_no in Hr. intuition congruence.
Qed.
(** a failure merged with anything fails *)
Lemma merge_failure_r ar fe add s1 s2 s' : okS ar s1 -> is_failure s2 = true -> merge fe add s1 s2 = Ok s' -> is_failure s' = true.
Proof.
  intros O F. destruct (is_failure_inv s2 F) as (e & e' & -> & He & He'). destruct s1 as [|p1 s1]; [cbn; injection 1 as <-; exact F|].
  cbn [merge merge_loop]. pose proof (add_all_nodup (p1 :: s1) [] (proj1 O)) as E. unfold add_all in E. rewrite E. cbn [app].
  assert (P := okS_proper _ _ O). unfold proper in P.
  assert (Hh : has_subst (p1 :: s1) e = false) by (apply has_subst_no; rewrite He; exact P). rewrite Hh.
  unfold elim_out, eliminate_both.
  assert (K : In (e, Meta e') (eliminate_meta (sset (p1 :: s1) e (Meta e')))).
  { unfold eliminate_meta. apply elim_meta_keeps; [exact He'| | |left; reflexivity].
    - unfold sset. rewrite Hh. apply in_or_app. right. left. reflexivity.
    - intros k t H Ek. apply sset_in in H. destruct H as [H|H]; [|injection H as -> ->; auto]. destruct P. rewrite <- He, <- Ek. eapply keys_in; eauto. }
  set (r := eliminate_meta _) in *. clearbody r. unfold eliminate. destruct (is_failure r) eqn:Fr.
  - cbn. injection 1 as <-. exact Fr.
  - destruct fe as [|n]; [discriminate|]. cbn [elim_loop].
    destruct (elim_round_self n r r false (e, Meta e') K) as [-> | ->]; [|discriminate|].
    + cbn. unfold occur_check. cbn. apply negb_false_iff. apply meta_eqb_idx. lia.
    + cbn. injection 1 as <-. reflexivity.
Qed.
Lemma merge_failure_l ar fe add s1 s2 s' : okS ar s2 -> is_failure s1 = true -> merge fe add s1 s2 = Ok s' -> is_failure s' = true.
Proof.
  intros O F. destruct (is_failure_inv s1 F) as (e & e' & -> & He & He'). destruct s2 as [|p2 s2]; [cbn; injection 1 as <-; exact F|].
  change (merge fe add [(e, Meta e')] (p2 :: s2)) with (merge_loop fe add (p2 :: s2) [(e, Meta e')]).
  assert (G : forall l, okS ar l -> forall res, is_failure res = true -> forall r, merge_loop fe add l res = Ok r -> is_failure r = true).
  { induction l as [|[k v] l IH]; intros Ol res Fr r; [cbn; injection 1 as <-; exact Fr|]. cbn [merge_loop].
    destruct (proj2 Ol k v (or_introl eq_refl)) as [Hk Wv].
    replace (has_subst res k) with false.
    2:{ destruct (is_failure_inv res Fr) as (a & a' & -> & Ha & _). symmetry. apply has_subst_no. cbn. unfold pmeta in *. lia. }
    pose proof (elim_out_fail ar fe res k v Fr Hk Wv) as Q. destruct (elim_out fe (sset res k v)) as [res'| | |]; try discriminate. cbn in *.
    apply IH; [|exact Q]. destruct Ol as [N Ol]. split; [inversion N; auto|]. intros; apply Ol; right; auto. }
  apply (G (p2 :: s2) O), F.
Qed.
Theorem merge_sound ar fe n s1 s2 s' : okS ar s1 -> okS ar s2 ->
  merge fe (add_unif_s true n fe) s1 s2 <> Out -> merge fe (add_unif n fe) s1 s2 = Ok s' -> is_failure s' = false ->
  forall A w, solves A w s' -> solves A w s1 /\ solves A w s2.
Proof.
  intros O1 O2 NL E F. assert (Ad : add_ok ar (true = true) (add_unif_s true n fe)).
  { intros a b s0 O0 Wa Wb. eapply safe_imp; [|apply (add_s_ok ar true n fe a b s0 O0 Wa Wb)]. intros r [G|(G1 & _ & G2)]; auto. }
  pose proof (merge_ok ar true fe (add_unif_s true n fe) Ad s1 s2 O1 O2) as Q.
  destruct (merge_refines fe (add_unif_s true n fe) (add_unif n fe) (strict_refines n fe) s1 s2) as [H|H]; [contradiction|].
  rewrite H, E in Q. cbn in Q. destruct Q as [Q|(_ & Q)]; [congruence|]. apply Q, eq_refl.
Qed.
Theorem merge_safe ar fe n s1 s2 : okS ar s1 -> okS ar s2 ->
  safe (fun r => is_failure r = true \/ okS ar r) (merge fe (add_unif n fe) s1 s2).
Proof.
  intros O1 O2. assert (Ad : add_ok ar (false = true) (add_unif n fe)).
  { intros a b s0 O0 Wa Wb. eapply safe_imp; [|apply (add_safe ar n fe a b s0 O0 Wa Wb)]. intros r [G|(G1 & _)]; [auto|]. right. split; [exact G1|discriminate]. }
  eapply safe_imp; [|apply (merge_ok ar false fe (add_unif n fe) Ad s1 s2 O1 O2)]. intros r [G|(G1 & _)]; auto.
Qed.
Lemma set_new s k v i : ~ In (m_index k) (keys s) -> assoc i (sset s k v) = if m_index k =? i then Some v else assoc i s.
Proof.
  intros H. rewrite sset_assoc. apply assoc_none in H. destruct (Z.eqb_spec (m_index k) i) as [<-|]; [rewrite H; reflexivity|].
  destruct (assoc i s); reflexivity.
Qed.
Lemma add_no_crash ar n fe t1 t2 s : okS ar s -> well ar t1 -> well ar t2 ->
  add_unif n fe t1 t2 s <> Crash /\ forall s', add_unif n fe t1 t2 s = Ok s' -> is_failure s' = true \/ (okS ar s' /\ solved s').
Proof.
  intros O W1 W2. pose proof (add_safe ar n fe t1 t2 s O W1 W2) as Q. split; [intros E|intros s' E]; rewrite E in Q; exact Q.
Qed.
Lemma merge_no_crash ar n fe s1 s2 : okS ar s1 -> okS ar s2 -> merge fe (add_unif n fe) s1 s2 <> Crash.
Proof. intros O1 O2. pose proof (merge_safe ar fe n s1 s2 O1 O2) as Q. intros E. rewrite E in Q. exact Q. Qed.
