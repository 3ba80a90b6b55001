(** Runs that lose no binding give unifiers; runs never crash. *)
From Coq Require Import ZArith List Bool String Lia PeanoNat Permutation.
From Verif Require Import Ast_Model Ast_Proofs Occ_Spec Sem_Spec Unif_Model Unif_Spec UnifLoss_Model Elim_Proofs UnifRun_Proofs.
Import ListNotations.
Open Scope list_scope.
Open Scope Z_scope.

(** ** The strict functions refine the real ones *)
Definition refines {A} (x y : out A) : Prop := x = Out \/ x = y.
Lemma refines_refl {A} (x : out A) : refines x x. Proof. right; reflexivity. Qed.
Lemma refines_bind {A B} (x y : out A) (f g : A -> out B) : refines x y -> (forall a, refines (f a) (g a)) -> refines (bind x f) (bind y g).
Proof. intros [->| ->] H; [left; reflexivity|]. destruct y; cbn; auto using refines_refl. Qed.

Section Refine.
Variables (fe : nat) (add1 add2 : term -> term -> substs -> out substs).
Hypothesis Hr : forall a b s, refines (add1 a b s) (add2 a b s).
Lemma exec_refines i m : refines (exec add1 i m) (exec add2 i m).
Proof.
  assert (T : forall a b m, refines (try_substitute add1 a b m) (try_substitute add2 a b m)).
  { intros a b m0. unfold try_substitute. apply refines_bind; [apply Hr|intros; apply refines_refl]. }
  destruct i; try apply refines_refl; cbn [exec].
  - apply refines_bind; [|intros; apply refines_refl]. unfold try_unlock. destruct (_ && _); [|apply refines_refl].
    apply refines_bind; [apply refines_refl|]. intros c. destruct t; [|apply refines_refl].
    apply refines_bind; [apply T|intros; apply refines_refl].
  - destruct (unlocked m); [|apply refines_refl]. destruct (subst_at _ i); [|apply refines_refl].
    destruct (subst_at _ j); [|apply refines_refl]. destruct (term_eqb _ _); [apply refines_refl|apply T].
Qed.
Lemma exec_all_refines is m : refines (exec_all add1 is m) (exec_all add2 is m).
Proof. revert m. induction is as [|i r IH]; intros m; [apply refines_refl|]. cbn. apply refines_bind; [apply exec_refines|exact IH]. Qed.
Lemma merge_refines a b : refines (merge fe add1 a b) (merge fe add2 a b).
Proof.
  destruct a as [|p a]; [apply refines_refl|]. destruct b as [|q b]; [apply refines_refl|]. cbn [merge].
  generalize (fold_left (fun r p => sset r (fst p) (snd p)) (p :: a) []). generalize (q :: b).
  induction l as [|[k v] l IH]; intros res; [apply refines_refl|]. cbn. apply refines_bind; [|exact IH].
  destruct (has_subst res k); [apply Hr|apply refines_refl].
Qed.
Lemma loop_refines subs mt : forall metas tree done,
  refines (compute_loop_s true add1 subs mt metas tree done) (compute_loop add2 subs mt metas tree).
Proof.
  induction subs as [|[i v] r IH]; intros metas tree done; [apply refines_refl|]. cbn [compute_loop_s compute_loop].
  destruct (nth_error mt i) as [m|]; [|apply refines_refl]. destruct (term_eqb (Meta m) v); [apply IH|].
  destruct (true && _ && _); [left; reflexivity|].
  destruct (if has_subst metas m then sget metas m else None) as [[w idx]|]; [|apply IH].
  destruct (negb (term_eqb v w)); [|apply IH]. apply refines_bind; [apply Hr|]. intros u. destruct (is_failure u); [apply refines_refl|apply IH].
Qed.
Lemma body_refines a b s : refines (add_body_s true fe add1 a b s) (add_body fe add2 a b s).
Proof.
  assert (T : refines (try_unification_s true fe add1 a b s) (try_unification fe add2 a b s)).
  { unfold try_unification_s, try_unification. destruct (exec_all_refines (parse_one a) (make_machine [b] s)) as [-> | ->]; [left; reflexivity|].
    destruct (exec_all add2 (parse_one a) (make_machine [b] s)) as [m| | |]; try apply refines_refl.
    apply refines_bind; [|intros; apply refines_refl]. unfold compute_s, compute. apply refines_bind; [apply loop_refines|].
    intros [[metas tree]|]; [|apply refines_refl]. apply refines_bind; [apply refines_refl|]. intros m1.
    destruct (is_failure m1); [apply refines_refl|]. apply refines_bind; [apply refines_refl|]. intros t1.
    destruct (is_failure t1); [apply refines_refl|]. apply refines_bind; [apply merge_refines|intros; apply refines_refl]. }
  unfold add_body_s, add_body. destruct (_ || _ && _); [|apply refines_refl]. apply refines_bind; [exact T|intros; apply refines_refl].
Qed.
End Refine.
Theorem strict_refines n fe a b s : refines (add_unif_s true n fe a b s) (add_unif n fe a b s).
Proof. revert a b s. induction n as [|n IH]; intros a b s; [apply refines_refl|]. cbn. apply body_refines, IH. Qed.
Lemma loop_false add subs mt : forall metas tree done, compute_loop_s false add subs mt metas tree done = compute_loop add subs mt metas tree.
Proof.
  induction subs as [|[i v] r IH]; intros metas tree done; [reflexivity|]. cbn.
  destruct (nth_error mt i) as [m|]; [|reflexivity]. destruct (match v with Meta _ => _ | _ => _ end); [apply IH|].
  destruct (if has_subst metas m then sget metas m else None) as [[w idx]|]; [|apply IH].
  destruct (negb (term_eqb v w)); [|apply IH]. destruct (add v w (sset tree m v)) as [u| | |]; cbn; try reflexivity.
  destruct (is_failure u); [reflexivity|apply IH].
Qed.

(** ** Remove *)
Lemma set_nth_perm {X} (l : list X) : forall i (x z : X), nth_error l i = Some x -> Permutation (z :: l) (x :: set_nth i z l).
Proof.
  induction l as [|a l IH]; intros [|i] x z H; cbn in *; try discriminate.
  - injection H as ->. apply perm_swap.
  - rewrite perm_swap. rewrite (IH i x z H). apply perm_swap.
Qed.
Lemma set_nth_app {X} (l : list X) i z y : (i < List.length l)%nat -> set_nth i z (l ++ [y]) = set_nth i z l ++ [y].
Proof. revert i. induction l as [|a l IH]; intros [|i] H; cbn in *; try lia; [reflexivity|]. rewrite IH by lia. reflexivity. Qed.
Lemma set_nth_end {X} (l : list X) z y : set_nth (List.length l) z (l ++ [y]) = l ++ [z].
Proof. induction l as [|a l IH]; cbn; [reflexivity|]. rewrite IH. reflexivity. Qed.
Lemma sremove_perm s i p : nth_error s i = Some p -> Permutation s (p :: sremove s i).
Proof.
  intros H. unfold sremove. destruct (rev s) as [|z r] eqn:E.
  - apply (f_equal (@rev _)) in E. rewrite rev_involutive in E. subst. destruct i; discriminate.
  - apply (f_equal (@rev _)) in E. rewrite rev_involutive in E. cbn in E. subst s. remember (rev r) as l. clear Heql r.
    assert (Hi : (i < List.length (l ++ [z]))%nat) by (apply nth_error_Some; congruence). rewrite app_length in Hi. cbn in Hi.
    destruct (Nat.eq_dec i (List.length l)) as [->|Hne].
    + rewrite set_nth_end, removelast_last. rewrite nth_error_app2, Nat.sub_diag in H by lia. injection H as ->.
      symmetry. apply Permutation_cons_append.
    + rewrite set_nth_app by lia. rewrite removelast_last. rewrite nth_error_app1 in H by lia.
      rewrite <- Permutation_cons_append. apply set_nth_perm, H.
Qed.
Lemma sremove_in s i k v : nth_error s i = Some (k, v) -> forall p, In p s <-> p = (k, v) \/ In p (sremove s i).
Proof.
  intros H p. pose proof (sremove_perm _ _ _ H) as P. split; intros Q.
  - apply (Permutation_in _ P) in Q. destruct Q; auto.
  - apply (Permutation_in _ (Permutation_sym P)). destruct Q; [left|right]; auto.
Qed.
Lemma sremove_keys s i k v : nth_error s i = Some (k, v) -> NoDup (keys s) ->
  NoDup (keys (sremove s i)) /\ ~ In (m_index k) (keys (sremove s i)).
Proof.
  intros H N. pose proof (sremove_perm _ _ _ H) as P. apply (Permutation_map (fun p : meta * term => m_index (fst p))) in P.
  pose proof (Permutation_NoDup P N) as Q. inversion Q; subst. auto.
Qed.

(** ** Soundness of the reading of a machine *)
Section Sound.
Variables (ar : signature) (strict : bool) (fe : nat).
Variable add : term -> term -> substs -> out substs.
Notation Sem := (strict = true).
Hypothesis Hadd : add_ok ar Sem add.

Lemma okS_sremove s i k v : nth_error s i = Some (k, v) -> okS ar s -> okS ar (sremove s i).
Proof.
  intros H [N O]. split; [apply (sremove_keys _ _ _ _ H N)|]. intros k' t Hin. apply O. apply (sremove_in _ _ _ _ H). auto.
Qed.
Lemma solves_sset A w s k v : solves A w (sset s k v) -> solves A w s.
Proof. intros H k' t Hin. apply H. unfold sset. destruct (has_subst s k); [auto|]. apply in_or_app; auto. Qed.
Lemma solves_sset_new A w s k v : has_subst s k = false -> solves A w (sset s k v) -> w (m_index k) = tev A w v.
Proof. intros E H. apply H. unfold sset. rewrite E. apply in_or_app. right. left. reflexivity. Qed.

(** each metavariable read so far has a value, given by the tree substitution; its binding by the machine, if still
    there, is the same *)
Definition Done (metas tree : substs) (done : list meta) : Prop :=
  forall x, In x done -> exists v,
    (forall A w, solves A w tree -> w (m_index x) = tev A w v) /\
    (forall k t, In (k, t) metas -> m_index k = m_index x -> forall A w, tev A w v = tev A w t).
Definition in_done (done : list meta) (x : meta) : Prop := exists y, In y done /\ m_index y = m_index x.
Lemma existsb_done x done : existsb (meta_eqb x) done = true <-> in_done done x.
Proof.
  rewrite existsb_exists. split; intros (y & H1 & H2); exists y.
  - apply meta_eqb_idx in H2. auto.
  - split; [exact H1|]. apply meta_eqb_idx. auto.
Qed.

Lemma loop_ok mt : (forall x, In x mt -> pmeta ar x) -> forall subs metas tree done,
  (forall i v, In (i, v) subs -> (i < List.length mt)%nat /\ well ar v) ->
  okS ar metas -> okS ar tree -> (Sem -> Done metas tree done) ->
  safe (fun r => match r with
    | None => True
    | Some (metas', tree') => okS ar metas' /\ okS ar tree' /\
      (Sem -> forall A w, solves A w metas' -> solves A w tree' ->
        solves A w metas /\ solves A w tree /\
        forall i v x, In (i, v) subs -> nth_error mt i = Some x ->
          w (m_index x) = tev A w v \/ in_done done x \/
          exists j u y, In (j, u) subs /\ nth_error mt j = Some y /\ m_index y = m_index x /\ w (m_index x) = tev A w u)
    end) (compute_loop_s strict add subs mt metas tree done).
Proof.
  intros Hmt. induction subs as [|[i v] r IH]; intros metas tree done Hs Om Ot HD.
  { cbn. split; [exact Om|]. split; [exact Ot|]. intros _ A w H1 H2. split; [exact H1|]. split; [exact H2|]. intros ? ? ? []. }
  cbn [compute_loop_s]. destruct (Hs i v (or_introl eq_refl)) as [Hi Wv].
  assert (Hs' : forall i v, In (i, v) r -> (i < List.length mt)%nat /\ well ar v) by (intros; apply Hs; right; auto).
  destruct (nth_error mt i) as [x|] eqn:Ex; [|apply nth_error_None in Ex; lia].
  assert (Hx : pmeta ar x) by (apply Hmt; eapply nth_error_In; eauto).
  destruct (term_eqb (Meta x) v) eqn:Ev.
  { eapply safe_imp; [|apply (IH metas tree done Hs' Om Ot HD)]. intros [[metas' tree']|]; [|auto].
    intros (O1 & O2 & H). split; [exact O1|]. split; [exact O2|]. intros HS A w H1 H2. destruct (H HS A w H1 H2) as (H3 & H4 & H5).
    split; [exact H3|]. split; [exact H4|]. intros i' v' x' [E|Hin] Ex'.
    - injection E as <- <-. rewrite Ex in Ex'. injection Ex' as <-. left.
      apply (same_tev ar A w (Meta x) v); [exact Hx|exact Wv|exact Ev].
    - destruct (H5 i' v' x' Hin Ex') as [H6|[H6|(j & u & y & H6 & H7)]]; [auto|auto|]. right. right. exists j, u, y. split; [right; auto|auto]. }
  destruct (strict && has_subst tree x && negb (existsb (meta_eqb x) done)) eqn:El; [exact I|].
  (* either the key is new, or it was met before *)
  assert (New : Sem -> has_subst tree x = false \/ in_done done x).
  { intros HS. rewrite HS in El. cbn in El. destruct (has_subst tree x); [|auto]. right. apply existsb_done. destruct (existsb _ done); [auto|discriminate]. }
  set (tree1 := sset tree x v).
  assert (Ot1 : okS ar tree1) by (apply okS_sset; auto).
  (* what the rest of the loop gives *)
  assert (Fin : forall metas2 tree2, okS ar metas2 -> okS ar tree2 ->
    (Sem -> forall A w, solves A w tree2 -> solves A w tree1) ->
    (Sem -> Done metas2 tree2 (x :: done)) ->
    (Sem -> forall A w, solves A w metas2 -> solves A w tree2 -> solves A w metas) ->
    safe (fun r0 => match r0 with
    | None => True
    | Some (metas', tree') => okS ar metas' /\ okS ar tree' /\
      (Sem -> forall A w, solves A w metas' -> solves A w tree' ->
        solves A w metas /\ solves A w tree /\
        forall i0 v0 x0, In (i0, v0) ((i, v) :: r) -> nth_error mt i0 = Some x0 ->
          w (m_index x0) = tev A w v0 \/ in_done done x0 \/
          exists j u y, In (j, u) ((i, v) :: r) /\ nth_error mt j = Some y /\ m_index y = m_index x0 /\ w (m_index x0) = tev A w u)
    end) (compute_loop_s strict add r mt metas2 tree2 (x :: done))).
  { intros metas2 tree2 O2 Ot2 Ent D2 Back. eapply safe_imp; [|apply (IH metas2 tree2 (x :: done) Hs' O2 Ot2 D2)].
    intros [[metas' tree']|]; [|auto]. intros (O3 & O4 & H). split; [exact O3|]. split; [exact O4|].
    intros HS A w H1 H2. destruct (H HS A w H1 H2) as (H3 & H4 & H5). pose proof (Ent HS A w H4) as H6.
    split; [apply (Back HS A w H3 H4)|]. split; [eapply solves_sset, H6|].
    assert (Q : forall x0, m_index x0 = m_index x -> in_done done x0 \/ w (m_index x0) = tev A w v).
    { intros x0 E. destruct (New HS) as [N|(y & Hy & Ey)]; [right; rewrite E; apply (solves_sset_new _ _ _ _ _ N H6)|left; exists y; split; [exact Hy|congruence]]. }
    intros i0 v0 x0 [E|Hin] Ex0.
    - injection E as <- <-. rewrite Ex in Ex0. injection Ex0 as <-. destruct (Q x eq_refl); auto.
    - destruct (H5 i0 v0 x0 Hin Ex0) as [H7|[(y & [<-|Hy] & Ey)|(j & u & y & H7 & H8)]].
      + auto.
      + destruct (Q x0 (eq_sym Ey)) as [H7|H7]; [auto|]. right. right. exists i, v, x. split; [left; reflexivity|]. auto.
      + right. left. exists y. auto.
      + right. right. exists j, u, y. split; [right; auto|auto]. }
  assert (Same : forall t, (forall k t', In (k, t') metas -> m_index k = m_index x -> t' = t) ->
    (forall A w, tev A w v = tev A w t) -> Sem -> Done metas tree1 (x :: done)).
  { intros t Ht Hvt HS y [<-|Hy].
    - destruct (New HS) as [N|(y & Hy & Ey)].
      + exists v. split; [intros A w Hw; apply (solves_sset_new _ _ _ _ _ N Hw)|]. intros k t' Hin Ek A w. rewrite (Ht k t' Hin Ek). apply Hvt.
      + destruct (HD HS y Hy) as (u & U1 & U2). exists u. rewrite <- Ey. split; [intros A w Hw; apply U1; eapply solves_sset, Hw|exact U2].
    - destruct (HD HS y Hy) as (u & U1 & U2). exists u. split; [intros A w Hw; apply U1; eapply solves_sset, Hw|exact U2]. }
  destruct (has_subst metas x) eqn:Eh; [|].
  2:{ apply Fin; auto. apply (Same v); [|reflexivity]. intros k t' Hin Ek. apply has_subst_no in Eh. destruct Eh. rewrite <- Ek. eapply keys_in; eauto. }
  destruct (sget metas x) as [[t0 idx]|] eqn:Eg.
  2:{ unfold sget in Eg. destruct (Z.eqb_spec (m_index x) (-1)); [destruct Hx; lia|]. apply sget_from_none in Eg. apply has_subst_ok in Eh. contradiction. }
  destruct (sget_in _ _ _ _ Eg) as (k0 & Hk0 & Ek0 & Hn).
  assert (Wt0 : well ar t0) by (apply (proj2 Om k0 t0 Hk0)).
  destruct (term_eqb v t0) eqn:Evt; cbn [negb].
  - apply Fin; auto. apply (Same t0).
    + intros k t' Hin Ek. pose proof (nodup_key metas k t' k0 t0 (proj1 Om) Hin Hk0 ltac:(congruence)) as E. congruence.
    + intros A w. apply (same_tev ar); auto.
  - eapply safe_bind; [apply (Hadd v t0 tree1 Ot1 Wv Wt0)|]. intros u Eu [F|(Ou & HU)].
    + rewrite F. exact I.
    + destruct (is_failure u) eqn:Fu; [exact I|]. destruct (sremove_keys _ _ _ _ Hn (proj1 Om)) as [_ Nk].
      assert (Old : Sem -> forall y, In y done -> exists v0, (forall A w, solves A w u -> w (m_index y) = tev A w v0) /\
                    (forall k t, In (k, t) metas -> m_index k = m_index y -> forall A w, tev A w v0 = tev A w t)).
      { intros HS y Hy. destruct (HD HS y Hy) as (v0 & V1 & V2). exists v0. split; [|exact V2].
        intros A w Hw. apply V1. eapply solves_sset. apply (HU HS A w Hw). }
      apply Fin.
      * eapply okS_sremove; eauto.
      * exact Ou.
      * intros HS A w Hw. apply (HU HS A w Hw).
      * intros HS y [<-|Hy].
        -- destruct (New HS) as [N|(y & Hy & Ey)].
           ++ exists v. split; [intros A w Hw; apply (solves_sset_new A w _ _ _ N); apply (HU HS A w Hw)|].
              intros k t Hin Ek. destruct Nk. rewrite Ek0, <- Ek. eapply keys_in; eauto.
           ++ destruct (Old HS y Hy) as (v0 & V1 & V2). exists v0. rewrite <- Ey. split; [exact V1|].
              intros k t Hin Ek. apply (V2 k t); [apply (sremove_in _ _ _ _ Hn); auto|exact Ek].
        -- destruct (Old HS y Hy) as (v0 & V1 & V2). exists v0. split; [exact V1|].
           intros k t Hin Ek. apply (V2 k t); [apply (sremove_in _ _ _ _ Hn); auto|exact Ek].
      * intros HS A w Hw1 Hw2 k t Hin. apply (sremove_in _ _ _ _ Hn) in Hin. destruct Hin as [E|Hin]; [|apply Hw1, Hin].
        injection E as -> ->. rewrite Ek0. destruct (HU HS A w Hw2) as [Hw3 Heq]. destruct (New HS) as [N|(y & Hy & Ey)].
        -- rewrite (solves_sset_new _ _ _ _ _ N Hw3). exact Heq.
        -- destruct (Old HS y Hy) as (v0 & V1 & V2). rewrite <- Ey, (V1 A w Hw2). apply (V2 k0 t0 Hk0). congruence.
Qed.

Lemma elim_out_ok s : okS ar s ->
  safe (fun s' => is_failure s' = true \/ (okS ar s' /\ solved s' /\ entails s' s)) (elim_out fe s).
Proof.
  intros O. unfold elim_out. destruct (eliminate_both fe s) as [s'|] eqn:E; [|exact I]. cbn.
  destruct (elim_both_ok ar _ _ _ O E) as [H|(H1 & H2 & H3 & _)]; auto.
Qed.
Lemma is_failure_inv s : is_failure s = true -> exists e e', s = [(e, Meta e')] /\ m_index e = -1 /\ m_index e' = -1.
Proof.
  unfold is_failure, substs_eqb. destruct s as [|[k v] [|q r]]; try discriminate. cbn. unfold bind_eqb; cbn.
  rewrite orb_false_r, andb_true_r, andb_true_iff. intros [H1 H2]. apply meta_eqb_idx in H1. apply term_eqb_reflect in H2.
  inversion H2; subst. exists k, m. cbn in *. auto.
Qed.
Lemma elim_out_fail s k v : is_failure s = true -> pmeta ar k -> well ar v ->
  safe (fun s' => is_failure s' = true) (elim_out fe (sset s k v)).
Proof.
  intros F Hk Wv. destruct (is_failure_inv s F) as (e & e' & -> & He & He').
  assert (Hke : meta_eqb e k = false) by (apply meta_eqb_nidx; unfold pmeta in *; lia).
  unfold sset, has_subst. cbn [existsb fst]. rewrite Hke. cbn [orb app].
  unfold elim_out, eliminate_both, eliminate_meta. cbn [elim_meta_loop is_meta].
  assert (D1 : true && has_subst [(e, Meta e'); (k, v)] (to_meta (Meta e')) && has_subst [] (to_meta (Meta e')) &&
     match sget [(e, Meta e'); (k, v)] (to_meta (Meta e')) with Some (vk, _) => term_eqb vk (Meta e) | None => false end = false).
  { cbn [has_subst existsb]. rewrite !andb_false_r. reflexivity. }
  rewrite D1. change (sset [] e (Meta e')) with [(e, Meta e')].
  assert (D2 : is_meta v && has_subst [(e, Meta e'); (k, v)] (to_meta v) && has_subst [(e, Meta e')] (to_meta v) &&
     match sget [(e, Meta e'); (k, v)] (to_meta v) with Some (vk, _) => term_eqb vk (Meta k) | None => false end = false).
  { destruct v as [i|p tys l|i n|m]; try reflexivity. cbn in Wv. cbn [to_meta].
    replace (has_subst [(e, Meta e')] m) with false; [rewrite !andb_false_r; reflexivity|].
    symmetry. unfold has_subst. cbn. rewrite orb_false_r. apply meta_eqb_nidx. unfold pmeta in *. lia. }
  rewrite D2. unfold sset, has_subst. cbn [existsb fst]. rewrite Hke. cbn [orb app]. unfold eliminate.
  change (is_failure [(e, Meta e'); (k, v)]) with false. cbv iota. destruct fe as [|n]; [exact I|].
  cbn [elim_loop elim_round]. unfold occur_check. cbn [is_fun andb orb].
  replace (term_eqb (Meta e) (Meta e')) with true; [reflexivity|]. symmetry. apply term_eqb_reflect. constructor. lia.
Qed.

Lemma merge_loop_ok s2 : okS ar s2 -> forall res, (is_failure res = true \/ okS ar res) ->
  safe (fun r => is_failure r = true \/ (okS ar r /\ (Sem -> forall A w, solves A w r -> okS ar res /\ solves A w res /\ solves A w s2)))
    (merge_loop fe add s2 res).
Proof.
  induction s2 as [|[k v] r IH]; intros O res H.
  { cbn. destruct H as [H|H]; [auto|]. right. split; [exact H|]. intros _ A w Hw. split; [exact H|]. split; [exact Hw|]. intros ? ? []. }
  destruct (proj2 O k v (or_introl eq_refl)) as [Hk Wv].
  assert (Or : okS ar r). { destruct O as [N O]. split; [inversion N; auto|]. intros; apply O; right; auto. }
  cbn [merge_loop]. destruct H as [F|Hres].
  - replace (has_subst res k) with false.
    2:{ destruct (is_failure_inv res F) as (e & e' & -> & He & _). symmetry. apply has_subst_no. cbn. unfold pmeta in *. lia. }
    eapply safe_bind; [apply (elim_out_fail res k v F Hk Wv)|]. intros res' _ F'. cbn in F'.
    eapply safe_imp; [|apply (IH Or res'); auto]. intros s' [H|(H1 & H2)]; [auto|]. right. split; [exact H1|].
    intros HS A w Hw. destruct (H2 HS A w Hw) as (H3 & _). pose proof (is_failure_proper _ (okS_proper _ _ H3)). congruence.
  - destruct (has_subst res k) eqn:Eh.
    + eapply safe_bind; [apply (Hadd (Meta k) v res Hres Hk Wv)|]. intros res' _ H. cbn in H.
      eapply safe_imp; [|apply (IH Or res'); tauto]. intros s' [H'|(H1 & H2)]; [auto|]. right. split; [exact H1|].
      intros HS A w Hw. destruct (H2 HS A w Hw) as (H3 & H4 & H5). split; [exact Hres|].
      destruct H as [F|(_ & H)]; [pose proof (is_failure_proper _ (okS_proper _ _ H3)); congruence|].
      destruct (H HS A w H4) as [H6 H7]. split; [exact H6|]. intros k' t [E|Hin]; [injection E as <- <-; exact H7|apply H5, Hin].
    + eapply safe_bind; [apply (elim_out_ok (sset res k v)); apply okS_sset; auto|]. intros res' _ H. cbn in H.
      eapply safe_imp; [|apply (IH Or res'); tauto]. intros s' [H'|(H1 & H2)]; [auto|]. right. split; [exact H1|].
      intros HS A w Hw. destruct (H2 HS A w Hw) as (H3 & H4 & H5). split; [exact Hres|].
      destruct H as [F|(_ & _ & H)]; [pose proof (is_failure_proper _ (okS_proper _ _ H3)); congruence|].
      pose proof (H A w H4) as H6. split; [eapply solves_sset, H6|].
      intros k' t [E|Hin]; [injection E as <- <-; apply (solves_sset_new _ _ _ _ _ Eh H6)|apply H5, Hin].
Qed.
Lemma merge_ok s1 s2 : okS ar s1 -> okS ar s2 ->
  safe (fun r => is_failure r = true \/ (okS ar r /\ (Sem -> forall A w, solves A w r -> solves A w s1 /\ solves A w s2)))
    (merge fe add s1 s2).
Proof.
  intros O1 O2. destruct s1 as [|p1 s1]; [cbn; right; split; [exact O2|]; intros _ A w Hw; split; [intros ? ? []|exact Hw]|].
  destruct s2 as [|p2 s2]; [cbn; right; split; [exact O1|]; intros _ A w Hw; split; [exact Hw|intros ? ? []]|].
  cbn [merge]. pose proof (add_all_nodup (p1 :: s1) [] (proj1 O1)) as E. unfold add_all in E. rewrite E. cbn [app].
  eapply safe_imp; [|apply (merge_loop_ok (p2 :: s2) O2 (p1 :: s1)); auto]. intros r [H|(H1 & H2)]; [auto|]. right. split; [exact H1|].
  intros HS A w Hw. destruct (H2 HS A w Hw) as (_ & H3 & H4). auto.
Qed.

(** the equations of the occurrences of the metavariables of the tree *)
Definition eqs (subs : list (nat * term)) (mt : list meta) (A : alg) (w : Z -> dom A) : Prop :=
  forall i v x, In (i, v) subs -> nth_error mt i = Some x -> w (m_index x) = tev A w v.
Lemma compute_ok subs mt metas : (forall x, In x mt -> pmeta ar x) ->
  (forall i v, In (i, v) subs -> (i < List.length mt)%nat /\ well ar v) -> okS ar metas ->
  (Sem -> forall i j a b x y, In (i, a) subs -> In (j, b) subs -> nth_error mt i = Some x -> nth_error mt j = Some y ->
    m_index x = m_index y -> forall A w, solves A w metas -> tev A w a = tev A w b) ->
  safe (fun r => is_failure r = true \/ (okS ar r /\ solved r /\ (Sem -> forall A w, solves A w r -> solves A w metas /\ eqs subs mt A w)))
    (compute_s strict fe add subs mt metas).
Proof.
  intros Hmt Hs Om HR. unfold compute_s.
  eapply safe_bind; [apply (loop_ok mt Hmt subs metas [] [] Hs Om (okS_nil ar)); intros _ x []|].
  intros [[m1 t1]|] _; [|intros _; left; reflexivity]. intros (O1 & O2 & H).
  eapply safe_bind; [apply (elim_out_ok m1 O1)|]. intros m2 _ H2. cbn in H2.
  destruct (is_failure m2) eqn:F2; [left; reflexivity|]. destruct H2 as [H2|(Om2 & _ & E2)]; [congruence|].
  eapply safe_bind; [apply (elim_out_ok t1 O2)|]. intros t2 _ H3. cbn in H3.
  destruct (is_failure t2) eqn:F3; [left; reflexivity|]. destruct H3 as [H3|(Ot2 & _ & E3)]; [congruence|].
  eapply safe_bind; [apply (merge_ok m2 t2 Om2 Ot2)|]. intros res _ H4. cbn in H4.
  destruct (is_failure res) eqn:F4; [left; exact F4|]. destruct H4 as [H4|(Or & E4)]; [congruence|].
  eapply safe_imp; [|apply (elim_out_ok res Or)]. intros r [Hr|(Hr1 & Hr2 & Hr3)]; [auto|]. right. split; [exact Hr1|]. split; [exact Hr2|].
  intros HS A w Hw. destruct (E4 HS A w (Hr3 A w Hw)) as [G1 G2]. destruct (H HS A w (E2 A w G1) (E3 A w G2)) as (G3 & _ & G4).
  split; [exact G3|]. intros i v x Hin Ex. destruct (G4 i v x Hin Ex) as [G5|[(y & [] & _)|(j & u & y & Hj & Ey & Exy & G5)]]; [exact G5|].
  rewrite G5. apply (HR HS j i u v y x Hj Hin Ey Ex Exy A w G3).
Qed.

Lemma meta_list_well t : well ar t -> forall x, In x (meta_list t) -> pmeta ar x.
Proof.
  induction t as [i|p tys l IH|i n|m] using term_ind'; intros W x Hx; try (destruct Hx; fail).
  - cbn in Hx. apply in_flat_map in Hx. destruct Hx as (a & Ha & Hx). rewrite well_fun in W. destruct W as (_ & _ & _ & W).
    rewrite Forall_forall in IH, W. apply (IH a Ha (W a Ha) x Hx).
  - destruct Hx as [<-|[]]. exact W.
Qed.
Lemma make_machine_inv c s : okS ar s -> Inv ar Sem [] (make_machine c s).
Proof.
  intros O. split; [exact O|]. split; [reflexivity|]. split; [reflexivity|]. split; [reflexivity|]. split; [cbn; lia|].
  split; [intros i u []|]. split; [constructor|]. intros _ i j a b x y [].
Qed.
Lemma try_ok t1 t2 s : okS ar s -> well ar t1 -> well ar t2 ->
  safe (fun r => match r with None => True | Some r =>
      okS ar r /\ solved r /\ (Sem -> forall A w, solves A w r -> solves A w s /\ tev A w t1 = tev A w t2) end)
    (try_unification_s strict fe add t1 t2 s).
Proof.
  intros O W1 W2. unfold try_unification_s, parse_one.
  assert (R := run_term ar Sem add Hadd t1 W1 false [] (make_machine [t2] s) t2 (make_machine_inv [t2] s O) eq_refl W2 eq_refl).
  cbn [mc_post make_machine List.length] in R.
  destruct (exec_all add _ (make_machine [t2] s)) as [m| | |]; [|exact I|destruct R|exact I].
  destruct R as ((I1 & _ & _ & _ & _ & E1) & A1 & _). cbn [app] in *. destruct I1 as (J1 & J2 & J3 & J4 & J5 & J6 & J7 & J8).
  eapply safe_bind; [apply (compute_ok (mc_subst m) (meta_list t1) (mc_meta m) (meta_list_well t1 W1) J6 J1)|].
  - intros HS i j a b x y H1 H2 H3 H4 H5 A w Hw. apply (J8 HS i j a b x y H1 H2 H3 H4 H5 A w Hw).
  - intros r _ H. cbn. destruct (is_failure r) eqn:F; [exact I|]. destruct H as [H|(H1 & H2 & H3)]; [congruence|].
    split; [exact H1|]. split; [exact H2|]. intros HS A w Hw. destruct (H3 HS A w Hw) as [G1 G2].
    split; [apply (E1 HS), G1|]. apply (A1 HS A w G1). intros i u x. apply G2.
Qed.
Lemma body_ok t1 t2 s : okS ar s -> well ar t1 -> well ar t2 ->
  safe (fun s' => is_failure s' = true \/
    (okS ar s' /\ solved s' /\ (Sem -> forall A w, solves A w s' -> solves A w s /\ tev A w t1 = tev A w t2))) (add_body_s strict fe add t1 t2 s).
Proof.
  intros O W1 W2. unfold add_body_s. cbv beta zeta.
  set (bound := fun t u => is_meta t && has_subst s (to_meta t) &&
                   match sget s (to_meta t) with Some (v, _) => negb (term_eqb v u) | None => true end).
  match goal with |- safe _ (if ?c then _ else _) => change c with (bound t1 t2 || bound t2 t1 || is_fun t1 && is_fun t2) end.
  destruct (bound t1 t2 || bound t2 t1 || is_fun t1 && is_fun t2) eqn:Eb.
  - eapply safe_bind; [apply (try_ok t1 t2 s O W1 W2)|]. intros [r|] _; [|intros _; left; reflexivity]. intros (H1 & _ & H2).
    eapply safe_imp; [|apply (elim_out_ok r H1)]. intros s' [F|(G1 & G2 & G3)]; [auto|]. right. split; [exact G1|]. split; [exact G2|].
    intros HS A w Hw. apply (H2 HS A w (G3 A w Hw)).
  - apply orb_false_iff in Eb. destruct Eb as [Eb _]. apply orb_false_iff in Eb. destruct Eb as [B1 B2].
    assert (Q : forall m u, pmeta ar m -> well ar u -> bound (Meta m) u = false ->
      safe (fun s' => is_failure s' = true \/ (okS ar s' /\ solved s' /\
        (forall A w, solves A w s' -> solves A w s /\ w (m_index m) = tev A w u))) (elim_out fe (sset s m u))).
    { intros m u Hm Wu B. eapply safe_imp; [|apply (elim_out_ok (sset s m u)); apply okS_sset; auto].
      intros s' [F|(G1 & G2 & G3)]; [auto|]. right. split; [exact G1|]. split; [exact G2|]. intros A w Hw. pose proof (G3 A w Hw) as G4.
      split; [eapply solves_sset, G4|]. destruct (has_subst s m) eqn:Eh; [|apply (solves_sset_new _ _ _ _ _ Eh G4)].
      unfold bound in B. cbn [is_meta to_meta] in B. rewrite Eh in B. cbn in B. destruct (sget s m) as [[v j]|] eqn:Eg; [|discriminate].
      apply negb_false_iff in B. destruct (sget_in _ _ _ _ Eg) as (m' & Hin & Em & _). rewrite <- Em.
      rewrite (solves_sset _ _ _ _ _ G4 m' v Hin). apply (same_tev ar); auto. apply (proj2 O m' v Hin). }
    assert (Q1 : forall m u, pmeta ar m -> well ar u -> bound (Meta m) u = false ->
      safe (fun s' => is_failure s' = true \/ (okS ar s' /\ solved s' /\
        (Sem -> forall A w, solves A w s' -> solves A w s /\ tev A w (Meta m) = tev A w u))) (elim_out fe (sset s m u))).
    { intros m u Hm Wu B. eapply safe_imp; [|apply (Q m u Hm Wu B)]. intros s' [F|(G1 & G2 & G3)]; auto. }
    destruct t1 as [i|p tys l|i n|m]; [destruct W1| |destruct W1|apply Q1; auto].
    destruct t2 as [i|p' tys' l'|i n|m]; [destruct W2|left; reflexivity|destruct W2|].
    eapply safe_imp; [|apply (Q1 m (Fun p tys l) W2 W1 B2)]. intros s' [F|(G1 & G2 & G3)]; [auto|]. right. split; [exact G1|]. split; [exact G2|].
    intros HS A w Hw. destruct (G3 HS A w Hw) as [G4 G5]. split; [exact G4|symmetry; exact G5].
Qed.
End Sound.

Lemma add_s_ok ar strict n fe : forall t1 t2 s, okS ar s -> well ar t1 -> well ar t2 ->
  safe (fun s' => is_failure s' = true \/
    (okS ar s' /\ solved s' /\ (strict = true -> forall A w, solves A w s' -> solves A w s /\ tev A w t1 = tev A w t2)))
    (add_unif_s strict n fe t1 t2 s).
Proof.
  induction n as [|n IH]; intros t1 t2 s O W1 W2; [exact I|]. cbn [add_unif_s]. apply body_ok; auto.
  intros a b s0 O0 Wa Wb. eapply safe_imp; [|apply (IH a b s0 O0 Wa Wb)]. intros s' [F|(G1 & _ & G2)]; auto.
Qed.
Lemma body_false fe add1 add2 t1 t2 s : (forall a b s, add1 a b s = add2 a b s) ->
  add_body_s false fe add1 t1 t2 s = add_body fe add2 t1 t2 s.
Proof.
  intros H.
  assert (R1 : forall a b s, refines (add1 a b s) (add2 a b s)) by (intros; right; auto).
  assert (R2 : forall a b s, refines (add2 a b s) (add1 a b s)) by (intros; right; auto).
  assert (Anti : forall X (x y : out X), refines x y -> refines y x -> x = y) by (intros X x y [-> | ->] [E|E]; congruence).
  assert (L : forall subs mt metas tree done, compute_loop_s false add1 subs mt metas tree done = compute_loop add2 subs mt metas tree).
  { intros. rewrite loop_false. revert metas tree. induction subs as [|[i v] r IH]; intros metas tree; [reflexivity|]. cbn [compute_loop].
    destruct (nth_error mt i) as [m|]; [|reflexivity]. rewrite !IH.
    destruct (if has_subst metas m then sget metas m else None) as [[w idx]|]; [|reflexivity]. rewrite H.
    destruct (add2 v w (sset tree m v)) as [u| | |]; cbn; try rewrite IH; reflexivity. }
  unfold add_body_s, add_body. destruct (_ || _ && _); [|reflexivity]. f_equal.
  unfold try_unification_s, try_unification.
  rewrite (Anti _ _ _ (exec_all_refines add1 add2 R1 (parse_one t1) (make_machine [t2] s)) (exec_all_refines add2 add1 R2 _ _)).
  destruct (exec_all add2 (parse_one t1) (make_machine [t2] s)) as [m| | |]; try reflexivity. f_equal. unfold compute_s, compute. rewrite L.
  destruct (compute_loop add2 _ _ _ []) as [[[m1 t1']|]| | |]; try reflexivity. cbn.
  destruct (elim_out fe m1) as [m2| | |]; try reflexivity. cbn. destruct (is_failure m2); [reflexivity|].
  destruct (elim_out fe t1') as [t3| | |]; try reflexivity. cbn. destruct (is_failure t3); [reflexivity|].
  rewrite (Anti _ _ _ (merge_refines fe add1 add2 R1 m2 t3) (merge_refines fe add2 add1 R2 m2 t3)). reflexivity.
Qed.
Theorem lax_is_real n fe t1 t2 s : add_unif_s false n fe t1 t2 s = add_unif n fe t1 t2 s.
Proof. revert t1 t2 s. induction n as [|n IH]; intros t1 t2 s; [reflexivity|]. cbn. apply body_false, IH. Qed.

(** No crash, and what comes out is a failure or a solved form, whatever is lost *)
Theorem add_safe ar n fe t1 t2 s : okS ar s -> well ar t1 -> well ar t2 ->
  safe (fun s' => is_failure s' = true \/ (okS ar s' /\ solved s')) (add_unif n fe t1 t2 s).
Proof.
  intros O W1 W2. rewrite <- lax_is_real. eapply safe_imp; [|apply (add_s_ok ar false n fe t1 t2 s O W1 W2)].
  intros s' [F|(G1 & G2 & _)]; auto.
Qed.
(** When nothing is lost, it unifies *)
Theorem add_sound ar n fe t1 t2 s s' : okS ar s -> well ar t1 -> well ar t2 ->
  add_unif_s true n fe t1 t2 s <> Out -> add_unif n fe t1 t2 s = Ok s' -> is_failure s' = false ->
  forall A w, solves A w s' -> solves A w s /\ tev A w t1 = tev A w t2.
Proof.
  intros O W1 W2 NL E F. destruct (strict_refines n fe t1 t2 s) as [H|H]; [contradiction|].
  pose proof (add_s_ok ar true n fe t1 t2 s O W1 W2) as Q. rewrite H, E in Q. cbn in Q. destruct Q as [Q|(_ & _ & Q)]; [congruence|]. apply Q, eq_refl.
Qed.
