(** Substitution elimination (Eliminate, EliminateMeta): correct and terminating. *)
From Coq Require Import ZArith List Bool String Lia PeanoNat Permutation.
From Verif Require Import Ast_Model Ast_Proofs Occ_Spec Sem_Spec Unif_Model Unif_Spec.
Import ListNotations.
Open Scope list_scope.
Open Scope Z_scope.

(** ** Elementary facts *)
Lemma meta_eqb_idx a b : meta_eqb a b = true <-> m_index a = m_index b.
Proof. unfold meta_eqb. apply Z.eqb_eq. Qed.
Lemma meta_eqb_nidx a b : meta_eqb a b = false <-> m_index a <> m_index b.
Proof. unfold meta_eqb. apply Z.eqb_neq. Qed.

Lemma is_recursive_ok t k : is_recursive t k = true <-> In (m_index k) (t_metas t).
Proof.
  induction t as [i|p tys l IH|i n|m] using term_ind'; cbn.
  - split; [discriminate|tauto].
  - rewrite existsb_exists, in_flat_map. rewrite Forall_forall in IH.
    split; intros (x & H1 & H2); exists x; (split; [exact H1|]); apply (IH x H1); exact H2.
  - split; [discriminate|tauto].
  - rewrite meta_eqb_idx. intuition.
Qed.
Lemma occur_check_ok k v : occur_check k v = true <-> ~ In (m_index k) (t_metas v).
Proof.
  unfold occur_check. rewrite negb_true_iff. destruct v as [i|p tys l|i n|m].
  - cbn. split; [tauto|reflexivity].
  - change (term_eqb (Meta k) (Fun p tys l)) with false. rewrite orb_false_r. cbn [is_fun andb].
    rewrite <- is_recursive_ok. destruct (is_recursive (Fun p tys l) k); intuition congruence.
  - cbn. split; [tauto|reflexivity].
  - change (term_eqb (Meta k) (Meta m)) with (meta_eqb k m). cbn. rewrite meta_eqb_nidx. intuition.
Qed.

(** ** Replacement *)
Lemma msubst_none k v t : ~ In k (t_metas t) -> msubst k v t = t.
Proof.
  induction t as [i|p tys l IH|i n|m] using term_ind'; cbn; intros H; try reflexivity.
  - f_equal. rewrite Forall_forall in IH. rewrite <- (map_id l) at 2. apply map_ext_in. intros a Ha. apply IH; auto.
    intros Hk. apply H. apply in_flat_map. eauto.
  - destruct (m_index m =? k) eqn:E; [|reflexivity]. apply Z.eqb_eq in E. tauto.
Qed.
Lemma msubst_metas k v t b : In b (t_metas (msubst k v t)) <->
  (In b (t_metas t) /\ b <> k) \/ (In k (t_metas t) /\ In b (t_metas v)).
Proof.
  induction t as [i|p tys l IH|i n|m] using term_ind'; cbn.
  - tauto.
  - rewrite Forall_forall in IH. rewrite !in_flat_map. split.
    + intros (x & H1 & H2). apply in_map_iff in H1. destruct H1 as (y & <- & Hy). apply (IH y Hy) in H2.
      destruct H2 as [[H2 H3]|[H2 H3]]; [left|right]; split; auto; exists y; auto.
    + intros [[(y & Hy & H2) H3]|[(y & Hy & H2) H3]]; exists (msubst k v y); (split; [apply in_map; exact Hy|]);
        apply (IH y Hy); auto.
  - tauto.
  - destruct (m_index m =? k) eqn:E; cbn; [apply Z.eqb_eq in E|apply Z.eqb_neq in E]; intuition congruence.
Qed.
Lemma tev_msubst A w k v t : w k = tev A w v -> tev A w (msubst k v t) = tev A w t.
Proof.
  intros H. induction t as [i|p tys l IH|i n|m] using term_ind'; cbn; try reflexivity.
  - f_equal. rewrite map_map. rewrite Forall_forall in IH. apply map_ext_in. intros a Ha. apply IH; auto.
  - destruct (m_index m =? k) eqn:E; [|reflexivity]. apply Z.eqb_eq in E. congruence.
Qed.
Definition occ (k : Z) (t : term) : bool := existsb (Z.eqb k) (t_metas t).
Lemma occ_ok k t : occ k t = true <-> In k (t_metas t).
Proof. unfold occ. rewrite existsb_exists. split; [intros (x & H & E); apply Z.eqb_eq in E; subst; auto|intros H; exists k; split; auto; apply Z.eqb_refl]. Qed.
Lemma occ_no k t : occ k t = false <-> ~ In k (t_metas t).
Proof. rewrite <- occ_ok. destruct (occ k t); intuition congruence. Qed.
Lemma occ_app k p tys l : occ k (Fun p tys l) = existsb (occ k) l.
Proof.
  apply bool_iff. rewrite occ_ok, existsb_exists. cbn. rewrite in_flat_map.
  split; intros (x & H1 & H2); exists x; split; auto; apply occ_ok; auto.
Qed.

(** ** eliminateList *)
Definition elim_one (n : nat) (k : meta) (v : term) (a : term) : option (term * bool) :=
  match a with
  | Meta m => if meta_eqb m k then Some (v, true) else Some (a, false)
  | Fun p tys args =>
    match elim_list n k v args with
    | Some (args', c) => Some (Fun p tys args', c)
    | None => None
    end
  | _ => Some (a, false)
  end.
Fixpoint elim_row (n : nat) (k : meta) (v : term) (l : list term) : option (list term * bool) :=
  match l with
  | [] => Some ([], false)
  | a :: r =>
    match elim_one n k v a, elim_row n k v r with
    | Some (a', c), Some (r', c') => Some (a' :: r', c || c')
    | _, _ => None
    end
  end.
Lemma elim_list_S n k v l : elim_list (S n) k v l =
  match elim_row n k v l with
  | None => None
  | Some (l', false) => Some (l', false)
  | Some (l', true) => match elim_list n k v l' with Some (l'', _) => Some (l'', true) | None => None end
  end.
Proof.
  cbn [elim_list].
  match goal with |- match ?p l with _ => _ end = _ => enough (E : p l = elim_row n k v l) by (rewrite E; reflexivity) end.
  induction l as [|a r IH]; [reflexivity|]. cbn -[elim_list]. rewrite <- IH. reflexivity.
Qed.

Lemma elim_list_pc n k v : ~ In (m_index k) (t_metas v) -> forall l l' c, elim_list n k v l = Some (l', c) ->
  l' = map (msubst (m_index k) v) l /\ c = existsb (occ (m_index k)) l.
Proof.
  intros Hkv. induction n as [|n IH]; [discriminate|]. intros l l' c.
  rewrite elim_list_S.
  assert (R : forall l l' c, elim_row n k v l = Some (l', c) ->
    l' = map (msubst (m_index k) v) l /\ c = existsb (occ (m_index k)) l).
  { clear l l' c. induction l as [|a r IHr]; cbn [elim_row]; intros l' c E; [injection E as <- <-; auto|].
    destruct (elim_one n k v a) as [[a' ca]|] eqn:Ea; [|discriminate].
    destruct (elim_row n k v r) as [[r' cr]|] eqn:Er; [|discriminate]. injection E as <- <-.
    destruct (IHr _ _ eq_refl) as [-> ->].
    assert (Ha : a' = msubst (m_index k) v a /\ ca = occ (m_index k) a).
    { destruct a as [i|p tys args|i nm|m]; cbn in Ea.
      - injection Ea as <- <-. auto.
      - destruct (elim_list n k v args) as [[args' c]|] eqn:E; [|discriminate]. injection Ea as <- <-.
        destruct (IH _ _ _ E) as [-> ->]. split; [reflexivity|]. symmetry; apply occ_app.
      - injection Ea as <- <-. auto.
      - destruct (meta_eqb m k) eqn:E; injection Ea as <- <-.
        + apply meta_eqb_idx in E. cbn. rewrite E, Z.eqb_refl. split; [reflexivity|]. unfold occ; cbn. rewrite ?E, ?Z.eqb_refl. reflexivity.
        + apply meta_eqb_nidx in E. cbn. apply Z.eqb_neq in E. rewrite E. split; [reflexivity|]. unfold occ; cbn.
          rewrite ?(Z.eqb_sym (m_index k)), ?E. reflexivity. }
    destruct Ha as [-> ->]. cbn. auto. }
  destruct (elim_row n k v l) as [[l1 c1]|] eqn:E1; [|discriminate].
  destruct (R _ _ _ E1) as [-> ->].
  destruct (existsb (occ (m_index k)) l) eqn:Ec.
  - destruct (elim_list n k v _) as [[l2 c2]|] eqn:E2; [|discriminate]. intros E; injection E as <- <-.
    destruct (IH _ _ _ E2) as [-> _]. split; [|reflexivity]. rewrite map_map. apply map_ext. intros a.
    apply msubst_none. rewrite msubst_metas. tauto.
  - intros E; injection E as <- <-. auto.
Qed.

(** enough fuel *)
Fixpoint ht (t : term) : nat :=
  match t with Fun _ _ l => S (list_max (map ht l)) | _ => O end.
Definition hts (l : list term) : nat := list_max (map ht l).
Lemma hts_in l a : In a l -> (ht a <= hts l)%nat.
Proof.
  intros H. unfold hts. assert (Q := proj1 (list_max_le (map ht l) (list_max (map ht l))) (le_n _)).
  rewrite Forall_forall in Q. apply Q. apply in_map; auto.
Qed.
Lemma hts_le l b : (forall a, In a l -> (ht a <= b)%nat) -> (hts l <= b)%nat.
Proof.
  intros H. unfold hts. apply list_max_le. rewrite Forall_forall. intros x Hx. apply in_map_iff in Hx.
  destruct Hx as (a & <- & Ha). auto.
Qed.
Lemma ht_msubst k v t : (ht (msubst k v t) <= ht t + ht v)%nat.
Proof.
  induction t as [i|p tys l IH|i n|m] using term_ind'; cbn; try lia.
  - rewrite Forall_forall in IH. apply le_n_S. rewrite map_map. change (list_max (map ht l)) with (hts l).
    apply list_max_le. rewrite Forall_forall. intros x Hx. apply in_map_iff in Hx. destruct Hx as (a & <- & Ha).
    specialize (IH a Ha). pose proof (hts_in l a Ha). lia.
  - destruct (m_index m =? k); cbn; lia.
Qed.
Lemma elim_row_some n k v l : (forall p tys args, In (Fun p tys args) l -> elim_list n k v args <> None) ->
  elim_row n k v l <> None.
Proof.
  induction l as [|a r IH]; cbn; intros H; [discriminate|].
  assert (Ha : elim_one n k v a <> None).
  { destruct a as [i|p tys args|i nm|m]; cbn; try discriminate.
    - specialize (H p tys args (or_introl eq_refl)). destruct (elim_list n k v args) as [[? ?]|]; [discriminate|congruence].
    - destruct (meta_eqb m k); discriminate. }
  assert (Hr : elim_row n k v r <> None) by (apply IH; intros; eapply H; eauto).
  destruct (elim_one n k v a) as [[? ?]|]; [|congruence]. destruct (elim_row n k v r) as [[? ?]|]; [discriminate|congruence].
Qed.
Lemma elim_row_pc n k v : ~ In (m_index k) (t_metas v) -> forall l l' c, elim_row n k v l = Some (l', c) ->
  l' = map (msubst (m_index k) v) l /\ c = existsb (occ (m_index k)) l.
Proof.
  intros Hkv. induction l as [|a r IHr]; cbn [elim_row]; intros l' c E; [injection E as <- <-; auto|].
  destruct (elim_one n k v a) as [[a' ca]|] eqn:Ea; [|discriminate].
  destruct (elim_row n k v r) as [[r' cr]|] eqn:Er; [|discriminate]. injection E as <- <-.
  destruct (IHr _ _ eq_refl) as [-> ->].
  assert (Ha : a' = msubst (m_index k) v a /\ ca = occ (m_index k) a).
  { destruct a as [i|p tys args|i nm|m]; cbn in Ea.
    - injection Ea as <- <-. auto.
    - destruct (elim_list n k v args) as [[args' c]|] eqn:E; [|discriminate]. injection Ea as <- <-.
      destruct (elim_list_pc n k v Hkv _ _ _ E) as [-> ->]. split; [reflexivity|]. symmetry; apply occ_app.
    - injection Ea as <- <-. auto.
    - destruct (meta_eqb m k) eqn:E; injection Ea as <- <-.
      + apply meta_eqb_idx in E. cbn. rewrite E, Z.eqb_refl. split; [reflexivity|]. unfold occ; cbn. rewrite ?E, ?Z.eqb_refl. reflexivity.
      + apply meta_eqb_nidx in E. cbn. apply Z.eqb_neq in E. rewrite E. split; [reflexivity|]. unfold occ; cbn.
        rewrite ?(Z.eqb_sym (m_index k)), ?E. reflexivity. }
  destruct Ha as [-> ->]. cbn. auto.
Qed.
Lemma elim_list_fuel0 n k v : ~ In (m_index k) (t_metas v) ->
  forall l, existsb (occ (m_index k)) l = false -> (hts l < n)%nat -> elim_list n k v l <> None.
Proof.
  intros Hkv. induction n as [|n IH]; intros l Hl Hn; [lia|]. rewrite elim_list_S.
  assert (R : elim_row n k v l <> None).
  { apply elim_row_some. intros p tys args H. apply IH.
    - destruct (existsb (occ (m_index k)) args) eqn:E; [|reflexivity]. exfalso.
      assert (Q : existsb (occ (m_index k)) l = true) by (apply existsb_exists; exists (Fun p tys args); split; [auto|rewrite occ_app; auto]).
      congruence.
    - pose proof (hts_in l _ H) as Q. cbn in Q. change (list_max (map ht args)) with (hts args) in Q. lia. }
  destruct (elim_row n k v l) as [[l' c]|] eqn:E; [|congruence]. destruct (elim_row_pc _ _ _ Hkv _ _ _ E) as [_ ->].
  rewrite Hl. discriminate.
Qed.
Lemma elim_list_fuel n k v : ~ In (m_index k) (t_metas v) ->
  forall l, (hts l + ht v + 1 < n)%nat -> elim_list n k v l <> None.
Proof.
  intros Hkv. induction n as [|n IH]; intros l Hn; [lia|]. rewrite elim_list_S.
  assert (R : elim_row n k v l <> None).
  { apply elim_row_some. intros p tys args H. apply IH.
    pose proof (hts_in l _ H) as Q. cbn in Q. change (list_max (map ht args)) with (hts args) in Q. lia. }
  destruct (elim_row n k v l) as [[l' c]|] eqn:E; [|congruence]. destruct (elim_row_pc _ _ _ Hkv _ _ _ E) as [-> ->].
  destruct (existsb _ l); [|discriminate].
  assert (Q : elim_list n k v (map (msubst (m_index k) v) l) <> None).
  { apply elim_list_fuel0; auto.
    - destruct (existsb _ _) eqn:E1; [|reflexivity]. apply existsb_exists in E1. destruct E1 as (x & Hx & E1).
      apply in_map_iff in Hx. destruct Hx as (a & <- & Ha). apply occ_ok, msubst_metas in E1. tauto.
    - apply Nat.le_lt_trans with (hts l + ht v)%nat; [|lia]. apply hts_le. intros x Hx. apply in_map_iff in Hx.
      destruct Hx as (a & <- & Ha). pose proof (ht_msubst (m_index k) v a). pose proof (hts_in l a Ha). lia. }
  destruct (elim_list n k v _) as [[? ?]|]; [discriminate|congruence].
Qed.

(** ** Bindings *)
Lemma has_subst_ok s k : has_subst s k = true <-> In (m_index k) (keys s).
Proof.
  unfold has_subst, keys. rewrite existsb_exists, in_map_iff. split; intros (p & H1 & H2); exists p.
  - apply meta_eqb_idx in H2. auto.
  - split; auto. apply meta_eqb_idx; auto.
Qed.
Lemma has_subst_no s k : has_subst s k = false <-> ~ In (m_index k) (keys s).
Proof. rewrite <- has_subst_ok. destruct (has_subst s k); intuition congruence. Qed.
Lemma keys_app s t : keys (s ++ t) = keys s ++ keys t.
Proof. apply map_app. Qed.
Lemma sset_new s k v : ~ In (m_index k) (keys s) -> sset s k v = s ++ [(k, v)].
Proof. intros H. unfold sset. apply has_subst_no in H. rewrite H. reflexivity. Qed.
Lemma sset_old s k v : In (m_index k) (keys s) -> sset s k v = s.
Proof. intros H. unfold sset. apply has_subst_ok in H. rewrite H. reflexivity. Qed.
Lemma keys_in s k t : In (k, t) s -> In (m_index k) (keys s).
Proof. intros H. unfold keys. change (m_index k) with ((fun p : meta * term => m_index (fst p)) (k, t)). apply in_map; auto. Qed.
Lemma keys_ex s b : In b (keys s) -> exists k t, In (k, t) s /\ m_index k = b.
Proof. unfold keys. rewrite in_map_iff. intros ([k t] & E & H). exists k, t. auto. Qed.
Lemma nodup_key s k t k' t' : NoDup (keys s) -> In (k, t) s -> In (k', t') s -> m_index k = m_index k' -> (k, t) = (k', t').
Proof.
  induction s as [|[a u] s IH]; cbn; [tauto|]. intros N [E1|H1] [E2|H2] E.
  - congruence.
  - injection E1 as -> ->. inversion N as [|? ? Q _]; subst. destruct Q. rewrite E. apply keys_in in H2. exact H2.
  - injection E2 as -> ->. inversion N as [|? ? Q _]; subst. destruct Q. rewrite <- E. apply keys_in in H1. exact H1.
  - inversion N; subst. apply IH; auto.
Qed.

(** the bindings added one by one to [tmp] *)
Definition add_all (tmp s : substs) : substs := fold_left (fun r p => sset r (fst p) (snd p)) s tmp.
Lemma add_all_nodup s tmp : NoDup (keys (tmp ++ s)) -> add_all tmp s = tmp ++ s.
Proof.
  revert tmp. induction s as [|[k v] s IH]; intros tmp N; cbn; [symmetry; apply app_nil_r|].
  rewrite sset_new.
  - change (add_all (tmp ++ [(k, v)]) s = tmp ++ (k, v) :: s). rewrite IH; rewrite <- app_assoc; [reflexivity|exact N].
  - rewrite keys_app in N. apply NoDup_remove_2 in N. intros H. apply N. apply in_or_app. auto.
Qed.
Lemma sset_keys s k v b : In b (keys (sset s k v)) <-> In b (keys s) \/ b = m_index k.
Proof.
  unfold sset. destruct (has_subst s k) eqn:E; [apply has_subst_ok in E; intuition congruence|].
  rewrite keys_app, in_app_iff. cbn. intuition.
Qed.
Lemma sset_nodup s k v : NoDup (keys s) -> NoDup (keys (sset s k v)).
Proof.
  intros N. unfold sset. destruct (has_subst s k) eqn:E; [exact N|]. apply has_subst_no in E.
  rewrite keys_app.
  apply (Permutation_NoDup (l := m_index k :: keys s)).
  - apply Permutation_cons_append.
  - constructor; auto.
Qed.
Lemma sset_in s k v p : In p (sset s k v) -> In p s \/ p = (k, v).
Proof. unfold sset. destruct (has_subst s k); [auto|]. rewrite in_app_iff. cbn. intuition. Qed.
Lemma add_all_keys s tmp b : In b (keys (add_all tmp s)) <-> In b (keys tmp) \/ In b (keys s).
Proof.
  revert tmp. induction s as [|[k v] s IH]; intros tmp; cbn; [tauto|].
  change (In b (keys (add_all (sset tmp k v) s)) <-> In b (keys tmp) \/ m_index k = b \/ In b (keys s)).
  rewrite IH, sset_keys. intuition.
Qed.
Lemma add_all_ND s tmp : NoDup (keys tmp) -> NoDup (keys (add_all tmp s)).
Proof. revert tmp. induction s as [|[k v] s IH]; intros tmp N; cbn; [exact N|]. apply IH, sset_nodup, N. Qed.
Lemma add_all_in s tmp p : In p (add_all tmp s) -> In p tmp \/ In p s.
Proof.
  revert tmp. induction s as [|[k v] s IH]; intros tmp; cbn; [tauto|]. intros H. apply IH in H.
  destruct H as [H|H]; [|tauto]. apply sset_in in H. intuition.
Qed.

(** ** eliminateInside *)
Definition msub (k : Z) (v : term) (p : meta * term) : meta * term := (fst p, msubst k v (snd p)).
Lemma keys_msub k v s : keys (map (msub k v) s) = keys s.
Proof. unfold keys. rewrite map_map. reflexivity. Qed.
Lemma in_msub k v s k2 t : In (k2, t) (map (msub k v) s) <-> exists t0, In (k2, t0) s /\ t = msubst k v t0.
Proof.
  rewrite in_map_iff. split.
  - intros ([k3 t3] & E & H). injection E as <- <-. eauto.
  - intros (t0 & H & ->). exists (k2, t0). auto.
Qed.
Definition self (p : meta * term) : Prop := In (m_index (fst p)) (t_metas (snd p)).
Definition occs (k : Z) (s : substs) : bool := existsb (fun p => occ k (snd p)) s.
Lemma occs_ok k s : occs k s = true <-> exists k2 t, In (k2, t) s /\ In k (t_metas t).
Proof.
  unfold occs. rewrite existsb_exists. split.
  - intros ([k2 t] & H & E). apply occ_ok in E. eauto.
  - intros (k2 & t & H & E). exists (k2, t). split; auto. apply occ_ok; auto.
Qed.

Lemma elim_pass_pc n k v s : ~ In (m_index k) (t_metas v) -> forall tmp c s' c', elim_pass n k v s tmp c = Some (s', c') ->
  (s' = failure /\ c' = false /\ exists p, In p (map (msub (m_index k) v) s) /\ self p) \/
  (s' = add_all tmp (map (msub (m_index k) v) s) /\ c' = c || occs (m_index k) s /\
   forall p, In p s -> is_fun (snd p) = true -> ~ self (msub (m_index k) v p)).
Proof.
  intros Hkv. induction s as [|[k2 v2] r IH]; intros tmp c s' c' E; cbn in E.
  - injection E as <- <-. right. cbn. rewrite orb_false_r. split; [reflexivity|]. split; [reflexivity|tauto].
  - assert (Go : forall v2' c2, elim_pass n k v r (sset tmp k2 v2') c2 = Some (s', c') ->
        v2' = msubst (m_index k) v v2 -> c2 = c || occ (m_index k) v2 ->
        (is_fun v2 = true -> ~ self (k2, v2')) ->
        (s' = failure /\ c' = false /\ exists p, In p (map (msub (m_index k) v) ((k2, v2) :: r)) /\ self p) \/
        (s' = add_all tmp (map (msub (m_index k) v) ((k2, v2) :: r)) /\ c' = c || occs (m_index k) ((k2, v2) :: r) /\
         forall p, In p ((k2, v2) :: r) -> is_fun (snd p) = true -> ~ self (msub (m_index k) v p))).
    { intros v2' c2 E2 -> -> Hs. destruct (IH _ _ _ _ E2) as [(-> & -> & p & Hp & Sp)|(-> & -> & Hp)].
      - left. split; [reflexivity|]. split; [reflexivity|]. exists p. split; [right; exact Hp|exact Sp].
      - right. split; [reflexivity|]. split; [cbn; rewrite orb_assoc; reflexivity|].
        intros p [<-|H]; [intros F; exact (Hs F)|apply Hp, H]. }
    destruct v2 as [i|p tys args|i nm|m].
    + apply (Go _ _ E); try reflexivity; [cbn; rewrite orb_false_r; reflexivity|discriminate].
    + destruct (elim_list n k v args) as [[args' ca]|] eqn:El; [|discriminate].
      destruct (elim_list_pc _ _ _ Hkv _ _ _ El) as [-> ->].
      destruct (occur_check k2 _) eqn:Eo.
      * apply occur_check_ok in Eo. apply (Go _ _ E); [reflexivity|rewrite occ_app; reflexivity|intros _; exact Eo].
      * injection E as <- <-. left. split; [reflexivity|]. split; [reflexivity|].
        exists (k2, msubst (m_index k) v (Fun p tys args)). split; [left; reflexivity|].
        destruct (in_dec Z.eq_dec (m_index k2) (t_metas (msubst (m_index k) v (Fun p tys args)))) as [H|H]; [exact H|].
        apply occur_check_ok in H. change (occur_check k2 (Fun p tys (map (msubst (m_index k) v) args)) = true) in H. congruence.
    + apply (Go _ _ E); try reflexivity; [cbn; rewrite orb_false_r; reflexivity|discriminate].
    + destruct (meta_eqb k m) eqn:Em.
      * apply meta_eqb_idx in Em. apply (Go _ _ E); [cbn; rewrite <- Em, Z.eqb_refl; reflexivity| |discriminate].
        unfold occ; cbn. rewrite Em, Z.eqb_refl. destruct c; reflexivity.
      * apply meta_eqb_nidx in Em. apply (Go _ _ E); [| |discriminate].
        -- cbn. replace (m_index m =? m_index k) with false by (symmetry; apply Z.eqb_neq; congruence). reflexivity.
        -- unfold occ; cbn. replace (m_index k =? m_index m) with false by (symmetry; apply Z.eqb_neq; congruence).
           cbn. rewrite orb_false_r. reflexivity.
Qed.

Lemma msub_id k v s : occs k s = false -> map (msub k v) s = s.
Proof.
  intros H. rewrite <- (map_id s) at 2. apply map_ext_in. intros [k2 t] Hp. unfold msub; cbn. f_equal.
  apply msubst_none. intros Hk. assert (occs k s = true) by (apply occs_ok; eauto). congruence.
Qed.
Lemma occs_msub k v s : ~ In k (t_metas v) -> occs k (map (msub k v) s) = false.
Proof.
  intros H. destruct (occs _ _) eqn:E; [|reflexivity]. apply occs_ok in E. destruct E as (k2 & t & Hp & Hk).
  apply in_msub in Hp. destruct Hp as (t0 & _ & ->). apply msubst_metas in Hk. tauto.
Qed.

(** the values that are not a metavariable nor an application contain no metavariable; a metavariable
    bound to itself is not looked at by one pass *)
Lemma elim_inside_pc n k v s s' c : ~ In (m_index k) (t_metas v) -> NoDup (keys s) ->
  elim_inside n k v s = Some (s', c) ->
  (s' = failure /\ exists p, In p (map (msub (m_index k) v) s) /\ self p) \/
  (s' = map (msub (m_index k) v) s /\ c = occs (m_index k) s).
Proof.
  intros Hkv N. destruct n as [|n]; [discriminate|]. cbn [elim_inside].
  destruct (elim_pass n k v s [] false) as [[s1 c1]|] eqn:E1; [|discriminate].
  assert (N1 : NoDup (keys (map (msub (m_index k) v) s))) by (rewrite keys_msub; exact N).
  destruct (elim_pass_pc _ _ _ _ Hkv _ _ _ _ E1) as [(-> & -> & p & Hp & Sp)|(-> & -> & Hp)].
  - intros E; injection E as <- <-. left. eauto.
  - rewrite add_all_nodup by exact N1. cbn [app]. cbn [orb].
    destruct (occs (m_index k) s) eqn:Ec.
    + destruct (elim_inside n k v _) as [[s2 c2]|] eqn:E2; [|discriminate]. intros E; injection E as <- <-.
      destruct n as [|n]; [discriminate|]. cbn [elim_inside] in E2.
      destruct (elim_pass n k v _ [] false) as [[s3 c3]|] eqn:E3; [|discriminate].
      pose proof (occs_msub (m_index k) v s Hkv) as Z0.
      destruct (elim_pass_pc _ _ _ _ Hkv _ _ _ _ E3) as [(-> & -> & p & Hp3 & Sp3)|(-> & -> & Hp3)].
      * injection E2 as <- <-. left. rewrite msub_id in Hp3 by exact Z0. eauto.
      * rewrite Z0 in E2. cbn in E2. injection E2 as <- <-. right. split; [|reflexivity].
        rewrite msub_id by exact Z0. rewrite add_all_nodup by exact N1. reflexivity.
    + intros E; injection E as <- <-. right. auto.
Qed.

(** ** Eliminate: one round *)
Lemma is_failure_proper s : proper s -> is_failure s = false.
Proof.
  intros H. unfold is_failure, substs_eqb. destruct s as [|[k v] [|q r]]; try reflexivity.
  cbn. unfold bind_eqb; cbn. destruct (meta_eqb k empty_meta) eqn:E; [|reflexivity].
  apply meta_eqb_idx in E. exfalso. apply H. cbn. auto.
Qed.
Lemma is_failure_failure : is_failure failure = true.
Proof. reflexivity. Qed.

Definition phi (todo : substs) (t : term) : term := fold_left (fun t p => msubst (m_index (fst p)) (snd p) t) todo t.
Definition phis (todo s : substs) : substs := map (fun p => (fst p, phi todo (snd p))) s.
Lemma phis_nil s : phis [] s = s.
Proof. unfold phis. rewrite <- (map_id s) at 2. apply map_ext. intros [k t]; reflexivity. Qed.
Lemma phis_cons k v r s : phis ((k, v) :: r) s = phis r (map (msub (m_index k) v) s).
Proof. unfold phis. rewrite map_map. reflexivity. Qed.
Lemma phis_app a b s : phis (a ++ b) s = phis b (phis a s).
Proof. unfold phis. rewrite map_map. apply map_ext. intros p. cbn. f_equal. unfold phi. apply fold_left_app. Qed.
Lemma keys_phis a s : keys (phis a s) = keys s.
Proof. unfold keys, phis. rewrite map_map. reflexivity. Qed.
Lemma in_phis a s k t : In (k, t) (phis a s) <-> exists t0, In (k, t0) s /\ t = phi a t0.
Proof.
  unfold phis. rewrite in_map_iff. split.
  - intros ([k3 t3] & E & H). injection E as <- <-. eauto.
  - intros (t0 & H & ->). exists (k, t0). auto.
Qed.

Definition round_fails (todo s : substs) : Prop :=
  exists a k v b, todo = a ++ (k, v) :: b /\
    (self (k, v) \/ exists p, In p (phis (a ++ [(k, v)]) s) /\ self p).

Lemma elim_round_pc n todo : forall s c s' c', NoDup (keys s) -> proper s -> elim_round n todo s c = Some (s', c') ->
  (s' = failure /\ c' = false /\ round_fails todo s) \/
  (s' = phis todo s /\ (forall p, In p todo -> ~ self p) /\
   (c' = false -> c = false /\ s' = s /\ forall p, In p todo -> occs (m_index (fst p)) s = false)).
Proof.
  induction todo as [|[k v] r IH]; intros s c s' c' N P E; cbn in E.
  - injection E as <- <-. right. rewrite phis_nil. split; [reflexivity|]. split; [intros p []|]. intros ->.
    split; [reflexivity|]. split; [reflexivity|]. intros p [].
  - destruct (occur_check k v) eqn:Eo.
    + apply occur_check_ok in Eo.
      destruct (elim_inside n k v s) as [[s1 c1]|] eqn:E1; [|discriminate].
      destruct (elim_inside_pc _ _ _ _ _ _ Eo N E1) as [(-> & p & Hp & Sp)|(-> & ->)].
      * cbn in E. injection E as <- <-. left. split; [reflexivity|]. split; [reflexivity|].
        exists [], k, v, r. split; [reflexivity|]. right. exists p. split; [|exact Sp].
        cbn [app]. rewrite phis_cons, phis_nil. exact Hp.
      * assert (N1 : NoDup (keys (map (msub (m_index k) v) s))) by (rewrite keys_msub; exact N).
        assert (P1 : proper (map (msub (m_index k) v) s)) by (unfold proper; rewrite keys_msub; exact P).
        rewrite is_failure_proper in E by exact P1.
        destruct (IH _ _ _ _ N1 P1 E) as [(-> & -> & a & k2 & v2 & b & -> & Hf)|(-> & Hs & Hc)].
        -- left. split; [reflexivity|]. split; [reflexivity|]. exists ((k, v) :: a), k2, v2, b. split; [reflexivity|].
           destruct Hf as [Hf|(p & Hp & Sp)]; [left; exact Hf|right]. exists p. split; [|exact Sp].
           change (((k, v) :: a) ++ [(k2, v2)]) with ((k, v) :: a ++ [(k2, v2)]). rewrite phis_cons. exact Hp.
        -- right. split; [symmetry; apply phis_cons|]. split; [intros p [<-|H]; [exact Eo|auto]|].
           intros Hc'. destruct (Hc Hc') as (H1 & H2 & H3). apply orb_false_iff in H1. destruct H1 as [H1 H1'].
           rewrite (msub_id _ v _ H1') in H2. split; [exact H1|]. split; [rewrite (msub_id _ v _ H1'); exact H2|].
           intros p [<-|H]; [exact H1'|]. rewrite <- (H3 p H). rewrite (msub_id _ v _ H1'). reflexivity.
    + injection E as <- <-. left. split; [reflexivity|]. split; [reflexivity|]. exists [], k, v, r. split; [reflexivity|].
      left. destruct (in_dec Z.eq_dec (m_index k) (t_metas v)) as [H|H]; [exact H|]. apply occur_check_ok in H. congruence.
Qed.

(** *** ranks *)
Definition below (r : Z -> nat) (K : list Z) (t : term) (b : nat) : Prop :=
  forall x, In x K -> In x (t_metas t) -> (r x < b)%nat.
Lemma below_msubst r K k v t b : below r K v (r k) -> In k K -> below r K t b -> below r K (msubst k v t) b.
Proof.
  intros Hv Hk Ht x Hx H. apply msubst_metas in H. destruct H as [[H _]|[H1 H2]]; [apply Ht; auto|].
  pose proof (Hv x Hx H2). pose proof (Ht k Hk H1). lia.
Qed.
Lemma below_phi r K todo : (forall k v, In (k, v) todo -> In (m_index k) K /\ below r K v (r (m_index k))) ->
  forall t b, below r K t b -> below r K (phi todo t) b.
Proof.
  induction todo as [|[k v] todo IH]; intros H t b Ht; [exact Ht|]. cbn.
  apply IH; [intros; apply H; right; auto|]. destruct (H k v (or_introl eq_refl)) as [H1 H2]. apply below_msubst; auto.
Qed.
Lemma ranked_below r s k v : ranked r s -> In (k, v) s -> In (m_index k) (keys s) /\ below r (keys s) v (r (m_index k)).
Proof. intros R H. split; [eapply keys_in; eauto|]. intros x Hx Hm. apply (R k v x); auto. Qed.
Lemma ranked_phis r s0 s : keys s = keys s0 -> ranked r s0 -> ranked r s -> forall a, incl a s0 -> ranked r (phis a s).
Proof.
  intros K R0 R a Ha k t b Hin Hb Hm. apply in_phis in Hin. destruct Hin as (t0 & Hin & ->).
  rewrite keys_phis in Hb. apply (below_phi r (keys s) a) with (t := t0) (b := r (m_index k)); auto.
  - intros k1 v1 H1. rewrite K. apply ranked_below; auto.
  - intros x Hx Hmx. apply (R k t0 x); auto.
Qed.
Lemma ranked_self r s p : ranked r s -> In p s -> ~ self p.
Proof.
  destruct p as [k t]. intros R H S. unfold self in S; cbn in S.
  pose proof (R k t (m_index k) H (keys_in _ _ _ H) S). lia.
Qed.
Lemma ranked_no_fail r s0 s : keys s = keys s0 -> ranked r s0 -> ranked r s -> ~ round_fails s0 s.
Proof.
  intros K R0 R (a & k & v & b & E & [H|(p & Hp & Sp)]).
  - apply (ranked_self r s0 (k, v)); auto. rewrite E. apply in_or_app. right. left. reflexivity.
  - apply (ranked_self r (phis (a ++ [(k, v)]) s) p); auto. apply (ranked_phis r s0); auto.
    rewrite E. intros q Hq. apply in_app_iff in Hq. apply in_or_app. destruct Hq as [Hq|[<-|[]]]; [auto|right; left; reflexivity].
Qed.

(** *** solutions *)
Lemma phi_ev A w todo t : (forall k v, In (k, v) todo -> w (m_index k) = tev A w v) -> tev A w (phi todo t) = tev A w t.
Proof.
  revert t. induction todo as [|[k v] todo IH]; intros t H; [reflexivity|]. cbn.
  rewrite IH by (intros; apply H; right; auto). apply tev_msubst. apply H. left; reflexivity.
Qed.
Lemma phi_ev_below A w r K b todo :
  (forall k v, In (k, v) todo -> In (m_index k) K /\ below r K v (r (m_index k))) ->
  (forall k v, In (k, v) todo -> (r (m_index k) < b)%nat -> w (m_index k) = tev A w v) ->
  forall t, below r K t b -> tev A w (phi todo t) = tev A w t.
Proof.
  induction todo as [|[k v] todo IH]; intros H1 H2 t Ht; [reflexivity|]. cbn.
  destruct (H1 k v (or_introl eq_refl)) as [Hk Hv].
  rewrite IH; [|intros; apply H1; right; auto|intros; apply H2; [right|]; auto|apply below_msubst; auto].
  destruct (in_dec Z.eq_dec (m_index k) (t_metas t)) as [H|H].
  - apply tev_msubst. apply H2; [left; reflexivity|]. apply Ht; auto.
  - rewrite msubst_none by exact H. reflexivity.
Qed.
Lemma solves_phis A w r s : ranked r s -> solves A w (phis s s) <-> solves A w s.
Proof.
  intros R. split; intros H.
  - assert (G : forall n k t, In (k, t) s -> (r (m_index k) < n)%nat -> w (m_index k) = tev A w t).
    { induction n as [|n IH]; intros k t Hin Hn; [lia|].
      rewrite (H k (phi s t)) by (apply in_phis; eauto).
      apply (phi_ev_below A w r (keys s) (r (m_index k))).
      - intros k1 v1 H1. apply ranked_below; auto.
      - intros k1 v1 H1 H2. apply IH; [exact H1|lia].
      - apply ranked_below; auto. }
    intros k t Hin. apply (G (S (r (m_index k))) k t Hin). lia.
  - intros k t Hin. apply in_phis in Hin. destruct Hin as (t0 & Hin & ->). rewrite (phi_ev A w s); [auto|exact H].
Qed.

(** *** cycles *)
Definition hits (B : list Z) (t : term) : Prop := exists b, In b (t_metas t) /\ In b B.
Definition bad (B : list Z) (s : substs) : Prop :=
  forall b, In b B -> exists k t, In (k, t) s /\ m_index k = b /\ hits B t.
Lemma cyclic_bad s : cyclic s <-> exists B, B <> [] /\ bad B s.
Proof.
  unfold cyclic, bad, hits. split; intros (B & HB & H); exists B; (split; [exact HB|]); intros b Hb.
  - destruct (H b Hb) as (k & t & b' & H1 & H2 & H3 & H4). exists k, t. eauto.
  - destruct (H b Hb) as (k & t & H1 & H2 & b' & H3 & H4). exists k, t, b'. auto.
Qed.
Lemma hits_msubst B k v t : (In k B -> hits B v) -> hits B t -> hits B (msubst k v t).
Proof.
  intros Hv (b & H1 & H2). destruct (Z.eq_dec b k) as [->|Hne].
  - destruct (Hv H2) as (b' & H3 & H4). exists b'. split; [|exact H4]. apply msubst_metas. auto.
  - exists b. split; [|exact H2]. apply msubst_metas. auto.
Qed.
Lemma hits_phi B todo t : (forall k v, In (k, v) todo -> In (m_index k) B -> hits B v) -> hits B t -> hits B (phi todo t).
Proof.
  revert t. induction todo as [|[k v] todo IH]; intros t H Ht; [exact Ht|]. cbn.
  apply IH; [intros; eapply H; [right|]; eauto|]. apply hits_msubst; [|exact Ht]. intros Hb. apply (H k v); [left; reflexivity|exact Hb].
Qed.
Lemma bad_value B s k v : NoDup (keys s) -> bad B s -> In (k, v) s -> In (m_index k) B -> hits B v.
Proof.
  intros N HB H Hk. destruct (HB _ Hk) as (k1 & t1 & H1 & H2 & H3). assert (E := nodup_key s k1 t1 k v N H1 H H2).
  injection E as -> ->. exact H3.
Qed.
Lemma bad_phis B s : NoDup (keys s) -> bad B s -> bad B (phis s s).
Proof.
  intros N HB b Hb. destruct (HB b Hb) as (k & t & H1 & H2 & H3). exists k, (phi s t).
  split; [apply in_phis; eauto|]. split; [exact H2|]. apply hits_phi; [|exact H3]. intros k1 v1 H4 H5. eapply bad_value; eauto.
Qed.

Lemma filter_short {X} (f : X -> bool) l : (List.length (filter f l) <= List.length l)%nat.
Proof. induction l as [|a l IH]; cbn; [lia|]. destruct (f a); cbn; lia. Qed.
Lemma forallb_ex {X} (f : X -> bool) l : forallb f l = false -> exists x, In x l /\ f x = false.
Proof.
  induction l as [|a l IH]; cbn; [discriminate|]. destruct (f a) eqn:E; cbn; intros F.
  - destruct (IH F) as (y & H1 & H2). exists y. auto.
  - exists a. auto.
Qed.
(** every system is ranked or has a cycle *)
Lemma rank_or_bad s : acyclic s \/ cyclic s.
Proof.
  assert (G : forall n (s' : substs), (List.length s' <= n)%nat ->
    (exists r : Z -> nat, forall k t b, In (k, t) s' -> In b (keys s') -> In b (t_metas t) -> (r b < r (m_index k))%nat) \/
    exists B, B <> [] /\ bad B s').
  2:{ destruct (G (List.length s) s (le_n _)) as [H|H]; [left; exact H|right; apply cyclic_bad; exact H]. }
  induction n as [|n IH]; intros s' Hn.
  - destruct s'; [|cbn in Hn; lia]. left. exists (fun _ => O). intros k t b [].
  - (* a key whose bound terms all avoid the keys, or everything is bad *)
    set (free := fun x => forallb (fun p => negb (m_index (fst p) =? x) || negb (existsb (fun b => occ b (snd p)) (keys s'))) s').
    destruct (existsb free (keys s')) eqn:E.
    + apply existsb_exists in E. destruct E as (x & Hx & Fx).
      set (rest := filter (fun p => negb (m_index (fst p) =? x)) s').
      assert (Hl : (List.length rest < List.length s')%nat).
      { apply keys_ex in Hx. destruct Hx as (k & t & Hin & Hk). unfold rest. clear -Hin Hk.
        induction s' as [|p q IHq]; [destruct Hin|]. cbn. destruct Hin as [->|Hin].
        - cbn. rewrite Hk, Z.eqb_refl. cbn. pose proof (filter_short (fun p : meta * term => negb (m_index (fst p) =? x)) q). lia.
        - specialize (IHq Hin). destruct (negb _); cbn; lia. }
      destruct (IH rest ltac:(lia)) as [(r & Hr)|(B & HB & Hb)].
      * left. exists (fun z => if z =? x then O else S (r z)). intros k t b Hin Hbk Hm.
        destruct (m_index k =? x) eqn:Ek.
        -- exfalso. unfold free in Fx. rewrite forallb_forall in Fx. specialize (Fx _ Hin). cbn [fst snd] in Fx. rewrite Ek in Fx. cbn [negb orb] in Fx.
           apply negb_true_iff in Fx. assert (Q : existsb (fun b => occ b t) (keys s') = true) by (apply existsb_exists; exists b; split; auto; apply occ_ok; auto).
           congruence.
        -- destruct (b =? x) eqn:Eb; [lia|]. apply -> Nat.succ_lt_mono. apply (Hr k t b).
           ++ apply filter_In. cbn. rewrite Ek. auto.
           ++ apply keys_ex in Hbk. destruct Hbk as (k2 & t2 & H2 & E2). rewrite <- E2. apply (keys_in _ k2 t2). apply filter_In. cbn.
              rewrite E2, Eb. auto.
           ++ exact Hm.
      * right. exists B. split; [exact HB|]. intros b Hbb. destruct (Hb b Hbb) as (k & t & H1 & H2 & H3). exists k, t.
        apply filter_In in H1. tauto.
    + assert (D : s' = [] \/ keys s' <> []) by (destruct s'; [left; reflexivity|right; discriminate]).
      destruct D as [D|D]; [left; exists (fun _ => O); rewrite D; intros k t b []|].
      right. exists (keys s'). split; [exact D|]. intros b Hb.
      assert (F : free b = false) by (destruct (free b) eqn:Q; [|reflexivity]; assert (existsb free (keys s') = true) by (apply existsb_exists; eauto); congruence).
      unfold free in F. apply forallb_ex in F. rename F into Q.
      destruct Q as ([k t] & Hin & Q). cbn [fst snd] in Q. apply orb_false_iff in Q. destruct Q as [Q1 Q2].
      apply negb_false_iff in Q1. apply negb_false_iff in Q2. apply Z.eqb_eq in Q1. apply existsb_exists in Q2.
      destruct Q2 as (b' & Q2 & Q3). apply occ_ok in Q3. exists k, t. split; [exact Hin|]. split; [exact Q1|]. exists b'. auto.
Qed.
Lemma ranked_not_bad r s B : NoDup (keys s) -> ranked r s -> B <> [] -> bad B s -> False.
Proof.
  intros N R HB Hb. destruct B as [|b0 B0]; [congruence|]. set (B := b0 :: B0) in *.
  assert (G : forall n b, In b B -> (r b < n)%nat -> False).
  { induction n as [|n IH]; intros b Hin Hr; [lia|]. destruct (Hb b Hin) as (k & t & H1 & H2 & b' & H3 & H4).
    destruct (Hb b' H4) as (k' & t' & H1' & H2' & _).
    apply (IH b' H4). assert (r b' < r (m_index k))%nat by (apply (R k t b'); auto; rewrite <- H2'; eapply keys_in; eauto). rewrite H2 in *. lia. }
  apply (G (S (r b0)) b0); [left; reflexivity|lia].
Qed.

(** ** Eliminate: partial correctness *)
Lemma elim_loop_pc n : forall s s', NoDup (keys s) -> proper s -> elim_loop n s = Some s' ->
  (s' = failure /\ cyclic s) \/
  (acyclic s /\ solved s' /\ keys s' = keys s /\ forall A w, solves A w s' <-> solves A w s).
Proof.
  induction n as [|n IH]; intros s s' N P E; [discriminate|]. cbn in E.
  destruct (elim_round n s s false) as [[s1 c]|] eqn:E1; [|discriminate].
  destruct (elim_round_pc _ _ _ _ _ _ N P E1) as [(-> & -> & HF)|(-> & Hs & Hc)].
  - injection E as <-. left. split; [reflexivity|]. destruct (rank_or_bad s) as [(r & R)|C]; [|exact C].
    destruct (ranked_no_fail r s s eq_refl R R HF).
  - destruct c.
    + assert (N1 : NoDup (keys (phis s s))) by (rewrite keys_phis; exact N).
      assert (P1 : proper (phis s s)) by (unfold proper; rewrite keys_phis; exact P).
      destruct (IH _ _ N1 P1 E) as [(-> & C)|(Ac & So & Ke & Eq)].
      * left. split; [reflexivity|]. destruct (rank_or_bad s) as [(r & R)|C']; [|exact C']. exfalso.
        apply cyclic_bad in C. destruct C as (B & HB & Hb). apply (ranked_not_bad r (phis s s) B N1); auto.
        apply (ranked_phis r s s); auto. apply incl_refl.
      * right. destruct (rank_or_bad s) as [(r & R)|C].
        -- split; [exists r; exact R|]. split; [exact So|]. split; [rewrite Ke; apply keys_phis|].
           intros A w. rewrite Eq. apply (solves_phis A w r s R).
        -- exfalso. apply cyclic_bad in C. destruct C as (B & HB & Hb). destruct Ac as (r & R).
           apply (ranked_not_bad r (phis s s) B N1 R HB). apply bad_phis; auto.
    + injection E as <-. right. destruct (Hc eq_refl) as (_ & E2 & H). rewrite E2.
      assert (So : solved s).
      { split; [exact N|]. intros k t b Hin Hm Hk. apply keys_ex in Hk. destruct Hk as (k2 & t2 & H2 & Hk2).
        specialize (H _ H2). cbn in H. assert (occs (m_index k2) s = true) by (apply occs_ok; exists k, t; rewrite Hk2; auto). congruence. }
      split.
      * exists (fun _ => O). intros k t b Hin Hb Hm. destruct So as [_ So]. exfalso. apply (So k t b Hin Hm Hb).
      * split; [exact So|]. split; [reflexivity|]. intros A w. tauto.
Qed.

(** ** Termination *)
Lemma elim_pass_fuel n k v s : ~ In (m_index k) (t_metas v) ->
  (forall k2 t, In (k2, t) s -> (ht t + ht v + 1 < n)%nat) -> forall tmp c, elim_pass n k v s tmp c <> None.
Proof.
  intros Hkv. induction s as [|[k2 v2] r IH]; intros H tmp c; cbn; [discriminate|].
  assert (Hr : forall k2 t, In (k2, t) r -> (ht t + ht v + 1 < n)%nat) by (intros; eapply H; right; eauto).
  destruct v2 as [i|p tys args|i nm|m]; try (apply IH; auto).
  - assert (Q : elim_list n k v args <> None).
    { apply elim_list_fuel; auto. specialize (H k2 _ (or_introl eq_refl)). cbn in H. change (list_max (map ht args)) with (hts args) in H. lia. }
    destruct (elim_list n k v args) as [[args' ca]|]; [|congruence]. destruct (occur_check _ _); [apply IH; auto|discriminate].
  - destruct (meta_eqb k m); apply IH; auto.
Qed.
Lemma elim_inside_fuel k v s : ~ In (m_index k) (t_metas v) -> NoDup (keys s) ->
  exists n0, forall n, (n0 <= n)%nat -> elim_inside n k v s <> None.
Proof.
  intros Hkv N. exists (hts (map snd s) + ht v + ht v + 4)%nat. intros n Hn.
  destruct n as [|[|n]]; try lia. cbn [elim_inside].
  assert (Hh : forall k2 t, In (k2, t) s -> (ht t <= hts (map snd s))%nat)
    by (intros k2 t H; apply hts_in; apply in_map_iff; exists (k2, t); auto).
  assert (Q : elim_pass (S n) k v s [] false <> None) by (apply elim_pass_fuel; auto; intros k2 t H; specialize (Hh _ _ H); lia).
  destruct (elim_pass (S n) k v s [] false) as [[s1 c1]|] eqn:E1; [|congruence]. destruct c1; [|discriminate].
  destruct (elim_pass_pc _ _ _ _ Hkv _ _ _ _ E1) as [(_ & ? & _)|(-> & _ & _)]; [discriminate|].
  rewrite add_all_nodup by (cbn [app]; rewrite keys_msub; exact N). cbn [app].
  assert (Q2 : elim_pass n k v (map (msub (m_index k) v) s) [] false <> None).
  { apply elim_pass_fuel; auto. intros k2 t H. apply in_msub in H. destruct H as (t0 & H & ->). specialize (Hh _ _ H).
    pose proof (ht_msubst (m_index k) v t0). lia. }
  destruct (elim_pass n k v (map (msub (m_index k) v) s) [] false) as [[s3 c3]|] eqn:E3; [|congruence].
  destruct (elim_pass_pc _ _ _ _ Hkv _ _ _ _ E3) as [(_ & -> & _)|(_ & -> & _)]; [discriminate|].
  rewrite occs_msub by exact Hkv. cbn. discriminate.
Qed.
Lemma elim_round_fuel todo : forall s, NoDup (keys s) -> proper s ->
  exists n0, forall n c, (n0 <= n)%nat -> elim_round n todo s c <> None.
Proof.
  induction todo as [|[k v] r IH]; intros s N P; cbn.
  - exists O. intros; discriminate.
  - destruct (occur_check k v) eqn:Eo; [|exists O; intros; discriminate]. apply occur_check_ok in Eo.
    destruct (elim_inside_fuel k v s Eo N) as (n1 & H1).
    assert (N1 : NoDup (keys (map (msub (m_index k) v) s))) by (rewrite keys_msub; exact N).
    assert (P1 : proper (map (msub (m_index k) v) s)) by (unfold proper; rewrite keys_msub; exact P).
    destruct (IH _ N1 P1) as (n2 & H2). exists (max n1 n2). intros n c Hn.
    specialize (H1 n ltac:(lia)). destruct (elim_inside n k v s) as [[s1 c1]|] eqn:E1; [|congruence].
    destruct (elim_inside_pc _ _ _ _ _ _ Eo N E1) as [(-> & _)|(-> & ->)]; [discriminate|].
    rewrite is_failure_proper by exact P1. apply H2. lia.
Qed.

Lemma phi_lower r K b todo : (forall k v, In (k, v) todo -> In (m_index k) K /\ below r K v (r (m_index k))) ->
  forall done t, (forall x, In x K -> In x (t_metas t) -> (r x < S b)%nat /\ (In x done -> (r x < b)%nat)) ->
  forall x, In x K -> In x (t_metas (phi todo t)) -> (r x < S b)%nat /\ (In x done \/ In x (keys todo) -> (r x < b)%nat).
Proof.
  induction todo as [|[k v] todo IH]; intros H done t Ht x Hx Hm.
  - cbn in Hm. specialize (Ht x Hx Hm). destruct Ht as [H1 H2]. split; [exact H1|]. intros [H3|[]]; auto.
  - cbn in Hm. destruct (H k v (or_introl eq_refl)) as [Hk Hv].
    destruct (IH ltac:(intros; apply H; right; auto) (m_index k :: done) (msubst (m_index k) v t)) with (x := x) as [G1 G2]; auto.
    + intros y Hy Hym. apply msubst_metas in Hym. destruct Hym as [[Hym Hne]|[H1 H2]].
      * destruct (Ht y Hy Hym) as [T1 T2]. split; [exact T1|]. intros [E|E]; [congruence|auto].
      * destruct (Ht _ Hk H1) as [T1 _]. specialize (Hv y Hy H2). split; [|intros _]; lia.
    + split; [exact G1|]. cbn. intros [H3|[H3|H3]]; apply G2; [left; right; exact H3|left; left; exact H3|right; exact H3].
Qed.
Lemma elim_loop_fuel_ranked r b : forall s, NoDup (keys s) -> proper s -> ranked r s ->
  (forall k t, In (k, t) s -> below r (keys s) t b) -> exists n0, forall n, (n0 <= n)%nat -> elim_loop n s <> None.
Proof.
  induction b as [|b IH]; intros s N P R Hb; destruct (elim_round_fuel s s N P) as (n1 & H1).
  - exists (S n1). intros n Hn. destruct n as [|n]; [lia|]. cbn. specialize (H1 n false ltac:(lia)).
    destruct (elim_round n s s false) as [[s1 c]|] eqn:E1; [|congruence].
    destruct (elim_round_pc _ _ _ _ _ _ N P E1) as [(-> & -> & HF)|(-> & _ & _)]; [discriminate|]. destruct c; [|discriminate].
    (* nothing occurs, so nothing changes *)
    exfalso. assert (G : forall todo s c, (forall k, In k (keys todo) -> occs k s = false) -> NoDup (keys s) -> proper s ->
      forall s' c', elim_round n todo s c = Some (s', c') -> c' = false \/ c' = c).
    { clear. induction todo as [|[k v] todo IH]; intros s c H N P s' c' E; cbn in E; [injection E as <- <-; auto|].
      destruct (occur_check k v) eqn:Eo; [|injection E as <- <-; auto]. apply occur_check_ok in Eo.
      destruct (elim_inside n k v s) as [[s1 c1]|] eqn:E1; [|discriminate].
      destruct (elim_inside_pc _ _ _ _ _ _ Eo N E1) as [(-> & _)|(-> & ->)]; [cbn in E; injection E as <- <-; auto|].
      assert (Z0 : occs (m_index k) s = false) by (apply H; left; reflexivity). rewrite Z0 in E. rewrite msub_id in E by exact Z0.
      rewrite is_failure_proper in E by exact P. rewrite orb_false_r in E. eapply IH; eauto. intros k1 Hk1; apply H; right; exact Hk1. }
    destruct (G s s false) with (s' := phis s s) (c' := true) as [|]; auto; try discriminate.
    intros k Hk. destruct (occs k s) eqn:Eo; [|reflexivity]. apply occs_ok in Eo. destruct Eo as (k2 & t & Hin & Hm).
    specialize (Hb k2 t Hin k Hk Hm). lia.
  - assert (N1 : NoDup (keys (phis s s))) by (rewrite keys_phis; exact N).
    assert (P1 : proper (phis s s)) by (unfold proper; rewrite keys_phis; exact P).
    assert (R1 : ranked r (phis s s)) by (apply (ranked_phis r s s); auto; apply incl_refl).
    destruct (IH (phis s s) N1 P1 R1) as (n2 & H2).
    { intros k t Hin x Hx Hm. rewrite keys_phis in Hx. apply in_phis in Hin. destruct Hin as (t0 & Hin & ->).
      destruct (phi_lower r (keys s) b s) with (done := @nil Z) (t := t0) (x := x) as [_ G]; auto.
      - intros k1 v1 Hk1. apply ranked_below; auto.
      - intros y Hy Hym. split; [apply (Hb k t0 Hin y Hy Hym)|intros []]. }
    exists (S (max n1 n2)). intros n Hn. destruct n as [|n]; [lia|]. cbn. specialize (H1 n false ltac:(lia)).
    destruct (elim_round n s s false) as [[s1 c]|] eqn:E1; [|congruence].
    destruct (elim_round_pc _ _ _ _ _ _ N P E1) as [(-> & -> & HF)|(-> & _ & _)]; [discriminate|]. destruct c; [|discriminate].
    apply H2. lia.
Qed.

Lemma last_key B s : (exists b, In b B /\ In b (keys s)) ->
  exists a k v c, s = a ++ (k, v) :: c /\ In (m_index k) B /\ forall x, In x (keys c) -> ~ In x B.
Proof.
  intros H. induction s as [|[k v] s IH]; [destruct H as (b & _ & [])|].
  destruct (existsb (fun x => existsb (Z.eqb x) (keys s)) B) eqn:E.
  - apply existsb_exists in E. destruct E as (b & Hb & E). apply existsb_exists in E. destruct E as (b2 & Hb2 & E). apply Z.eqb_eq in E. subst b2.
    destruct IH as (a & k1 & v1 & c & -> & H1 & H2); [eauto|]. exists ((k, v) :: a), k1, v1, c. auto.
  - assert (Hno : forall x, In x (keys s) -> ~ In x B).
    { intros x Hx HB. assert (existsb (fun x => existsb (Z.eqb x) (keys s)) B = true); [|congruence].
      apply existsb_exists. exists x. split; [exact HB|]. apply existsb_exists. exists x. split; [exact Hx|]. apply Z.eqb_refl. }
    exists [], k, v, s. split; [reflexivity|]. split; [|exact Hno]. destruct H as (b & HB & [<-|Hk]); [exact HB|destruct (Hno b Hk HB)].
Qed.
Lemma phi_app a b t : phi (a ++ b) t = phi b (phi a t).
Proof. apply fold_left_app. Qed.
Lemma bad_shrinks B s : NoDup (keys s) -> B <> [] -> bad B s -> (forall p, In p s -> ~ self p) ->
  exists B', B' <> [] /\ (List.length B' < List.length B)%nat /\ bad B' (phis s s).
Proof.
  intros N HB Hb Hs.
  destruct (last_key B s) as (a & k & v & c & Es & Hk & Hc).
  { destruct B as [|b0 B0]; [congruence|]. destruct (Hb b0 (or_introl eq_refl)) as (k & t & H1 & H2 & _).
    exists b0. split; [left; reflexivity|]. rewrite <- H2. eapply keys_in; eauto. }
  assert (Hin : In (k, v) s) by (rewrite Es; apply in_or_app; right; left; reflexivity).
  set (B' := filter (fun x => negb (x =? m_index k)) B).
  assert (HB' : forall x, In x B' <-> In x B /\ x <> m_index k).
  { intros x. unfold B'. rewrite filter_In, negb_true_iff, Z.eqb_neq. tauto. }
  assert (Hv : hits B' v).
  { destruct (bad_value B s k v N Hb Hin Hk) as (b & H1 & H2). exists b. split; [exact H1|]. apply HB'. split; [exact H2|].
    intros ->. apply (Hs (k, v) Hin). exact H1. }
  exists B'. split; [destruct Hv as (b & _ & H2); intros E; rewrite E in H2; destruct H2|]. split.
  - unfold B'. clear -Hk. induction B as [|x B IH]; [destruct Hk|]. cbn. destruct Hk as [->|Hk].
    + rewrite Z.eqb_refl. cbn. pose proof (filter_short (fun x => negb (x =? m_index k)) B). lia.
    + specialize (IH Hk). destruct (negb _); cbn; lia.
  - intros b Hb'. apply HB' in Hb'. destruct Hb' as [H1 H2]. destruct (Hb b H1) as (k1 & t & H3 & H4 & H5).
    exists k1, (phi s t). split; [apply in_phis; eauto|]. split; [exact H4|].
    rewrite Es, phi_app. cbn [phi fold_left fst snd]. change (hits B' (phi c (msubst (m_index k) v (phi a t)))).
    assert (Ha : hits B (phi a t)).
    { apply hits_phi; [|exact H5]. intros k2 v2 H6 H7. apply (bad_value B s k2 v2); auto. rewrite Es. apply in_or_app. auto. }
    apply hits_phi.
    + intros k2 v2 H6 H7. apply HB' in H7. destruct (Hc (m_index k2)); [eapply keys_in; eauto|tauto].
    + destruct Ha as (x & Hx1 & Hx2). destruct (Z.eq_dec x (m_index k)) as [->|Hne].
      * destruct Hv as (y & Hy1 & Hy2). exists y. split; [|exact Hy2]. apply msubst_metas. auto.
      * exists x. split; [apply msubst_metas; auto|apply HB'; auto].
Qed.
Lemma elim_loop_fuel_bad m : forall B s, (List.length B <= m)%nat -> NoDup (keys s) -> proper s -> B <> [] -> bad B s ->
  exists n0, forall n, (n0 <= n)%nat -> elim_loop n s <> None.
Proof.
  induction m as [|m IH]; intros B s Hm N P HB Hb; [destruct B; [congruence|cbn in Hm; lia]|].
  destruct (elim_round_fuel s s N P) as (n1 & H1).
  assert (N1 : NoDup (keys (phis s s))) by (rewrite keys_phis; exact N).
  assert (P1 : proper (phis s s)) by (unfold proper; rewrite keys_phis; exact P).
  destruct (existsb (fun p => existsb (Z.eqb (m_index (fst p))) (t_metas (snd p))) s) eqn:Es.
  - (* a binding contains its own key: the first round fails *)
    exists (S n1). intros n Hn. destruct n as [|n]; [lia|]. cbn. specialize (H1 n false ltac:(lia)).
    destruct (elim_round n s s false) as [[s1 c]|] eqn:E1; [|congruence].
    destruct (elim_round_pc _ _ _ _ _ _ N P E1) as [(-> & -> & HF)|(-> & Hs & _)]; [discriminate|].
    apply existsb_exists in Es. destruct Es as (p & Hp & Es). destruct (Hs p Hp). apply existsb_exists in Es.
    destruct Es as (x & Hx & E). apply Z.eqb_eq in E. unfold self. rewrite E. exact Hx.
  - assert (Hs : forall p, In p s -> ~ self p).
    { intros p Hp S. assert (Q : existsb (fun p => existsb (Z.eqb (m_index (fst p))) (t_metas (snd p))) s = true); [|congruence].
      apply existsb_exists. exists p. split; [exact Hp|]. apply existsb_exists. exists (m_index (fst p)). split; [exact S|apply Z.eqb_refl]. }
    destruct (bad_shrinks B s N HB Hb Hs) as (B' & HB' & Hlen & Hb').
    destruct (IH B' (phis s s) ltac:(lia) N1 P1 HB' Hb') as (n2 & H2).
    exists (S (max n1 n2)). intros n Hn. destruct n as [|n]; [lia|]. cbn. specialize (H1 n false ltac:(lia)).
    destruct (elim_round n s s false) as [[s1 c]|] eqn:E1; [|congruence].
    destruct (elim_round_pc _ _ _ _ _ _ N P E1) as [(-> & -> & HF)|(-> & _ & _)]; [discriminate|]. destruct c; [|discriminate].
    apply H2. lia.
Qed.

Theorem elim_loop_total s : NoDup (keys s) -> proper s -> exists n0, forall n, (n0 <= n)%nat -> elim_loop n s <> None.
Proof.
  intros N P. destruct (rank_or_bad s) as [(r & R)|C].
  - apply (elim_loop_fuel_ranked r (S (list_max (map r (keys s)))) s N P R).
    intros k t Hin x Hx Hm. pose proof (R k t x Hin Hx Hm).
    assert (Q := proj1 (list_max_le (map r (keys s)) (list_max (map r (keys s)))) (le_n _)).
    rewrite Forall_forall in Q. specialize (Q (r x) (in_map _ _ _ Hx)). lia.
  - apply cyclic_bad in C. destruct C as (B & HB & Hb). apply (elim_loop_fuel_bad (List.length B) B s); auto.
Qed.

(** *** With any input: the result is solved even when a metavariable was bound twice *)
Lemma elim_inside_key n k v s s' c : ~ In (m_index k) (t_metas v) -> proper s ->
  elim_inside n k v s = Some (s', c) -> is_failure s' = true \/ (NoDup (keys s') /\ proper s').
Proof.
  intros Hkv P. revert s s' c P. induction n as [|n IH]; intros s s' c P; [discriminate|]. cbn.
  destruct (elim_pass n k v s [] false) as [[s1 c1]|] eqn:E1; [|discriminate].
  destruct (elim_pass_pc _ _ _ _ Hkv _ _ _ _ E1) as [(-> & -> & _)|(-> & -> & _)].
  - intros E; injection E as <- <-. left; reflexivity.
  - assert (N1 : NoDup (keys (add_all [] (map (msub (m_index k) v) s)))) by (apply add_all_ND; constructor).
    assert (P1 : proper (add_all [] (map (msub (m_index k) v) s))).
    { unfold proper. rewrite add_all_keys, keys_msub. cbn. intros [[]|H]. apply P, H. }
    destruct (false || occs (m_index k) s).
    + destruct (elim_inside n k v _) as [[s2 c2]|] eqn:E2; [|discriminate]. intros E; injection E as <- <-.
      eapply IH; [exact P1|exact E2].
    + intros E; injection E as <- <-. right. auto.
Qed.
Lemma elim_round_key n todo : forall s c s' c', proper s -> todo <> [] \/ NoDup (keys s) -> elim_round n todo s c = Some (s', c') ->
  s' = failure /\ c' = false \/ (NoDup (keys s') /\ proper s').
Proof.
  induction todo as [|[k v] r IH]; intros s c s' c' P D E; cbn in E.
  - injection E as <- <-. destruct D as [D|D]; [congruence|]. auto.
  - destruct (occur_check k v) eqn:Eo; [|injection E as <- <-; auto]. apply occur_check_ok in Eo.
    destruct (elim_inside n k v s) as [[s1 c1]|] eqn:E1; [|discriminate].
    destruct (elim_inside_key _ _ _ _ _ _ Eo P E1) as [F|[N1 P1]].
    + rewrite F in E. injection E as <- <-. auto.
    + rewrite is_failure_proper in E by exact P1. eapply IH; eauto.
Qed.
(** a round that changes nothing, whatever the input *)
Lemma elim_inside_same n k v s s' : ~ In (m_index k) (t_metas v) -> elim_inside n k v s = Some (s', false) ->
  is_failure s' = true \/ (s' = add_all [] s /\ occs (m_index k) s = false).
Proof.
  intros Hkv. destruct n as [|n]; [discriminate|]. cbn.
  destruct (elim_pass n k v s [] false) as [[s1 c1]|] eqn:E1; [|discriminate].
  destruct (elim_pass_pc _ _ _ _ Hkv _ _ _ _ E1) as [(-> & -> & _)|(-> & -> & _)].
  - intros E; injection E as <-. left; reflexivity.
  - cbn. destruct (occs (m_index k) s) eqn:Eo.
    + destruct (elim_inside n k v _) as [[s2 c2]|]; discriminate.
    + intros E; injection E as <-. right. rewrite msub_id by exact Eo. auto.
Qed.
Theorem elim_loop_solved n : forall s s', proper s -> elim_loop n s = Some s' -> s' = failure \/ solved s'.
Proof.
  induction n as [|n IH]; intros s s' P E; [discriminate|]. cbn in E.
  destruct s as [|q0 s0].
  { cbn in E. injection E as <-. right. split; [constructor|intros k t b []]. }
  set (s := q0 :: s0) in *.
  destruct (elim_round n s s false) as [[s1 c]|] eqn:E1; [|discriminate].
  assert (Hne : s <> []) by discriminate.
  destruct (elim_round_key _ _ _ _ _ _ P (or_introl Hne) E1) as [[-> ->]|[N1 P1]].
  - injection E as <-. auto.
  - destruct c; [eapply IH; eauto|]. injection E as <-. right. split; [exact N1|].
    assert (G : forall todo s1' c, NoDup (keys s1') -> proper s1' -> elim_round n todo s1' c = Some (s1, false) ->
      s1 = failure \/ (s1 = s1' /\ forall p, In p todo -> occs (m_index (fst p)) s1 = false)).
    { intros todo s1' c N P' E'. destruct (elim_round_pc _ _ _ _ _ _ N P' E') as [(-> & _)|(_ & _ & Hc)]; [auto|].
      right. destruct (Hc eq_refl) as (_ & -> & H). auto. }
    assert (Hf : s1 <> failure) by (intros ->; apply P1; cbn; auto).
    destruct q0 as [k v]. unfold s in E1. cbn [elim_round] in E1. fold s in E1.
    destruct (occur_check k v) eqn:Eo; [|injection E1 as E1; congruence]. apply occur_check_ok in Eo.
    destruct (elim_inside n k v s) as [[s2 c2]|] eqn:E2; [|discriminate].
    destruct (elim_inside_key _ _ _ _ _ _ Eo P E2) as [F|[N2 P2]].
    { rewrite F in E1. injection E1 as E1; congruence. }
    rewrite is_failure_proper in E1 by exact P2. cbn [orb] in E1.
    destruct (G _ _ _ N2 P2 E1) as [G1|[G1 G2]]; [congruence|].
    assert (c2 = false).
    { destruct (elim_round_pc _ _ _ _ _ _ N2 P2 E1) as [(Q & _)|(_ & _ & Hc)]; [congruence|]. apply (Hc eq_refl). }
    subst c2. destruct (elim_inside_same _ _ _ _ _ Eo E2) as [F|[E3 Hk]]; [rewrite is_failure_proper in F by exact P2; discriminate|].
    intros k1 t1 b Hin Hm Hb. rewrite G1, E3 in Hb. apply add_all_keys in Hb. destruct Hb as [[]|Hb].
    destruct Hb as [Hb|Hb].
    + cbn in Hb. subst b. assert (occs (m_index k) s = true); [|congruence]. apply occs_ok. exists k1, t1. split; [|exact Hm].
      rewrite G1, E3 in Hin. apply add_all_in in Hin. destruct Hin as [[]|Hin]. exact Hin.
    + change (In b (keys s0)) in Hb. apply keys_ex in Hb. destruct Hb as (k2 & t2 & H2 & <-). specialize (G2 _ H2). cbn in G2.
      assert (occs (m_index k2) s1 = true); [|congruence]. apply occs_ok. eauto.
Qed.

(** ** EliminateMeta *)
Lemma sget_from_in i s k v j : sget_from i s k = Some (v, j) -> exists k', In (k', v) s /\ m_index k' = m_index k /\
  (i <= j)%nat /\ nth_error s (j - i) = Some (k', v).
Proof.
  revert i. induction s as [|[k' v'] r IH]; intros i E; cbn in E; [discriminate|].
  destruct (meta_eqb k' k) eqn:Ek.
  - injection E as <- <-. apply meta_eqb_idx in Ek. exists k'. split; [left; reflexivity|]. split; [exact Ek|]. split; [lia|].
    rewrite Nat.sub_diag. reflexivity.
  - destruct (IH _ E) as (k2 & H1 & H2 & H3 & H4). exists k2. split; [right; exact H1|]. split; [exact H2|]. split; [lia|].
    replace (j - i)%nat with (S (j - S i)) by lia. exact H4.
Qed.
Lemma sget_in s k v j : sget s k = Some (v, j) -> exists k', In (k', v) s /\ m_index k' = m_index k /\ nth_error s j = Some (k', v).
Proof.
  unfold sget. destruct (m_index k =? -1); [discriminate|]. intros E. destruct (sget_from_in _ _ _ _ _ E) as (k' & H1 & H2 & _ & H4).
  exists k'. rewrite Nat.sub_0_r in H4. auto.
Qed.
Lemma sget_from_none i s k : sget_from i s k = None <-> ~ In (m_index k) (keys s).
Proof.
  revert i. induction s as [|[k' v'] r IH]; intros i; cbn; [tauto|]. destruct (meta_eqb k' k) eqn:Ek.
  - apply meta_eqb_idx in Ek. intuition congruence.
  - apply meta_eqb_nidx in Ek. rewrite IH. unfold keys. intuition.
Qed.

Lemma elim_meta_loop_ok s : NoDup (keys s) -> forall todo res,
  incl todo s -> incl res s -> NoDup (keys res) -> (forall x, In x (keys todo) -> ~ In x (keys res)) -> NoDup (keys todo) ->
  let r := elim_meta_loop s todo res in
  incl res r /\ incl r s /\ NoDup (keys r) /\
  forall A w, solves A w r -> forall k t, In (k, t) todo -> w (m_index k) = tev A w t.
Proof.
  intros N. induction todo as [|[k v] todo IH]; intros res H1 H2 H3 H4 H5; cbn.
  - split; [apply incl_refl|]. split; [exact H2|]. split; [exact H3|]. intros A w _ k t [].
  - assert (Hkv : In (k, v) s) by (apply H1; left; reflexivity).
    assert (Hk : ~ In (m_index k) (keys res)) by (apply H4; left; reflexivity).
    assert (Ht : incl todo s) by (intros p Hp; apply H1; right; exact Hp).
    inversion H5 as [|? ? Hnk H5']; subst.
    match goal with |- context [if ?d then res else _] => destruct d eqn:Ed end.
    + destruct (IH res Ht H2 H3 ltac:(intros x Hx; apply H4; right; exact Hx) H5') as (G1 & G2 & G3 & G4).
      split; [exact G1|]. split; [exact G2|]. split; [exact G3|]. intros A w Hs k1 t1 [E|Hin]; [|eapply G4; eauto].
      injection E as <- <-. rewrite !andb_true_iff in Ed. destruct Ed as [[[E1 E2] E3] E4].
      destruct v as [| | |m]; try discriminate. cbn in *.
      destruct (sget s m) as [[vk j]|] eqn:Eg; [|discriminate]. destruct (sget_in _ _ _ _ Eg) as (m' & Hm' & Em' & _).
      apply has_subst_ok, keys_ex in E3. destruct E3 as (m2 & t2 & Hr & Em2).
      assert (E := nodup_key s m' vk m2 t2 N Hm' (H2 _ Hr) ltac:(congruence)). injection E as <- <-.
      pose proof (Hs _ _ (G1 _ Hr)) as Q. rewrite Em' in Q. rewrite Q.
      apply term_eqb_reflect in E4. inversion E4; subst. cbn. congruence.
    + assert (En : sset res k v = res ++ [(k, v)]) by (apply sset_new; exact Hk).
      destruct (IH (sset res k v) Ht) as (G1 & G2 & G3 & G4).
      * rewrite En. intros p Hp. apply in_app_iff in Hp. destruct Hp as [Hp|[<-|[]]]; auto.
      * apply sset_nodup; exact H3.
      * intros x Hx Hr. apply sset_keys in Hr. destruct Hr as [Hr| ->]; [revert Hr; apply H4; right; exact Hx|]. apply Hnk, Hx.
      * exact H5'.
      * split; [intros p Hp; apply G1; rewrite En; apply in_or_app; auto|]. split; [exact G2|]. split; [exact G3|].
        intros A w Hs k1 t1 [E|Hin]; [|eapply G4; eauto]. injection E as <- <-. apply Hs, G1. rewrite En. apply in_or_app. right; left; reflexivity.
Qed.
Theorem eliminate_meta_ok s : NoDup (keys s) ->
  incl (eliminate_meta s) s /\ NoDup (keys (eliminate_meta s)) /\ forall A w, solves A w (eliminate_meta s) <-> solves A w s.
Proof.
  intros N. destruct (elim_meta_loop_ok s N s []) as (_ & G2 & G3 & G4); auto.
  - apply incl_refl.
  - intros p [].
  - constructor.
  - split; [exact G2|]. split; [exact G3|]. intros A w. split; intros H k t Hin; [eapply G4; eauto|]. apply H, G2, Hin.
Qed.
