(** The delta rule preserves satisfiability (C23). *)
From Coq Require Import ZArith List Bool String Lia Classical IndefiniteDescription.
From Verif Require Import LibSet_Model Ast_Model Problem_Model Rules_Model Sem_Spec Occ_Spec Free_Spec Rules_Spec Skolem_Spec
  LibSet_Proofs Ast_Proofs Sem_Proofs Free_Proofs Rules_Proofs Inst_Proofs.
Import ListNotations.
Open Scope Z_scope.

(** ** Metavariables of equal formulas are listed in the same order *)
Fixpoint trel (a b : mset) : Prop :=
  match a, b with
  | Leaf, Leaf => True
  | Node h l v r, Node h' l' v' r' => h = h' /\ trel l l' /\ m_index v = m_index v' /\ trel r r'
  | _, _ => False
  end.
Definition orel (a b : option mset) : Prop :=
  match a, b with Some x, Some y => trel x y | None, None => True | _, _ => False end.
Lemma trel_height a b : trel a b -> height a = height b.
Proof. destruct a, b; cbn; tauto. Qed.
Lemma trel_mk l v r l' v' r' : trel l l' -> m_index v = m_index v' -> trel r r' -> trel (mk l v r) (mk l' v' r').
Proof. intros A B C. cbn. rewrite (trel_height _ _ A), (trel_height _ _ C). auto. Qed.
Lemma trel_balance a b : trel a b -> balance a = balance b.
Proof. destruct a, b; cbn; try tauto. intros (_ & A & _ & B). rewrite (trel_height _ _ A), (trel_height _ _ B). auto. Qed.
Lemma trel_rotl a b : trel a b -> orel (rotateLeft a) (rotateLeft b).
Proof.
  destruct a as [|h [|h1 l1 v1 r1] v r], b as [|h' [|h1' l1' v1' r1'] v' r']; cbn [trel rotateLeft orel]; try tauto.
  intros (_ & (_ & A & B & C) & E & G). apply trel_mk; auto. apply trel_mk; auto.
Qed.
Lemma trel_rotr a b : trel a b -> orel (rotateRight a) (rotateRight b).
Proof.
  destruct a as [|h l v [|h1 l1 v1 r1]], b as [|h' l' v' [|h1' l1' v1' r1']]; cbn [trel rotateRight orel]; try tauto.
  intros (_ & E & G & (_ & A & B & C)). apply trel_mk; auto. apply trel_mk; auto.
Qed.
Lemma trel_rebalance a b : trel a b -> orel (rebalance a) (rebalance b).
Proof.
  intros H. destruct a as [|h l v r], b as [|h' l' v' r']; cbn [trel] in H; try contradiction; [cbn; auto|].
  assert (T : trel (Node h l v r) (Node h' l' v' r')) by exact H.
  destruct H as (E & A & B & C). unfold rebalance. rewrite (trel_balance _ _ T), (trel_balance _ _ A), (trel_balance _ _ C).
  destruct (1 <? _).
  - destruct (0 <? _); [apply trel_rotl; auto|]. pose proof (trel_rotr _ _ A) as R.
    destruct (rotateRight l), (rotateRight l'); cbn in R; try tauto. apply trel_rotl. cbn; auto.
  - destruct (_ <? -1); [|exact T]. destruct (_ <? 0); [apply trel_rotr; auto|]. pose proof (trel_rotl _ _ C) as R.
    destruct (rotateLeft r), (rotateLeft r'); cbn in R; try tauto. apply trel_rotr. cbn; auto.
Qed.
Lemma trel_insert x x' : m_index x = m_index x' -> forall a b, trel a b ->
  orel (insert meta_eqb meta_ltb a x) (insert meta_eqb meta_ltb b x').
Proof.
  intros X. induction a as [|h l IHl v r IHr]; intros [|h' l' v' r'] H; cbn [trel] in H; try tauto.
  - cbn. auto.
  - destruct H as (E & A & B & C). cbn [insert].
    assert (E1 : meta_eqb v x = meta_eqb v' x') by (unfold meta_eqb; rewrite X, B; auto).
    assert (E2 : meta_ltb x v = meta_ltb x' v') by (unfold meta_ltb; rewrite X, B; auto).
    rewrite E1, E2. destruct (meta_eqb v' x'); [cbn; auto|]. destruct (meta_ltb x' v').
    + specialize (IHl _ A). destruct (insert _ _ l x), (insert _ _ l' x'); cbn in IHl; try tauto.
      apply trel_rebalance, trel_mk; auto.
    + specialize (IHr _ C). destruct (insert _ _ r x), (insert _ _ r' x'); cbn in IHr; try tauto.
      apply trel_rebalance, trel_mk; auto.
Qed.
Lemma trel_elements a : forall b, trel a b -> Forall2 (fun m n => m_index m = m_index n) (elements a) (elements b).
Proof.
  induction a as [|h l IHl v r IHr]; intros [|h' l' v' r'] H; cbn [trel] in H; try tauto; [constructor|].
  destruct H as (E & A & B & C). cbn. apply Forall2_app; auto. apply Forall2_app; auto.
Qed.
Lemma trel_add l l' : Forall2 (fun m n => m_index m = m_index n) l l' -> forall a b, trel a b ->
  orel (set_add meta_eqb meta_ltb a l) (set_add meta_eqb meta_ltb b l').
Proof.
  induction 1 as [|x y l l' E F IH]; intros a b H; cbn [set_add]; [exact H|].
  pose proof (trel_insert x y E a b H) as R. destruct (insert _ _ a x), (insert _ _ b y); cbn in R; try tauto. apply IH; auto.
Qed.
Lemma orel_union a b a' b' : orel a a' -> orel b b' -> orel (union_opt a b) (union_opt a' b').
Proof.
  destruct a, a', b, b'; cbn [orel union_opt]; try tauto. intros A B. apply trel_add; auto. apply trel_elements; auto.
Qed.
Lemma trel_cpy a : forall b, trel a b -> trel (nodeCpy a) (nodeCpy b).
Proof.
  induction a as [|h l IHl v r IHr]; intros [|h' l' v' r'] H; cbn [trel] in H; try tauto.
  destruct H as (E & A & B & C). cbn. auto.
Qed.
Lemma orel_cpy a b : orel a b -> orel (option_map nodeCpy a) (option_map nodeCpy b).
Proof. destruct a, b; cbn; try tauto. apply trel_cpy. Qed.
Lemma orel_fold {A} (c : A -> option mset) (R : A -> A -> Prop) l l' : Forall2 (fun a b => R a b -> orel (c a) (c b)) l l' ->
  Forall2 R l l' -> forall a b, orel a b ->
  orel (fold_left (fun acc x => union_opt acc (c x)) l a) (fold_left (fun acc x => union_opt acc (c x)) l' b).
Proof.
  induction 1 as [|x y l l' E F IH]; intros G a b H; inversion G; subst; cbn [fold_left]; auto.
  apply IH; auto. apply orel_union; auto.
Qed.
Lemma term_metas_rel t : forall t', same_term t t' -> orel (get_metas t) (get_metas t').
Proof.
  induction t as [i|p tys l IH|i n|m] using term_ind'; intros t' S; inversion S; subst; try (cbn; auto; fail).
  rewrite !get_metas_fold. apply (orel_fold get_metas same_term); cbn; auto.
  match goal with H : Forall2 same_term l _ |- _ => clear -IH H; induction H as [|a b l l' Q F J]; constructor end.
  - inversion IH; auto.
  - inversion IH; auto.
Qed.
Lemma form_metas_rel f : forall f', form_eqb f f' = true -> orel (form_metas f) (form_metas f').
Proof.
  assert (L : forall fs, Forall (fun f => forall f', form_eqb f f' = true -> orel (form_metas f) (form_metas f')) fs ->
    forall fs', list_eqb form_eqb fs fs' = true -> forall a b, orel a b ->
    orel (fold_left (fun acc g => union_opt acc (form_metas g)) fs a) (fold_left (fun acc g => union_opt acc (form_metas g)) fs' b)).
  { clear f. induction 1 as [|f fs Hf F IH]; intros [|f' fs'] E a b AB; cbn in E; try discriminate; auto.
    apply andb_prop in E as [E1 E2]. cbn [fold_left]. apply IH; auto. apply orel_union; auto. }
  induction f using form_ind'; intros [ | | | | | | | | | ] E; simpl in E; try discriminate;
  try (apply andb_prop in E as [E1 E2]); cbn [form_metas]; auto.
  - apply L; auto. cbn; auto.
  - apply L; auto. cbn; auto.
  - apply orel_union; auto. apply orel_cpy; auto.
  - apply orel_union; auto. apply orel_cpy; auto.
  - apply (list_eqb_reflect term_eqb same_term) in E2; [|apply Forall_forall; intros; apply term_eqb_reflect].
    apply (orel_fold get_metas same_term); cbn; auto.
    clear -E2. induction E2; constructor; auto. apply term_metas_rel.
  - cbn; auto.
  - cbn; auto.
Qed.

(** ** alphaConvert *)
Definition alpha_list (k : Z) := fix go (l : list form) (s : vsubst) : list form * vsubst :=
  match l with
  | [] => ([], s)
  | a :: r => let '(a', s1) := alpha_convert a k s in
              let '(r', s2) := go r s1 in (a' :: r', s2)
  end.
Lemma alpha_or i fs k s : alpha_convert (Or i fs) k s = let '(l, s1) := alpha_list k fs s in (Or i l, s1).
Proof. reflexivity. Qed.
Lemma alpha_and i fs k s : alpha_convert (And i fs) k s = let '(l, s1) := alpha_list k fs s in (And i l, s1).
Proof. reflexivity. Qed.

Section Alpha.
Context {I : interp}.
Record arel (A : list Z) (k : Z) (s : vsubst) (v w : val I) : Prop := {
  ar_bv : forall i, In i A -> exists j n, vlookup i s = Some (j, n) /\ j < k /\ bv v i = bv w j;
  ar_mv : forall i, mv v i = mv w i;
  ar_tbv : forall i, tbv v i = tbv w i;
  ar_tmv : forall i j, tmv v i j = tmv w i j }.
Lemma arel_incl A A' k s v w : incl A' A -> arel A k s v w -> arel A' k s v w.
Proof. intros H []; constructor; auto. Qed.
Lemma arel_subst A k s s' v w : (forall i, In i A -> vlookup i s' = vlookup i s) -> arel A k s v w -> arel A k s' v w.
Proof. intros H []; constructor; auto. intros i Hi. rewrite H; auto. Qed.
Lemma arel_evty A k s v w t : arel A k s v w -> evty v t = evty w t.
Proof.
  intros R. induction t using ty_ind'; cbn; auto; try (apply R).
  - f_equal. apply map_ext_in. rewrite Forall_forall in H. auto.
  - f_equal. apply map_ext_in. rewrite Forall_forall in H. auto.
  - congruence.
  - congruence.
Qed.
Lemma arel_ev k s v w t : arel (t_vars t) k s v w -> ev v t = ev w (alpha_convert_term s t).
Proof.
  induction t as [i|p tys l IH|i n|m] using term_ind'; intros R; cbn; auto.
  - f_equal; [apply map_ext; intros t; apply (arel_evty _ _ _ _ _ t R)|]. rewrite map_map. apply map_ext_in. intros t Ht.
    rewrite Forall_forall in IH. apply IH; auto. eapply arel_incl; [|exact R]. cbn. intros i Hi. apply in_flat_map; eauto.
  - destruct (ar_bv _ _ _ _ _ R i) as (j & m & E & _ & B); [cbn; auto|]. rewrite E. cbn. auto.
  - apply R.
Qed.
Lemma converted_quant vs : forall k s s1 vl A (K K' : val I -> Prop),
  (forall x, In x vs -> is_ttype (tv_ty x) = false) -> converted_vars k s vs = (s1, vl) ->
  (forall v w, arel A (k + Z.of_nat (List.length vs)) s1 v w -> (K v <-> K' w)) ->
  forall v w, arel (fold_right unbind A vs) k s v w ->
  (forall_vars vs K v <-> forall_vars vl K' w) /\ (exists_vars vs K v <-> exists_vars vl K' w).
Proof.
  induction vs as [|x r IH]; intros k s s1 vl A K K' T E H v w R.
  - cbn in E. inversion E; subst. cbn in *. rewrite Z.add_0_r in H. split; apply H; auto.
  - cbn [converted_vars] in E. destruct (converted_vars (k + 1) ((tv_index x, (k, fresh k)) :: s) r) as [s' l] eqn:E1.
    inversion E; subst. cbn [forall_vars exists_vars tv_ty tv_index tv_name]. rewrite (T x (or_introl eq_refl)).
    assert (S : forall d, (forall_vars r K (set_bv v (tv_index x) d) <-> forall_vars l K' (set_bv w k d)) /\
                          (exists_vars r K (set_bv v (tv_index x) d) <-> exists_vars l K' (set_bv w k d))).
    { intros d. eapply (IH (k + 1) _ _ _ A); [intros; apply T; right; auto|exact E1| |].
      - intros v' w' R'. apply H.
        replace (k + Z.of_nat (List.length (x :: r))) with (k + 1 + Z.of_nat (List.length r)) by (cbn [List.length]; lia).
        exact R'.
      - cbn [fold_right] in R. constructor; try apply R. intros i Hi. cbn [vlookup]. destruct (i =? tv_index x) eqn:Ei.
        + exists k, (fresh k). split; auto. split; [lia|]. cbn. unfold upd. rewrite Ei, Z.eqb_refl. auto.
        + destruct (ar_bv _ _ _ _ _ R i) as (j & n & L1 & L2 & L3).
          { unfold unbind at 1. rewrite (T x (or_introl eq_refl)). apply filter_In. rewrite Ei. auto. }
          exists j, n. split; auto. split; [lia|]. cbn. unfold upd. rewrite Ei.
          replace (j =? k) with false by (symmetry; apply Z.eqb_neq; lia). auto. }
    split; [split; intros Q d; apply S; auto|]. split; intros [d Q]; exists d; apply S; auto.
Qed.
End Alpha.
Lemma converted_lookup vs : forall k s s1 vl, converted_vars k s vs = (s1, vl) ->
  forall i, ~ In i (map tv_index vs) -> vlookup i s1 = vlookup i s.
Proof.
  induction vs as [|x r IH]; intros k s s1 vl E i N; cbn [converted_vars] in E; [inversion E; auto|].
  destruct (converted_vars (k + 1) ((tv_index x, (k, fresh k)) :: s) r) as [s' l] eqn:E1. inversion E; subst.
  rewrite (IH _ _ _ _ E1 i); [|intros K; apply N; right; auto]. cbn.
  destruct (i =? tv_index x) eqn:Ei; auto. apply Z.eqb_eq in Ei. exfalso. apply N. left; auto.
Qed.
Lemma alpha_term_metas s t : get_metas (alpha_convert_term s t) = get_metas t.
Proof.
  induction t as [i|p tys l IH|i n|m] using term_ind'; cbn [alpha_convert_term]; auto.
  - rewrite !get_metas_fold. generalize (Some (@Leaf meta)). induction IH as [|a r Ha F J]; intros acc; cbn [fold_left map]; auto.
    rewrite Ha. apply J.
  - destruct (vlookup i s) as [[j m]|]; auto.
Qed.
Lemma in_unbinds vs A i : In i A -> In i (fold_right unbind A vs) \/ In i (map tv_index vs).
Proof.
  intros H. induction vs as [|x r IH]; simpl; auto. destruct IH as [IH|IH]; auto. unfold unbind at 1.
  destruct (is_ttype (tv_ty x)); auto. destruct (i =? tv_index x) eqn:E.
  - apply Z.eqb_eq in E. auto.
  - left. apply filter_In. rewrite E. auto.
Qed.
Lemma nodup_appr {A} (l l' : list A) : NoDup (l ++ l') -> NoDup l'.
Proof. induction l; cbn; auto. inversion 1; auto. Qed.
Lemma nodup_appl {A} (l l' : list A) : NoDup (l ++ l') -> NoDup l.
Proof.
  induction l as [|a l IH]; cbn; [constructor|]. inversion 1 as [|? ? X Y]; subst. constructor; auto.
  intros K. apply X, in_or_app; auto.
Qed.
Definition alpha_spec (f f' : form) (k : Z) (s s' : vsubst) : Prop :=
  (forall i, ~ In i (map tv_index (f_binders f)) -> vlookup i s' = vlookup i s) /\
  form_metas f' = form_metas f /\
  (forall I (v w : val I), arel (fv f) k s v w -> (holds f v <-> holds f' w)).
Definition apart (f : form) : Prop :=
  no_ty_binders f /\ NoDup (map tv_index (f_binders f)) /\ forall i, In i (map tv_index (f_binders f)) -> ~ In i (fv f).
Lemma apart_quant vs h (k : Z -> list tvar -> form -> form) i : (k = All \/ k = Ex) -> apart (k i vs h) ->
  apart h /\ (forall x, In x vs -> is_ttype (tv_ty x) = false).
Proof.
  intros Hk (A & B & C).
  assert (E1 : f_binders (k i vs h) = vs ++ f_binders h) by (destruct Hk; subst; auto).
  assert (E2 : fv (k i vs h) = fold_right unbind (fv h) vs) by (destruct Hk; subst; auto).
  unfold apart, no_ty_binders in *. rewrite E1 in *. rewrite E2 in *. split; [|intros x Hx; apply A, in_or_app; auto].
  rewrite map_app in B, C. split; [intros x Hx; apply A, in_or_app; auto|]. split; [eapply nodup_appr; eauto|].
  intros j Hj K. apply (in_unbinds vs) in K as [K|K].
  - apply (C j); auto. apply in_or_app; auto.
  - clear -B Hj K. induction vs as [|x r IH]; simpl in *; [auto|]. inversion B as [|? ? B1 B2]; subst. destruct K as [<-|K]; auto.
    apply B1, in_or_app; auto.
Qed.
Lemma apart_two (k : Z -> form -> form -> form) i a b : (k = Imp \/ k = Equ) -> apart (k i a b) ->
  apart a /\ apart b /\ forall j, In j (fv b) -> ~ In j (map tv_index (f_binders a)).
Proof.
  intros Hk (A & B & C).
  assert (E1 : f_binders (k i a b) = f_binders a ++ f_binders b) by (destruct Hk; subst; auto).
  assert (E2 : fv (k i a b) = fv a ++ fv b) by (destruct Hk; subst; auto).
  unfold apart, no_ty_binders in *. rewrite E1 in *. rewrite E2 in *. rewrite map_app in B, C.
  assert (C' : forall j, In j (map tv_index (f_binders a)) \/ In j (map tv_index (f_binders b)) -> ~ (In j (fv a) \/ In j (fv b))).
  { intros j Hj K. apply (C j); apply in_or_app; auto. }
  repeat split; try (intros x Hx; apply A, in_or_app; auto; fail).
  - eapply nodup_appl; eauto.
  - intros j Hj K; apply (C' j); auto.
  - eapply nodup_appr; eauto.
  - intros j Hj K; apply (C' j); auto.
  - intros j Hj K; apply (C' j); auto.
Qed.
Definition apart_l (fs : list form) : Prop :=
  (forall x, In x (flat_map f_binders fs) -> is_ttype (tv_ty x) = false) /\ NoDup (map tv_index (flat_map f_binders fs)) /\
  forall i, In i (map tv_index (flat_map f_binders fs)) -> ~ In i (flat_map fv fs).
Lemma apart_cons a r : apart_l (a :: r) -> apart a /\ apart_l r /\ forall j, In j (flat_map fv r) -> ~ In j (map tv_index (f_binders a)).
Proof.
  unfold apart_l, apart, no_ty_binders. cbn [flat_map]. rewrite map_app. intros (A & B & C).
  assert (C' : forall j, In j (map tv_index (f_binders a)) \/ In j (map tv_index (flat_map f_binders r)) -> ~ (In j (fv a) \/ In j (flat_map fv r))).
  { intros j Hj K. apply (C j); apply in_or_app; auto. }
  repeat split; try (intros x Hx; apply A, in_or_app; auto; fail).
  - eapply nodup_appl; eauto.
  - intros j Hj K; apply (C' j); auto.
  - eapply nodup_appr; eauto.
  - intros j Hj K; apply (C' j); auto.
  - intros j Hj K; apply (C' j); auto.
Qed.
Lemma alpha_list_ok fs : Forall (fun f => forall k s f' s', apart f -> alpha_convert f k s = (f', s') -> alpha_spec f f' k s s') fs ->
  forall k s fs' s', apart_l fs -> alpha_list k fs s = (fs', s') ->
  (forall i, ~ In i (map tv_index (flat_map f_binders fs)) -> vlookup i s' = vlookup i s) /\
  (forall acc, fold_left (fun acc g => union_opt acc (form_metas g)) fs' acc = fold_left (fun acc g => union_opt acc (form_metas g)) fs acc) /\
  (forall I (v w : val I), arel (flat_map fv fs) k s v w -> Forall2 (fun f f' => holds f v <-> holds f' w) fs fs').
Proof.
  induction 1 as [|a r Ha Hr IH]; intros k s fs' s' AP E; cbn [alpha_list] in E.
  - inversion E; subst. repeat split; auto.
  - destruct (alpha_convert a k s) as [a' s1] eqn:E1. destruct (alpha_list k r s1) as [r' s2] eqn:E2. inversion E; subst.
    apply apart_cons in AP as (P1 & P2 & P3). destruct (Ha _ _ _ _ P1 E1) as (A1 & A2 & A3).
    destruct (IH _ _ _ _ P2 E2) as (B1 & B2 & B3). split; [|split].
    + intros i Hi. cbn [flat_map] in Hi. rewrite map_app, in_app_iff in Hi. rewrite B1 by tauto. apply A1. tauto.
    + intros acc. cbn [fold_left]. rewrite A2. apply B2.
    + intros I v w R. cbn [flat_map] in R. constructor.
      * apply A3. eapply arel_incl; [|exact R]. apply incl_appl, incl_refl.
      * apply B3. eapply arel_subst; [|eapply arel_incl; [|exact R]]; [|apply incl_appr, incl_refl].
        intros i Hi. apply A1. auto.
Qed.
Lemma Forall2_or {I} (v w : val I) fs fs' : Forall2 (fun f f' => holds f v <-> holds f' w) fs fs' ->
  (holds (Or 0 fs) v <-> holds (Or 0 fs') w) /\ (holds (And 0 fs) v <-> holds (And 0 fs') w).
Proof. induction 1; cbn in *; tauto. Qed.
Lemma alpha_convert_ok f : forall k s f' s', apart f -> alpha_convert f k s = (f', s') -> alpha_spec f f' k s s'.
Proof.
  induction f using form_ind'; intros k s f' s' AP E.
  - cbn [alpha_convert] in E. destruct (converted_vars k s vs) as [s1 vl] eqn:E1.
    destruct (alpha_convert f (k + Z.of_nat (List.length vs)) s1) as [h' s2] eqn:E2. inversion E; subst.
    destruct (apart_quant vs f All i (or_introl eq_refl) AP) as [P1 P2]. destruct (IHf _ _ _ _ P1 E2) as (A1 & A2 & A3). split; [|split].
    + intros j Hj. cbn [f_binders] in Hj. rewrite map_app, in_app_iff in Hj. rewrite A1 by tauto. eapply converted_lookup; eauto.
    + exact A2.
    + intros I v w R. cbn [holds]. eapply (converted_quant vs); eauto.
  - cbn [alpha_convert] in E. destruct (converted_vars k s vs) as [s1 vl] eqn:E1.
    destruct (alpha_convert f (k + Z.of_nat (List.length vs)) s1) as [h' s2] eqn:E2. inversion E; subst.
    destruct (apart_quant vs f Ex i (or_intror eq_refl) AP) as [P1 P2]. destruct (IHf _ _ _ _ P1 E2) as (A1 & A2 & A3). split; [|split].
    + intros j Hj. cbn [f_binders] in Hj. rewrite map_app, in_app_iff in Hj. rewrite A1 by tauto. eapply converted_lookup; eauto.
    + exact A2.
    + intros I v w R. cbn [holds]. eapply (converted_quant vs); eauto.
  - rewrite alpha_or in E. destruct (alpha_list k fs s) as [l s1] eqn:E1. inversion E; subst.
    destruct (alpha_list_ok fs H _ _ _ _ AP E1) as (A1 & A2 & A3). split; [exact A1|]. split; [apply A2|].
    intros I v w R. apply (Forall2_or v w fs l). auto.
  - rewrite alpha_and in E. destruct (alpha_list k fs s) as [l s1] eqn:E1. inversion E; subst.
    destruct (alpha_list_ok fs H _ _ _ _ AP E1) as (A1 & A2 & A3). split; [exact A1|]. split; [apply A2|].
    intros I v w R. apply (Forall2_or v w fs l). auto.
  - cbn [alpha_convert] in E. destruct (alpha_convert f1 k s) as [a' s1] eqn:E1. destruct (alpha_convert f2 k s1) as [b' s2] eqn:E2.
    inversion E; subst. destruct (apart_two Equ i f1 f2 (or_intror eq_refl) AP) as (P1 & P2 & P3).
    destruct (IHf1 _ _ _ _ P1 E1) as (A1 & A2 & A3). destruct (IHf2 _ _ _ _ P2 E2) as (B1 & B2 & B3). split; [|split].
    + intros j Hj. cbn [f_binders] in Hj. rewrite map_app, in_app_iff in Hj. rewrite B1 by tauto. apply A1. tauto.
    + cbn [form_metas]. rewrite A2, B2. auto.
    + intros I v w R. cbn [holds]. rewrite (A3 I v w), (B3 I v w); [tauto| |].
      * eapply arel_subst; [|eapply arel_incl; [|exact R]]; [|apply incl_appr, incl_refl]. intros j Hj. apply A1. auto.
      * eapply arel_incl; [|exact R]. apply incl_appl, incl_refl.
  - cbn [alpha_convert] in E. destruct (alpha_convert f1 k s) as [a' s1] eqn:E1. destruct (alpha_convert f2 k s1) as [b' s2] eqn:E2.
    inversion E; subst. destruct (apart_two Imp i f1 f2 (or_introl eq_refl) AP) as (P1 & P2 & P3).
    destruct (IHf1 _ _ _ _ P1 E1) as (A1 & A2 & A3). destruct (IHf2 _ _ _ _ P2 E2) as (B1 & B2 & B3). split; [|split].
    + intros j Hj. cbn [f_binders] in Hj. rewrite map_app, in_app_iff in Hj. rewrite B1 by tauto. apply A1. tauto.
    + cbn [form_metas]. rewrite A2, B2. auto.
    + intros I v w R. cbn [holds]. rewrite (A3 I v w), (B3 I v w); [tauto| |].
      * eapply arel_subst; [|eapply arel_incl; [|exact R]]; [|apply incl_appr, incl_refl]. intros j Hj. apply A1. auto.
      * eapply arel_incl; [|exact R]. apply incl_appl, incl_refl.
  - cbn [alpha_convert] in E. destruct (alpha_convert f k s) as [h' s1] eqn:E1. inversion E; subst.
    destruct (IHf _ _ _ _ AP E1) as (A1 & A2 & A3). split; [exact A1|]. split; [exact A2|].
    intros I v w R. cbn [holds]. rewrite (A3 I v w R). tauto.
  - cbn [alpha_convert] in E. inversion E; subst. split; [auto|]. split.
    + cbn [form_metas]. generalize (Some (@Leaf meta)). clear. induction args as [|a r IH]; intros acc; cbn [fold_left map]; auto.
      rewrite alpha_term_metas. apply IH.
    + intros I v w R. cbn [holds].
      replace (map (ev w) (map (alpha_convert_term s') args)) with (map (ev v) args).
      * rewrite (map_ext (evty v) (evty w)) by (intros t; apply (arel_evty _ _ _ _ _ t R)). tauto.
      * rewrite map_map. apply map_ext_in. intros t Ht. apply (arel_ev k). eapply arel_incl; [|exact R].
        cbn. intros j Hj. apply in_flat_map; eauto.
  - cbn in E. inversion E; subst. repeat split; auto.
  - cbn in E. inversion E; subst. repeat split; auto.
Qed.
