(** C39: nothing is invented by the restriction, and when exactly it loses something. *)
From Coq Require Import ZArith List Bool String Lia.
From Verif Require Import Ast_Model Ast_Proofs Sem_Spec Occ_Spec Unif_Model Unif_Spec UnifLoss_Model Elim_Proofs UnifRun_Proofs UnifLoss_Proofs
  Unif_Final UnifMgu_Proofs Restrict_Model Restrict_Spec Restrict_Proofs.
Import ListNotations.
Open Scope list_scope.
Open Scope Z_scope.

Section Reorganize.
Variable ar : signature.
Variable A : alg.
Variable v : Z -> dom A.
Lemma reo_inner_c k1 v1 l : forall res seen, well ar v1 -> v (m_index k1) = tev A v v1 -> (forall k t, In (k, t) l -> well ar t) -> solves A v l ->
  solves A v res -> solves A v (fst (reo_inner k1 v1 l res seen)).
Proof.
  induction l as [|[k2 v2] r IH]; intros res seen W1 H1 Wl Hl Hr; cbn; [exact Hr|].
  assert (Hl' : solves A v r) by (intros k t H; apply Hl; right; exact H).
  assert (Wl' : forall k t, In (k, t) r -> well ar t) by (intros k t H; eapply Wl; right; exact H).
  destruct (term_eqb v1 v2 && negb (meta_eqb k1 k2) && negb (mem k2 seen)) eqn:E; apply IH; auto.
  apply andb_true_iff in E. destruct E as [E _]. apply andb_true_iff in E. destruct E as [E _].
  apply solves_set; [exact Hr|]. cbn. rewrite H1. rewrite (Hl k2 v2 (or_introl eq_refl)). symmetry. apply (same_tev ar); auto.
  eapply Wl. left. reflexivity.
Qed.
Lemma reo_outer_c todo l : forall res seen, (forall k t, In (k, t) todo -> well ar t) -> solves A v todo ->
  (forall k t, In (k, t) l -> well ar t) -> solves A v l -> solves A v res -> solves A v (reo_outer todo l res seen).
Proof.
  induction todo as [|[k t] r IH]; intros res seen Wt Ht Wl Hl Hr; cbn; [exact Hr|].
  pose proof (reo_inner_c k t l res (k :: seen) (Wt k t (or_introl eq_refl)) (Ht k t (or_introl eq_refl)) Wl Hl Hr) as Q.
  destruct (reo_inner k t l res (k :: seen)) as [res' seen']. apply IH; auto.
  - intros k' t' H. eapply Wt. right. exact H.
  - intros k' t' H. apply Ht. right. exact H.
Qed.
Lemma reorganize_c s : okS ar s -> solves A v s -> solves A v (reorganize s).
Proof. intros [_ O] H. apply reo_outer_c; auto; try (intros k t Hin; apply (O k t Hin)). intros k t []. Qed.
End Reorganize.

(** what the restriction is, in terms of the bindings that are kept *)
Lemma restrict_inv ar n fe s mm r : okS ar s -> solved s -> restrict fe (add_unif n fe) s mm = Ok r ->
  exists st, rounds (S (List.length s)) s (mkR mm [] []) = Some st /\ inv s mm st /\ is_failure r = false /\
    forall A v, injective A -> solves A v (kept st) -> solves A v (reo st) -> solves A v r.
Proof.
  intros Os Ss E. unfold restrict in *. destruct (rounds (S (List.length s)) s (mkR mm [] [])) as [st|] eqn:Er; [|discriminate].
  destruct (rounds_inv s mm Ss _ _ _ (inv0 s mm) Er) as [I H]. exists st. split; [reflexivity|]. split; [exact I|].
  pose proof (okS_incl ar s Os (kept st) (i_kept _ _ _ I) (i_kn _ _ _ I)) as Ok1.
  pose proof (okS_incl ar s Os (reo st) (i_reo _ _ _ I) (i_rn _ _ _ I)) as Ok2.
  pose proof (reorganize_ok ar _ Ok2) as Ok3.
  apply bind_ok in E. destruct E as (e & Ee & E). apply bind_ok in E. destruct E as (m & Em & E).
  destruct (is_failure m) eqn:Fm; [discriminate|]. injection E as <-. split; [exact Fm|]. intros A v Inj Hk Hr.
  destruct (is_failure e) eqn:Fe; [rewrite (merge_failure_r ar fe _ _ _ _ Ok1 Fe Em) in Fm; discriminate|].
  destruct (elim_c ar fe A v _ _ Ok3 (reorganize_c ar A v _ Ok2 Hr) Ee Fe) as [Oe He].
  apply (merge_general ar n fe _ _ _ Ok1 Oe Em Fm A v Inj Hk He).
Qed.
Theorem restrict_invents_nothing ar n fe s mm r : okS ar s -> solved s -> restrict fe (add_unif n fe) s mm = Ok r -> invents_nothing s r.
Proof.
  intros Os Ss E A v Inj Hs. destruct (restrict_inv ar n fe s mm r Os Ss E) as (st & _ & I & _ & H).
  apply H; [exact Inj| |]; intros k t Hin; apply Hs; [apply (i_kept _ _ _ I)|apply (i_reo _ _ _ I)]; exact Hin.
Qed.

(** ** Sharing loses an equation *)
Definition both (st : rst) : substs := kept st ++ reo st.
Lemma one_meta b st k n : In (k, Meta n) (both (fst (one b st))) -> In (k, Meta n) (both st) \/ mem n (rel st) = true.
Proof.
  destruct b as [k' t]. unfold one, both. rewrite !in_app_iff. destruct t as [i|p tys l|i nm|n'].
  4: { destruct (mem k' (rel st)) eqn:E1, (mem n' (rel st)) eqn:E2; cbn [andb fst kept reo]; auto. intros [H|H]; apply sset_in in H;
       (destruct H as [H|H]; [auto|]; injection H as -> ->; auto). }
  all: destruct (mem k' (rel st)); cbn [fst kept reo]; auto; intros [H|H]; auto; apply sset_in in H; destruct H as [H|H]; [auto|discriminate].
Qed.
Lemma round_meta l : forall st c k n, In (k, Meta n) (both (fst (round l st c))) -> In (k, Meta n) (both st) \/
  (mem n (rel (fst (round l st c))) = true).
Proof.
  induction l as [|b r IH]; intros st c k n H; cbn in *; [auto|]. destruct (one b st) as [st1 c1] eqn:E.
  destruct (IH _ _ _ _ H) as [G|G]; [|auto].
  destruct (one_meta b st k n) as [Q|Q]; rewrite ?E; auto. right.
  destruct (round r st1 (c || c1)) as [st2 c2] eqn:E2. cbn [fst]. apply (round_grows _ _ _ _ _ E2). apply (proj1 (one_grows _ _ _ _ E)), Q.
Qed.
Lemma rounds_meta s m : forall st st' k n, rounds m s st = Some st' -> (forall k n, In (k, Meta n) (both st) -> mem n (rel st) = true) ->
  In (k, Meta n) (both st') -> mem n (rel st') = true.
Proof.
  induction m as [|m IH]; intros st st' k n E H0 H; [discriminate|]. cbn in E. destruct (round s st false) as [st1 c] eqn:E1.
  assert (H1 : forall k n, In (k, Meta n) (both st1) -> mem n (rel st1) = true).
  { intros k0 n0 H2. pose proof (round_meta s st false k0 n0) as Q. rewrite E1 in Q. cbn [fst] in Q. destruct (Q H2) as [Q1|Q1]; [|exact Q1].
    apply (round_grows _ _ _ _ _ E1). apply (H0 k0 n0 Q1). }
  destruct c; [apply (IH st1 st' k n E H1 H)|]. injection E as <-. apply (H1 k n H).
Qed.

Theorem shared_loses ar n fe s mm r : okS ar s -> solved s -> restrict fe (add_unif n fe) s mm = Ok r -> shared mm s -> ~ keeps mm s r.
Proof.
  intros Os Ss E (k & k' & x & x' & H1 & H2 & Nk & Ex & M1 & M2 & Nr) K.
  destruct (restrict_inv ar n fe s mm r Os Ss E) as (st & Er & I & _ & H). destruct Ss as [Nd Sv].
  set (cut := filter (fun p : meta * term => negb (m_index (fst p) =? m_index k) && negb (m_index (fst p) =? m_index k')) s).
  assert (Icut : incl cut s) by (intros p Hp; apply filter_In in Hp; apply Hp).
  assert (Ncut : NoDup (keys cut)).
  { unfold cut, keys. clear -Nd. induction s as [|p l IH]; [constructor|]. cbn in *. inversion Nd as [|? ? N1 N2]; subst.
    destruct (_ && _); [|apply IH, N2]. cbn. constructor; [|apply IH, N2]. intros Hp. apply N1. apply in_map_iff in Hp.
    destruct Hp as (q & Eq & Hq). apply filter_In in Hq. apply in_map_iff. exists q. tauto. }
  assert (Kcut : forall b, In b (keys cut) -> In b (keys s)).
  { intros b Hb. apply keys_ex in Hb. destruct Hb as (k0 & t0 & Hin & <-). eapply keys_in, Icut, Hin. }
  assert (Scut : solved cut).
  { split; [exact Ncut|]. intros k0 t0 b Hin Hb Hk. apply (Sv k0 t0 b (Icut _ Hin) Hb). apply Kcut, Hk. }
  pose proof (solved_solves cut Scut) as Hv.
  assert (Sub : forall l, incl l s -> (forall y, In (k, Meta y) l -> False) -> (forall y, In (k', Meta y) l -> False) -> solves T (sval cut) l).
  { intros l Il F1 F2 k0 t0 Hin. apply Hv. apply filter_In. split; [apply Il, Hin|]. cbn [fst]. apply andb_true_iff. rewrite !negb_true_iff, !Z.eqb_neq. split; intros Q.
    - pose proof (nodup_key s k0 t0 k (Meta x) Nd (Il _ Hin) H1 Q) as P. injection P as -> ->. apply (F1 x Hin).
    - pose proof (nodup_key s k0 t0 k' (Meta x') Nd (Il _ Hin) H2 Q) as P. injection P as -> ->. apply (F2 x' Hin). }
  assert (Bad : forall y z, In (y, Meta z) (both st) -> m_index z = m_index x -> False).
  { intros y z Hin Ez. apply Nr. rewrite <- Ez. apply (i_rel _ _ _ I). apply mem_ok.
    apply (rounds_meta s _ _ _ y z Er); [intros ? ? []|exact Hin]. }
  assert (Part : forall l, incl l s -> incl l (both st) -> solves T (sval cut) l).
  { intros l I1 I2. apply Sub; [exact I1| |]; intros y Hy.
    - pose proof (nodup_key s k (Meta y) k (Meta x) Nd (I1 _ Hy) H1 eq_refl) as P. injection P as ->. apply (Bad k x (I2 _ Hy) eq_refl).
    - pose proof (nodup_key s k' (Meta y) k' (Meta x') Nd (I1 _ Hy) H2 eq_refl) as P. injection P as ->. apply (Bad k' x' (I2 _ Hy)). auto. }
  assert (Hr : solves T (sval cut) r).
  { apply H; [apply T_injective|apply Part; [apply (i_kept _ _ _ I)|apply incl_appl, incl_refl]|apply Part; [apply (i_reo _ _ _ I)|apply incl_appr, incl_refl]]. }
  destruct (K T (sval cut) Hr) as (v' & Ag & Hs).
  assert (Eq : v' (m_index k) = v' (m_index k')) by (rewrite (Hs _ _ H1), (Hs _ _ H2); cbn; rewrite Ex; reflexivity).
  assert (V : forall y, In (m_index y) (map m_index mm) -> m_index y = m_index k \/ m_index y = m_index k' -> v' (m_index y) = Meta (plain_meta (m_index y))).
  { intros y Hy Hor. apply in_map_iff in Hy. destruct Hy as (m & Em & Hm). rewrite <- Em, <- (Ag m Hm). unfold sval.
    replace (assoc (m_index m) cut) with (@None term); [reflexivity|]. symmetry. apply assoc_none. intros Hk. apply keys_ex in Hk.
    destruct Hk as (k0 & t0 & Hin & E0). apply filter_In in Hin. destruct Hin as [_ Hin]. cbn [fst] in Hin. apply andb_true_iff in Hin.
    rewrite !negb_true_iff, !Z.eqb_neq in Hin. destruct Hin, Hor; congruence. }
  rewrite (V k M1), (V k' M2) in Eq; auto. injection Eq as Eq. contradiction.
Qed.
