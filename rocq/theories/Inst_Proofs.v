(** Instantiation of the first variable of a quantifier by a term without variables, and the gamma
    rule (C22). *)
From Coq Require Import ZArith List Bool String Lia.
From Verif Require Import LibSet_Model Ast_Model Problem_Model Rules_Model Sem_Spec Occ_Spec Free_Spec Rules_Spec
  Ast_Proofs Sem_Proofs Free_Proofs.
Import ListNotations.
Open Scope Z_scope.

Definition same_shape (k : Z -> list tvar -> form -> form) : Prop :=
  (forall i vs f, f_collect (fun _ _ args => map t_noid args) (k i vs f) = f_collect (fun _ _ args => map t_noid args) f) /\
  (forall i vs f, fv (k i vs f) = fold_right unbind (fv f) vs) /\
  (forall i vs f, ftv (k i vs f) = fold_right unbind_ty (ftv f) vs) /\
  (forall i vs f, f_binders (k i vs f) = vs ++ f_binders f) /\
  (forall i vs f, f_funs (k i vs f) = f_funs f) /\
  (forall i vs f, f_metas (k i vs f) = f_metas f) /\
  (forall i vs f, f_tymetas (k i vs f) = f_tymetas f).
Lemma all_shape : same_shape All.
Proof. repeat split. Qed.
Lemma ex_shape : same_shape Ex.
Proof. repeat split. Qed.
Lemma not_wff g i f : wff g (Not i f) <-> wff g f.
Proof. split; intros []; constructor; auto. Qed.
Lemma ex_all_wff g i j vs f : wff g (Ex i vs f) <-> wff g (All j vs f).
Proof. split; intros []; constructor; auto. Qed.
Lemma all_nil_wff g j f : wff g (All j [] f) <-> wff g f.
Proof. split; intros []; constructor; auto. Qed.
Lemma wff_mono g g' f : cpt_term g <= cpt_term g' -> wff g f -> wff g' f.
Proof. intros L []; constructor; auto. intros i Hi. apply wf_lt in Hi. lia. Qed.

Record inst (g : gen) (x : tvar) (rest : list tvar) (u : term) (f f' : form) : Prop := {
  in_wff : forall g', (forall i, In i (t_funs u) \/ In i (t_metas u) -> i < cpt_term g') -> cpt_term g <= cpt_term g' ->
           (forall y, In y (rest ++ f_binders f) -> ~ In (tv_index y) (t_funs u)) -> wff g' (All 0 rest f');
  in_metas : forall i, In i (f_metas f') -> In i (f_metas f) \/ In i (t_metas u);
  in_tymetas : incl (f_tymetas f') (f_tymetas f);
  in_binders : f_binders f' = f_binders f;
  in_all : forall I (v : val I), holds (All 0 rest f') v <-> holds (All 0 rest f) (set_bv v (tv_index x) (ev v u));
  in_ex : forall I (v : val I), holds (Ex 0 rest f') v <-> holds (Ex 0 rest f) (set_bv v (tv_index x) (ev v u)) }.

Lemma inst_ok g i x rest u f : wff g (All i (x :: rest) f) -> is_ttype (tv_ty x) = false ->
  t_vars u = [] -> t_tyvars u = [] -> t_tymetas u = [] -> t_noid u = true ->
  exists f' b, replace_term (Var (tv_index x) (tv_name x)) u f = Some (f', b) /\ inst g x rest u f f'.
Proof.
  intros W TT U1 U2 U3 U4.
  assert (HU : term_eqb (Var (tv_index x) (tv_name x)) u = false).
  { destruct u; try reflexivity. discriminate. }
  assert (NF : ~ In (tv_index x) (f_funs f)).
  { apply (wf_bf _ _ W x). left; auto. }
  assert (NI : f_noid f) by apply W.
  destruct (replace_term_total (tv_index x) (tv_name x) u HU f NI) as (f' & b & R).
  exists f', b. split; auto.
  pose proof (replace_term_ok (tv_index x) (tv_name x) u HU f f' b NF R) as RF.
  pose proof (replace_term_ok (tv_index x) (tv_name x) u HU (All 0 rest f) (All 0 rest f') b NF) as RA.
  pose proof (replace_term_ok (tv_index x) (tv_name x) u HU (Ex 0 rest f) (Ex 0 rest f') b NF) as RE.
  cbn in RA, RE. rewrite R in RA, RE. specialize (RA eq_refl). specialize (RE eq_refl).
  pose proof (rep_form _ _ _ U1 U2 U3 f NF f' b R) as (P1 & P2 & P3).
  destruct RF as (R1 & R2 & R3 & R4 & R5 & R6 & R7 & R8 & R9 & R10).
  pose proof (wf_nd _ _ W) as ND. cbn in ND. inversion ND as [|? ? ND1 ND2]; subst.
  assert (NB : forall y, In y (rest ++ f_binders f) -> tv_index y <> tv_index x /\ ~ In (tv_index y) (t_vars u) /\ ~ In (tv_name y) (t_tyvars u)).
  { intros y Hy. rewrite U1, U2. split; [|split; intros []]. intros E. apply ND1. rewrite <- E. apply in_map; auto. }
  constructor.
  - intros g' L1 L2 L3. destruct W as [w1 w2 w3 w4 w5 w6 w7]. constructor.
    + intros c Hc. apply (R9 U4). auto.
    + cbn [fv]. cbn [fv] in w2. 
      assert (E : forall j, In j (fold_right unbind (fv f') rest) -> False).
      { intros j Hj. apply (unbinds_incl _ rest (fv f) (fv f') P1) in Hj as [Hj Hn].
        assert (In j (fold_right unbind (fv f) (x :: rest))).
        { cbn [fold_right]. unfold unbind at 1. rewrite TT. apply filter_In. split; auto.
          apply negb_true_iff, Z.eqb_neq. auto. }
        rewrite w2 in H. auto. }
      destruct (fold_right unbind (fv f') rest) as [|j l]; auto. exfalso. apply (E j). left; auto.
    + cbn [ftv]. cbn [ftv fold_right] in w3. unfold unbind_ty at 1 in w3. rewrite TT in w3.
      pose proof (unbinds_ty_incl rest _ _ P2) as Q. rewrite w3 in Q.
      destruct (fold_right unbind_ty (ftv f') rest) as [|j l]; auto. exfalso. apply (Q j). left; auto.
    + cbn [f_binders]. rewrite R8. auto.
    + cbn [f_binders] in *. rewrite R8. inversion w5; auto.
    + cbn [f_binders]. rewrite R8. intros y Hy Hin. apply R4 in Hin as [Hin|[_ Hin]].
      * apply (w6 y); [right; auto|auto].
      * apply (L3 y); auto.
    + cbn [f_binders]. rewrite R8. intros j [Hj|[Hj|Hj]].
      * apply R4 in Hj as [Hj|[_ Hj]]; [|auto]. specialize (w7 j (or_introl Hj)). lia.
      * apply R6 in Hj as [Hj|[_ Hj]]; [|auto]. specialize (w7 j (or_intror (or_introl Hj))). lia.
      * specialize (w7 j (or_intror (or_intror (or_intror Hj)))). lia.
  - intros j Hj. apply R6 in Hj. tauto.
  - auto.
  - auto.
  - intros I v. destruct RA as (_ & _ & _ & _ & _ & _ & _ & _ & _ & RA). apply RA. auto.
  - intros I v. destruct RE as (_ & _ & _ & _ & _ & _ & _ & _ & _ & RE). apply RE. auto.
Qed.

(** changing an unused metavariable *)
Lemma holds_set_mv I f (v : val I) m d : f_noid f -> ~ In m (f_metas f) -> (holds f (set_mv v m d) <-> holds f v).
Proof.
  intros N H. apply holds_free; auto. intros i Hi. cbn. unfold upd. destruct (i =? m) eqn:E; auto.
  apply Z.eqb_eq in E; subst; contradiction.
Qed.
Lemma set_mv_self I f (v : val I) m : holds f (set_mv v m (mv v m)) <-> holds f v.
Proof.
  apply holds_agree, veq_agree. repeat split; intros; cbn; auto. unfold upd. destruct (i =? m) eqn:E; auto.
  apply Z.eqb_eq in E; subst; auto.
Qed.
Lemma set_tmv_self I f (v : val I) s m : holds f (set_tmv v s m (tmv v s m)) <-> holds f v.
Proof.
  apply holds_agree, veq_agree. repeat split; intros; cbn; auto.
  destruct (String.eqb s0 s && (i =? m)) eqn:E; auto. apply andb_prop in E as [E1 E2].
  apply String.eqb_eq in E1. apply Z.eqb_eq in E2; subst; auto.
Qed.

Lemma gamma_term x index g v : universal (ft_form x) -> wff g (ft_form x) ->
  head_var (ft_form x) = Some v -> is_ttype (tv_ty v) = false ->
  exists y m g', apply_gamma x index g = Some (y, Some m, g') /\
    m_index m = cpt_term g /\ m_index m < cpt_term g' /\ ~ In (m_index m) (f_metas (ft_form x)) /\
    wff g' (ft_form y) /\
    (forall i, In i (f_metas (ft_form y)) -> In i (f_metas (ft_form x)) \/ i = m_index m) /\
    incl (f_tymetas (ft_form y)) (f_tymetas (ft_form x)) /\
    incl (f_binders (ft_form y)) (f_binders (ft_form x)) /\
    (forall I (w : val I), holds (ft_form x) w <-> forall d, holds (ft_form y) (set_mv w (m_index m) d)).
Proof.
  destruct x as [f terms]. cbn [ft_form]. intros U W HV TT.
  destruct U as [i vs f|i j vs f]; (destruct vs as [|v0 rest]; [discriminate|]); cbn in HV; inversion HV; subst v0; clear HV.
  - unfold apply_gamma; cbn [ft_form ft_terms]. unfold real_instantiate. rewrite TT.
    destruct (maker_meta (to_upper (tv_name v)) index (tv_ty v) g) as [m g1] eqn:MM.
    assert (M : m_index m = cpt_term g /\ cpt_term g1 = cpt_term g + 1).
    { unfold maker_meta in MM. destruct (lookup _ _); inversion MM; auto. }
    destruct M as [M1 M2].
    destruct (inst_ok g i v rest (Meta m) f W TT) as (f' & b & R & IN); auto.
    unfold subst_var_meta. rewrite R.
    destruct (match rest with [] => (f', g1) | _ :: _ => maker_all rest f' g1 end) as [res g2] eqn:RES.
    assert (S : cpt_term g2 = cpt_term g1 /\ (forall g', wff g' res <-> wff g' (All 0 rest f')) /\
       f_metas res = f_metas f' /\ f_tymetas res = f_tymetas f' /\ f_binders res = rest ++ f_binders f' /\
       (forall I (v : val I), holds res v <-> holds (All 0 rest f') v)).
    { destruct rest; inversion RES; subst.
      - split; auto. split; [intros; symmetry; apply all_nil_wff|]. repeat split; auto.
      - split; [reflexivity|]. split; [intros g'; split; intros []; constructor; auto|]. repeat split; auto. }
    destruct S as (S1 & S2 & S3 & S4 & S4b & S5).
    exists (mkFat res (term_list_add terms (Meta m))), m, g2.
    assert (FR : ~ In (m_index m) (f_metas f)).
    { intros K. pose proof (wf_lt _ _ W (m_index m) (or_intror (or_introl K))). lia. }
    cbn [ft_form]. split; [destruct rest; cbn in RES |- *; inversion RES; reflexivity|]. split; auto. split; [lia|]. split; [exact FR|]. split.
    { apply S2. apply (in_wff _ _ _ _ _ _ IN); [intros k [[]|[<-|[]]]; lia|lia|cbn; auto]. }
    split; [|split; [|split]].
    + intros k Hk. rewrite S3 in Hk. apply (in_metas _ _ _ _ _ _ IN) in Hk as [Hk|[<-|[]]]; auto.
    + rewrite S4. apply (in_tymetas _ _ _ _ _ _ IN).
    + rewrite S4b, (in_binders _ _ _ _ _ _ IN). cbn. apply incl_tl, incl_refl.
    + intros I w. transitivity (forall d, holds (All 0 rest f) (set_bv w (tv_index v) d)).
      { cbn [holds forall_vars]. rewrite TT. tauto. }
      assert (E : forall d, holds res (set_mv w (m_index m) d) <-> holds (All 0 rest f) (set_bv w (tv_index v) d)).
      { intros d. rewrite S5, (in_all _ _ _ _ _ _ IN). cbn [ev].
        replace (mv (set_mv w (m_index m) d) (m_index m)) with d by (cbn; unfold upd; rewrite Z.eqb_refl; auto).
        change (set_bv (set_mv w (m_index m) d) (tv_index v) d) with (set_mv (set_bv w (tv_index v) d) (m_index m) d).
        apply holds_set_mv; auto. apply W. }
      split; intros H d; apply E; auto.
  - unfold apply_gamma; cbn [ft_form ft_terms]. unfold real_instantiate. rewrite TT.
    destruct (maker_meta (to_upper (tv_name v)) index (tv_ty v) g) as [m g1] eqn:MM.
    assert (M : m_index m = cpt_term g /\ cpt_term g1 = cpt_term g + 1).
    { unfold maker_meta in MM. destruct (lookup _ _); inversion MM; auto. }
    destruct M as [M1 M2]. apply not_wff in W. apply ex_all_wff with (j := 0) in W.
    destruct (inst_ok g 0 v rest (Meta m) f W TT) as (f' & b & R & IN); auto.
    unfold subst_var_meta. rewrite R.
    destruct (match rest with [] => maker_not f' g1 | _ :: _ => let '(e, g2) := maker_ex rest f' g1 in maker_not e g2 end)
      as [res g2] eqn:RES.
    assert (S : cpt_term g2 = cpt_term g1 /\ (forall g', wff g' res <-> wff g' (All 0 rest f')) /\
       f_metas res = f_metas f' /\ f_tymetas res = f_tymetas f' /\ f_binders res = rest ++ f_binders f' /\
       (forall I (v : val I), holds res v <-> ~ holds (Ex 0 rest f') v)).
    { destruct rest; inversion RES; subst.
      - split; [reflexivity|]. split; [intros; rewrite all_nil_wff; apply not_wff|]. repeat split; auto.
      - split; [reflexivity|]. split; [intros g'; split; intros []; constructor; auto|]. repeat split; auto. }
    destruct S as (S1 & S2 & S3 & S4 & S4b & S5).
    exists (mkFat res (term_list_add terms (Meta m))), m, g2.
    assert (FR : ~ In (m_index m) (f_metas f)).
    { intros K. pose proof (wf_lt _ _ W (m_index m) (or_intror (or_introl K))). lia. }
    cbn [ft_form]. split; [destruct rest; cbn in RES |- *; inversion RES; reflexivity|]. split; auto. split; [lia|]. split; [exact FR|]. split.
    { apply S2. apply (in_wff _ _ _ _ _ _ IN); [intros k [[]|[<-|[]]]; lia|lia|cbn; auto]. }
    split; [|split; [|split]].
    + intros k Hk. rewrite S3 in Hk. apply (in_metas _ _ _ _ _ _ IN) in Hk as [Hk|[<-|[]]]; auto.
    + rewrite S4. apply (in_tymetas _ _ _ _ _ _ IN).
    + rewrite S4b, (in_binders _ _ _ _ _ _ IN). cbn. apply incl_tl, incl_refl.
    + intros I w. transitivity (forall d, ~ holds (Ex 0 rest f) (set_bv w (tv_index v) d)).
      { cbn [holds exists_vars]. rewrite TT. split; [intros H d H1; apply H; eauto|intros H [d H1]; apply (H d); auto]. }
      assert (E : forall d, holds res (set_mv w (m_index m) d) <-> ~ holds (Ex 0 rest f) (set_bv w (tv_index v) d)).
      { intros d. rewrite S5, (in_ex _ _ _ _ _ _ IN). cbn [ev].
        replace (mv (set_mv w (m_index m) d) (m_index m)) with d by (cbn; unfold upd; rewrite Z.eqb_refl; auto).
        change (set_bv (set_mv w (m_index m) d) (tv_index v) d) with (set_mv (set_bv w (tv_index v) d) (m_index m) d).
        rewrite holds_set_mv; auto; [tauto|]. apply W. }
      split; intros H d; apply E; auto.
Qed.

(** a type variable *)
Lemma ty_quant_step I (f f' : form) (n : string) (rest : list tvar) (t : val I -> T I) :
  (forall v : val I, holds f' v <-> holds f (set_tbv v n (t v))) ->
  (forall v i d, t (set_bv v i d) = t v) -> (forall v s d, t (set_tbv v s d) = t v) ->
  ~ In n (map tv_name rest) ->
  forall v, (forall_vars rest (holds f') v <-> forall_vars rest (holds f) (set_tbv v n (t v))) /\
            (exists_vars rest (holds f') v <-> exists_vars rest (holds f) (set_tbv v n (t v))).
Proof.
  intros H T1 T2 N v.
  set (R := fun v w : val I => veq w (set_tbv v n (t v))).
  assert (R0 : R v (set_tbv v n (t v))) by (unfold R, veq; auto).
  assert (RK : forall v w : val I, R v w -> (holds f' v <-> holds f w)).
  { intros v' w' H'. rewrite H. apply holds_agree. apply veq_agree.
    unfold R in H'. destruct H' as (A&B&C&E). repeat split; intros; symmetry; auto. }
  assert (RT : forall x, In x rest -> is_ttype (tv_ty x) = true ->
     forall (v w : val I) t, R v w -> R (set_tbv v (tv_name x) t) (set_tbv w (tv_name x) t)).
  { intros x Ix _ v' w' t' (A&B&C&E). unfold R. rewrite T2.
    split; [exact A|split; [exact B|split; [|exact E]]]. intros s. cbn. unfold upds.
    destruct (String.eqb s (tv_name x)) eqn:E1.
    - apply String.eqb_eq in E1; subst. destruct (String.eqb (tv_name x) n) eqn:E2; auto.
      apply String.eqb_eq in E2. exfalso. apply N. rewrite <- E2. apply in_map; auto.
    - rewrite C. cbn. unfold upds. auto. }
  assert (RD : forall x, In x rest -> is_ttype (tv_ty x) = false ->
     forall (v w : val I) d, R v w -> R (set_bv v (tv_index x) d) (set_bv w (tv_index x) d)).
  { intros x Ix _ v' w' d (A&B&C&E). unfold R. rewrite T1.
    split; [|split; [exact B|split; [exact C|exact E]]]. intros j. cbn. unfold upd.
    destruct (j =? tv_index x); auto. apply A. }
  split.
  - eapply forall_vars_rel with (R := R); eauto.
  - eapply exists_vars_rel with (R := R); eauto.
Qed.
Lemma holds_set_tmv I f (v : val I) s m d : f_noid f -> ~ In (s, m) (f_tymetas f) -> (holds f (set_tmv v s m d) <-> holds f v).
Proof.
  intros N H. apply holds_free; auto. intros s' i Hi. cbn. destruct (String.eqb s' s && (i =? m)) eqn:E; auto.
  apply andb_prop in E as [E1 E2]. apply String.eqb_eq in E1. apply Z.eqb_eq in E2; subst; contradiction.
Qed.
Lemma gamma_type x index g v : universal (ft_form x) -> wff g (ft_form x) ->
  (forall s i, In (s, i) (f_tymetas (ft_form x)) -> i < count_meta g) ->
  head_var (ft_form x) = Some v -> is_ttype (tv_ty v) = true ->
  exists y g', apply_gamma x index g = Some (y, None, g') /\
    count_meta g < count_meta g' /\
    (forall s, ~ In (s, count_meta g) (f_tymetas (ft_form x))) /\
    (forall I (w : val I), holds (ft_form x) w <->
       forall t, holds (ft_form y) (set_tmv w (to_upper (tv_name v)) (count_meta g) t)).
Proof.
  destruct x as [f terms]. cbn [ft_form]. intros U W TM HV TT.
  assert (FR : forall s, ~ In (s, count_meta g) (f_tymetas f)) by (intros s K; apply TM in K; lia).
  assert (SEM : forall rest f0, wff g (All 0 (v :: rest) f0) -> f_tymetas f0 = f_tymetas f -> forall I (w : val I) t,
     let f' := form_subst_ty (TyBound (tv_name v) (tv_index v)) (TyMeta (to_upper (tv_name v)) (count_meta g) index) f0 in
     let w' := set_tmv w (to_upper (tv_name v)) (count_meta g) t in
     (forall_vars rest (holds f') w' <-> forall_vars rest (holds f0) (set_tbv w (tv_name v) t)) /\
     (exists_vars rest (holds f') w' <-> exists_vars rest (holds f0) (set_tbv w (tv_name v) t))).
  { intros rest f0 W0 EQ I w t f' w'.
    pose proof (wf_ndn _ _ W0) as ND. cbn in ND. inversion ND as [|? ? ND1 ND2]; subst. rewrite map_app in ND1.
    assert (K : forall v0 : val I, holds f' v0 <-> holds f0 (set_tbv v0 (tv_name v) (tmv v0 (to_upper (tv_name v)) (count_meta g)))).
    { intros v0. unfold f'. rewrite form_subst_ty_ok; cbn; auto; [tauto|].
      intros x Hx _. cbn. split; [|tauto]. intros [E|[]]. apply ND1, in_or_app. right. rewrite E. apply in_map; auto. }
    pose proof (ty_quant_step I f0 f' (tv_name v) rest (fun v0 => tmv v0 (to_upper (tv_name v)) (count_meta g)) K
      (fun _ _ _ => eq_refl) (fun _ _ _ => eq_refl) (fun H => ND1 (in_or_app _ _ _ (or_introl H))) w') as [Q1 Q2].
    assert (E : tmv w' (to_upper (tv_name v)) (count_meta g) = t).
    { unfold w'; cbn. rewrite String.eqb_refl, Z.eqb_refl. auto. }
    rewrite E in Q1, Q2.
    change (set_tbv w' (tv_name v) t) with (set_tmv (set_tbv w (tv_name v) t) (to_upper (tv_name v)) (count_meta g) t) in Q1, Q2.
    assert (NI : f_noid f0) by apply W0.
    pose proof (holds_set_tmv I (All 0 rest f0) (set_tbv w (tv_name v) t) (to_upper (tv_name v)) (count_meta g) t NI) as P1.
    pose proof (holds_set_tmv I (Ex 0 rest f0) (set_tbv w (tv_name v) t) (to_upper (tv_name v)) (count_meta g) t NI) as P2.
    cbn [f_tymetas f_collect] in P1, P2. unfold f_tymetas in P1, P2; cbn [f_collect] in P1, P2.
    fold f_tymetas in P1, P2. change (f_collect _ f0) with (f_tymetas f0) in P1, P2. rewrite EQ in P1, P2.
    specialize (P1 (FR _)). specialize (P2 (FR _)). cbn [holds] in P1, P2. tauto. }
  destruct U as [i vs f|i j vs f]; (destruct vs as [|v0 rest]; [discriminate|]); cbn in HV; inversion HV; subst v0; clear HV.
  - unfold apply_gamma; cbn [ft_form ft_terms]. unfold real_instantiate. rewrite TT. cbn [maker_tymeta].
    assert (W0 : wff g (All 0 (v :: rest) f)) by (destruct W; constructor; auto).
    specialize (SEM rest f W0 eq_refl).
    destruct rest as [|r1 rest].
    + eexists; eexists. split; [reflexivity|]. split; [cbn; lia|]. split; [exact FR|].
      intros I w. cbn [ft_form holds forall_vars]. rewrite TT. split; intros H t; apply (SEM I w t); apply H.
    + eexists; eexists. split; [reflexivity|]. split; [cbn; lia|]. split; [exact FR|].
      intros I w. cbn [ft_form]. change (holds (All i (v :: r1 :: rest) f) w) with
        (if is_ttype (tv_ty v) then forall t, forall_vars (r1 :: rest) (holds f) (set_tbv w (tv_name v) t)
         else forall d, forall_vars (r1 :: rest) (holds f) (set_bv w (tv_index v) d)).
      rewrite TT. split; intros H t; apply (SEM I w t); apply H.
  - unfold apply_gamma; cbn [ft_form ft_terms]. unfold real_instantiate. rewrite TT. cbn [maker_tymeta].
    assert (W0 : wff g (All 0 (v :: rest) f)) by (destruct W; constructor; auto).
    specialize (SEM rest f W0 eq_refl).
    destruct rest as [|r1 rest].
    + eexists; eexists. split; [reflexivity|]. split; [cbn; lia|]. split; [exact FR|].
      intros I w. cbn [ft_form holds exists_vars]. rewrite TT.
      split; [intros H t K; apply H; exists t; apply (SEM I w t); exact K|].
      intros H [t K]. apply (H t). apply (SEM I w t). exact K.
    + eexists; eexists. split; [reflexivity|]. split; [cbn; lia|]. split; [exact FR|].
      intros I w. cbn [ft_form]. change (holds (Not i (Ex j (v :: r1 :: rest) f)) w) with
        (~ (if is_ttype (tv_ty v) then exists t, exists_vars (r1 :: rest) (holds f) (set_tbv w (tv_name v) t)
         else exists d, exists_vars (r1 :: rest) (holds f) (set_bv w (tv_index v) d))).
      rewrite TT. split; [intros H t K; apply H; exists t; apply (SEM I w t); exact K|].
      intros H [t K]. apply (H t). apply (SEM I w t). exact K.
Qed.

(** C22 *)
Lemma gamma_sound x index g : universal (ft_form x) -> wff g (ft_form x) ->
  (forall s i, In (s, i) (f_tymetas (ft_form x)) -> i < count_meta g) ->
  head_var (ft_form x) <> None ->
  exists y m g', apply_gamma x index g = Some (y, m, g') /\
    (forall I (w : val I), holds (ft_form x) w -> holds (ft_form y) w) /\
    match m with
    | Some m => ~ In (m_index m) (f_metas (ft_form x)) /\
                forall I (w : val I), (forall d, holds (ft_form y) (set_mv w (m_index m) d)) -> holds (ft_form x) w
    | None => exists s i, ~ In (s, i) (f_tymetas (ft_form x)) /\
                forall I (w : val I), (forall t, holds (ft_form y) (set_tmv w s i t)) -> holds (ft_form x) w
    end.
Proof.
  intros U W TM HV. destruct (head_var (ft_form x)) as [v|] eqn:HE; [|congruence].
  destruct (is_ttype (tv_ty v)) eqn:TT.
  - destruct (gamma_type x index g v U W TM HE TT) as (y & g' & E & _ & FR & S).
    exists y, None, g'. split; auto. split.
    + intros I w H. apply (set_tmv_self I _ w (to_upper (tv_name v)) (count_meta g)). apply (proj1 (S I w) H).
    + exists (to_upper (tv_name v)), (count_meta g). split; auto. intros I w H. apply S; auto.
  - destruct (gamma_term x index g v U W HE TT) as (y & m & g' & E & _ & _ & FR & _ & _ & _ & _ & S).
    exists y, (Some m), g'. split; auto. split.
    + intros I w H. apply (set_mv_self I _ w (m_index m)). apply (proj1 (S I w) H).
    + split; auto. intros I w H. apply S; auto.
Qed.
