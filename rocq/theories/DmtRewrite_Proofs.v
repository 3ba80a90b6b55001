(** Lemmas for C43 and C45: rewriting. *)
From Coq Require Import ZArith List Bool String Lia.
From Verif Require Import Ast_Model Ast_Proofs Sem_Spec Occ_Spec Free_Spec Sem_Proofs Free_Proofs Subst_Proofs Inst_Proofs Rules_Model Rules_Spec Tableau_Proofs
  Unif_Spec Unif_Model UnifLoss_Model UnifRun_Proofs UnifLoss_Proofs Unif_Final UnifTree_Model UnifTree_Spec UnifTree_Proofs UnifTree_Final Closure_Model Closure_Spec Closure_Proofs
  Restrict_Model Restrict_Spec Restrict_Proofs Dmt_Model Dmt_Spec Dmt_Proofs.
From Verif Require Bse_Spec Bse_Proofs.
Import ListNotations.
Open Scope list_scope.
Open Scope Z_scope.

(** *** Where the candidates come from *)
Lemma sort_in rules l u : In u (sort_unifs rules l) -> In u l /\ filtering (fst u) (snd u) = true.
Proof.
  unfold sort_unifs. assert (G : forall l acc, (In u (fold_left (fun acc u =>
      if filtering (fst u) (snd u) then if existsb bot_or_top (equivalences rules (item_key (fst u))) then u :: acc else acc ++ [u]
      else acc) l acc)) -> In u acc \/ In u l /\ filtering (fst u) (snd u) = true).
  { clear l. induction l as [|x l IH]; intros acc H; cbn in H; [auto|]. apply IH in H. destruct H as [H|[H1 H2]]; [|right; split; [right|]; assumption].
    destruct (filtering (fst x) (snd x)) eqn:F; [|auto].
    assert (Q : In u acc \/ u = x).
    { destruct (existsb _ _); [destruct H as [H|H]; auto|apply in_app_or in H; destruct H as [H|[H|[]]]; auto]. }
    destruct Q as [Q| ->]; [auto|right; split; [left; reflexivity|exact F]]. }
  intros H. apply G in H. destruct H as [[]|H]. exact H.
Qed.
Lemma form_add_in l : forall acc c, In c (fold_left form_add l acc) -> In c acc \/ In c l.
Proof.
  induction l as [|x l IH]; intros acc c H; cbn in H; [auto|]. apply IH in H. destruct H as [H|H]; [|right; right; exact H].
  unfold form_add in H. destruct (existsb _ acc); [auto|]. apply in_app_or in H. destruct H as [H|[H|[]]]; [auto|right; left; exact H].
Qed.
Lemma add_in u s fs : forall l x, In x (fold_left (add_candidate u s) fs l) -> In x l \/ exists f, In f fs /\ x = (item_index u, (s, f)).
Proof.
  induction fs as [|f fs IH]; intros l x H; cbn in H; [auto|]. apply IH in H. destruct H as [H|(f' & H1 & H2)]; [|right; exists f'; split; [right|]; assumption].
  unfold add_candidate in H. destruct (bot_or_top f).
  - destruct H as [H|H]; [right; exists f; split; [left|]; auto|auto].
  - apply in_app_or in H. destruct H as [H|[H|[]]]; [auto|right; exists f; split; [left|]; auto].
Qed.
Section Each.
Variables (fe : nat) (add : term -> term -> substs -> out substs).
Definition from_match rules metas (u : item * substs) (x : candidate) : Prop :=
  exists f s, In f (equivalences rules (item_key (fst u))) /\ restrict fe add (snd u) metas = Ok s /\ from_search metas s = true /\
    x = (item_index (fst u), (s, substitute f (snd u))).
Lemma rewrite_each_in rules metas us : forall l l' x, rewrite_each fe add rules metas us l = Ok l' -> In x l' ->
  In x l \/ exists u, In u us /\ from_match rules metas u x.
Proof.
  induction us as [|u us IH]; intros l l' x E H; cbn [rewrite_each] in E; [injection E as <-; auto|].
  destruct (rewrite_one fe add rules metas l u) as [l1| | |] eqn:E1; try discriminate. cbn [bind] in E.
  destruct (IH _ _ _ E H) as [H1|(u' & H1 & H2)]; [|right; exists u'; split; [right|]; assumption].
  unfold rewrite_one in E1. destruct (equivalences rules (item_key (fst u))) as [|f0 fs] eqn:Eq; [discriminate|].
  destruct (restrict fe add (snd u) metas) as [s| | |] eqn:Er; try discriminate. cbn [bind] in E1.
  destruct (from_search metas s) eqn:Fs; [|discriminate]. injection E1 as <-. apply add_in in H1. destruct H1 as [H1|(f & H1 & ->)]; [auto|].
  right. exists u. split; [left; reflexivity|]. apply (form_add_in (map (fun f => substitute f (snd u)) (f0 :: fs)) []) in H1. destruct H1 as [[]|H1]. apply in_map_iff in H1. destruct H1 as (f' & <- & H1).
  exists f', s. rewrite Eq. auto.
Qed.
Lemma each_ok rules metas us : forall l l' u, rewrite_each fe add rules metas us l = Ok l' -> In u us -> exists s, restrict fe add (snd u) metas = Ok s.
Proof.
  induction us as [|u0 us IH]; intros l l' u E H; [destruct H|]. cbn [rewrite_each] in E.
  destruct (rewrite_one fe add rules metas l u0) as [l1| | |] eqn:E1; try discriminate. cbn [bind] in E.
  destruct H as [<-|H]; [|eapply IH; eauto]. unfold rewrite_one in E1. destruct (equivalences rules (item_key (fst u0))); [discriminate|].
  destruct (restrict fe add (snd u0) metas) as [s| | |]; try discriminate. eauto.
Qed.
End Each.

(** *** The strict run *)
Section Run.
Variables (name_id : string -> ident) (ty_arity : string -> nat) (n fe : nat).
Definition rewrite_real := rewrite fe name_id ty_arity (add_unif n fe) (compute fe (add_unif n fe)).
Definition rewrite_strict := rewrite fe name_id ty_arity (add_unif_s true n fe) (comp_s true n fe).
Lemma restrict_refines s mm : refines (restrict fe (add_unif_s true n fe) s mm) (restrict fe (add_unif n fe) s mm).
Proof.
  unfold restrict. destruct (rounds _ _ _) as [st|]; [|apply refines_refl]. apply bind_refines; [apply refines_refl|]. intros r.
  apply bind_refines; [|intros; apply refines_refl]. apply merge_refines. intros a b s'. apply strict_refines.
Qed.
Lemma each_refines rules metas us : forall l, refines (rewrite_each fe (add_unif_s true n fe) rules metas us l) (rewrite_each fe (add_unif n fe) rules metas us l).
Proof.
  induction us as [|u us IH]; intros l; cbn [rewrite_each]; [apply refines_refl|]. apply bind_refines; [|intros; apply IH].
  unfold rewrite_one. destruct (equivalences _ _); [apply refines_refl|]. apply bind_refines; [apply restrict_refines|intros; apply refines_refl].
Qed.
Lemma refines_eq {A} (x y : out A) : refines x y -> x <> Out -> x = y. Proof. intros [H|H]; congruence. Qed.
(** the answers of the tree, in a signature of the two atoms alone *)
Lemma tree_one ar fs k q t l : Forall (fit ar name_id) fs -> make_tree name_id fs = Some k ->
  query_term name_id q = Some t -> well ar t -> is_fun t = true -> unify_strict name_id n fe k q <> Out -> unify_real name_id n fe k q = Ok l ->
  forall f s u, In (f, s) l -> query_term name_id f = Some u ->
    In f fs /\ solved s /\ same_term (ssubst s u) (ssubst s t) /\ forall ar', well ar' u -> well ar' t -> okS ar' s.
Proof.
  intros Hf T Q W Fq NL E f s u Hin Qu. rewrite (unify_strict_real name_id n fe k q NL) in E.
  destruct (search_direct name_id _ _ fs k q l T E) as [D _]. destruct (D f s Hin) as (Hfs & t' & is & mt & m & D1 & D2 & D3 & D4 & D5 & D6).
  split; [exact Hfs|]. rewrite Forall_forall in Hf. destruct (Hf f Hfs) as (u' & Qu' & Wu). rewrite Qu in Qu'. injection Qu' as <-.
  rewrite Q in D1. injection D1 as <-. rewrite (UnifTree_Final.item_metas_list name_id f u Qu) in D3. injection D3 as <-.
  assert (R : forall ar', well ar' u -> well ar' t -> okS ar' s /\ solved s /\ same_term (ssubst s u) (ssubst s t)).
  { intros ar' Wu' Wt'. pose proof (query_ok ar' true n fe name_id f u is t m Qu D2 Wu' Wt' Fq D4) as R. rewrite D5 in R. cbn in R.
    destruct R as [R|(R0 & R1 & R2)]; [congruence|]. split; [exact R0|]. split; [exact R1|]. apply R2, eq_refl. }
  destruct (R ar Wu W) as (_ & R1 & R2). split; [exact R1|]. split; [exact R2|]. intros ar' W1 W2. apply R; assumption.
Qed.
Definition rules_for (d : dmt) (lit : form) : list (form * form) := match lit with Not _ _ => d_neg d | _ => d_pos d end.
Definition lit_metas (lit : form) : list meta := flat_map meta_list (atom_args (atom_of lit)).
(** what a candidate is *)
Record rewritten (rules : list (form * form)) (lit : form) (ix : Z) (s : substs) (c : form) (a : form) (r : form * form) (sg : substs) : Prop := {
  rw_atom : In a (map fst rules);
  rw_rule : In r rules;
  rw_key : key (fst r) = key a;
  rw_solved : solved sg;
  rw_unified : atoms_unified sg a (atom_of lit);
  rw_ok : forall ar', first_order ar' a -> first_order ar' (atom_of lit) -> okS ar' sg;
  rw_restrict : restrict fe (add_unif n fe) sg (lit_metas lit) = Ok s;
  rw_strict : restrict fe (add_unif_s true n fe) sg (lit_metas lit) <> Out;
  rw_index : ix = form_index a;
  rw_form : c = substitute (snd r) sg }.
Lemma rule_items_in rules f : Forall atomic (map fst rules) -> In f (rule_items rules) -> exists ix p tys args, f = IPred ix p tys args /\ In (Pred ix p tys args) (map fst rules).
Proof.
  intros A H. unfold rule_items, atoms_any in H. apply in_flat_map in H. destruct H as (a & Ha & H). rewrite Forall_forall in A. specialize (A a Ha).
  destruct A as [ix p tys args|i|i]; [|destruct H|destruct H]. destruct H as [<-|[]]. eauto 6.
Qed.
Lemma mixed_same ms : forall (ar : signature) ss, monomorphic ar ty_arity -> (forall m, In m ms -> okS ar (snd m)) ->
  all_some (map (fun m : item * substs => to_mixed ty_arity (snd m)) ms) = Some ss -> combine (map fst ms) (map term_part ss) = ms.
Proof.
  induction ms as [|[f s] ms IH]; intros ar ss HM Ho E; cbn [map all_some fst snd] in E; [injection E as <-; reflexivity|].
  pose proof (Ho _ (or_introl eq_refl)) as Hs. cbn [snd] in Hs. rewrite (to_mixed_mono ar ty_arity HM s Hs) in E. cbn iota in E.
  destruct (all_some (map (fun m => to_mixed ty_arity (snd m)) ms)) as [r|] eqn:Er; [|discriminate]. injection E as <-. cbn [map combine fst snd].
  rewrite term_part_mixed, (IH ar r HM); auto. intros m Hm. apply Ho. right. exact Hm.
Qed.
Theorem rewrite_inv (ar : signature) d lit l : Forall atomic (map fst (rules_for d lit)) -> Forall (first_order ar) (map fst (rules_for d lit)) -> first_order ar lit ->
  monomorphic ar ty_arity -> rewrite_strict d lit <> Out -> rewrite_real d lit = Ok l ->
  forall ix s c, In (ix, (s, c)) l -> (ix = -1 /\ s = failure /\ c = lit) \/ exists a r sg, rewritten (rules_for d lit) lit ix s c a r sg.
Proof.
  intros Ha Hf Fl HM NO E ix s c Hin.
  assert (G : forall rules (q : form), atom_of lit = q -> rules_for d lit = rules -> (match q with Pred _ _ _ _ => first_order ar q | _ => True end) ->
    (match q with
     | Pred ix p tys args => match make_tree name_id (rule_items rules) with
       | None => Crash
       | Some t => do ms <- unify_tree name_id (add_unif_s true n fe) (comp_s true n fe) t (IPred ix p tys args);
           rewrite_matches fe ty_arity (add_unif_s true n fe) rules lit (flat_map meta_list args) ms end
     | _ => Ok (not_rewritten lit) end <> Out) ->
    (match q with
     | Pred ix p tys args => match make_tree name_id (rule_items rules) with
       | None => Crash
       | Some t => do ms <- unify_tree name_id (add_unif n fe) (compute fe (add_unif n fe)) t (IPred ix p tys args);
           rewrite_matches fe ty_arity (add_unif n fe) rules lit (flat_map meta_list args) ms end
     | _ => Ok (not_rewritten lit) end = Ok l) -> (ix = -1 /\ s = failure /\ c = lit) \/ exists a r sg, rewritten rules lit ix s c a r sg).
  { clear NO E. intros rules q Aq Er Fq NO E.
    assert (Tr : forall l', Ok (not_rewritten lit) = Ok l' -> In (ix, (s, c)) l' -> (ix = -1 /\ s = failure /\ c = lit)).
    { intros l' K H. injection K as <-. destruct H as [H|[]]. injection H as <- <- <-. auto. }
    destruct q as [| | | | | | |qx p tys args| |]; try (left; eapply Tr; eassumption).
    destruct Fq as [-> Wq]. destruct (make_tree name_id (rule_items rules)) as [t|] eqn:Et; [|discriminate].
    destruct (unify_tree name_id (add_unif n fe) (compute fe (add_unif n fe)) t (IPred qx p [] args)) as [ms| | |] eqn:Em; try discriminate. cbn [bind] in E.
    assert (N1 : unify_strict name_id n fe t (IPred qx p [] args) <> Out) by (intros K; unfold unify_strict in K; rewrite K in NO; apply NO; reflexivity).
    pose proof (unify_strict_real name_id n fe t (IPred qx p [] args) N1) as Es. unfold unify_strict, unify_real in Es. rewrite Em in Es.
    rewrite <- Es in NO. cbn [bind] in NO.
    assert (Fit : Forall (fit ar name_id) (rule_items rules)).
    { apply Forall_forall. intros f Hfi. rewrite Er in Ha, Hf. destruct (rule_items_in rules f Ha Hfi) as (i & p' & tys & ar0 & -> & H).
      rewrite Forall_forall in Hf. destruct (Hf _ H) as [-> W]. exists (Fun p' [] ar0). split; [eapply query_first_order, W|exact W]. }
    assert (Q : forall f sg, In (f, sg) ms -> exists i p' ar0, f = IPred i p' [] ar0 /\ In (Pred i p' [] ar0) (map fst rules) /\ solved sg /\
        atoms_unified sg (Pred i p' [] ar0) (Pred qx p [] args) /\ forall ar', well ar' (Fun p' [] ar0) -> well ar' (Fun p [] args) -> okS ar' sg).
    { intros f sg H.
      destruct (tree_sound ar name_id n fe (rule_items rules) t (IPred qx p [] args) (Fun p [] args) ms Fit Et (query_first_order ar name_id qx p args Wq) Wq eq_refl N1 Em f sg H) as [Hfi _].
      rewrite Er in Ha, Hf. destruct (rule_items_in rules f Ha Hfi) as (i & p' & tys & ar0 & -> & H'). rewrite Forall_forall in Hf. destruct (Hf _ H') as [-> W].
      destruct (tree_one ar (rule_items rules) t (IPred qx p [] args) (Fun p [] args) ms Fit Et (query_first_order ar name_id qx p args Wq) Wq eq_refl N1 Em
        (IPred i p' [] ar0) sg (Fun p' [] ar0) H (query_first_order ar name_id i p' ar0 W)) as (_ & So & Su & Ok').
      exists i, p', ar0. split; [reflexivity|]. split; [exact H'|]. split; [exact So|]. split; [|exact Ok'].
      destruct (same_atoms _ _ _ _ _ Su) as [K1 K2]. cbn. auto. }
    unfold rewrite_matches in E, NO.
    destruct (all_some (map (fun m => to_mixed ty_arity (snd m)) ms)) as [ss|] eqn:Ea; [|discriminate].
    assert (Ec : sort_unifs rules (combine (map fst ms) (map term_part ss)) = sort_unifs rules ms).
    { f_equal. apply (mixed_same ms ar ss HM); [|exact Ea]. intros [f sg] H. destruct (Q f sg H) as (i & p' & ar0 & -> & H1 & _ & _ & H2). apply H2; [|exact Wq].
      rewrite Er in Hf. rewrite Forall_forall in Hf. apply (Hf _ H1). }
    rewrite Ec in E, NO.
    destruct (sort_unifs rules ms) as [|u us] eqn:Eu; [left; eapply Tr; eassumption|]. rewrite <- Eu in *.
    pose proof (refines_eq _ _ (each_refines rules (flat_map meta_list args) (sort_unifs rules ms) []) NO) as Ee. rewrite E in Ee.
    destruct (rewrite_each_in _ _ _ _ _ _ _ _ E Hin) as [[]|([f sg] & Hu & f' & s' & Hq & Hr & Hs & Hx)].
    destruct (each_ok _ _ _ _ _ _ _ _ Ee Hu) as [s2 Hr2]. apply sort_in in Hu. destruct Hu as [Hu _]. cbn [fst snd] in *.
    destruct (Q f sg Hu) as (i & p' & ar0 & -> & H1 & H2 & H3 & H4). injection Hx as -> -> ->.
    unfold equivalences in Hq. apply in_map_iff in Hq. destruct Hq as (r & <- & Hq). apply filter_In in Hq. destruct Hq as [Hq1 Hq2].
    apply String.eqb_eq in Hq2. right. exists (Pred i p' [] ar0), r, sg. constructor; auto.
    - rewrite Aq. exact H3.
    - intros ar' [_ F1] F2. rewrite Aq in F2. destruct F2 as [_ F2]. apply H4; assumption.
    - unfold lit_metas. rewrite Aq. exact Hr.
    - unfold lit_metas. rewrite Aq. cbn [atom_args]. congruence. }
  unfold rewrite_real, rewrite_strict, rewrite in *.
  destruct lit as [| | | | | |i q| | |]; try (eapply (G _ _ eq_refl eq_refl); [first [exact Fl|exact Logic.I]|exact NO|exact E]).
  eapply (G _ _ eq_refl eq_refl); [|exact NO|exact E]. destruct q; first [exact Fl|exact Logic.I].
Qed.
End Run.

(** *** The substituted right-hand side *)
Lemma well_closed ar t : well ar t -> t_vars t = [] /\ t_tyvars t = [] /\ t_noid t = true /\ t_tymetas t = [].
Proof.
  induction t as [x|p tys l IH|x m|m] using term_ind'; intros W; try (destruct W; fail); [|cbn; auto].
  apply well_fun in W. destruct W as (-> & _ & _ & W).
  assert (G : Forall (fun t => t_vars t = [] /\ t_tyvars t = [] /\ t_noid t = true /\ t_tymetas t = []) l).
  { rewrite Forall_forall in *. auto. }
  clear IH W. cbn. induction G as [|a l (H1 & H2 & H3 & H4) G IHG]; cbn; auto. rewrite H1, H2, H3, H4. exact IHG.
Qed.
Lemma mcount_msubst j i u t : j <> i -> mcount j u = O -> mcount j (msubst i u t) = mcount j t.
Proof.
  intros N U. induction t as [x|p tys l IH|x m|m] using term_ind'; cbn; auto.
  - f_equal. rewrite map_map. apply map_ext_in. rewrite Forall_forall in IH. auto.
  - destruct (m_index m =? i) eqn:E; [|reflexivity]. apply Z.eqb_eq in E. rewrite U. replace (m_index m =? j) with false; [reflexivity|].
    symmetry. apply Z.eqb_neq. congruence.
Qed.
Lemma aaa_impl (P Q : term -> Prop) (h : term -> term) i u f : (forall t, P t -> Q (msubst i u t)) -> all_atom_args P f -> all_atom_args Q (fmsubst i u f).
Proof.
  intros H. induction f using form_ind'; intros A; inversion A; subst; cbn; constructor; auto.
  - apply Forall_forall. intros g Hg. apply in_map_iff in Hg. destruct Hg as (g' & <- & Hg). rewrite Forall_forall in *. auto.
  - apply Forall_forall. intros g Hg. apply in_map_iff in Hg. destruct Hg as (g' & <- & Hg). rewrite Forall_forall in *. auto.
  - apply Forall_forall. intros g Hg. apply in_map_iff in Hg. destruct Hg as (g' & <- & Hg). rewrite Forall_forall in *. auto.
Qed.
Lemma mcount_in j t : mcount j t = O <-> ~ In j (t_metas t).
Proof.
  induction t as [x|p tys l IH|x m|m] using term_ind'; cbn; try tauto.
  - induction IH as [|a l Ha IH IHl]; cbn; [tauto|]. rewrite in_app_iff. unfold list_sum in IHl. rewrite Nat.eq_add_0. tauto.
  - destruct (m_index m =? j) eqn:E; [apply Z.eqb_eq in E|apply Z.eqb_neq in E]; split; intros H; try discriminate; try tauto.
Qed.
Lemma fms_gone i u f : ~ In i (t_metas u) -> ~ In i (f_metas (fmsubst i u f)).
Proof.
  intros U. assert (G : forall t, ~ In i (t_metas (msubst i u t))).
  { induction t as [x|p tys l IH|x m|m] using term_ind'; cbn; auto.
    - intros H. apply in_flat_map in H. destruct H as (a & Ha & H). apply in_map_iff in Ha. destruct Ha as (a' & <- & Ha).
      rewrite Forall_forall in IH. exact (IH a' Ha H).
    - destruct (m_index m =? i) eqn:E; [exact U|]. apply Z.eqb_neq in E. cbn. tauto. }
  unfold f_metas. induction f using form_ind'; cbn; auto.
  - intros K. apply in_flat_map in K. destruct K as (g & Hg & K). apply in_map_iff in Hg. destruct Hg as (g' & <- & Hg). rewrite Forall_forall in H. exact (H g' Hg K).
  - intros K. apply in_flat_map in K. destruct K as (g & Hg & K). apply in_map_iff in Hg. destruct Hg as (g' & <- & Hg). rewrite Forall_forall in H. exact (H g' Hg K).
  - rewrite in_app_iff. tauto.
  - rewrite in_app_iff. tauto.
  - intros K. apply in_flat_map in K. destruct K as (g & Hg & K). apply in_map_iff in Hg. destruct Hg as (g' & <- & Hg). exact (G g' K).
Qed.
Lemma substitute_ok ar sg : forall f, okS ar sg -> (forall k t k' t', In (k, t) sg -> In (k', t') sg -> ~ In (m_index k) (t_metas t')) ->
  linear_for sg f -> f_noid f ->
  f_noid (substitute f sg) /\ (forall b, In b (f_metas (substitute f sg)) -> In b (f_metas f) /\ ~ In b (keys sg) \/ exists k t, In (k, t) sg /\ In b (t_metas t)) /\
  incl (fv (substitute f sg)) (fv f) /\ incl (ftv (substitute f sg)) (ftv f) /\
  forall I (w : val I), satisfies w sg -> (holds (substitute f sg) w <-> holds f w).
Proof.
  unfold substitute. induction sg as [|[k u] sg IH]; intros f O So L N; cbn [fold_left fst snd].
  - split; [exact N|]. split; [intros b Hb; left; split; [exact Hb|intros []]|]. split; [apply incl_refl|]. split; [apply incl_refl|]. tauto.
  - destruct O as [O1 O2]. cbn in O1. inversion O1 as [|? ? O3 O4]; subst. destruct (O2 k u (or_introl eq_refl)) as [Pk Wu].
    destruct (well_closed ar u Wu) as (U1 & U2 & U3 & U4).
    assert (Ku : ~ In (m_index k) (t_metas u)) by (apply (So k u k u); left; reflexivity).
    assert (E : replace_meta k u f = fmsubst (m_index k) u f).
    { apply replace_meta_linear; [|apply (L k u); left; reflexivity]. intros m' ->. cbn in Ku. intros K. apply Ku. auto. }
    rewrite E. destruct (IH (fmsubst (m_index k) u f)) as (H1 & H2 & H3 & H4 & H5).
    + split; [exact O4|]. intros k' t' H. apply O2. right. exact H.
    + intros k1 t1 k2 t2 K1 K2. apply (So k1 t1 k2 t2); right; assumption.
    + intros k' t' H. apply (aaa_impl (fun x => (mcount (m_index k') x <= 1)%nat) _ (fun t => t)); [|apply (L k' t'); right; exact H].
      intros t Ht. rewrite mcount_msubst; [exact Ht| |].
      * intros K. apply O3. rewrite <- K. unfold keys. apply in_map_iff. exists (k', t'). auto.
      * apply mcount_in. apply (So k' t' k u); [right; exact H|left; reflexivity].
    + apply fms_noid; assumption.
    + split; [exact H1|]. split; [|split; [|split]].
      * intros b Hb. apply H2 in Hb. destruct Hb as [[Hb1 Hb2]|(k' & t' & K1 & K2)]; [|right; exists k', t'; split; [right|]; assumption].
        destruct (Z.eq_dec b (m_index k)) as [->|Nb]; [destruct (fms_gone (m_index k) u f Ku Hb1)|].
        apply fms_metas in Hb1. destruct Hb1 as [Hb1|Hb1]; [|right; exists k, u; split; [left; reflexivity|exact Hb1]].
        left. split; [exact Hb1|]. cbn. intros [K|K]; [congruence|exact (Hb2 K)].
      * eapply incl_tran; [exact H3|apply fms_fv; exact U1].
      * eapply incl_tran; [exact H4|apply fms_ftv; exact U2].
      * intros I w S. rewrite H5; [|intros k' t' H; apply S; right; exact H]. rewrite fms_holds by assumption.
        rewrite <- (S k u (or_introl eq_refl)). apply set_mv_self.
Qed.

(** C45 *)
Theorem rewritten_complete n fe (ar : signature) rules lit ix s c a r sg : rewritten n fe rules lit ix s c a r sg ->
  first_order ar a -> first_order ar (atom_of lit) -> f_noid (snd r) -> linear_for sg (snd r) ->
  forall k t, In (k, t) sg -> ~ In (m_index k) (f_metas c).
Proof.
  intros R Fa Fl N L k t Hk Hc. destruct R as [_ _ _ So _ Ok' _ _ _ ->]. specialize (Ok' ar Fa Fl). destruct So as [S1 S2].
  assert (So : forall k t k' t', In (k, t) sg -> In (k', t') sg -> ~ In (m_index k) (t_metas t')).
  { intros k1 t1 k2 t2 H1 H2 K. apply (S2 k2 t2 _ H2 K). unfold keys. apply in_map_iff. exists (k1, t1). auto. }
  destruct (substitute_ok ar sg (snd r) Ok' So L N) as (_ & H & _). apply H in Hc. destruct Hc as [[_ Hc]|(k' & t' & H1 & H2)].
  - apply Hc. unfold keys. apply in_map_iff. exists (k, t). auto.
  - exact (So k t k' t' Hk H1 H2).
Qed.

(** *** Soundness *)
Lemma same_metas t : forall u, same_term t u -> t_metas t = t_metas u.
Proof.
  induction t as [x|p tys l IH|x m|m] using term_ind'; intros u S; inversion S; subst; cbn; auto; [|congruence].
  match goal with H : Forall2 same_term l ?l2 |- _ => rename H into F end. clear S. induction F as [|a b l l2 H F IHF]; cbn; [reflexivity|].
  inversion IH as [|? ? K1 K2]; subst. rewrite (K1 b H), (IHF K2). reflexivity.
Qed.
Lemma metas_ssubst s t b : In b (t_metas (ssubst s t)) -> exists m, In m (t_metas t) /\ ((assoc m s = None /\ b = m) \/ exists u, assoc m s = Some u /\ In b (t_metas u)).
Proof.
  induction t as [x|p tys l IH|x m|m] using term_ind'; cbn [ssubst]; try (intros []; fail).
  - cbn [t_metas]. intros H. apply in_flat_map in H. destruct H as (a & Ha & H). apply in_map_iff in Ha. destruct Ha as (a' & <- & Ha).
    rewrite Forall_forall in IH. destruct (IH a' Ha H) as (m & Hm & K). exists m. split; [|exact K]. apply in_flat_map. exists a'. auto.
  - destruct (assoc (m_index m) s) as [u|] eqn:E.
    + intros H. exists (m_index m). split; [left; reflexivity|]. right. exists u. auto.
    + intros [<-|[]]. exists (m_index m). split; [left; reflexivity|]. left. auto.
Qed.
Lemma metas_ssubst_keep s t b : ~ In b (keys s) -> In b (t_metas t) -> In b (t_metas (ssubst s t)).
Proof.
  intros N. induction t as [x|p tys l IH|x m|m] using term_ind'; cbn [ssubst]; try (intros []; fail).
  - cbn [t_metas]. intros H. apply in_flat_map in H. destruct H as (a & Ha & H). apply in_flat_map. exists (ssubst s a). split; [apply in_map, Ha|].
    rewrite Forall_forall in IH. auto.
  - intros [<-|[]]. rewrite (proj2 (assoc_none s (m_index m)) N). left. reflexivity.
Qed.
Lemma sat_ssubst {I} (w : val I) s t : satisfies w s -> ev w (ssubst s t) = ev w t.
Proof.
  intros S. induction t as [x|p tys l IH|x m|m] using term_ind'; cbn [ssubst ev]; auto.
  - f_equal. rewrite map_map. apply map_ext_in. rewrite Forall_forall in IH. auto.
  - destruct (assoc (m_index m) s) as [u|] eqn:E; [|reflexivity]. apply assoc_some in E. destruct E as (k & Hk & <-). symmetry. apply (S k u Hk).
Qed.
Lemma well_part (ar : signature) (P : Z -> Prop) t : well ar t -> (forall b, In b (t_metas t) -> P b) ->
  well (mkSig (arity ar) (fun m => known ar m /\ P (m_index m)) (symbol ar)) t.
Proof.
  induction t as [x|p tys l IH|x m|m] using term_ind'; intros W H; try (destruct W; fail).
  - apply well_fun in W. destruct W as (-> & L & S & W). apply well_fun. split; [reflexivity|]. split; [exact L|]. split; [exact S|].
    apply Forall_forall. intros t Ht. rewrite Forall_forall in *. apply IH; auto. intros b Hb. apply H. cbn. apply in_flat_map. eauto.
  - destruct W as [W1 W2]. split; [exact W1|]. split; [exact W2|]. apply H. left. reflexivity.
Qed.
Lemma well_part_in (ar : signature) (P : Z -> Prop) t : well (mkSig (arity ar) (fun m => known ar m /\ P (m_index m)) (symbol ar)) t -> forall b, In b (t_metas t) -> P b.
Proof.
  induction t as [x|p tys l IH|x m|m] using term_ind'; intros W b H; try (destruct W; fail).
  - apply well_fun in W. destruct W as (_ & _ & _ & W). cbn in H. apply in_flat_map in H. destruct H as (a & Ha & H). rewrite Forall_forall in *. exact (IH a Ha (W a Ha) b H).
  - destruct W as (_ & _ & W). destruct H as [<-|[]]. exact W.
Qed.
Lemma lit_metas_idx lit : map m_index (lit_metas lit) = flat_map t_metas (atom_args (atom_of lit)).
Proof.
  unfold lit_metas. generalize (atom_args (atom_of lit)). induction l as [|a l IH]; cbn; [reflexivity|]. rewrite map_app, IH, meta_list_idx. reflexivity.
Qed.
(** every metavariable of a value can be seen from the literal *)
Lemma values_relevant n fe (ar : signature) rules lit ix s c a r sg : rewritten n fe rules lit ix s c a r sg ->
  first_order ar a -> first_order ar (atom_of lit) -> direct_relevant (lit_metas lit) sg ->
  forall k t b, In (k, t) sg -> In b (t_metas t) -> relevant (lit_metas lit) sg b.
Proof.
  intros R Fa Fl DR k t b Hk Hb. destruct R as [_ _ _ [So1 So2] U Ok' _ _ _ _].
  set (P := fun b => In b (flat_map t_metas (atom_args a)) \/ In b (flat_map t_metas (atom_args (atom_of lit)))).
  destruct a as [| | | | | | |i p tys args| |]; try (destruct U; fail).
  destruct (atom_of lit) as [| | | | | | |j q tys' args'| |] eqn:El; try (destruct U; fail).
  destruct Fa as [-> Wa]. destruct Fl as [-> Wl]. destruct U as (_ & _ & _ & U). cbn [atom_args] in P.
  destruct (Ok' (mkSig (arity ar) (fun m => known ar m /\ P (m_index m)) (symbol ar))) as [_ Ov].
  - split; [reflexivity|]. apply well_part; [exact Wa|]. intros b' Hb'. left. exact Hb'.
  - split; [reflexivity|]. apply well_part; [exact Wl|]. intros b' Hb'. right. exact Hb'.
  - destruct (Ov k t Hk) as [_ Wt]. pose proof (well_part_in ar P t Wt b Hb) as Pb.
    assert (Nk : ~ In b (keys sg)) by (apply (So2 k t b Hk Hb)).
    assert (LM : map m_index (lit_metas lit) = flat_map t_metas args') by (rewrite lit_metas_idx, El; reflexivity).
    destruct Pb as [Pb|Pb]; [|left; rewrite LM; exact Pb].
    apply in_flat_map in Pb. destruct Pb as (x & Hx & Pb).
    assert (G : exists y, In y args' /\ same_term (ssubst sg x) (ssubst sg y)).
    { clear - U Hx. induction U as [|x0 y0 l l' H U IH]; [destruct Hx|]. destruct Hx as [->|Hx]; [exists y0; split; [left; reflexivity|exact H]|].
      destruct (IH Hx) as (y & Hy & H'). exists y. split; [right|]; assumption. }
    destruct G as (y & Hy & Sy). pose proof (metas_ssubst_keep sg x b Nk Pb) as B. rewrite (same_metas _ _ Sy) in B.
    destruct (metas_ssubst sg y b B) as (m & Hm & [[Em ->]|(u & Em & Hu)]).
    + left. rewrite LM. apply in_flat_map. exists y. auto.
    + apply assoc_some in Em. destruct Em as (k' & Hk' & <-).
      assert (Mk : In (m_index k') (map m_index (lit_metas lit))) by (rewrite LM; apply in_flat_map; exists y; auto).
      destruct u as [x0|p0 tys0 l0|x0 m0|m0]; try (destruct Hu; fail).
      * right. exists k', (Fun p0 tys0 l0). split; [exact Hk'|]. split; [exact Mk|]. split; [discriminate|exact Hu].
      * destruct Hu as [<-|[]]. apply (DR k' m0 Hk' Mk).
Qed.
Lemma same_atom_holds {I} (w : val I) a b : same_atom a b -> (holds a w <-> holds b w).
Proof.
  intros S. destruct a; destruct b; try (destruct S; fail); try (cbn; tauto). destruct S as (E & -> & -> & F). cbn. rewrite E.
  assert (G : map (ev w) args = map (ev w) args0). { clear - F. induction F as [|x y l l' H F IH]; cbn; [reflexivity|]. rewrite (same_term_ev w _ _ H), IH. reflexivity. }
  rewrite G. tauto.
Qed.
Lemma unified_holds {I} (w : val I) s a b : satisfies w s -> atoms_unified s a b -> (holds a w <-> holds b w).
Proof.
  intros S U. destruct a; destruct b; try (destruct U; fail). destruct U as (E & -> & -> & F). cbn. rewrite E.
  assert (G : map (ev w) args = map (ev w) args0).
  { clear - F S. induction F as [|x y l l' H F IH]; cbn; [reflexivity|]. pose proof (same_term_ev w _ _ H) as H'. rewrite !sat_ssubst in H' by exact S. rewrite H', IH. reflexivity. }
  rewrite G. tauto.
Qed.
(** C43, rewriting *)
Theorem rewritten_sound n fe (ar : signature) rules lit ix s c a r sg : rewritten n fe rules lit ix s c a r sg ->
  first_order ar a -> first_order ar lit -> keys_apart key rules -> f_noid (snd r) -> linear_for sg (snd r) -> direct_relevant (lit_metas lit) sg ->
  forall I (v : val I), rule_valid I (match lit with Not _ _ => false | _ => true end) r -> satisfies v s -> holds lit v -> holds c v.
Proof.
  intros R Fa Fl KA N L DR I v RV Sv Hl.
  assert (Fl' : first_order ar (atom_of lit)).
  { pose proof (rw_unified _ _ _ _ _ _ _ _ _ _ R) as U. destruct lit as [| | | | | |j f| | |]; try exact Fl. destruct f; first [exact Fl|exact Logic.I|destruct a; destruct U]. }
  pose proof (values_relevant n fe ar rules lit ix s c a r sg R Fa Fl' DR) as VR.
  pose proof (rw_ok _ _ _ _ _ _ _ _ _ _ R ar Fa Fl') as Ok'. pose proof (rw_solved _ _ _ _ _ _ _ _ _ _ R) as So.
  assert (NS : ~ shared (lit_metas lit) sg).
  { intros (k & k' & m & m' & H1 & H2 & _ & _ & H3 & _ & H4). apply H4, (DR k m H1 H3). }
  pose proof (restrict_keeps_more ar n fe sg (lit_metas lit) s Ok' So NS (rw_strict _ _ _ _ _ _ _ _ _ _ R) (rw_restrict _ _ _ _ _ _ _ _ _ _ R)) as KM.
  set (A := mkAlg (D I) (fun p tys l => fn I p (map (evty v) tys) l) (fun i => fn I i [] []) (bv v)).
  assert (TE : forall u t, tev A u t = ev (mkVal (bv v) u (tbv v) (tmv v)) t).
  { intros u t. induction t as [x|p tys l IH|x m|m] using term_ind'; cbn [tev ev]; auto. subst A. cbn. f_equal.
    - apply map_ext. intros t. apply evty_mv.
    - apply map_ext_in. rewrite Forall_forall in IH. intros t Ht. apply (IH t Ht). }
  assert (Ve : mkVal (bv v) (mv v) (tbv v) (tmv v) = v) by (destruct v; reflexivity).
  destruct (KM A (mv v)) as (v' & Ag & Sv').
  { intros k t H. rewrite TE, Ve. apply (Sv k t H). }
  set (w := mkVal (bv v) v' (tbv v) (tmv v)).
  assert (Sw : satisfies w sg).
  { intros k t H. change (mv w) with v'. rewrite (Sv' k t H). apply TE. }
  assert (So' : forall k t k' t', In (k, t) sg -> In (k', t') sg -> ~ In (m_index k) (t_metas t')).
  { intros k1 t1 k2 t2 H1 H2 K. destruct So as [_ S2]. apply (S2 k2 t2 _ H2 K). unfold keys. apply in_map_iff. exists (k1, t1). auto. }
  destruct (substitute_ok ar sg (snd r) Ok' So' L N) as (Nc & Mc & _ & _ & Hc).
  pose proof (rw_form _ _ _ _ _ _ _ _ _ _ R) as Ec. rewrite Ec.
  assert (Hr : holds (snd r) w).
  { apply RV. pose proof (rw_unified _ _ _ _ _ _ _ _ _ _ R) as U.
    assert (Sa : holds (fst r) w <-> holds a w).
    { pose proof (rw_atom _ _ _ _ _ _ _ _ _ _ R) as Ra. apply in_map_iff in Ra. destruct Ra as (r' & <- & Hr').
      apply same_atom_holds, KA; [apply (rw_rule _ _ _ _ _ _ _ _ _ _ R)|exact Hr'|apply (rw_key _ _ _ _ _ _ _ _ _ _ R)]. }
    assert (Sl : holds (atom_of lit) w <-> holds (atom_of lit) v).
    { destruct (atom_of lit) as [| | | | | | |j q tys' args'| |] eqn:El; destruct a; try (destruct U; fail). destruct Fl' as [-> Wl].
      cbn [holds]. replace (map (ev w) args') with (map (ev v) args'); [tauto|]. apply well_fun in Wl. destruct Wl as (_ & _ & _ & Wl).
      assert (Im : forall b, In b (flat_map t_metas args') -> mv v b = v' b).
      { intros b Hb. apply Ag. left. left. rewrite lit_metas_idx, El. exact Hb. }
      clear - Im Wl. subst w. induction Wl as [|x l W Wl IH]; cbn; [reflexivity|]. f_equal; [|apply IH; intros b Hb; apply Im; cbn; apply in_or_app; auto].
      assert (Im' : forall b, In b (t_metas x) -> mv v b = v' b) by (intros b Hb; apply Im; cbn; apply in_or_app; auto). clear - Im' W.
      induction x as [x|p tys l IH|x m|m] using term_ind'; try (destruct W; fail); [|apply Im'; left; reflexivity].
      apply well_fun in W. destruct W as (-> & _ & _ & W). cbn. f_equal. apply map_ext_in. intros x Hx. rewrite Forall_forall in *.
      apply IH; auto. intros b Hb. apply Im'. cbn. apply in_flat_map. eauto. }
    destruct lit as [| | | | | |j f|j p0 ty0 ar0| |]; cbn [atom_of] in *; try (destruct a; destruct U; fail).
    - rewrite Sa, (unified_holds w sg _ _ Sw U), Sl. exact Hl.
    - rewrite Sa, (unified_holds w sg _ _ Sw U), Sl. exact Hl. }
  apply (Hc I w Sw) in Hr. revert Hr. apply holds_free; auto.
  intros b Hb. cbn. apply Ag. apply Mc in Hb. destruct Hb as [[Hb1 Hb2]|(k & t & H1 & H2)]; [|left; exact (VR k t b H1 H2)].
  destruct (in_dec Z.eq_dec b (flat_map (fun p => t_metas (snd p)) sg)) as [K|K].
  - apply in_flat_map in K. destruct K as ([k t] & H1 & H2). left. exact (VR k t b H1 H2).
  - right. split; [exact Hb2|]. intros k t H1 H2. apply K. apply in_flat_map. exists (k, t). auto.
Qed.

(** *** Two sufficient conditions *)
Lemma ok_keys_apart (ar : signature) rules : Bse_Spec.distinct_names ar -> Forall (fun r => pred (fst r) /\ first_order ar (fst r)) rules -> keys_apart key rules.
Proof.
  intros D F r r' H H' E. rewrite Forall_forall in F. destruct (F r H) as [(i & p & tys & args & P) W]. destruct (F r' H') as [(i' & p' & tys' & args' & P') W'].
  rewrite P, P' in *. destruct W as [-> W]. destruct W' as [-> W']. cbn [key] in E.
  pose proof (Bse_Proofs.show_inj ar D _ _ W W' E) as S. inversion S; subst. cbn. auto.
Qed.
(** A rule atom all of whose metavariables the match binds: what isFiltering is meant to check. *)
Lemma bound_direct n fe (ar : signature) rules lit ix s c a r sg : rewritten n fe rules lit ix s c a r sg ->
  first_order ar a -> first_order ar (atom_of lit) -> (forall b, In b (flat_map t_metas (atom_args a)) -> In b (keys sg)) -> direct_relevant (lit_metas lit) sg.
Proof.
  intros R Fa Fl B k m Hk Mk. destruct R as [_ _ _ [So1 So2] U Ok' _ _ _ _].
  set (P := fun b => In b (flat_map t_metas (atom_args a)) \/ In b (flat_map t_metas (atom_args (atom_of lit)))).
  destruct a as [| | | | | | |i p tys args| |]; try (destruct U; fail).
  destruct (atom_of lit) as [| | | | | | |j q tys' args'| |] eqn:El; try (destruct U; fail).
  destruct Fa as [-> Wa]. destruct Fl as [-> Wl]. cbn [atom_args] in *.
  destruct (Ok' (mkSig (arity ar) (fun m => known ar m /\ P (m_index m)) (symbol ar))) as [_ Ov].
  - split; [reflexivity|]. apply well_part; [exact Wa|]. intros b' Hb'. left. exact Hb'.
  - split; [reflexivity|]. apply well_part; [exact Wl|]. intros b' Hb'. right. exact Hb'.
  - destruct (Ov k _ Hk) as [_ Wt]. pose proof (well_part_in ar P _ Wt (m_index m) (or_introl eq_refl)) as Pb. subst P. cbn in Pb.
    destruct Pb as [Pb|Pb]; [destruct (So2 k _ (m_index m) Hk (or_introl eq_refl) (B _ Pb))|].
    left. rewrite lit_metas_idx, El. exact Pb.
Qed.
