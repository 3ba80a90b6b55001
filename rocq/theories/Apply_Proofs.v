(** The application of a substitution to a branch (C146, C147). *)
From Coq Require Import ZArith List Bool String Lia.
From Verif Require Import LibSet_Model Ast_Model Occ_Spec Rules_Model Expand_Model Sem_Spec Rules_Spec Ast_Proofs Subst_Proofs Tableau_Spec Expand_Spec Unif_Model Unif_Spec UnifTree_Model UnifLoss_Model Closure_Model Closure_Spec Closure_Proofs
  Select_Model Select_Spec Apply_Model Apply_Spec.
From Verif Require Import UnifTree_Final.
From Verif Require Sem_Proofs Rules_Proofs PrfSubst_Proofs.
Import ListNotations.
Open Scope list_scope.
Open Scope Z_scope.

(** *** the value of a term *)
Lemma unbound_ev {I} (v w : val I) t : t_vars t = [] -> t_tyvars t = [] -> (forall i, mv v i = mv w i) -> (forall s i, tmv v s i = tmv w s i) -> ev v t = ev w t.
Proof. intros E1 E2 H1 H2. apply Sem_Proofs.ev_agree. rewrite E1, E2. split; auto; intros ? []. Qed.
Lemma replace_sub_ev {I} (v : val I) m u t : mv v (m_index m) = ev v u -> ev v (replace_sub (Meta m) u t) = ev v t.
Proof.
  intros H. induction t as [i|p tys l IH|i n|k] using term_ind'; try reflexivity.
  - rewrite replace_sub_fun. destruct (term_eqb (Fun p tys l) (Meta m)) eqn:E; [apply term_eqb_reflect in E; inversion E|]. cbn [ev]. f_equal. generalize false.
    clear E. induction IH as [|a r Ha Hr IHr]; intros b; [reflexivity|]. cbn. destruct (negb _ && negb b); cbn; f_equal; auto.
  - cbn [replace_sub]. destruct (term_eqb (Meta k) (Meta m)) eqn:E; [|reflexivity]. apply term_eqb_reflect in E. inversion E as [| | |? ? E']; subst. cbn. rewrite E'. symmetry. exact H.
Qed.
Lemma forall_vars_iff {I} (P Q : val I -> Prop) vs : forall v, (forall w, (forall i, mv w i = mv v i) -> (forall s i, tmv w s i = tmv v s i) -> (P w <-> Q w)) -> forall_vars vs P v <-> forall_vars vs Q v.
Proof.
  induction vs as [|x r IH]; intros v H; cbn; [apply H; reflexivity|]. destruct (is_ttype _); split; intros K t; specialize (K t); revert K; apply IH; intros w Hw Hw'; apply H; assumption.
Qed.
Lemma exists_vars_iff {I} (P Q : val I -> Prop) vs : forall v, (forall w, (forall i, mv w i = mv v i) -> (forall s i, tmv w s i = tmv v s i) -> (P w <-> Q w)) -> exists_vars vs P v <-> exists_vars vs Q v.
Proof.
  induction vs as [|x r IH]; intros v H; cbn; [apply H; reflexivity|]. destruct (is_ttype _); split; intros [t K]; exists t; revert K; apply IH; intros w Hw Hw'; apply H; assumption.
Qed.
Lemma replace_meta_holds {I} m u f : t_vars u = [] -> t_tyvars u = [] -> forall v : val I, mv v (m_index m) = ev v u -> holds (replace_meta m u f) v <-> holds f v.
Proof.
  intros W W'. induction f as [i vs f IH|i vs f IH|i fs IH|i fs IH|i a b IHa IHb|i a b IHa IHb|i f IH|i p tys args|i|i] using form_ind'; intros v H; cbn [replace_meta holds].
  - apply forall_vars_iff. intros w Hw Hw'. apply IH. rewrite Hw, H. apply unbound_ev; [exact W|exact W'| |]; intros; symmetry; auto.
  - apply exists_vars_iff. intros w Hw Hw'. apply IH. rewrite Hw, H. apply unbound_ev; [exact W|exact W'| |]; intros; symmetry; auto.
  - induction IH as [|a r Ha Hr IHr]; cbn; [tauto|]. rewrite (Ha v H), IHr. tauto.
  - induction IH as [|a r Ha Hr IHr]; cbn; [tauto|]. rewrite (Ha v H), IHr. tauto.
  - rewrite (IHa v H), (IHb v H). tauto.
  - rewrite (IHa v H), (IHb v H). tauto.
  - rewrite (IH v H). tauto.
  - rewrite map_map. assert (E : map (fun x => ev v (replace_sub (Meta m) u x)) args = map (ev v) args) by (apply map_ext; intros x; apply replace_sub_ev, H). rewrite E. tauto.
  - tauto.
  - tauto.
Qed.
Lemma apply_ty_holds {I} (v : val I) n i fo u f : ty_tyvars u = [] -> is_ttype u = false -> tmv v n i = evty v u -> holds (form_subst_ty (TyMeta n i fo) u f) v <-> holds f v.
Proof.
  intros E T H. rewrite Sem_Proofs.form_subst_ty_ok; [|exact Logic.I|exact T|intros x _ _; rewrite E; split; intros []].
  apply Sem_Proofs.holds_agree, Sem_Proofs.veq_agree. split; [reflexivity|split; [reflexivity|split; [reflexivity|]]]. intros s j. cbn. destruct (String.eqb_spec s n) as [->|]; [|reflexivity]. destruct (Z.eqb_spec j i) as [->|]; [|reflexivity]. symmetry. exact H.
Qed.
Theorem apply_form_holds {I} (v : val I) s : unbound_subst s -> obeys v s -> forall f, holds (apply_form s f) v <-> holds f v.
Proof.
  induction s as [|b s IH]; intros [W T] [O1 O2] f; cbn; [tauto|]. unfold apply_form in IH.
  rewrite IH; [|split; intros; [eapply W|eapply T]; right; eassumption|split; intros; [apply O1|eapply O2]; right; eassumption].
  destruct b as [x i fo u|m u]; cbn.
  - destruct (T x i fo u (or_introl eq_refl)) as [T1 T2]. exact (apply_ty_holds v x i fo u f T1 T2 (O2 x i fo u (or_introl eq_refl))).
  - destruct (W m u (or_introl eq_refl)) as [W1 W2]. exact (replace_meta_holds m u f W1 W2 v (O1 m u (or_introl eq_refl))).
Qed.

(** *** the lists of a state *)
Definition copies (s : list mixed) (l l' : list fat) : Prop :=
  (forall x, In x l' -> exists y, In y l /\ ft_form x = apply_form s (ft_form y)) /\
  (forall y, In y l -> exists x, In x l' /\ form_eqb (apply_form s (ft_form y)) (ft_form x) = true).
Section Lists.
Variable same : list term -> list term -> bool.
Lemma apply_fats_copies s l : copies s l (apply_fats same s l).
Proof.
  unfold apply_fats. assert (G : forall l acc,
    (forall x, In x (fold_left (fun res x => fl_append same res (apply_fat s x)) l acc) -> In x acc \/ exists y, In y l /\ ft_form x = apply_form s (ft_form y)) /\
    (forall x, In x acc -> In x (fold_left (fun res x => fl_append same res (apply_fat s x)) l acc)) /\
    (forall y, In y l -> exists x, In x (fold_left (fun res x => fl_append same res (apply_fat s x)) l acc) /\ form_eqb (apply_form s (ft_form y)) (ft_form x) = true)).
  { clear l. induction l as [|y l IH]; intros acc; cbn [fold_left]; [split; [auto|split; [auto|intros ? []]]|]. destruct (IH (fl_append same acc (apply_fat s y))) as (H1 & H2 & H3). split; [|split].
    - intros x Hx. destruct (H1 x Hx) as [H|(z & Hz & E)]; [|right; exists z; split; [right; exact Hz|exact E]]. unfold fl_append in H. destruct (fl_contains _ _ _); [auto|].
      apply in_app_or in H. destruct H as [H|[<-|[]]]; [auto|]. right. exists y. split; [left; reflexivity|reflexivity].
    - intros x Hx. apply H2. unfold fl_append. destruct (fl_contains _ _ _); [exact Hx|apply in_or_app; auto].
    - intros z [<-|Hz]; [|exact (H3 z Hz)]. destruct (fl_contains same acc (apply_fat s y)) eqn:C.
      + unfold fl_contains in C. apply existsb_exists in C. destruct C as (x & Hx & Ex). exists x. split; [apply H2; unfold fl_append, fl_contains; destruct (existsb _ _); [exact Hx|apply in_or_app; auto]|].
        unfold fat_eqb in Ex. apply andb_true_iff in Ex. exact (proj1 Ex).
      + exists (apply_fat s y). split; [apply H2; unfold fl_append; rewrite C; apply in_or_app; right; left; reflexivity|]. apply Rules_Proofs.form_eqb_refl. }
  destruct (G l []) as (H1 & _ & H3). split; [|exact H3]. intros x Hx. destruct (H1 x Hx) as [[]|H]. exact H.
Qed.
Lemma apply_gens_copies s l : copies s (map fst l) (map fst (apply_gens same s l)).
Proof.
  unfold apply_gens. set (F := fun (res : list (fat * Z)) (x : fat * Z) => let y := apply_gen s x in if existsb (fun z => fat_eqb same (fst z) (fst y)) res then res else res ++ [y]).
  assert (G : forall l acc,
    (forall x, In x (fold_left F l acc) -> In x acc \/ exists y, In y l /\ ft_form (fst x) = apply_form s (ft_form (fst y))) /\
    (forall x, In x acc -> In x (fold_left F l acc)) /\
    (forall y, In y l -> exists x, In x (fold_left F l acc) /\ form_eqb (ft_form (fst x)) (apply_form s (ft_form (fst y))) = true)).
  { clear l. induction l as [|y l IH]; intros acc; cbn [fold_left]; [split; [auto|split; [auto|intros ? []]]|]. destruct (IH (F acc y)) as (H1 & H2 & H3). split; [|split].
    - intros x Hx. destruct (H1 x Hx) as [H|(z & Hz & E)]; [|right; exists z; split; [right; exact Hz|exact E]]. unfold F in H. cbv zeta in H. destruct (existsb _ _); [auto|].
      apply in_app_or in H. destruct H as [H|[<-|[]]]; [auto|]. right. exists y. split; [left; reflexivity|reflexivity].
    - intros x Hx. apply H2. unfold F. cbv zeta. destruct (existsb _ _); [exact Hx|apply in_or_app; auto].
    - intros z [<-|Hz]; [|exact (H3 z Hz)]. destruct (existsb (fun z => fat_eqb same (fst z) (fst (apply_gen s y))) acc) eqn:C.
      + pose proof C as C0. apply existsb_exists in C. destruct C as (x & Hx & Ex). exists x. split; [apply H2; unfold F; cbv zeta; rewrite C0; exact Hx|].
        unfold fat_eqb in Ex. apply andb_true_iff in Ex. exact (proj1 Ex).
      + exists (apply_gen s y). split; [apply H2; unfold F; cbv zeta; rewrite C; apply in_or_app; right; left; reflexivity|]. apply Rules_Proofs.form_eqb_refl. }
  destruct (G l []) as (H1 & _ & H3). split.
  - intros x Hx. apply in_map_iff in Hx. destruct Hx as (z & <- & Hz). destruct (H1 z Hz) as [[]|(y & Hy & E)]. exists (fst y). split; [apply in_map, Hy|exact E].
  - intros y Hy. apply in_map_iff in Hy. destruct Hy as (z & <- & Hz). destruct (H3 z Hz) as (x & Hx & E). exists (fst x). split; [apply in_map, Hx|]. rewrite PrfSubst_Proofs.same_sym; [reflexivity|exact E].
Qed.
Lemma copies_app s a a' b b' : copies s a a' -> copies s b b' -> copies s (a ++ b) (a' ++ b').
Proof.
  intros [A1 A2] [B1 B2]. split; intros x Hx; apply in_app_or in Hx; destruct Hx as [Hx|Hx].
  - destruct (A1 x Hx) as (y & Hy & E). exists y. split; [apply in_or_app; auto|exact E].
  - destruct (B1 x Hx) as (y & Hy & E). exists y. split; [apply in_or_app; auto|exact E].
  - destruct (A2 x Hx) as (y & Hy & E). exists y. split; [apply in_or_app; auto|exact E].
  - destruct (B2 x Hx) as (y & Hy & E). exists y. split; [apply in_or_app; auto|exact E].
Qed.
Lemma state_copies s st : copies s (forms_of st) (forms_of (apply_state same s st)).
Proof. unfold forms_of. cbn. repeat apply copies_app; try apply apply_fats_copies. apply apply_gens_copies. Qed.

(** C146: under the values that obey the substitution, the branch says the same *)
Theorem applied_says {I} (v : val I) s st : unbound_subst s -> obeys v s -> all_hold (forms_of (apply_state same s st)) v <-> all_hold (forms_of st) v.
Proof.
  intros P O. destruct (state_copies s st) as [C1 C2]. split; intros H x Hx.
  - destruct (C2 x Hx) as (y & Hy & E). apply (apply_form_holds v s P O). apply (Rules_Proofs.form_eqb_equiv _ _ E). exact (H y Hy).
  - destruct (C1 x Hx) as (y & Hy & E). rewrite E. apply (apply_form_holds v s P O). exact (H y Hy).
Qed.
End Lists.

(** *** the closing substitutions *)
Lemma replace_sub_same w m u t : same_term (ssubst w (Meta m)) (ssubst w u) -> same_term (ssubst w (replace_sub (Meta m) u t)) (ssubst w t).
Proof.
  intros H. induction t as [i|p tys l IH|i n|k] using term_ind'; try apply same_term_refl.
  - rewrite replace_sub_fun. destruct (term_eqb (Fun p tys l) (Meta m)) eqn:E; [apply term_eqb_reflect in E; inversion E|]. cbn [ssubst]. constructor; [reflexivity|apply Forall2_refl, Forall_forall; intros; apply same_ty_refl|].
    generalize false. clear E. induction IH as [|a r Ha Hr IHr]; intros b; [constructor|]. cbn. destruct (negb _ && negb b); cbn; constructor; auto. apply same_term_refl.
  - cbn [replace_sub]. destruct (term_eqb (Meta k) (Meta m)) eqn:E; [|apply same_term_refl]. apply term_eqb_reflect in E. inversion E as [| | |? ? E']; subst. apply same_term_sym.
    eapply same_term_trans; [|exact H]. cbn. rewrite E'. destruct (assoc (m_index m) w); [apply same_term_refl|constructor; exact E'].
Qed.
Definition untyped (s : list mixed) : Prop := forall x i f u, ~ In (MTy x i f u) s.
Lemma untyped_tl b s : untyped (b :: s) -> untyped s.
Proof. intros H x i f u Hin. apply (H x i f u). right. exact Hin. Qed.
Lemma apply_term_same w s t : untyped s -> extends w (binds s) -> same_term (ssubst w (apply_term s t)) (ssubst w t).
Proof.
  revert t. induction s as [|b s IH]; intros t T E; cbn; [apply same_term_refl|]. destruct b as [x i fo u|m u]; [destruct (T x i fo u (or_introl eq_refl))|].
  eapply same_term_trans; [apply IH; [exact (untyped_tl _ _ T)|intros k r Hk; apply E; right; exact Hk]|]. apply replace_sub_same. apply E. left. reflexivity.
Qed.
Lemma shape_not s : untyped s -> forall f i g, apply_form s f = Not i g -> exists g0, f = Not i g0 /\ g = apply_form s g0.
Proof.
  induction s as [|b s IH]; intros T f i g E; cbn in E; [exists g; auto|]. destruct b as [x j fo u|m u]; [destruct (T x j fo u (or_introl eq_refl))|].
  destruct (IH (untyped_tl _ _ T) _ _ _ E) as (g1 & E1 & E2). destruct f; try discriminate. cbn in E1. injection E1 as <- <-. eauto.
Qed.
Lemma shape_pred s : untyped s -> forall f i p tys args, apply_form s f = Pred i p tys args -> exists args0, f = Pred i p tys args0 /\ args = map (apply_term s) args0.
Proof.
  induction s as [|b s IH]; intros T f i p tys args E; cbn in E; [exists args; rewrite map_id; auto|]. destruct b as [x j fo u|m u]; [destruct (T x j fo u (or_introl eq_refl))|].
  destruct (IH (untyped_tl _ _ T) _ _ _ _ _ E) as (a1 & E1 & E2). destruct f; try discriminate. cbn in E1. injection E1 as <- <- <- <-. eexists. split; [reflexivity|]. rewrite E2, map_map. reflexivity.
Qed.
Lemma shape_bot s : untyped s -> forall f i, apply_form s f = Bot i -> f = Bot i.
Proof.
  induction s as [|b s IH]; intros T f i E; cbn in E; [exact E|]. destruct b as [x j fo u|m u]; [destruct (T x j fo u (or_introl eq_refl))|].
  pose proof (IH (untyped_tl _ _ T) _ _ E) as E1. destruct f; try discriminate. exact E1.
Qed.
Lemma shape_top s : untyped s -> forall f i, apply_form s f = Top i -> f = Top i.
Proof.
  induction s as [|b s IH]; intros T f i E; cbn in E; [exact E|]. destruct b as [x j fo u|m u]; [destruct (T x j fo u (or_introl eq_refl))|].
  pose proof (IH (untyped_tl _ _ T) _ _ E) as E1. destruct f; try discriminate. exact E1.
Qed.
Lemma args_same w s l l' : untyped s -> extends w (binds s) -> Forall2 (fun a a' => same_term (ssubst w a) (ssubst w a')) (map (apply_term s) l) (map (apply_term s) l') ->
  Forall2 (fun a a' => same_term (ssubst w a) (ssubst w a')) l l'.
Proof.
  intros T E. revert l'. induction l as [|a l IH]; intros [|a' l'] F; inversion F; subst; constructor; auto.
  eapply same_term_trans; [apply same_term_sym, (apply_term_same w s a T E)|]. eapply same_term_trans; [eassumption|apply (apply_term_same w s a' T E)].
Qed.
Theorem applied_closes same eqi w s st : untyped s -> extends w (binds s) -> closes eqi w (branch_of (apply_state same s st)) -> closes eqi w (branch_of st).
Proof.
  intros T E. assert (K : forall f ts, In (mkFat f ts) (br_forms (branch_of (apply_state same s st))) -> exists g ts', In (mkFat g ts') (br_forms (branch_of st)) /\ f = apply_form s g).
  { intros f ts H. destruct (proj1 (state_copies same s st) _ H) as ([g ts'] & Hg & Eg). exists g, ts'. auto. }
  intros [i ts H|i j ts H|i p tys args ts i' j' p' tys' args' ts' H1 H2 H3 H4 H5|i j p tys a a' ts H1 H2 H3].
  - destruct (K _ _ H) as (g & ts' & Hg & Eg). symmetry in Eg. apply shape_bot in Eg; [|exact T]. subst g. eapply cl_bot, Hg.
  - destruct (K _ _ H) as (g & ts' & Hg & Eg). symmetry in Eg. apply shape_not in Eg; [|exact T]. destruct Eg as (g0 & -> & Eg). symmetry in Eg. apply shape_top in Eg; [|exact T]. subst g0. eapply cl_top, Hg.
  - destruct (K _ _ H1) as (g & ts1 & Hg & Eg). symmetry in Eg. apply shape_pred in Eg; [|exact T]. destruct Eg as (l & -> & El).
    destruct (K _ _ H2) as (h & ts2 & Hh & Eh). symmetry in Eh. apply shape_not in Eh; [|exact T]. destruct Eh as (h0 & -> & Eh). symmetry in Eh. apply shape_pred in Eh; [|exact T]. destruct Eh as (l' & -> & El').
    eapply cl_pair; [exact Hg|exact Hh|exact H3|exact H4|]. subst. exact (args_same w s l l' T E H5).
  - destruct (K _ _ H1) as (h & ts2 & Hh & Eh). symmetry in Eh. apply shape_not in Eh; [|exact T]. destruct Eh as (h0 & -> & Eh). symmetry in Eh. apply shape_pred in Eh; [|exact T]. destruct Eh as (l' & -> & El').
    destruct l' as [|b [|b' [|? ?]]]; try discriminate. injection El' as -> ->. eapply cl_neq; [exact Hh|exact H2|].
    eapply same_term_trans; [apply same_term_sym, (apply_term_same w s b T E)|]. eapply same_term_trans; [exact H3|apply (apply_term_same w s b' T E)].
Qed.

(** *** the search that follows *)
Section Again.
Variables (eqi : Z) (name_id : string -> ident) (ty_arity : string -> nat) (n fe : nat).
Definition again_real := again_closure eqi name_id ty_arity (add_unif n fe) (compute fe (add_unif n fe)).
Definition again_strict := again_closure eqi name_id ty_arity (add_unif_s true n fe) (comp_s true n fe).
Variables (ar : signature) (st : state).
Hypothesis (A2 : ar eqi = 2%nat) (HM : monomorphic ar ty_arity).
Hypothesis (Fo : forall x, In x (q_atomic (st_q st)) -> first_order ar (ft_form x)).
Theorem again_sound forb f l : again_strict st forb <> Out -> again_real st forb = Ok (Some (f, l)) ->
  (l = [] /\ forall s, closes eqi s (branch_of st)) \/
  (l <> [] /\ forall sg, In sg l -> exists s, sg = mixed_terms s /\ okS ar s /\ solved s /\ closes eqi s (branch_of st)).
Proof.
  intros NO E. unfold again_real, again_strict, again_closure in *.
  assert (KI : forall f, (exists x, In x (q_atomic (st_q st)) /\ ft_form x = f) -> exists ts, In (mkFat f ts) (br_forms (branch_of st))).
  { intros g ([g' ts] & Hx & <-). exists ts. cbn [branch_of br_forms]. unfold forms_of. rewrite !in_app_iff. tauto. }
  assert (Ke : forall g, In g (extract (q_atomic (st_q st))) -> exists x, In x (q_atomic (st_q st)) /\ ft_form x = g).
  { intros g Hg. apply extract_in, in_map_iff in Hg. destruct Hg as (x & <- & Hx). eauto. }
  set (lp := extract (q_atomic (st_q st))) in *.
  destruct (make_tree name_id (atoms true lp)) as [tp|] eqn:Tp; [|discriminate]. destruct (make_tree name_id (atoms false lp)) as [tn|] eqn:Tn; [|discriminate].
  assert (FL : Forall (first_order ar) (lp ++ lp)).
  { apply Forall_forall. intros g Hg. assert (Hl : In g lp) by (apply in_app_or in Hg; destruct Hg; assumption). destruct (Ke g Hl) as (x & Hx & <-). auto. }
  assert (Hc : forall x, In x (q_atomic (st_q st)) -> In x (q_atomic (st_q st))) by auto. revert Hc NO E. generalize (q_atomic (st_q st)) at 1 3 4 as r.
  induction r as [|x r IH]; intros Hc NO E; [discriminate|].
  cbn [first_contradiction] in E, NO. fold (closure_real eqi name_id ty_arity n fe tp tn forb (ft_form x)) in E. fold (closure_strict eqi name_id ty_arity n fe tp tn forb (ft_form x)) in NO.
  assert (N1 : closure_strict eqi name_id ty_arity n fe tp tn forb (ft_form x) <> Out) by (intros H; rewrite H in NO; apply NO; reflexivity).
  assert (E0 : closure_strict eqi name_id ty_arity n fe tp tn forb (ft_form x) = closure_real eqi name_id ty_arity n fe tp tn forb (ft_form x)) by (destruct (closure_refines eqi name_id ty_arity n fe tp tn forb (ft_form x)); [contradiction|assumption]).
  rewrite E0 in NO. destruct (closure_real eqi name_id ty_arity n fe tp tn forb (ft_form x)) as [[[|] l']| | |] eqn:E1; cbn in E, NO; try discriminate.
  - injection E as <- <-. assert (Kx : exists y, In y (q_atomic (st_q st)) /\ ft_form y = ft_form x) by (exists x; split; [apply Hc; left; reflexivity|reflexivity]).
    destruct (closure_sound eqi name_id ty_arity n fe ar lp lp tp tn FL Tp Tn forb (ft_form x) l' A2 (Fo x (Hc x (or_introl eq_refl))) HM N1 E1) as [[O ->]|[Hl Hs]].
    + left. split; [reflexivity|]. intros s. destruct (KI _ Kx) as [ts Kg]. destruct (ft_form x) as [| | | | | |i g| | |]; try discriminate; [destruct g; try discriminate; eapply cl_top, Kg|eapply cl_bot, Kg].
    + right. split; [exact Hl|]. intros sg Hsg. destruct (Hs sg Hsg) as (s & -> & O & So & C). exists s. split; [reflexivity|]. split; [exact O|]. split; [exact So|].
      eapply closes_sub; [|exact C]. intros g [<-|Hg]; [exact (KI _ Kx)|]. apply KI, Ke. apply in_app_or in Hg. destruct Hg; assumption.
  - apply IH; auto. intros y Hy. apply Hc. right. exact Hy.
Qed.
End Again.
(** C147 *)
Theorem again_closes same eqi name_id ty_arity n fe ar st s forb f l : arity ar eqi = 2%nat -> monomorphic ar ty_arity -> untyped s ->
  (forall x, In x (q_atomic (st_q (apply_state same s st))) -> first_order ar (ft_form x)) ->
  again_strict eqi name_id ty_arity n fe (apply_state same s st) forb <> Out ->
  again_real eqi name_id ty_arity n fe (apply_state same s st) forb = Ok (Some (f, l)) ->
  (l = [] -> forall w, extends w (binds s) -> closes eqi w (branch_of st)) /\
  forall sg, In sg l -> forall w, extends w (binds sg) -> extends w (binds s) -> closes eqi w (branch_of st).
Proof.
  intros A2 HM T Fo NO E. destruct (again_sound eqi name_id ty_arity n fe ar (apply_state same s st) A2 HM Fo forb f l NO E) as [[-> C]|[Nl C]].
  - split; [intros _ w Ew; exact (applied_closes same eqi w s st T Ew (C w))|intros sg []].
  - split; [intros ->; congruence|]. intros sg Hsg w Eg Ew. destruct (C sg Hsg) as (s' & -> & _ & _ & Cs). apply (applied_closes same eqi w s st T Ew).
    rewrite (term_part_mixed s' : binds (mixed_terms s') = s') in Eg. exact (closes_extends eqi w s' _ Eg Cs).
Qed.
