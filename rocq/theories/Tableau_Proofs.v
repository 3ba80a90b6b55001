(** Soundness of derivations (C24). *)
From Coq Require Import ZArith List Bool String Lia.
From Verif Require Import LibSet_Model Ast_Model Problem_Model Rules_Model Sem_Spec Occ_Spec Free_Spec Rules_Spec Skolem_Spec
  Tableau_Spec LibSet_Proofs Ast_Proofs Sem_Proofs Subst_Proofs Free_Proofs Rules_Proofs Inst_Proofs Skolem_Proofs Skolem_Final.
Import ListNotations.
Open Scope Z_scope.

(** ** parts of a formula outside quantifiers *)
Inductive part : form -> form -> Prop :=
| pa_not i f : part (Not i f) f
| pa_and i fs f : In f fs -> part (And i fs) f
| pa_or i fs f : In f fs -> part (Or i fs) f
| pa_imp1 i f g : part (Imp i f g) f
| pa_imp2 i f g : part (Imp i f g) g
| pa_equ1 i f g : part (Equ i f g) f
| pa_equ2 i f g : part (Equ i f g) g
| pa_trans f g h : part f g -> part g h -> part f h.

Definition smaller (f h : form) : Prop :=
  (forall g, wff g f -> wff g h) /\ incl (f_metas h) (f_metas f) /\ incl (f_tymetas h) (f_tymetas f) /\
  incl (f_binders h) (f_binders f).
Lemma incl_nil_l {A} (l l' : list A) : incl l l' -> l' = [] -> l = [].
Proof. intros H ->. destruct l as [|a l]; auto. destruct (H a (or_introl eq_refl)). Qed.
Lemma nodup_flat {A B} (c : A -> list B) (l : list A) a : In a l -> NoDup (flat_map c l) -> NoDup (c a).
Proof.
  induction l as [|x l IH]; intros []; cbn; intros N.
  - subst. eapply nodup_appl; eauto.
  - apply IH; auto. eapply nodup_appr; eauto.
Qed.
Lemma map_flat {A B C} (f : B -> C) (c : A -> list B) l : map f (flat_map c l) = flat_map (fun x => map f (c x)) l.
Proof. induction l; cbn; auto. rewrite map_app, IHl. auto. Qed.
Lemma smaller_of f h :
  (forall A (c : ident -> list ty -> list term -> list A), incl (f_collect c h) (f_collect c f)) ->
  incl (fv h) (fv f) -> incl (ftv h) (ftv f) -> incl (f_binders h) (f_binders f) ->
  (forall B (c : tvar -> B), NoDup (map c (f_binders f)) -> NoDup (map c (f_binders h))) -> smaller f h.
Proof.
  intros C V TV B N. split; [|split; [|split]]; try apply C; auto.
  intros g W. constructor.
  - intros b Hb. apply (wf_noid _ _ W). apply C; auto.
  - eapply incl_nil_l; eauto. apply W.
  - eapply incl_nil_l; eauto. apply W.
  - apply N, W.
  - apply N, W.
  - intros x Hx K. apply (wf_bf _ _ W x); auto. apply C; auto.
  - intros i [Hi|[Hi|Hi]]; apply (wf_lt _ _ W).
    + left. apply C; auto.
    + right; left. apply C; auto.
    + right; right. apply in_map_iff in Hi as (y & <- & Hy). apply in_map; auto.
Qed.
Lemma part_smaller f h : part f h -> smaller f h.
Proof.
  induction 1 as [i f|i fs f Hf|i fs f Hf|i f g|i f g|i f g|i f g|f g h H1 IH1 H2 IH2].
  1-7: apply smaller_of; cbn; intros; try apply incl_refl; auto;
    try (intros z Hz; apply in_flat_map; eauto; fail);
    try (apply incl_appl, incl_refl); try (apply incl_appr, incl_refl);
    rewrite ?map_app, ?map_flat in *;
    try (eapply nodup_appl; eassumption); try (eapply nodup_appr; eassumption);
    try (match goal with H : NoDup (flat_map _ _) |- NoDup (map ?c (f_binders ?f)) =>
      apply (nodup_flat (fun x => map c (f_binders x)) fs f Hf H) end).
  destruct IH1 as (A1 & A2 & A3 & A4), IH2 as (B1 & B2 & B3 & B4).
  split; [|split; [|split]]; auto; eapply incl_tran; eauto.
Qed.

Definition derived (f y : form) : Prop := exists h, part f h /\ (y = h \/ exists i, y = Not i h).
Lemma derived_smaller f y : derived f y -> smaller f y.
Proof.
  intros (h & P & H). apply part_smaller in P as (A & B & C & D). destruct H as [->|[i ->]]; [split; auto|].
  split; auto. intros g W. apply not_wff. auto.
Qed.

(** ** results of the alpha and beta rules *)
Section Same.
Variable same : list term -> list term -> bool.
Lemma alpha_not_or_derived f fs terms : (forall h, In h fs -> part f h) -> forall res g,
  (forall y, In y res -> derived f (ft_form y)) ->
  (forall y, In y (fst (alpha_not_or same fs terms res g)) -> derived f (ft_form y)) /\
  cpt_term (snd (alpha_not_or same fs terms res g)) = cpt_term g.
Proof.
  induction fs as [|h r IH]; intros P res g R; cbn; [auto|].
  destruct (IH (fun h' Hh => P h' (or_intror Hh)) (fl_append same res (mkFat (Not (cpt_formula g) h) terms))
    (snd (maker_not h g))) as [H1 H2].
  - intros y Hy. apply fl_append_in in Hy as [Hy|[-> _]]; auto. exists h. split; [apply P; left; auto|right; eexists; reflexivity].
  - split; auto.
Qed.
Lemma alpha_derived x g : conjunctive (ft_form x) ->
  (forall y, In y (fst (apply_alpha same x g)) -> derived (ft_form x) (ft_form y)) /\
  cpt_term (snd (apply_alpha same x g)) = cpt_term g.
Proof.
  destruct x as [f terms]. cbn [ft_form]. intros H. inversion H; subst.
  - unfold apply_alpha; cbn [ft_form ft_terms fst snd]. split; auto.
    assert (K : forall l res, (forall y, In y res -> derived (And i fs) (ft_form y)) -> incl l fs ->
      forall y, In y (fold_left (fun res f => fl_append same res (mkFat f terms)) l res) -> derived (And i fs) (ft_form y)).
    { induction l as [|a l IH]; cbn; intros res R L y Hy; auto. revert y Hy. apply IH; [|intros z Hz; apply L; right; auto].
      intros y Hy. apply fl_append_in in Hy as [Hy|[-> _]]; auto. exists a. split; [apply pa_and, L; left; auto|auto]. }
    apply K; [intros y []|apply incl_refl].
  - apply (alpha_not_or_derived (Not i (Or j fs)) fs terms).
    + intros h Hh. eapply pa_trans; [apply pa_not|apply pa_or; auto].
    + intros y [].
  - cbn. split; auto. intros y Hy.
    change (In y (fl_append same (fl_append same [] (mkFat a terms)) (mkFat (Not (cpt_formula g) b) terms))) in Hy.
    apply fl_append_in in Hy as [Hy|[-> _]].
    + apply fl_append_in in Hy as [[]|[-> _]]. exists a. split; [eapply pa_trans; constructor|auto].
    + exists b. split; [eapply pa_trans; [apply pa_not|apply pa_imp2]|right; eexists; reflexivity].
  - cbn. split; auto. intros y Hy. change (In y (fl_append same [] (mkFat f0 terms))) in Hy.
    apply fl_append_in in Hy as [[]|[-> _]]. exists f0. split; [eapply pa_trans; constructor|auto].
Qed.
End Same.
Lemma beta_not_and_derived f fs terms : (forall h, In h fs -> part f h) -> forall g,
  (forall b y, In b (fst (beta_not_and fs terms g)) -> In y b -> derived f (ft_form y)) /\
  cpt_term (snd (beta_not_and fs terms g)) = cpt_term g.
Proof.
  induction fs as [|h r IH]; intros P g; cbn; [split; auto; intros b y []|].
  destruct (IH (fun h' Hh => P h' (or_intror Hh)) (snd (maker_not h g))) as [H1 H2]. cbn in H1, H2.
  destruct (beta_not_and r terms _) as [l g2]. cbn in *. split; auto.
  intros b y [<-|Hb]; [|apply H1; auto]. intros [<-|[]]. exists h. split; [apply P; left; auto|right; eexists; reflexivity].
Qed.
Lemma beta_derived x g : disjunctive (ft_form x) ->
  (forall b y, In b (fst (apply_beta x g)) -> In y b -> derived (ft_form x) (ft_form y)) /\
  cpt_term (snd (apply_beta x g)) = cpt_term g.
Proof.
  assert (D0 : forall f h, part f h -> derived f h) by (intros f h P; exists h; auto).
  assert (D1 : forall f h i, part f h -> derived f (Not i h)) by (intros f h i P; exists h; eauto).
  assert (PT : forall i f h, part f h -> part (Not i f) h) by (intros i f h P; eapply pa_trans; [constructor|auto]).
  destruct x as [f terms]. cbn [ft_form]. intros H. inversion H; subst.
  - cbn. split; auto. intros b y Hb Hy. apply in_map_iff in Hb as (h & <- & Hh). destruct Hy as [<-|[]].
    apply D0. constructor; auto.
  - apply (beta_not_and_derived (Not i (And j fs)) fs terms). intros h Hh. apply PT. constructor; auto.
  - cbn. split; auto. intros c y [<-|[<-|[]]] [<-|[]]; cbn; [apply D1|apply D0]; constructor.
  - cbn. split; auto. intros c y [<-|[<-|[]]] [<-|[<-|[]]]; cbn; (apply D0; constructor) || (apply D1; constructor).
  - cbn. split; auto. intros c y [<-|[<-|[]]] [<-|[<-|[]]]; cbn;
      (apply D0, PT; constructor) || (apply D1, PT; constructor).
Qed.

(** ** the invariant *)
Record fgood (b0 : Z) (k : sko_kind) (g : gen) (mm mc : mset) (f : form) : Prop := {
  fg_wff : wff g f;
  fg_old : forall x, In x (f_binders f) -> tv_index x < b0;
  fg_tym : f_tymetas f = [];
  fg_nty : no_ty_binders f;
  fg_out : k = Outer -> forall m, In (m_index m) (f_metas f) -> has mm m \/ has mc m }.
Record bgood (b0 : Z) (k : sko_kind) (g : gen) (b : branch) : Prop := {
  bg_mm : mok (br_mm b);
  bg_mc : mok (br_mc b);
  bg_lt : forall m, has (br_mm b) m \/ has (br_mc b) m -> m_index m < cpt_term g;
  bg_forms : forall x, In x (br_forms b) -> fgood b0 k g (br_mm b) (br_mc b) (ft_form x) }.
Lemma fgood_smaller b0 k g mm mc f h : smaller f h -> fgood b0 k g mm mc f -> fgood b0 k g mm mc h.
Proof.
  intros (A & B & C & D) [W O T N M]. constructor; auto.
  - eapply incl_nil_l; eauto.
  - intros x Hx. apply N; auto.
Qed.
Lemma fgood_mono b0 k g g' mm mc mm' mc' f : cpt_term g <= cpt_term g' ->
  (forall m, has mm m \/ has mc m -> has mm' m \/ has mc' m) -> fgood b0 k g mm mc f -> fgood b0 k g' mm' mc' f.
Proof. intros G H [W O T N M]. constructor; auto. eapply wff_mono; eauto. Qed.
Lemma bgood_mono b0 k g g' b : cpt_term g <= cpt_term g' -> bgood b0 k g b -> bgood b0 k g' b.
Proof.
  intros G [A B C D]. constructor; auto.
  - intros m H. apply C in H. lia.
  - intros x Hx. eapply fgood_mono; eauto.
Qed.

Definition some_branch {I} (bs : list branch) (v : val I) : Prop := exists b, In b bs /\ all_hold (br_forms b) v.
Record inv (b0 : Z) (t : tab) : Prop := {
  iv_b0 : b0 <= cpt_term (tb_gen t);
  iv_br : forall b, In b (tb_branches t) -> bgood b0 (sk_kind (tb_sko t)) (tb_gen t) b }.
Definition model (b0 eqi : Z) (t : tab) : Prop :=
  exists I, inhabited (val I) /\ eq_refl_in eqi I /\ sko_ok b0 I (tb_gen t) (tb_sko t) /\
  forall v : val I, some_branch (tb_branches t) v.

Lemma sko_ok_mono b0 I g g' s : cpt_term g <= cpt_term g' -> sko_ok b0 I g s -> sko_ok b0 I g' s.
Proof.
  intros G H real f Hin. destruct (H real f Hin) as (L & d0 & W0 & N0 & X0 & R0 & WI0). split; [lia|].
  exists d0. split; [eapply wff_mono; eauto|]. auto.
Qed.
Lemma some_branch_replace {I} l1 b l2 (bs : list branch) (v : val I) :
  (all_hold (br_forms b) v -> some_branch bs v) -> some_branch (l1 ++ b :: l2) v -> some_branch (l1 ++ bs ++ l2) v.
Proof.
  intros H (b' & Hb & A). apply in_app_iff in Hb as [Hb|[<-|Hb]].
  - exists b'. split; auto. apply in_or_app; auto.
  - destruct (H A) as (c & Hc & C). exists c. split; auto. rewrite !in_app_iff. auto.
  - exists b'. split; auto. rewrite !in_app_iff; auto.
Qed.
Lemma branches_replace (P Q : branch -> Prop) l1 b l2 bs : (forall c, P c -> Q c) -> (forall c, In c bs -> Q c) ->
  (forall c, In c (l1 ++ b :: l2) -> P c) -> forall c, In c (l1 ++ bs ++ l2) -> Q c.
Proof.
  intros H1 H2 H3 c Hc. rewrite !in_app_iff in Hc. destruct Hc as [Hc|[Hc|Hc]]; auto; apply H1, H3, in_or_app; auto.
  right; right; auto.
Qed.
Lemma branch_at (P : branch -> Prop) l1 b l2 : (forall c, In c (l1 ++ b :: l2) -> P c) -> P b.
Proof. intros H. apply H, in_or_app. right; left; auto. Qed.

(** ** replacement of a metavariable *)
Lemma fms_collect {A} i u (c : ident -> list ty -> list term -> list A) (P : A -> Prop) f :
  (forall p tys args a, In a (c p tys (map (msubst i u) args)) -> In a (c p tys args) \/ P a) ->
  forall a, In a (f_collect c (fmsubst i u f)) -> In a (f_collect c f) \/ P a.
Proof.
  intros H. induction f using form_ind'; cbn; auto; intros z Hz; try (apply in_app_iff in Hz; rewrite in_app_iff).
  - apply in_flat_map in Hz as (h & Hh & Hz). apply in_map_iff in Hh as (h0 & <- & Hh).
    rewrite Forall_forall in H0. destruct (H0 h0 Hh z Hz); auto. left. apply in_flat_map; eauto.
  - apply in_flat_map in Hz as (h & Hh & Hz). apply in_map_iff in Hh as (h0 & <- & Hh).
    rewrite Forall_forall in H0. destruct (H0 h0 Hh z Hz); auto. left. apply in_flat_map; eauto.
  - destruct Hz as [Hz|Hz]; [apply IHf1 in Hz|apply IHf2 in Hz]; tauto.
  - destruct Hz as [Hz|Hz]; [apply IHf1 in Hz|apply IHf2 in Hz]; tauto.
Qed.
Lemma ms_collect {A} i u (c : term -> list A) (P : A -> Prop) t :
  (forall a, In a (c u) -> P a) ->
  (forall p tys l l' a, (forall a, In a (flat_map c l') -> In a (flat_map c l) \/ P a) -> In a (c (Fun p tys l')) -> In a (c (Fun p tys l)) \/ P a) ->
  forall a, In a (c (msubst i u t)) -> In a (c t) \/ P a.
Proof.
  intros HU HF. induction t as [x|p tys l IH|x n|m] using term_ind'; cbn [msubst]; auto.
  - intros a Ha. apply (HF p tys l (map (msubst i u) l) a); auto. intros b Hb. rewrite Forall_forall in IH.
    apply in_flat_map in Hb as (t & Ht & Hb). apply in_map_iff in Ht as (t0 & <- & Ht).
    destruct (IH t0 Ht b Hb); auto. left. apply in_flat_map; eauto.
  - destruct (m_index m =? i); auto.
Qed.
Lemma ms_collects {A} i u (c : term -> list A) (P : A -> Prop) l :
  (forall a, In a (c u) -> P a) ->
  (forall p tys l l' a, (forall a, In a (flat_map c l') -> In a (flat_map c l) \/ P a) -> In a (c (Fun p tys l')) -> In a (c (Fun p tys l)) \/ P a) ->
  forall a, In a (flat_map c (map (msubst i u) l)) -> In a (flat_map c l) \/ P a.
Proof.
  intros HU HF a Ha. apply in_flat_map in Ha as (t & Ht & Ha). apply in_map_iff in Ht as (t0 & <- & Ht).
  destruct (ms_collect i u c P t0 HU HF a Ha); auto. left. apply in_flat_map; eauto.
Qed.
Lemma ms_noid i u t : t_noid u = true -> t_noid t = true -> t_noid (msubst i u t) = true.
Proof.
  intros U. induction t as [x|p tys l IH|x n|m] using term_ind'; cbn; auto.
  - intros H. rewrite forallb_forall in *. intros t Ht. apply in_map_iff in Ht as (t0 & <- & Ht).
    rewrite Forall_forall in IH. auto.
  - intros _. destruct (m_index m =? i); auto.
Qed.
Lemma fms_noid i u f : t_noid u = true -> f_noid f -> f_noid (fmsubst i u f).
Proof.
  intros U. unfold f_noid. induction f using form_ind'; cbn; intros N b Hb; auto;
    try (apply in_app_iff in Hb as [Hb|Hb]; [apply IHf1 in Hb|apply IHf2 in Hb]; auto; intros; apply N, in_or_app; auto; fail).
  - apply in_flat_map in Hb as (h & Hh & Hb). apply in_map_iff in Hh as (h0 & <- & Hh).
    rewrite Forall_forall in H. apply (H h0 Hh); auto. intros c Hc. apply N, in_flat_map; eauto.
  - apply in_flat_map in Hb as (h & Hh & Hb). apply in_map_iff in Hh as (h0 & <- & Hh).
    rewrite Forall_forall in H. apply (H h0 Hh); auto. intros c Hc. apply N, in_flat_map; eauto.
  - apply in_map_iff in Hb as (t & <- & Ht). apply in_map_iff in Ht as (t0 & <- & Ht).
    apply ms_noid; auto. apply N, in_map; auto.
Qed.
Lemma fms_binders i u f : f_binders (fmsubst i u f) = f_binders f.
Proof.
  induction f using form_ind'; cbn; auto; try congruence; induction H; cbn; auto; congruence.
Qed.
Lemma fms_fv i u f : t_vars u = [] -> incl (fv (fmsubst i u f)) (fv f).
Proof.
  intros U. induction f using form_ind'; cbn; auto; try (apply incl_refl);
    try (apply incl_app; [apply incl_appl|apply incl_appr]; auto; fail).
  - intros x Hx. revert x Hx. induction vs as [|y r IH]; cbn; auto. intros x. unfold unbind at 1 3.
    destruct (is_ttype (tv_ty y)); auto. rewrite !filter_In. intros [H1 H2]. auto.
  - intros x Hx. revert x Hx. induction vs as [|y r IH]; cbn; auto. intros x. unfold unbind at 1 3.
    destruct (is_ttype (tv_ty y)); auto. rewrite !filter_In. intros [H1 H2]. auto.
  - intros x Hx. apply in_flat_map in Hx as (h & Hh & Hx). apply in_map_iff in Hh as (h0 & <- & Hh).
    rewrite Forall_forall in H. apply in_flat_map. exists h0. split; auto. apply H; auto.
  - intros x Hx. apply in_flat_map in Hx as (h & Hh & Hx). apply in_map_iff in Hh as (h0 & <- & Hh).
    rewrite Forall_forall in H. apply in_flat_map. exists h0. split; auto. apply H; auto.
  - intros x Hx. destruct (ms_collects i u t_vars (fun _ => False) args) with (a := x) as [|[]]; auto.
    + rewrite U. intros a [].
Qed.
Lemma fms_ftv i u f : t_tyvars u = [] -> incl (ftv (fmsubst i u f)) (ftv f).
Proof.
  intros U. induction f using form_ind'; cbn; auto; try (apply incl_refl);
    try (apply incl_app; [apply incl_appl|apply incl_appr]; auto; fail).
  - apply unbinds_ty_incl; auto.
  - apply unbinds_ty_incl; auto.
  - intros x Hx. apply in_flat_map in Hx as (h & Hh & Hx). apply in_map_iff in Hh as (h0 & <- & Hh).
    rewrite Forall_forall in H. apply in_flat_map. exists h0. split; auto. apply H; auto.
  - intros x Hx. apply in_flat_map in Hx as (h & Hh & Hx). apply in_map_iff in Hh as (h0 & <- & Hh).
    rewrite Forall_forall in H. apply in_flat_map. exists h0. split; auto. apply H; auto.
  - apply incl_app; [apply incl_appl, incl_refl|apply incl_appr]. intros x Hx.
    destruct (ms_collects i u t_tyvars (fun _ => False) args) with (a := x) as [|[]]; auto.
    + rewrite U. intros a [].
    + cbn. intros p0 tys0 l l' a H. rewrite !in_app_iff. intros [Ha|Ha]; [tauto|]. apply H in Ha. tauto.
Qed.
Lemma fms_funs i u f a : In a (f_funs (fmsubst i u f)) -> In a (f_funs f) \/ In a (t_funs u).
Proof.
  apply (fms_collect i u _ (fun a => In a (t_funs u))). intros p tys args b Hb.
  apply (ms_collects i u t_funs (fun a => In a (t_funs u))) in Hb; auto.
  cbn. intros p0 tys0 l l' c H [Hc|Hc]; auto. apply H in Hc. tauto.
Qed.
Lemma fms_metas i u f a : In a (f_metas (fmsubst i u f)) -> In a (f_metas f) \/ In a (t_metas u).
Proof.
  apply (fms_collect i u _ (fun a => In a (t_metas u))). intros p tys args b Hb.
  apply (ms_collects i u t_metas (fun a => In a (t_metas u))) in Hb; auto.
Qed.
Lemma fms_tymetas i u f a : In a (f_tymetas (fmsubst i u f)) -> In a (f_tymetas f) \/ In a (t_tymetas u).
Proof.
  apply (fms_collect i u _ (fun a => In a (t_tymetas u))). intros p tys args b. rewrite !in_app_iff. intros [Hb|Hb]; [tauto|].
  apply (ms_collects i u t_tymetas (fun a => In a (t_tymetas u))) in Hb; auto.
  - tauto.
  - cbn. intros p0 tys0 l l' c H. rewrite !in_app_iff. intros [Hc|Hc]; [tauto|]. apply H in Hc. tauto.
Qed.
(** meaning *)
Lemma fms_holds I i u f : t_vars u = [] -> t_tyvars u = [] -> t_noid u = true -> forall v : val I,
  holds (fmsubst i u f) v <-> holds f (set_mv v i (ev v u)).
Proof.
  intros U1 U2 U3.
  assert (EB : forall (v : val I) j d, ev (set_bv v j d) u = ev v u).
  { intros v j d. rewrite (ev_rel (I := I) (fn I) (set_bv v j d) (@mkVal (refn I (fn I)) (bv v) (mv v) (tbv v) (tmv v)) u U3).
    - symmetry. apply (ev_rel (I := I) (fn I)); auto. constructor; auto.
    - auto.
    - rewrite U1. constructor; auto. intros k []. }
  assert (ET : forall (v : val I) s d, ev (set_tbv v s d) u = ev v u).
  { intros v s d. rewrite (ev_rel (I := I) (fn I) (set_tbv v s d) (@mkVal (refn I (fn I)) (bv v) (mv v) (tbv v) (tmv v)) u U3).
    - symmetry. apply (ev_rel (I := I) (fn I)); auto. constructor; auto.
    - auto.
    - rewrite U2. constructor; auto. intros k []. }
  assert (Q : forall (k k' : val I -> Prop) vs, (forall v : val I, k v <-> k' (set_mv v i (ev v u))) -> forall v,
     (forall_vars vs k v <-> forall_vars vs k' (set_mv v i (ev v u))) /\
     (exists_vars vs k v <-> exists_vars vs k' (set_mv v i (ev v u)))).
  { intros k k' vs HK. induction vs as [|x r IH]; intros v; cbn; [split; apply HK|].
    assert (S1 : forall d, (forall_vars r k (set_bv v (tv_index x) d) <-> forall_vars r k' (set_bv (set_mv v i (ev v u)) (tv_index x) d)) /\
                 (exists_vars r k (set_bv v (tv_index x) d) <-> exists_vars r k' (set_bv (set_mv v i (ev v u)) (tv_index x) d))).
    { intros d. destruct (IH (set_bv v (tv_index x) d)) as [I1 I2]. rewrite EB in I1, I2. split; auto. }
    assert (S2 : forall d, (forall_vars r k (set_tbv v (tv_name x) d) <-> forall_vars r k' (set_tbv (set_mv v i (ev v u)) (tv_name x) d)) /\
                 (exists_vars r k (set_tbv v (tv_name x) d) <-> exists_vars r k' (set_tbv (set_mv v i (ev v u)) (tv_name x) d))).
    { intros d. destruct (IH (set_tbv v (tv_name x) d)) as [I1 I2]. rewrite ET in I1, I2. split; auto. }
    destruct (is_ttype (tv_ty x)).
    - split; [split; intros H d; apply S2; auto|split; intros [d H]; exists d; apply S2; auto].
    - split; [split; intros H d; apply S1; auto|split; intros [d H]; exists d; apply S1; auto]. }
  induction f using form_ind'; intros v; cbn [fmsubst holds].
  - apply Q; auto.
  - apply Q; auto.
  - induction H as [|a l Ha Hl IH]; cbn; [tauto|]. rewrite (Ha v). tauto.
  - induction H as [|a l Ha Hl IH]; cbn; [tauto|]. rewrite (Ha v). tauto.
  - rewrite IHf1, IHf2. tauto.
  - rewrite IHf1, IHf2. tauto.
  - rewrite IHf. tauto.
  - rewrite map_map. assert (E1 : map (evty v) tys = map (evty (set_mv v i (ev v u))) tys).
    { apply map_ext. intros; symmetry; apply set_mv_evty. }
    rewrite <- E1. rewrite (map_ext (fun x => ev v (msubst i u x)) (ev (set_mv v i (ev v u)))); [tauto|].
    intros t. apply msubst_ev.
  - tauto.
  - tauto.
Qed.

(** ** one step *)
Lemma all_hold_incl {I} (l l' : list fat) (v : val I) : incl l l' -> all_hold l' v -> all_hold l v.
Proof. intros H A x Hx. auto. Qed.
Lemma all_hold_app {I} (l l' : list fat) (v : val I) : all_hold l v -> all_hold l' v -> all_hold (l ++ l') v.
Proof. intros H A x Hx. apply in_app_iff in Hx as [Hx|Hx]; auto. Qed.

Lemma universal_head f : universal f -> no_ty_binders f ->
  (exists x, head_var f = Some x /\ is_ttype (tv_ty x) = false) \/ head_var f = None.
Proof.
  intros U N. destruct U as [i [|x vs] f|i j [|x vs] f]; cbn; auto; left; exists x; split; auto; apply N; cbn; auto.
Qed.
Lemma existential_tail f : existential f -> no_ty_binders f ->
  (exists x t, ex_tail f = Some (x, t) /\ is_ttype (tv_ty x) = false) \/ head_var (Not 0 f) = None /\ ex_tail f = None.
Proof.
  intros U N. destruct U as [i [|x vs] f|i j [|x vs] f]; cbn; auto; left; eexists x, _; split; eauto; apply N; cbn; auto.
Qed.

Lemma step_ok same b0 eqi t t' : tab_step same linear_in t t' -> inv b0 t -> model b0 eqi t -> inv b0 t' /\ model b0 eqi t'.
Proof.
  intros ST [B0 BR] (I & INH & EQ & SK & M).
  destruct ST as [g s l1 b l2 x ys g' fs Hx K E INC|g s l1 b l2 x yss g' fss mm' Hx K E INC OW HW
    |g s l1 b l2 x index y m g' fs mc' Hx K E INC OW HW|g s l1 b l2 x y s' g' fs Hx K E INC|g s l1 b l2 fs INC|g s bs bs' m u NU F2];
  cbn [tb_gen tb_sko tb_branches] in *.
  - (* alpha *)
    pose proof (branch_at _ _ _ _ BR) as [O1 O2 LT FG].
    destruct (alpha_derived same x g K) as [A1 A2]. rewrite E in A1, A2. cbn [fst snd] in A1, A2.
    assert (G : cpt_term g <= cpt_term g') by lia.
    split.
    + constructor; cbn; [lia|].
      apply (branches_replace (bgood b0 (sk_kind s) g) _ l1 b l2 [mkBr fs (br_mm b) (br_mc b)]); auto.
      * intros c. apply bgood_mono; auto.
      * intros c [<-|[]]. constructor; cbn; auto.
        -- intros m Hm. apply LT in Hm. lia.
        -- intros y Hy. apply (fgood_mono _ _ g _ (br_mm b) (br_mc b)); auto. apply INC in Hy.
           apply in_app_iff in Hy as [Hy|Hy]; auto. eapply fgood_smaller; [apply derived_smaller, A1; auto|auto].
    + exists I. split; auto. split; auto. split; [eapply sko_ok_mono; eauto|]. intros v. specialize (M v). cbn.
      apply (some_branch_replace l1 b l2 [mkBr fs (br_mm b) (br_mc b)] v); auto. intros A.
      eexists. split; [left; reflexivity|]. cbn. eapply all_hold_incl; [exact INC|]. apply all_hold_app; auto.
      pose proof (proj1 (alpha_ok same x g I v K) (A x Hx)) as H. rewrite E in H. exact H.
  - (* beta *)
    pose proof (branch_at _ _ _ _ BR) as [O1 O2 LT FG].
    destruct (beta_derived x g K) as [A1 A2]. rewrite E in A1, A2. cbn [fst snd] in A1, A2.
    assert (G : cpt_term g <= cpt_term g') by lia.
    assert (FF : forall fs, In fs fss -> exists ys, In ys yss /\ incl fs (ys ++ br_forms b)).
    { clear -INC. induction INC as [|ys fs yss fss H H' IH]; intros f []; subst; eauto using in_eq.
      destruct (IH f) as (ys' & P & Q); auto. exists ys'. split; auto. right; auto. }
    assert (FF' : forall ys, In ys yss -> exists fs, In fs fss /\ incl fs (ys ++ br_forms b)).
    { clear -INC. induction INC as [|ys fs yss fss H H' IH]; intros f []; subst; eauto using in_eq.
      destruct (IH f) as (ys' & P & Q); auto. exists ys'. split; auto. right; auto. }
    split.
    + constructor; cbn; [lia|].
      apply (branches_replace (bgood b0 (sk_kind s) g) _ l1 b l2); auto.
      * intros c. apply bgood_mono; auto.
      * intros c Hc. apply in_map_iff in Hc as (fs & <- & Hfs). destruct (FF fs Hfs) as (ys & Hys & IN).
        assert (MM : forall m, has mm' m \/ has Leaf m <-> has (br_mm b) m \/ has (br_mc b) m).
        { intros m. rewrite HW. split; [intros [H|(z & [] & _)]; auto|tauto]. }
        constructor; cbn; auto.
        -- apply mleaf_ok.
        -- intros m Hm. apply MM, LT in Hm. lia.
        -- intros y Hy. apply (fgood_mono _ _ g _ (br_mm b) (br_mc b)); auto; [intros m; apply MM|]. apply IN in Hy.
           apply in_app_iff in Hy as [Hy|Hy]; auto. eapply fgood_smaller; [apply derived_smaller; eapply A1; eauto|auto].
    + exists I. split; auto. split; auto. split; [eapply sko_ok_mono; eauto|]. intros v. specialize (M v). cbn.
      apply (some_branch_replace l1 b l2); auto. intros A.
      destruct (proj1 (beta_ok same x g I v K) (A x Hx)) as (ys & Hys & H). rewrite E in Hys. cbn in Hys.
      destruct (FF' ys Hys) as (fs & Hfs & IN). exists (mkBr fs mm' Leaf). split; [apply in_map_iff; eauto|].
      cbn. eapply all_hold_incl; [exact IN|]. apply all_hold_app; auto.
  - (* gamma *)
    pose proof (branch_at _ _ _ _ BR) as [O1 O2 LT FG]. pose proof (FG x Hx) as [W OLD TYM NTY OUT].
    destruct (universal_head _ K NTY) as [(z & HV & TT)|HV].
    2: { exfalso. destruct x as [f ts]. cbn in *. destruct K as [i [|? ?] f|i j [|? ?] f]; try discriminate. }
    destruct (gamma_term x index g z K W HV TT) as (y0 & m0 & g0 & E0 & M1 & M2 & M3 & W0 & M4 & M5 & M6 & M7).
    rewrite E in E0. inversion E0; subst y0 m g0. clear E0.
    assert (HW' : forall n, has mc' n <-> has (br_mc b) n \/ m_index n = m_index m0).
    { intros n. rewrite HW. split; intros [H|H]; auto; [destruct H as (m' & Em & H); inversion Em; subst; auto|right; eauto]. }
    clear HW. rename HW' into HW.
    assert (G : cpt_term g <= cpt_term g') by lia.
    split.
    + constructor; cbn; [lia|].
      apply (branches_replace (bgood b0 (sk_kind s) g) _ l1 b l2 [mkBr fs (br_mm b) mc']); auto.
      * intros c. apply bgood_mono; auto.
      * intros c [<-|[]]. constructor; cbn; auto.
        -- intros n Hn. rewrite HW in Hn. destruct Hn as [Hn|[Hn|Hn]].
           ++ specialize (LT n (or_introl Hn)). lia.
           ++ specialize (LT n (or_intror Hn)). lia.
           ++ lia.
        -- intros h Hh. apply INC in Hh as [<-|Hh].
           ++ constructor; auto.
              ** eapply incl_nil_l; eauto.
              ** intros q Hq. apply NTY; auto.
              ** intros KO n Hn. apply M4 in Hn as [Hn|Hn].
                 --- apply (OUT KO) in Hn. rewrite HW. tauto.
                 --- right. apply HW. auto.
           ++ apply (fgood_mono _ _ g _ (br_mm b) (br_mc b)); auto. intros n. rewrite HW. tauto.
    + exists I. split; auto. split; auto. split; [eapply sko_ok_mono; eauto|]. intros v. specialize (M v). cbn.
      apply (some_branch_replace l1 b l2 [mkBr fs (br_mm b) mc'] v); auto. intros A.
      eexists. split; [left; reflexivity|]. cbn. eapply all_hold_incl; [exact INC|].
      intros h [<-|Hh]; auto. apply (set_mv_self I _ v (m_index m0)). apply M7. auto.
  - (* delta *)
    pose proof (branch_at _ _ _ _ BR) as [O1 O2 LT FG]. pose proof (FG x Hx) as [W OLD TYM NTY OUT].
    destruct (existential_tail _ K NTY) as [DV|[_ ET]].
    2: { exfalso. destruct x as [f ts]. cbn in *. unfold apply_delta in E. destruct (mset_union _ _); [|discriminate].
         destruct K as [i [|? ?] f|i j [|? ?] f]; discriminate. }
    assert (DOK : delta_ok b0 (sk_kind s) g (br_mm b) (br_mc b) (ft_form x)) by (constructor; auto).
    destruct (delta_step b0 I s x (br_mm b) (br_mc b) g B0 DOK SK) as
      (y0 & s0 & g0 & E0 & G & KD & WY & TY & BY & MY & F & FA & FB & FC).
    rewrite E in E0. inversion E0; subst y0 s0 g0. clear E0.
    split.
    + constructor; cbn; [lia|]. rewrite KD.
      apply (branches_replace (bgood b0 (sk_kind s) g) _ l1 b l2 [mkBr fs (br_mm b) (br_mc b)]); auto.
      * intros c. apply bgood_mono; auto.
      * intros c [<-|[]]. constructor; cbn; auto.
        -- intros n Hn. apply LT in Hn. lia.
        -- intros h Hh. apply INC in Hh as [<-|Hh].
           ++ constructor; auto.
              ** intros q Hq. apply NTY; auto.
              ** intros KO n Hn. apply MY in Hn as [Hn|(n' & En & Hn)]; auto.
                 assert (Q : forall q, has q n' -> has q n).
                 { intros q. rewrite !has_index, En. auto. }
                 destruct Hn; auto.
           ++ apply (fgood_mono _ _ g _ (br_mm b) (br_mc b)); auto.
    + exists (refn I F). split; [destruct INH as [v]; constructor; exact (revalF F v)|]. split; [exact EQ|]. split; [exact FC|].
      intros v.
      assert (FN : forall c h, In c (l1 ++ b :: l2) -> In h (br_forms c) -> (holds (ft_form h) (@down I F v) <-> holds (ft_form h) v)).
      { intros c h Hc Hh. pose proof (BR c Hc) as [_ _ _ FG']. pose proof (fg_wff _ _ _ _ _ _ (FG' h Hh)) as W'.
        apply (holds_down I F _ v); [apply W'|]. intros s1 Hs. apply FA. apply (wf_lt _ _ W'). auto. }
      destruct (M (@down I F v)) as (c & Hc & A).
      assert (MV : some_branch (l1 ++ b :: l2) v).
      { exists c. split; auto. intros h Hh. apply (FN c h Hc Hh). auto. }
      cbn. apply (some_branch_replace l1 b l2 [mkBr fs (br_mm b) (br_mc b)] v); auto. intros A'.
      eexists. split; [left; reflexivity|]. cbn. eapply all_hold_incl; [exact INC|].
      intros h [<-|Hh]; auto.
  - (* keep *)
    pose proof (branch_at _ _ _ _ BR) as [O1 O2 LT FG].
    split.
    + constructor; cbn; [lia|].
      apply (branches_replace (bgood b0 (sk_kind s) g) _ l1 b l2 [mkBr fs (br_mm b) (br_mc b)]); auto.
      intros c [<-|[]]. constructor; cbn; auto.
    + exists I. split; auto. split; auto. split; auto. intros v. specialize (M v). cbn.
      apply (some_branch_replace l1 b l2 [mkBr fs (br_mm b) (br_mc b)] v); auto. intros A.
      eexists. split; [left; reflexivity|]. cbn. eapply all_hold_incl; eauto.
  - (* replacement *)
    assert (FI : forall c', In c' bs' -> exists c, In c bs /\ inst_branch linear_in g (sk_kind s) m u c c').
    { clear -F2. induction F2 as [|c c' bs bs' H H' IH]; intros f []; subst; eauto using in_eq.
      destruct (IH f) as (ys' & P & Q); auto. exists ys'. split; auto. right; auto. }
    assert (FI' : forall c, In c bs -> exists c', In c' bs' /\ inst_branch linear_in g (sk_kind s) m u c c').
    { clear -F2. induction F2 as [|c c' bs bs' H H' IH]; intros f []; subst; eauto using in_eq.
      destruct (IH f) as (ys' & P & Q); auto. exists ys'. split; auto. right; auto. }
    split.
    + constructor; cbn; auto. intros c' Hc'. destruct (FI c' Hc') as (c & Hc & IB).
      destruct IB as [c NO|c fs GT MAY F3]; auto. pose proof (BR c Hc) as [O1 O2 LT FG].
      constructor; cbn; auto. intros y Hy.
      assert (X : exists x, In x (br_forms c) /\ ft_form y = replace_meta m u (ft_form x)).
      { clear -F3 Hy. induction F3 as [|a a' l l' H H' IH]; destruct Hy; subst; eauto using in_eq.
        destruct IH as (z & P & Q); auto. exists z. split; auto. right; auto. }
      destruct X as (x & Hx & ->). destruct (FG x Hx) as [W OLD TYM NTY OUT]. destruct GT as [U1 U2 U3 U4 U5 U6 U7].
      rewrite (replace_meta_linear m u (ft_form x) NU (MAY x Hx)).
      constructor.
      * constructor.
        -- apply fms_noid; auto. apply W.
        -- eapply incl_nil_l; [apply fms_fv; auto|apply W].
        -- eapply incl_nil_l; [apply fms_ftv; auto|apply W].
        -- rewrite fms_binders. apply W.
        -- rewrite fms_binders. apply W.
        -- rewrite fms_binders. intros z Hz Hi. apply fms_funs in Hi as [Hi|Hi]; [apply (wf_bf _ _ W z Hz Hi)|apply (U6 x z Hx Hz Hi)].
        -- rewrite fms_binders. intros i [Hi|[Hi|Hi]].
           ++ apply fms_funs in Hi as [Hi|Hi]; [apply (wf_lt _ _ W)|apply U5]; auto.
           ++ apply fms_metas in Hi as [Hi|Hi]; [apply (wf_lt _ _ W)|apply U5]; auto.
           ++ apply (wf_lt _ _ W); auto.
      * rewrite fms_binders; auto.
      * eapply incl_nil_l; [|exact TYM]. intros z Hz. apply fms_tymetas in Hz as [Hz|Hz]; auto. rewrite U4 in Hz. destruct Hz.
      * unfold no_ty_binders. rewrite fms_binders; auto.
      * intros KO n Hn. apply fms_metas in Hn as [Hn|Hn]; auto.
    + exists I. split; auto. split; auto. split; auto. intros v. cbn.
      destruct (M (set_mv v (m_index m) (ev v u))) as (c & Hc & A). destruct (FI' c Hc) as (c' & Hc' & IB).
      exists c'. split; auto. pose proof (BR c Hc) as [O1 O2 LT FG].
      destruct IB as [c NO|c fs GT MAY F3].
      * intros x Hx. specialize (A x Hx). destruct (FG x Hx) as [W _ _ _ _].
        apply holds_set_mv in A; auto. apply W.
      * cbn. intros y Hy.
        assert (X : exists x, In x (br_forms c) /\ ft_form y = replace_meta m u (ft_form x)).
        { clear -F3 Hy. induction F3 as [|a a' l l' H H' IH]; destruct Hy; subst; eauto using in_eq.
          destruct IH as (z & P & Q); auto. exists z. split; auto. right; auto. }
        destruct X as (x & Hx & ->). destruct GT as [U1 U2 U3 U4 U5 U6 U7].
        rewrite (replace_meta_linear m u (ft_form x) NU (MAY x Hx)). apply fms_holds; auto.
Qed.
Lemma steps_ok same b0 eqi t t' : tab_steps same linear_in t t' -> inv b0 t -> model b0 eqi t -> inv b0 t' /\ model b0 eqi t'.
Proof.
  induction 1 as [t|t t1 t2 S SS IH]; auto. intros A B. destruct (step_ok same b0 eqi t t1 S A B). auto.
Qed.

(** ** closing *)
Lemma evty_mv {I} (v : val I) f t : evty v t = evty (mkVal (bv v) f (tbv v) (tmv v)) t.
Proof. induction t using ty_ind'; cbn; auto; try congruence; f_equal; apply map_ext_in; rewrite Forall_forall in *; auto. Qed.
Lemma ssubst_ev {I} (v : val I) s t :
  ev v (ssubst s t) = ev (mkVal (bv v) (fun i => match assoc i s with Some u => ev v u | None => mv v i end) (tbv v) (tmv v)) t.
Proof.
  induction t as [x|p tys l IH|x n|m] using term_ind'; cbn; auto.
  - f_equal.
    + apply map_ext. intros a. apply evty_mv.
    + rewrite map_map. apply map_ext_in. rewrite Forall_forall in IH. auto.
  - destruct (assoc (m_index m) s); auto.
Qed.
Lemma closes_false I eqi s b (v : val I) : eq_refl_in eqi I -> closes eqi s b ->
  ~ all_hold (br_forms b) (mkVal (bv v) (fun i => match assoc i s with Some u => ev v u | None => mv v i end) (tbv v) (tmv v)).
Proof.
  intros EQ C A. set (w := mkVal _ _ _ _) in A.
  assert (SE : forall a a', same_term (ssubst s a) (ssubst s a') -> ev w a = ev w a').
  { intros a a' H. unfold w. rewrite <- !ssubst_ev. apply same_term_ev; auto. }
  destruct C as [i ts H|i j ts H|i p tys args ts i' j' p' tys' args' ts' H H' EP ET EA|i j p tys a a' ts H EP ES].
  - apply (A _ H).
  - apply (A _ H). exact Logic.I.
  - apply (A _ H'). pose proof (A _ H) as K. cbn in *. rewrite <- EP, <- (same_tys_ev w _ _ ET).
    replace (map (ev w) args') with (map (ev w) args); auto.
    clear -EA SE. induction EA; cbn; auto. f_equal; auto.
  - apply (A _ H). cbn. rewrite EP, (SE _ _ ES). apply EQ.
Qed.

(** C24 *)
Lemma start_ok g k eqi f I (v : val I) : wf_start g f -> eq_refl_in eqi I -> holds f v ->
  inv (cpt_term g) (start g k f) /\ model (cpt_term g) eqi (start g k f).
Proof.
  intros (W & M & T & N) EQ H. split.
  - constructor; cbn; [lia|]. intros b [<-|[]]. constructor; cbn.
    + apply mleaf_ok.
    + apply mleaf_ok.
    + intros m [(z & [] & _)|(z & [] & _)].
    + intros x [<-|[]]. cbn. constructor; auto.
      * intros x Hx. apply (wf_lt _ _ W). right; right. apply in_map; auto.
      * rewrite M. intros _ m [].
  - exists I. split; [constructor; exact v|]. split; auto. split; [intros ? ? []|]. intros w.
    eexists. split; [left; reflexivity|]. intros x [<-|[]]. cbn. apply (holds_free I f v w); auto.
    + apply W.
    + rewrite (wf_fv _ _ W). intros i [].
    + rewrite (wf_ftv _ _ W). intros i [].
    + rewrite M. intros i [].
    + rewrite T. intros s i [].
Qed.
Lemma closed_tableau_unsat same g k f t s eqi : wf_start g f -> tab_steps same linear_in (start g k f) t ->
  (forall b, In b (tb_branches t) -> closes eqi s b) -> forall I (v : val I), eq_refl_in eqi I -> ~ holds f v.
Proof.
  intros W ST CL I v EQ H. destruct (start_ok g k eqi f I v W EQ H) as [A B].
  destruct (steps_ok same (cpt_term g) eqi _ _ ST A B) as [_ (J & [w] & EQ' & _ & M)].
  destruct (M (mkVal (bv w) (fun i => match assoc i s with Some u => ev w u | None => mv w i end) (tbv w) (tmv w))) as (b & Hb & K).
  apply (closes_false J eqi s b w EQ' (CL b Hb) K).
Qed.
