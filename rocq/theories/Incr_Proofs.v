(** Rules and tree of the incremental search. *)
From Coq Require Import ZArith List Bool String Lia Classical.
From Verif Require Import LibSet_Model Ast_Model Problem_Model Rules_Model Sem_Spec Occ_Spec Free_Spec Rules_Spec Skolem_Spec
  Tableau_Spec LibSet_Proofs Ast_Proofs Sem_Proofs Subst_Proofs Free_Proofs Rules_Proofs Inst_Proofs Skolem_Proofs Skolem_Final
  Tableau_Proofs Problem_Proofs Expand_Proofs Unif_Model Incr_Model Incr_Spec.
Import ListNotations.
Open Scope list_scope.
Open Scope Z_scope.

(** ** No rule is a GammaRule *)
Lemma not_gamma x : is_gamma x = false.
Proof. unfold is_gamma. destruct (make_rule (ft_form x)); reflexivity. Qed.

(** ** apply *)
Lemma negs_spec fs : forall ts g l g', negs fs ts g = (l, g') ->
  Forall2 (fun f y => exists i, y = mkFat (Not i f) ts) fs l /\ cpt_term g' = cpt_term g.
Proof.
  induction fs as [|f r IH]; intros ts g l g' E; cbn [negs] in E; [injection E as <- <-; auto|].
  unfold maker_not, maker_index_formula in E; cbv beta iota zeta in E. destruct (negs r ts _) as [l1 g1] eqn:E1. injection E as <- <-. apply IH in E1 as [H1 H2].
  split; [constructor; eauto|exact H2].
Qed.
Lemma holds_or i fs I (v : val I) : holds (Or i fs) v <-> exists f, In f fs /\ holds f v.
Proof.
  cbn. induction fs as [|f r IH]; cbn; [split; [tauto|intros (f & [] & _)]|]. rewrite IH. split.
  - intros [H|(h & H1 & H2)]; eauto.
  - intros (h & [<-|H] & K); eauto.
Qed.
Definition simple_rule (f : form) : Prop := conjunctive f \/ disjunctive f.
Lemma negs_all fs ts g l g' I (v : val I) : negs fs ts g = (l, g') -> (all_hold l v <-> forall f, In f fs -> ~ holds f v).
Proof.
  intros E. apply negs_spec in E as [F _]. induction F as [|f y fs l (i & ->) F IH]; [split; [intros _ f []|intros _ y []]|].
  split.
  - intros A h [<-|Hh]; [apply (A _ (or_introl eq_refl))|]. apply IH; auto. intros z Hz; apply A; right; auto.
  - intros A z [<-|Hz]; [apply (A f (or_introl eq_refl))|]. revert z Hz. apply IH. intros h Hh; apply A; right; auto.
Qed.
Lemma negs_some fs ts g l g' I (v : val I) : negs fs ts g = (l, g') ->
  ((exists ys, In ys (map (fun y => [y]) l) /\ all_hold ys v) <-> exists f, In f fs /\ ~ holds f v).
Proof.
  intros E. apply negs_spec in E as [F _]. induction F as [|f y fs l (i & ->) F IH].
  - split; [intros (ys & [] & _)|intros (f & [] & _)].
  - split.
    + intros (ys & [<-|H] & A); [exists f; split; [left; auto|apply (A _ (or_introl eq_refl))]|].
      destruct (proj1 IH) as (h & H1 & H2); eauto. exists h. split; auto. right; auto.
    + intros (h & [<-|H] & A); [eexists; split; [left; reflexivity|intros z [<-|[]]; exact A]|].
      destruct (proj2 IH) as (h' & H1 & H2); eauto. exists h'. split; auto. right; auto.
Qed.
Lemma all_hold1 {I} x (v : val I) : all_hold [x] v <-> holds (ft_form x) v.
Proof. split; [intros A; apply A; left; auto|intros A y [<-|[]]; auto]. Qed.
Lemma all_hold2 {I} x y (v : val I) : all_hold [x; y] v <-> holds (ft_form x) v /\ holds (ft_form y) v.
Proof. split; [intros A; split; apply A; cbn; auto|intros [A B] z [<-|[<-|[]]]; auto]. Qed.
Lemma ex1 {A} (P : A -> Prop) a : (exists x, In x [a] /\ P x) <-> P a.
Proof. split; [intros (x & [<-|[]] & H); auto|intros H; exists a; cbn; auto]. Qed.
Lemma ex2 {A} (P : A -> Prop) a b : (exists x, In x [a; b] /\ P x) <-> P a \/ P b.
Proof. split; [intros (x & [<-|[<-|[]]] & H); auto|intros [H|H]; [exists a|exists b]; cbn; auto]. Qed.

(** the alpha and beta rules *)
Lemma apply_simple x s g news metas s' g' : simple_rule (ft_form x) -> apply_rule x s g = Some (news, metas, s', g') ->
  s' = s /\ metas = [] /\ cpt_term g' = cpt_term g /\
  (forall ys y, In ys news -> In y ys -> derived (ft_form x) (ft_form y) /\ ft_terms y = ft_terms x).
Proof.
  assert (D0 : forall f h, part f h -> derived f h) by (intros f h P; exists h; auto).
  assert (D1 : forall f h i, part f h -> derived f (Not i h)) by (intros f h i P; exists h; eauto).
  assert (PT : forall i f h, part f h -> part (Not i f) h) by (intros i f h P; eapply pa_trans; [constructor|auto]).
  assert (NG : forall f fs ts g l g1, (forall h, In h fs -> part f h) -> negs fs ts g = (l, g1) ->
    cpt_term g1 = cpt_term g /\ forall y, In y l -> derived f (ft_form y) /\ ft_terms y = ts).
  { intros f fs ts g0 l g1 P E. apply negs_spec in E as [F C]. split; auto. intros y Hy.
    induction F as [|h z fs l (i & ->) F IH]; [destruct Hy|destruct Hy as [<-|Hy]].
    - split; auto. apply D1, P. left; auto.
    - apply IH; auto. intros h' H; apply P; right; auto. }
  destruct x as [f ts]. cbn [ft_form ft_terms]. intros [K|K] E; inversion K; subst; cbn [apply_rule ft_form ft_terms] in E.
  - injection E as <- <- <- <-. do 3 (split; auto). intros ys y [<-|[]] Hy. apply in_map_iff in Hy as (h & <- & Hh).
    split; auto. apply D0. constructor; auto.
  - destruct (negs fs ts g) as [l g1] eqn:En. injection E as <- <- <- <-.
    assert (P : forall h, In h fs -> part (Not i (Or j fs)) h) by (intros h H; apply PT; constructor; auto).
    destruct (NG _ _ _ _ _ _ P En) as [C H].
    do 3 (split; auto). intros ys y [<-|[]]; auto.
  - unfold maker_not, maker_index_formula in E; cbv beta iota zeta in E. injection E as <- <- <- <-. do 3 (split; auto). intros ys y [<-|[]] [<-|[<-|[]]]; cbn; (split; [|auto]);
      (apply D0, PT; constructor) || (apply D1, PT; constructor).
  - injection E as <- <- <- <-. do 3 (split; auto). intros ys y [<-|[]] [<-|[]]; cbn; split; auto. apply D0, PT. constructor.
  - injection E as <- <- <- <-. do 3 (split; auto). intros ys y Hs Hy. apply in_map_iff in Hs as (h & <- & Hh).
    destruct Hy as [<-|[]]. split; auto. apply D0. constructor; auto.
  - destruct (negs fs ts g) as [l g1] eqn:En. injection E as <- <- <- <-.
    assert (P : forall h, In h fs -> part (Not i (And j fs)) h) by (intros h H; apply PT; constructor; auto).
    destruct (NG _ _ _ _ _ _ P En) as [C H].
    do 3 (split; auto). intros ys y Hs Hy. apply in_map_iff in Hs as (z & <- & Hz). destruct Hy as [<-|[]]. auto.
  - unfold maker_not, maker_index_formula in E; cbv beta iota zeta in E. injection E as <- <- <- <-. do 3 (split; auto).
    intros ys y [<-|[<-|[]]] [<-|[]]; cbn; (split; [|auto]); (apply D0; constructor) || (apply D1; constructor).
  - unfold maker_not, maker_index_formula in E; cbv beta iota zeta in E. injection E as <- <- <- <-. do 3 (split; auto).
    intros ys y [<-|[<-|[]]] [<-|[<-|[]]]; cbn; (split; [|auto]); (apply D0; constructor) || (apply D1; constructor).
  - unfold maker_not, maker_index_formula in E; cbv beta iota zeta in E. injection E as <- <- <- <-. do 3 (split; auto).
    intros ys y [<-|[<-|[]]] [<-|[<-|[]]]; cbn; (split; [|auto]); (apply D0, PT; constructor) || (apply D1, PT; constructor).
Qed.
Lemma apply_holds x s g news metas s' g' I (v : val I) : simple_rule (ft_form x) ->
  apply_rule x s g = Some (news, metas, s', g') ->
  (holds (ft_form x) v <-> exists ys, In ys news /\ all_hold ys v).
Proof.
  destruct x as [f ts]. cbn [ft_form ft_terms]. intros [K|K] E; inversion K; subst; cbn [apply_rule ft_form ft_terms] in E.
  - injection E as <- <- <- <-. rewrite ex1, holds_and, Forall_forall. split.
    + intros H y Hy. apply in_map_iff in Hy as (h & <- & Hh). auto.
    + intros H h Hh. apply (H (mkFat h ts)). apply in_map_iff; eauto.
  - destruct (negs fs ts g) as [l g1] eqn:En. injection E as <- <- <- <-. rewrite ex1, (negs_all _ _ _ _ _ _ _ En).
    cbn [holds]. change (~ holds (Or j fs) v <-> (forall f, In f fs -> ~ holds f v)). rewrite holds_or. firstorder.
  - unfold maker_not, maker_index_formula in E; cbv beta iota zeta in E. injection E as <- <- <- <-. rewrite ex1, all_hold2. cbn. pose proof (classic (holds a v)). tauto.
  - injection E as <- <- <- <-. rewrite ex1, all_hold1. cbn. pose proof (classic (holds f0 v)). tauto.
  - injection E as <- <- <- <-. rewrite holds_or. split.
    + intros (h & H & A). exists [mkFat h ts]. split; [apply in_map_iff; eauto|apply all_hold1; auto].
    + intros (ys & H & A). apply in_map_iff in H as (h & <- & H). exists h. split; auto. apply all_hold1 in A. auto.
  - destruct (negs fs ts g) as [l g1] eqn:En. injection E as <- <- <- <-. rewrite (negs_some _ _ _ _ _ _ _ En).
    change (~ holds (And j fs) v <-> exists f, In f fs /\ ~ holds f v). rewrite holds_and, Forall_forall. split.
    + intros H. apply not_all_ex_not in H as (h & H). apply imply_to_and in H. eauto.
    + intros (h & H1 & H2) H. apply H2; auto.
  - unfold maker_not, maker_index_formula in E; cbv beta iota zeta in E. injection E as <- <- <- <-. rewrite ex2, !all_hold1. cbn. pose proof (classic (holds a v)). tauto.
  - unfold maker_not, maker_index_formula in E; cbv beta iota zeta in E. injection E as <- <- <- <-. rewrite ex2, !all_hold2. cbn. pose proof (classic (holds a v)). tauto.
  - unfold maker_not, maker_index_formula in E; cbv beta iota zeta in E. injection E as <- <- <- <-. rewrite ex2, !all_hold2. cbn.
    pose proof (classic (holds a v)). pose proof (classic (holds b v)). tauto.
Qed.

(** ** Managers *)
Lemma list_eqb_same {A} (eqb : A -> A -> bool) l : Forall (fun a => eqb a a = true) l -> list_eqb eqb l l = true.
Proof. induction 1; cbn; auto. rewrite H. auto. Qed.
Lemma term_eqb_same t : term_eqb t t = true.
Proof. apply term_eqb_reflect, same_term_refl. Qed.
Lemma ty_eqb_same t : ty_eqb t t = true.
Proof. apply ty_eqb_reflect, same_ty_refl. Qed.
Lemma tvars_same vs : list_eqb tvar_eqb vs vs = true.
Proof. apply list_eqb_same, Forall_forall. intros x _. unfold tvar_eqb. rewrite String.eqb_refl, Z.eqb_refl, ty_eqb_same. auto. Qed.
Lemma form_eqb_same f : form_eqb f f = true.
Proof.
  induction f using form_ind'; cbn; rewrite ?tvars_same, ?IHf, ?IHf1, ?IHf2; auto; try (apply list_eqb_same; auto; fail).
  unfold id_eqb. rewrite Z.eqb_refl, !list_eqb_same; auto; apply Forall_forall; intros; [apply term_eqb_same|apply ty_eqb_same].
Qed.
Lemma rule_eqb_same x : rule_eqb x x = true.
Proof.
  unfold rule_eqb. rewrite form_eqb_same, list_eqb_same; auto. apply Forall_forall. intros; apply term_eqb_same.
Qed.
Lemma rule_eqb_form x y : rule_eqb x y = true -> form_eqb (ft_form x) (ft_form y) = true.
Proof. unfold rule_eqb. intros E. apply andb_prop in E as [_ E]. auto. Qed.
Lemma form_eqb_kind f : forall h, form_eqb f h = true -> kind_of_rule f = kind_of_rule h.
Proof.
  intros h E. destruct f as [| | | | | |i f| | |]; destruct h as [| | | | | |j h| | |]; try discriminate E; auto.
  destruct f, h; try discriminate E; reflexivity.
Qed.
Lemma form_eqb_w f : forall h, form_eqb f h = true -> w f = w h.
Proof.
  assert (L : forall vs us, list_eqb tvar_eqb vs us = true -> List.length vs = List.length us).
  { induction vs as [|a r IH]; intros [|b us] E; cbn in E; try discriminate; auto. apply andb_prop in E as [_ E]. cbn. f_equal; auto. }
  assert (M : forall fs, Forall (fun f => forall h, form_eqb f h = true -> w f = w h) fs -> forall hs, list_eqb form_eqb fs hs = true ->
    list_sum (map (fun g => S (w g)) fs) = list_sum (map (fun g => S (w g)) hs)).
  { induction 1 as [|a fs Ha F IH]; intros [|h hs] E; cbn [list_eqb] in E; try discriminate; auto.
    apply andb_prop in E as [E1 E2]. cbn [map]. rewrite !lsum_cons, (Ha _ E1), (IH _ E2). auto. }
  induction f using form_ind'; intros [ | | | | | | | | | ] E; simpl in E; try discriminate; cbn [w]; auto;
    try (apply andb_prop in E as [E1 E2]); try (erewrite L, IHf by eassumption; auto; fail);
    try (f_equal; apply M; auto; fail).
  - rewrite (IHf1 _ E1), (IHf2 _ E2). auto.
  - rewrite (IHf1 _ E1), (IHf2 _ E2). auto.
Qed.

Record sorted (m : mgr) : Prop := {
  so_pos : forall x, In x (mg_pos m) -> atomic (ft_form x);
  so_neg : forall x, In x (mg_neg m) -> exists i f, ft_form x = Not i f /\ atomic f;
  so_alpha : forall x, In x (mg_alpha m) -> conjunctive (ft_form x);
  so_beta : forall x, In x (mg_beta m) -> disjunctive (ft_form x);
  so_gamma : forall x, In x (mg_gamma m) -> universal (ft_form x);
  so_delta : forall x, In x (mg_delta m) -> existential (ft_form x) }.
Lemma sorted_empty : sorted empty_mgr.
Proof. constructor; intros x []. Qed.
Lemma rl_append_in l x y : In y (rl_append l x) -> y = x \/ In y l.
Proof. unfold rl_append. destruct existsb; auto. rewrite in_app_iff. cbn. intuition. Qed.
Lemma rl_append_incl l x : incl l (rl_append l x).
Proof. unfold rl_append. destruct existsb; [apply incl_refl|apply incl_appl, incl_refl]. Qed.
Lemma rl_append_hold l x I (v : val I) : all_hold (rl_append l x) v <-> holds (ft_form x) v /\ all_hold l v.
Proof.
  unfold rl_append. destruct (existsb _ l) eqn:E.
  - split; [|tauto]. intros A. split; auto. apply existsb_exists in E as (y & Hy & E). apply rule_eqb_form in E.
    apply (form_eqb_equiv _ _ E). auto.
  - split.
    + intros A. split; [apply A; apply in_or_app; cbn; auto|]. intros y Hy. apply A, in_or_app; auto.
    + intros [A B] y Hy. apply in_app_iff in Hy as [Hy|[<-|[]]]; auto.
Qed.
Lemma rl_append_ws l x : (ws (rl_append l x) <= ws l + w (ft_form x))%nat.
Proof. unfold rl_append. destruct existsb; [lia|]. rewrite ws_app, ws_cons, ws_nil. lia. Qed.
Lemma rl_remove_in l x y : In y (rl_remove l x) -> In y l.
Proof. induction l as [|a r IH]; cbn; auto. destruct rule_eqb; cbn; tauto. Qed.
Lemma rl_remove_hold l x I (v : val I) : all_hold (rl_remove l x) v -> holds (ft_form x) v -> all_hold l v.
Proof.
  induction l as [|a r IH]; cbn [rl_remove]; intros A B y Hy; [destruct Hy|]. destruct (rule_eqb a x) eqn:E.
  - destruct Hy as [<-|Hy]; auto. apply (form_eqb_equiv _ _ (rule_eqb_form _ _ E)). auto.
  - destruct Hy as [<-|Hy]; [apply A; left; auto|]. apply IH; auto. intros z Hz. apply A. right; auto.
Qed.
Lemma rl_remove_ws l x : (ws (rl_remove l x) <= ws l)%nat.
Proof. induction l as [|a r IH]; cbn [rl_remove]; [lia|]. destruct rule_eqb; rewrite ?ws_cons; lia. Qed.
Lemma rl_remove_ws_in l x : In x l -> (ws (rl_remove l x) + w (ft_form x) <= ws l)%nat.
Proof.
  induction l as [|a r IH]; cbn [rl_remove]; [intros []|]. intros H. destruct (rule_eqb a x) eqn:E.
  - apply rule_eqb_form, form_eqb_w in E. rewrite ws_cons. lia.
  - destruct H as [->|H]; [rewrite rule_eqb_same in E; discriminate|]. rewrite !ws_cons. specialize (IH H). lia.
Qed.
Lemma rl_remove_other l x : (forall y, In y l -> kind_of_rule (ft_form y) <> kind_of_rule (ft_form x)) -> rl_remove l x = l.
Proof.
  induction l as [|a r IH]; cbn [rl_remove]; auto. intros H. destruct (rule_eqb a x) eqn:E.
  - exfalso. apply (H a); [left; auto|]. apply form_eqb_kind, rule_eqb_form. auto.
  - f_equal. apply IH. intros y Hy. apply H. right; auto.
Qed.

Lemma kind_atomic f : kind_of_rule f = KAtomic -> atomic f \/ exists i h, f = Not i h /\ atomic h.
Proof.
  destruct f; cbn; intros E; try discriminate; try (left; constructor).
  destruct f; try discriminate; right; do 2 eexists; split; eauto; constructor.
Qed.
Lemma kind_alpha f : kind_of_rule f = KAlpha -> conjunctive f.
Proof. destruct f; cbn; intros E; try discriminate; try constructor. destruct f; try discriminate; constructor. Qed.
Lemma kind_beta f : kind_of_rule f = KBeta -> disjunctive f.
Proof. destruct f; cbn; intros E; try discriminate; try constructor. destruct f; try discriminate; constructor. Qed.
Lemma kind_gamma f : kind_of_rule f = KGamma -> universal f.
Proof. destruct f; cbn; intros E; try discriminate; try constructor. destruct f; try discriminate; constructor. Qed.
Lemma kind_delta f : kind_of_rule f = KDelta -> existential f.
Proof. destruct f; cbn; intros E; try discriminate; try constructor. destruct f; try discriminate; constructor. Qed.
Lemma alpha_kind f : conjunctive f -> kind_of_rule f = KAlpha. Proof. destruct 1; reflexivity. Qed.
Lemma beta_kind f : disjunctive f -> kind_of_rule f = KBeta. Proof. destruct 1; reflexivity. Qed.
Lemma gamma_kind f : universal f -> kind_of_rule f = KGamma. Proof. destruct 1; reflexivity. Qed.
Lemma delta_kind f : existential f -> kind_of_rule f = KDelta. Proof. destruct 1; reflexivity. Qed.
Lemma atomic_kind f : atomic f -> kind_of_rule f = KAtomic. Proof. destruct 1; reflexivity. Qed.
Lemma neg_kind i f : atomic f -> kind_of_rule (Not i f) = KAtomic. Proof. destruct 1; reflexivity. Qed.

(** every case of insert_rule adds the rule to one list *)
Lemma insert_cases m x : exists P, P (insert_rule m x) /\
  (P = (fun m' => m' = mkMgr (rl_append (mg_pos m) x) (mg_neg m) (mg_alpha m) (mg_beta m) (mg_gamma m) (mg_delta m) (mg_reintro m) (mg_metas m) /\ atomic (ft_form x)) \/
   P = (fun m' => m' = mkMgr (mg_pos m) (rl_append (mg_neg m) x) (mg_alpha m) (mg_beta m) (mg_gamma m) (mg_delta m) (mg_reintro m) (mg_metas m) /\ exists i f, ft_form x = Not i f /\ atomic f) \/
   P = (fun m' => m' = mkMgr (mg_pos m) (mg_neg m) (rl_append (mg_alpha m) x) (mg_beta m) (mg_gamma m) (mg_delta m) (mg_reintro m) (mg_metas m) /\ conjunctive (ft_form x)) \/
   P = (fun m' => m' = mkMgr (mg_pos m) (mg_neg m) (mg_alpha m) (rl_append (mg_beta m) x) (mg_gamma m) (mg_delta m) (mg_reintro m) (mg_metas m) /\ disjunctive (ft_form x)) \/
   P = (fun m' => m' = mkMgr (mg_pos m) (mg_neg m) (mg_alpha m) (mg_beta m) (rl_append (mg_gamma m) x) (mg_delta m) (mg_reintro m) (mg_metas m) /\ universal (ft_form x)) \/
   P = (fun m' => m' = mkMgr (mg_pos m) (mg_neg m) (mg_alpha m) (mg_beta m) (mg_gamma m) (rl_append (mg_delta m) x) (mg_reintro m) (mg_metas m) /\ existential (ft_form x))).
Proof.
  unfold insert_rule. destruct (kind_of_rule (ft_form x)) eqn:E.
  - apply kind_atomic in E as [E|(i & h & E & A)].
    + eexists. split; [|left; reflexivity]. split; auto. destruct E; auto.
    + eexists. split; [|right; left; reflexivity]. rewrite E. split; eauto.
  - eexists. split; [|right; right; left; reflexivity]. split; auto. apply kind_alpha; auto.
  - eexists. split; [|right; right; right; left; reflexivity]. split; auto. apply kind_beta; auto.
  - eexists. split; [|right; right; right; right; right; reflexivity]. split; auto. apply kind_delta; auto.
  - eexists. split; [|right; right; right; right; left; reflexivity]. split; auto. apply kind_gamma; auto.
Qed.
Ltac icases m x := let P := fresh "P" in let H := fresh "H" in let E := fresh "E" in
  destruct (insert_cases m x) as (P & H & E); destruct E as [->|[->|[->|[->|[->| ->]]]]]; cbv beta in H; destruct H as [-> H].
Lemma insert_in m x y : In y (forms_of (insert_rule m x)) -> y = x \/ In y (forms_of m).
Proof.
  icases m x; unfold forms_of; cbn [mg_pos mg_neg mg_alpha mg_beta mg_gamma mg_delta]; rewrite !in_app_iff;
    intros Q; repeat (destruct Q as [Q|Q]; [try apply rl_append_in in Q; tauto|]); try apply rl_append_in in Q; tauto.
Qed.
Lemma all_hold_app_iff {I} (l l' : list fat) (v : val I) : all_hold (l ++ l') v <-> all_hold l v /\ all_hold l' v.
Proof.
  split; [intros A; split; intros x Hx; apply A, in_or_app; auto|intros [A B] x Hx; apply in_app_iff in Hx as [Hx|Hx]; auto].
Qed.
Lemma insert_hold m x I (v : val I) : all_hold (forms_of (insert_rule m x)) v <-> holds (ft_form x) v /\ all_hold (forms_of m) v.
Proof.
  icases m x; unfold forms_of; cbn [mg_pos mg_neg mg_alpha mg_beta mg_gamma mg_delta]; rewrite !all_hold_app_iff, rl_append_hold; tauto.
Qed.
Lemma insert_ws m x : (ws (forms_of (insert_rule m x)) <= ws (forms_of m) + w (ft_form x))%nat.
Proof.
  icases m x; unfold forms_of; cbn [mg_pos mg_neg mg_alpha mg_beta mg_gamma mg_delta]; rewrite !ws_app;
    match goal with |- context [rl_append ?l x] => pose proof (rl_append_ws l x) end; lia.
Qed.
Lemma insert_sorted m x : sorted m -> sorted (insert_rule m x).
Proof.
  intros [S1 S2 S3 S4 S5 S6].
  icases m x; constructor; cbn [mg_pos mg_neg mg_alpha mg_beta mg_gamma mg_delta]; auto;
    intros y Hy; apply rl_append_in in Hy as [->|Hy]; auto.
Qed.
Lemma insert_lits m x : incl (mg_pos m) (mg_pos (insert_rule m x)) /\ incl (mg_neg m) (mg_neg (insert_rule m x)).
Proof. icases m x; cbn [mg_pos mg_neg]; split; try apply incl_refl; apply rl_append_incl. Qed.
Lemma insert_rest m x : mg_reintro (insert_rule m x) = mg_reintro m /\ mg_metas (insert_rule m x) = mg_metas m.
Proof. icases m x; auto. Qed.
Lemma inserts_in l : forall m y, In y (forms_of (fold_left insert_rule l m)) -> In y l \/ In y (forms_of m).
Proof.
  induction l as [|x r IH]; cbn [fold_left]; auto. intros m y H. apply IH in H as [H|H]; [left; right; auto|].
  apply insert_in in H as [->|H]; auto. left; left; auto.
Qed.
Lemma inserts_hold l : forall m I (v : val I), all_hold (forms_of (fold_left insert_rule l m)) v <-> all_hold l v /\ all_hold (forms_of m) v.
Proof.
  induction l as [|x r IH]; cbn [fold_left]; intros m I v; [split; [intros A; split; auto; intros y []|tauto]|].
  rewrite IH, insert_hold. split.
  - intros (A & B & C). split; auto. intros y [<-|Hy]; auto.
  - intros (A & C). split; [intros y Hy; apply A; right; auto|]. split; auto. apply A. left; auto.
Qed.
Lemma inserts_ws l : forall m, (ws (forms_of (fold_left insert_rule l m)) <= ws (forms_of m) + ws l)%nat.
Proof.
  induction l as [|x r IH]; cbn [fold_left]; intros m; [lia|]. specialize (IH (insert_rule m x)). pose proof (insert_ws m x).
  rewrite ws_cons. lia.
Qed.
Lemma inserts_sorted l : forall m, sorted m -> sorted (fold_left insert_rule l m).
Proof. induction l as [|x r IH]; cbn [fold_left]; auto. intros m S. apply IH, insert_sorted; auto. Qed.
Lemma inserts_lits l : forall m, incl (mg_pos m) (mg_pos (fold_left insert_rule l m)) /\ incl (mg_neg m) (mg_neg (fold_left insert_rule l m)).
Proof.
  induction l as [|x r IH]; cbn [fold_left]; intros m; [split; apply incl_refl|]. destruct (IH (insert_rule m x)), (insert_lits m x).
  split; eapply incl_tran; eauto.
Qed.
(** the rules that are applied come from the four last lists *)
Definition rules_of (m : mgr) : list fat := mg_alpha m ++ mg_beta m ++ mg_gamma m ++ mg_delta m.
Definition rule_form (f : form) : Prop := conjunctive f \/ disjunctive f \/ universal f \/ existential f.
Lemma sorted_rules m x : sorted m -> In x (rules_of m) -> rule_form (ft_form x).
Proof. intros [] H. unfold rules_of in H. rewrite !in_app_iff in H. unfold rule_form. intuition. Qed.
Lemma rule_not_atomic f : rule_form f -> kind_of_rule f <> KAtomic.
Proof. intros [H|[H|[H|H]]]; destruct H; discriminate. Qed.
Lemma branch_in m x metas new y : In y (forms_of (branch_mgr m x metas new)) -> In y new \/ In y (forms_of m).
Proof.
  unfold branch_mgr. set (c := remove_rule _ x). intros H. change (In y (forms_of (fold_left insert_rule new c))) in H.
  apply inserts_in in H as [H|H]; auto. right. unfold c, forms_of, remove_rule in *. cbn in H. rewrite !in_app_iff in *.
  repeat (destruct H as [H|H]; [apply rl_remove_in in H; tauto|]). apply rl_remove_in in H; tauto.
Qed.
Lemma branch_hold m x metas new I (v : val I) : all_hold (forms_of (branch_mgr m x metas new)) v -> holds (ft_form x) v ->
  all_hold (forms_of m) v.
Proof.
  unfold branch_mgr. set (c := remove_rule _ x). intros H. change (all_hold (forms_of (fold_left insert_rule new c)) v) in H.
  apply inserts_hold in H as [_ H]. intros X. unfold c, forms_of, remove_rule in *. cbn in H. rewrite !all_hold_app_iff in *.
  repeat match goal with H : _ /\ _ |- _ => destruct H end. repeat split; eapply rl_remove_hold; eauto.
Qed.
Lemma branch_new m x metas new I (v : val I) : all_hold (forms_of (branch_mgr m x metas new)) v -> all_hold new v.
Proof.
  unfold branch_mgr. set (c := remove_rule _ x). intros H. change (all_hold (forms_of (fold_left insert_rule new c)) v) in H.
  apply inserts_hold in H as [H _]. auto.
Qed.
Lemma branch_ws m x metas new : In x (rules_of m) ->
  (ws (forms_of (branch_mgr m x metas new)) + w (ft_form x) <= ws (forms_of m) + ws new)%nat.
Proof.
  intros X. unfold branch_mgr. set (c := remove_rule _ x).
  change (ws (forms_of (fold_left insert_rule new c)) + w (ft_form x) <= ws (forms_of m) + ws new)%nat.
  pose proof (inserts_ws new c) as H.
  assert (C : (ws (forms_of c) + w (ft_form x) <= ws (forms_of m))%nat).
  { unfold c, forms_of, remove_rule. cbn [mg_pos mg_neg mg_alpha mg_beta mg_gamma mg_delta]. rewrite !ws_app.
    pose proof (rl_remove_ws (mg_pos m) x). pose proof (rl_remove_ws (mg_neg m) x). pose proof (rl_remove_ws (mg_alpha m) x).
    pose proof (rl_remove_ws (mg_beta m) x). pose proof (rl_remove_ws (mg_gamma m) x). pose proof (rl_remove_ws (mg_delta m) x).
    unfold rules_of in X. rewrite !in_app_iff in X.
    repeat (destruct X as [X|X]; [apply rl_remove_ws_in in X; lia|]). apply rl_remove_ws_in in X; lia. }
  lia.
Qed.
Lemma branch_sorted m x metas new : sorted m -> sorted (branch_mgr m x metas new).
Proof.
  intros [S1 S2 S3 S4 S5 S6]. unfold branch_mgr. set (c := remove_rule _ x).
  assert (S : sorted (fold_left insert_rule new c)).
  { apply inserts_sorted. constructor; cbn; intros y Hy; apply rl_remove_in in Hy; auto. }
  destruct S; constructor; auto.
Qed.
Lemma branch_lits m x metas new : sorted m -> In x (rules_of m) ->
  incl (mg_pos m) (mg_pos (branch_mgr m x metas new)) /\ incl (mg_neg m) (mg_neg (branch_mgr m x metas new)).
Proof.
  intros S X. apply (sorted_rules m x S), rule_not_atomic in X. destruct S as [S1 S2 _ _ _ _].
  unfold branch_mgr. set (c := remove_rule _ x). cbn [mg_pos mg_neg].
  assert (P : mg_pos c = mg_pos m).
  { apply rl_remove_other. intros y Hy. rewrite (atomic_kind _ (S1 y Hy)). auto. }
  assert (N : mg_neg c = mg_neg m).
  { apply rl_remove_other. intros y Hy. destruct (S2 y Hy) as (i & f & -> & A). rewrite (neg_kind i f A). auto. }
  rewrite <- P, <- N. apply inserts_lits.
Qed.
Lemma branch_rest m x metas new : mg_reintro (branch_mgr m x metas new) = mg_reintro m /\ mg_metas (branch_mgr m x metas new) = mg_metas m.
Proof. unfold branch_mgr. rewrite !not_gamma. auto. Qed.
Lemma applied_mgr_id m x new : applied_mgr m x new = m.
Proof. unfold applied_mgr. rewrite not_gamma. destruct new; auto. destruct m; auto. Qed.
