(** Every run of the translation: where the hypotheses come from, and the terms of the delta rules (C75). *)
From Coq Require Import ZArith List Bool String Lia.
From Verif Require Import Ast_Model Ast_Proofs Sem_Spec Occ_Spec Rules_Proofs Unif_Model UnifMgu_Proofs GsTerm_Model GsTerm_Spec GsTerm_Proofs GsProof_Model GsProof_Spec GsProof_Fresh.
Import ListNotations.
Open Scope list_scope.
Open Scope Z_scope.

(** ** Equality up to indices *)
Lemma list_eqb_trans {A} (eqb : A -> A -> bool) l : Forall (fun x => forall y z, eqb x y = true -> eqb y z = true -> eqb x z = true) l ->
  forall m n, list_eqb eqb l m = true -> list_eqb eqb m n = true -> list_eqb eqb l n = true.
Proof.
  induction 1 as [|x l Hx H IH]; intros [|y m] [|z n] E1 E2; cbn in *; try discriminate; auto.
  apply andb_prop in E1. apply andb_prop in E2. destruct E1, E2. apply andb_true_intro. eauto.
Qed.
Lemma ty_eqb_trans a b c : ty_eqb a b = true -> ty_eqb b c = true -> ty_eqb a c = true.
Proof. rewrite !ty_eqb_reflect. apply same_ty_trans. Qed.
Lemma term_eqb_trans a b c : term_eqb a b = true -> term_eqb b c = true -> term_eqb a c = true.
Proof. rewrite !term_eqb_reflect. apply same_term_trans. Qed.
Lemma tvar_eqb_trans a b c : tvar_eqb a b = true -> tvar_eqb b c = true -> tvar_eqb a c = true.
Proof.
  unfold tvar_eqb. rewrite !andb_true_iff, !String.eqb_eq, !Z.eqb_eq. intros [[E1 E2] E3] [[F1 F2] F3]. repeat split; try congruence. eapply ty_eqb_trans; eauto.
Qed.
Lemma all_trans {A} (eqb : A -> A -> bool) l : (forall x y z, eqb x y = true -> eqb y z = true -> eqb x z = true) ->
  Forall (fun x => forall y z, eqb x y = true -> eqb y z = true -> eqb x z = true) l.
Proof. intros H. apply Forall_forall. intros x _. apply H. Qed.
Lemma form_eqb_trans a : forall b c, form_eqb a b = true -> form_eqb b c = true -> form_eqb a c = true.
Proof.
  induction a using form_ind'; intros [] [] E F; cbn in *; try discriminate; auto;
    rewrite ?andb_true_iff in *; intuition eauto;
    try (eapply list_eqb_trans; [|eassumption|eassumption]; auto using all_trans, tvar_eqb_trans, ty_eqb_trans, term_eqb_trans; fail).
  all: try (unfold id_eqb in *; rewrite Z.eqb_eq in *; congruence).
  all: eapply list_eqb_trans; [|eassumption|eassumption]; try exact H; apply all_trans; eauto using tvar_eqb_trans, ty_eqb_trans, term_eqb_trans.
Qed.
Lemma list_eqb_in {A} (eqb : A -> A -> bool) l : forall m x, list_eqb eqb l m = true -> In x l -> exists y, In y m /\ eqb x y = true.
Proof.
  induction l as [|a l IH]; intros [|b m] x E H; cbn in *; try discriminate; [contradiction|]. apply andb_prop in E. destruct E as [E1 E2].
  destruct H as [->|H]; [eauto|]. destruct (IH _ _ E2 H) as (y & Hy & K). eauto.
Qed.
Lemma in_term_same u a : forall b, term_eqb a b = true -> in_term u a -> in_term u b.
Proof.
  induction a as [x|p tys l IH|x n|m] using term_ind'; intros b E H; inversion H as [? K|? ? ? a Ha Hin]; subst; try (apply I_here; eapply term_eqb_trans; eassumption).
  destruct b as [|q tys' l'| |]; cbn in E; try discriminate. apply andb_prop in E. destruct E as [_ E].
  destruct (list_eqb_in _ _ _ _ E Ha) as (y & Hy & K). rewrite Forall_forall in IH. eapply I_arg; [exact Hy|]. eapply IH; eauto.
Qed.
Lemma in_form_same u a : forall b, form_eqb a b = true -> in_form u a -> in_form u b.
Proof.
  induction a using form_ind'; intros b E K; destruct b; cbn in E; try discriminate; inversion K; subst; rewrite ?andb_true_iff in E;
    try (constructor; firstorder; fail).
  - match goal with Hx : In ?g fs |- _ => destruct (list_eqb_in _ _ _ _ E Hx) as (y & Hy & Ey) end. rewrite Forall_forall in H. eapply F_or; [exact Hy|]. eapply H; eauto.
  - match goal with Hx : In ?g fs |- _ => destruct (list_eqb_in _ _ _ _ E Hx) as (y & Hy & Ey) end. rewrite Forall_forall in H. eapply F_and; [exact Hy|]. eapply H; eauto.
  - destruct E as [_ E]. match goal with Hx : In ?g _, Ht : in_term _ ?g |- _ => destruct (list_eqb_in _ _ _ _ E Hx) as (y & Hy & Ey) end. eapply F_pred; [exact Hy|]. eapply in_term_same; eauto.
Qed.

(** ** Lists of formulas *)
Lemma index_some f l : forall i, index_of f l = Some i -> exists h, nth_error l i = Some h /\ same f h.
Proof.
  induction l as [|x l IH]; intros i E; cbn in E; [discriminate|]. destruct (form_eqb f x) eqn:Ex; [injection E as <-; exists x; cbn; auto|].
  destruct (index_of f l) as [j|]; [|discriminate]. injection E as <-. apply IH. reflexivity.
Qed.
Lemma remove_at_in {A} (x : A) l : forall i, In x (remove_at i l) -> In x l.
Proof. induction l as [|y l IH]; intros [|i] H; cbn in *; auto. destruct H as [H|H]; eauto. Qed.
Lemma remove_hyp_in f x l : In x (remove_hyp f l) -> In x l.
Proof. unfold remove_hyp. destruct (index_of f l); [apply remove_at_in|auto]. Qed.
Lemma remove_rule_in f x l : In x (remove_rule f l) -> In x l.
Proof. induction l as [|y l IH]; cbn; auto. destruct (form_eqb (ps_form (snd y)) f); cbn; tauto. Qed.
(** the formulas with the term go away one by one, in order *)
Definition has (u : term) (f : form) : bool := existsb (term_eqb u) (form_subs f).
Lemma has_same u a b : form_eqb a b = true -> has u a = true -> has u b = true.
Proof. unfold has. rewrite !form_subs_in. apply in_form_same. Qed.
Lemma remove_first u l : forall f r, filter (has u) l = f :: r -> filter (has u) (remove_hyp f l) = r.
Proof.
  induction l as [|x l IH]; intros f r E; cbn in E; [discriminate|]. unfold remove_hyp. cbn [index_of].
  destruct (has u x) eqn:Hx.
  - injection E as -> E. rewrite form_eqb_refl. cbn. exact E.
  - destruct (form_eqb f x) eqn:Ef.
    + assert (has u f = true) by (apply (proj2 (proj1 (filter_In (has u) f l) ltac:(rewrite E; left; reflexivity)))). rewrite (has_same _ _ _ Ef) in Hx by assumption. discriminate.
    + specialize (IH _ _ E). unfold remove_hyp in IH. destruct (index_of f l) as [i|]; cbn; rewrite Hx; exact IH.
Qed.
Lemma remove_none u l f : filter (has u) l = [] -> filter (has u) (remove_hyp f l) = [].
Proof.
  intros H. destruct (filter (has u) (remove_hyp f l)) as [|x r] eqn:E; [reflexivity|]. exfalso.
  assert (K : In x (filter (has u) (remove_hyp f l))) by (rewrite E; left; reflexivity). apply filter_In in K. destruct K as [K1 K2].
  assert (W : In x (filter (has u) l)) by (apply filter_In; split; [eapply remove_hyp_in; eassumption|exact K2]). rewrite H in W. destruct W.
Qed.
Lemma off_filter u l : forall o, offsprings (Some u) l = Ok o -> o = filter (has u) l.
Proof.
  induction l as [|f l IH]; intros o E; cbn in E; [injection E as <-; reflexivity|].
  destruct (offsprings (Some u) l) as [o'| | |] eqn:Eo; cbn in E; try discriminate. injection E as <-. rewrite (IH o' eq_refl). cbn. reflexivity.
Qed.
Lemma none_new u l : filter (has u) l = [] -> new_for u l.
Proof.
  intros H f Hf K. apply form_subs_in in K. assert (W : In f (filter (has u) l)) by (apply filter_In; auto). rewrite H in W. destruct W.
Qed.
Lemma remove_loop_in t n : forall i b len l, remove_loop n i t b len = Ok l -> incl l b.
Proof.
  induction n as [|n IH]; intros i b len l E; cbn [remove_loop] in E.
  - injection E as <-. intros x Hx. rewrite <- (firstn_skipn len b). apply in_or_app. auto.
  - destruct (nth_error b i) as [p|]; [|discriminate]. destruct (histo_is t p); [|eauto]. destruct (S i <=? len)%nat; [|discriminate].
    apply IH in E. intros x Hx. apply E in Hx. rewrite !in_app_iff in Hx. destruct Hx as [Hx|[Hx|Hx]].
    + rewrite <- (firstn_skipn i b). apply in_or_app. auto.
    + assert (In x (skipn (S i) b)) by (rewrite <- (firstn_skipn (len - S i) (skipn (S i) b)); apply in_or_app; auto). rewrite <- (firstn_skipn (S i) b). apply in_or_app. auto.
    + rewrite <- (firstn_skipn (len - 1) b). apply in_or_app. auto.
Qed.

Section All.
Variable empty_eq : form.
Variable preinner : bool.
Variable inst : rule -> form -> list (list form) -> Prop.
Variable witness : term -> form -> Prop.
Hypothesis functional : preinner = true -> forall t t' r r', witness t r -> witness t' r' -> term_eqb t t' = true -> same r r'.
Notation good := (good empty_eq inst witness).

Lemma available_app Gamma Delta f : available Gamma f -> available (Gamma ++ Delta) f.
Proof. intros (h & Hh & K). exists h. rewrite in_app_iff. auto. Qed.
Lemma available_right Gamma Delta f : In f Delta -> available (Gamma ++ Delta) f.
Proof. intros H. exists f. rewrite in_app_iff. split; [auto|]. apply form_eqb_refl. Qed.
Record fair (Gamma : list form) (g : gs) : Prop := {
  r_branch : forall f, In f (branch g) -> available Gamma f;
  r_applied : forall x, In x (applied g) -> good (snd x);
  r_delta : forall t r i, In (Some t, (r, i)) (delta_h g) -> available Gamma r /\ witness t r }.
Lemma fair_app Gamma Delta g : fair Gamma g -> fair (Gamma ++ Delta) g.
Proof. intros [H1 H2 H3]. split; auto using available_app. intros t r i H. destruct (H3 t r i H). auto using available_app. Qed.
Lemma fair_copy Gamma g : fair Gamma g -> fair Gamma (gs_copy g).
Proof. intros []. split; auto. Qed.
Lemma fair_zero Gamma : fair Gamma gs_zero. Proof. split; contradiction. Qed.

Definition local (Gamma : list form) (s : sequent) : Prop :=
  s_hyps s <> [] ->
    (exists l, s_hyps s = l ++ [empty_eq] /\ (forall f, In f l -> available Gamma f) /\
       (is_delta (s_rule s) = true -> forall u, s_term s = Some u -> new_for u l)) /\
    (s_rule s = W /\ s_forms s = [] \/ exists f h, target s h /\ same f h /\ inst (s_rule s) f (s_forms s)).
Inductive whole : list form -> sequent -> Prop :=
| Whole Gamma s : local Gamma s -> fair (Gamma ++ nth 0 (s_forms s) []) (s_proof s) ->
    (forall i k, nth_error (s_kids s) i = Some k -> whole (Gamma ++ nth i (s_forms s) []) k) -> whole Gamma s.
Lemma whole_sound : forall Gamma s, whole Gamma s -> sound empty_eq inst Gamma s.
Proof. fix IH 3. intros Gamma s H. destruct H as [Gamma s H1 H2 H3]. constructor; [exact H1|]. intros i k E. apply IH. exact (H3 i k E). Qed.

(** ** The tree *)
Inductive at_path : list form -> sequent -> list nat -> list form -> sequent -> Prop :=
| At_here Gamma s : at_path Gamma s [] Gamma s
| At_kid Gamma s k c p Gamma' s' : nth_error (s_kids s) k = Some c -> at_path (Gamma ++ nth k (s_forms s) []) c p Gamma' s' -> at_path Gamma s (k :: p) Gamma' s'.
Lemma path_incl Gamma s p Gamma' s' : at_path Gamma s p Gamma' s' -> forall f, available Gamma f -> available Gamma' f.
Proof. induction 1; auto using available_app. Qed.
Lemma path_whole Gamma s p Gamma' s' : at_path Gamma s p Gamma' s' -> whole Gamma s -> whole Gamma' s'.
Proof. induction 1 as [|? ? ? ? ? ? ? E _ IH]; auto. intros W. apply IH. inversion W; subst. eauto. Qed.
Lemma path_app Gamma s p Gamma' s' q Gamma'' s'' : at_path Gamma s p Gamma' s' -> at_path Gamma' s' q Gamma'' s'' -> at_path Gamma s (p ++ q) Gamma'' s''.
Proof. induction 1; intros H1; [exact H1|]. cbn. econstructor; eauto. Qed.
Lemma nth_middle_other {A} (l : list A) k x y : forall i, nth_error l k = Some y -> nth_error (firstn k l ++ x :: skipn (S k) l) i = if Nat.eqb i k then Some x else nth_error l i.
Proof.
  revert k. induction l as [|a l IH]; intros [|k] i E; cbn in E; try discriminate.
  - destruct i; reflexivity.
  - destruct i as [|i]; [reflexivity|]. cbn [firstn app nth_error Nat.eqb skipn]. apply IH, E.
Qed.
Lemma add_path Gamma s p Gamma' n c : at_path Gamma s p Gamma' n -> whole Gamma s -> whole (Gamma' ++ nth (List.length (s_kids n)) (s_forms n) []) c ->
  exists s', add_at p c s = Ok s' /\ whole Gamma s' /\ s_hyps s' = s_hyps s /\ at_path Gamma s' p Gamma' (set_kids n (s_kids n ++ [c])).
Proof.
  induction 1 as [Gamma s|Gamma s k c' p Gamma' n E Hp IH]; intros W Wc; destruct s as [h r o w t f ks pf i].
  - eexists. split; [reflexivity|]. split; [|split; [reflexivity|constructor]]. inversion W as [? ? L F K]; subst. constructor; [exact L|exact F|]. cbn [s_kids s_forms] in *.
    intros j k Hj. destruct (Nat.lt_ge_cases j (List.length ks)) as [Lt|Ge].
    + rewrite nth_error_app1 in Hj by exact Lt. eauto.
    + rewrite nth_error_app2 in Hj by exact Ge. destruct (j - List.length ks)%nat eqn:Ej; [|cbn in Hj; rewrite ?nth_error_nil in Hj; destruct n; discriminate].
      cbn in Hj. injection Hj as <-. replace j with (List.length ks) by lia. exact Wc.
  - cbn [s_kids s_forms] in *. inversion W as [? ? L F K]; subst. cbn [s_kids s_forms] in *. destruct (IH (K _ _ E) Wc) as (s' & Es & Ws & _ & Ps).
    cbn [add_at]. rewrite E, Es. cbn [bind]. eexists. split; [reflexivity|]. split; [|split; [reflexivity|]].
    + constructor; [exact L|exact F|]. cbn [s_kids s_forms]. intros j x Hj. rewrite (nth_middle_other _ _ _ _ _ E) in Hj. destruct (Nat.eqb j k) eqn:Ej; [apply Nat.eqb_eq in Ej; injection Hj as <-; subst; exact Ws|eauto].
    + eapply At_kid; [|exact Ps]. cbn [s_kids]. rewrite (nth_middle_other _ _ _ _ _ E), Nat.eqb_refl. reflexivity.
Qed.
Lemma kids_path Gamma s p Gamma' n : at_path Gamma s p Gamma' n -> kids_at p s = List.length (s_kids n).
Proof. induction 1 as [|? ? ? ? ? ? ? E _ IH]; [reflexivity|]. cbn. rewrite E. exact IH. Qed.

(** the state of a branch under construction: [Delta] is what the next sequent has above it *)
Inductive ready (Gamma Delta : list form) : sequent -> cursor -> gs -> Prop :=
| R_new cur g : Delta = Gamma -> (forall p, cur <> CAt p) -> fair Delta g -> ready Gamma Delta seq_new cur g
| R_at parent p Gn n g : s_hyps parent <> [] -> whole Gamma parent -> at_path Gamma parent p Gn n -> s_kids n = [] -> Delta = Gn ++ nth 0 (s_forms n) [] ->
    fair Delta g -> ready Gamma Delta parent (CAt p) g.
Lemma ready_fair Gamma Delta parent cur g : ready Gamma Delta parent cur g -> fair Delta g. Proof. intros []; assumption. Qed.
Lemma ready_whole Gamma Delta parent cur g : ready Gamma Delta parent cur g -> whole Gamma parent.
Proof. intros []; [|assumption]. constructor; cbn; [intros K; contradiction|apply fair_zero|]. intros i k E. destruct i; discriminate. Qed.
Lemma ready_state Gamma Delta parent cur g g' : ready Gamma Delta parent cur g -> fair Delta g' -> ready Gamma Delta parent cur g'.
Proof. intros [] F; [eapply R_new|eapply R_at]; eauto. Qed.
(** a sequent is put below the last one *)
Lemma put_below Gamma Delta parent p g c : ready Gamma Delta parent (CAt p) g -> whole Delta c ->
  exists parent' p', below c parent (CAt p) = Ok (parent', CAt p') /\ s_hyps parent' <> [] /\ whole Gamma parent' /\ at_path Gamma parent' p' Delta c.
Proof.
  intros R W. inversion R as [cur0 g0 E1 E2 E3 E4|parent0 p0 Gn n g0 H1 H2 H3 H4 H5 H6]; subst; [destruct (E2 p eq_refl)|]. 
  destruct (add_path _ _ _ _ _ c H3 H2) as (s' & Es & Ws & Hs & Ps); [rewrite H4; exact W|].
  cbn [below]. rewrite Es. cbn [bind]. exists s', (p ++ [kids_at p parent]). split; [reflexivity|]. split; [rewrite Hs; exact H1|]. split; [exact Ws|].
  eapply path_app; [exact Ps|]. rewrite (kids_path _ _ _ _ _ H3), H4. eapply At_kid with (c := c); [destruct n; reflexivity|]. destruct n; cbn in *. apply At_here.
Qed.
Lemma put Gamma Delta parent cur g c : ready Gamma Delta parent cur g -> s_hyps c <> [] -> whole Delta c ->
  exists parent' p', emit c parent cur = Ok (parent', CAt p') /\ s_hyps parent' <> [] /\ whole Gamma parent' /\ at_path Gamma parent' p' Delta c.
Proof.
  intros R Hc W. inversion R as [cur0 g0 E1 E2 E3|parent0 p Gn n g0 H1 H2 H3 H4 H5 H6]; subst.
  - cbn. exists c, []. split; [reflexivity|]. split; [exact Hc|]. split; [exact W|constructor].
  - unfold emit, is_empty. destruct (s_hyps parent) eqn:Eh; [contradiction|]. rewrite <- Eh in *. destruct (put_below _ _ _ _ _ _ R W) as (parent' & p' & Hp). eauto.
Qed.

(** ** The pieces of a step *)
Notation set_hyps := (set_hyps empty_eq).
Lemma applied_ok f h i : applied_on f h = Ok i -> exists x, nth_error h i = Some x /\ same f x.
Proof. unfold applied_on. destruct (index_of f h) eqn:E; [|discriminate]. intros K. injection K as <-. apply index_some, E. Qed.
Lemma set_some l : set_hyps l <> []. Proof. unfold GsProof_Model.set_hyps. destruct l; discriminate. Qed.
Lemma leaf_whole Delta g r i w t forms pf n : fair Delta g -> fair (Delta ++ nth 0 forms []) pf ->
  (is_delta r = true -> forall u, t = Some u -> new_for u (branch g)) ->
  (r = W /\ forms = [] \/ exists f h, nth_error (set_hyps (branch g)) i = Some h /\ same f h /\ inst r f forms) ->
  whole Delta (Seq (set_hyps (branch g)) r i w t forms [] pf n).
Proof.
  intros F Fp N I. constructor; cbn; [|exact Fp|intros [|j] k E; discriminate]. intros _. cbn. split.
  - exists (branch g). split; [reflexivity|]. split; [apply (r_branch _ _ F)|exact N].
  - destruct I as [I|(f & h & I)]; [left; exact I|right]. exists f, h. exact I.
Qed.
Lemma fair_applied Delta g a : fair Delta g -> (forall x, In x a -> good (snd x)) -> fair Delta (mkGs (dep g) (branch g) a (beta_h g) (delta_h g)).
Proof. intros [] H. split; auto. Qed.
Lemma fair_branch Delta g d b a be : fair Delta g -> (forall x, In x b -> available Delta x) -> (forall x, In x a -> good (snd x)) -> fair Delta (mkGs d b a be (delta_h g)).
Proof. intros [] H K. split; auto. Qed.
Lemma weaken_ok Delta g f s g' : fair Delta g -> weaken_form empty_eq g f = Ok (s, g') ->
  fair Delta g' /\ branch g' = remove_hyp f (branch g) /\ exists i, s = Seq (set_hyps (branch g)) W i 0 None [] [] (gs_copy g') 0.
Proof.
  intros F E. unfold weaken_form in E. apply bind_ok in E. destruct E as (i & Ei & E). injection E as <- <-. split; [|split; [reflexivity|eauto]].
  apply fair_branch; [exact F| |]; cbn; intros x Hx; [apply (r_branch _ _ F); eapply remove_hyp_in; eassumption|apply (r_applied _ _ F); eapply remove_rule_in; eassumption].
Qed.
Lemma w_whole Delta g i w t pf n : fair Delta g -> fair Delta pf -> whole Delta (Seq (set_hyps (branch g)) W i w t [] [] pf n).
Proof. intros F P. apply leaf_whole; [exact F| |discriminate|auto]. cbn. rewrite app_nil_r. exact P. Qed.
Lemma at_ready Gamma parent p Delta n g : s_hyps parent <> [] -> whole Gamma parent -> at_path Gamma parent p Delta n -> s_kids n = [] -> fair (Delta ++ nth 0 (s_forms n) []) g ->
  ready Gamma (Delta ++ nth 0 (s_forms n) []) parent (CAt p) g.
Proof. intros. eapply R_at; eauto. Qed.
Lemma weaken_all Gamma Delta fs : forall g parent cur g' parent' cur', ready Gamma Delta parent cur g -> weaken_forms empty_eq g fs parent cur = Ok (g', parent', cur') ->
  ready Gamma Delta parent' cur' g' /\ (fs <> [] -> exists p, cur' = CAt p) /\
  (forall u o x, fs = o ++ x -> filter (has u) (branch g) = o -> filter (has u) (branch g') = []).
Proof.
  induction fs as [|f fs IH]; intros g parent cur g' parent' cur' R E; cbn [weaken_forms] in E.
  - injection E as <- <- <-. split; [exact R|]. split; [intros K; contradiction|]. intros u o x K H. symmetry in K. apply app_eq_nil in K. destruct K as [-> ->]. exact H.
  - apply bind_ok in E. destruct E as ((s & g1) & E1 & E). apply bind_ok in E. destruct E as ((parent1 & cur1) & E2 & E).
    destruct (weaken_ok _ _ _ _ _ (ready_fair _ _ _ _ _ R) E1) as (F1 & B1 & i & ->).
    destruct (put _ _ _ _ _ (Seq (set_hyps (branch g)) W i 0 None [] [] (gs_copy g1) 0) R) as (pa & q & Ep & Hp & Wp & Pp); [cbn; apply set_some|apply w_whole; [apply (ready_fair _ _ _ _ _ R)|apply fair_copy, F1]|].
    rewrite Ep in E2. injection E2 as <- <-.
    assert (R1 : ready Gamma Delta pa (CAt q) g1). { rewrite <- (app_nil_r Delta). eapply (at_ready _ _ _ _ _ _ Hp Wp Pp); [reflexivity|]. cbn. rewrite app_nil_r. exact F1. }
    destruct (IH _ _ _ _ _ _ R1 E) as (R2 & C2 & N2). split; [exact R2|]. split.
    + intros _. destruct fs as [|f' fs]; [cbn in E; injection E as <- <- <-; eauto|apply C2; discriminate].
    + intros u o x K H. destruct o as [|f' o].
      * apply (N2 u [] fs eq_refl). rewrite B1. apply remove_none, H.
      * cbn in K. injection K as <- K. apply (N2 u o x K). rewrite B1. apply remove_first, H.
Qed.

Lemma seq_ind' (P : sequent -> Prop) : (forall s, Forall P (s_kids s) -> P s) -> forall s, P s.
Proof.
  intros H. fix IH 1. intros [h r o w t f ks p i]. apply H. cbn. induction ks as [|k ks IHk]; constructor; [apply IH|exact IHk].
Qed.
Lemma last_unfold g s index : last_seq g s index =
  match s_kids s with
  | [] => Ok ([], s_proof s)
  | _ =>
    let under (k : nat) (index : list nat) :=
      match nth_error (map (last_seq g) (s_kids s)) k with
      | Some next => do (p, g') <- next index; Ok (k :: p, g')
      | None => Crash
      end in
    if is_beta (s_rule s) then
      match in_beta g (s_id s) with
      | Some k => under k index
      | None => match index with k :: index => under k index | [] => Crash end
      end
    else under 0%nat index
  end.
Proof. destruct s as [h r o w t f ks p i]. destruct ks; reflexivity. Qed.
Lemma last_path g s : forall Gamma index p g', last_seq g s index = Ok (p, g') -> exists Gn n, at_path Gamma s p Gn n /\ s_kids n = [] /\ g' = s_proof n.
Proof.
  induction s as [s IH] using seq_ind'. intros Gamma index p g' E. rewrite last_unfold in E. destruct (s_kids s) as [|k0 ks0] eqn:Ek.
  - injection E as <- <-. exists Gamma, s. split; [constructor|auto].
  - rewrite <- Ek in *. clear Ek k0 ks0. cbv zeta in E.
    assert (U : forall k idx, match nth_error (map (last_seq g) (s_kids s)) k with Some next => do (p, g') <- next idx; Ok (k :: p, g') | None => Crash end = Ok (p, g') ->
      exists Gn n, at_path Gamma s p Gn n /\ s_kids n = [] /\ g' = s_proof n).
    { intros k idx U. rewrite nth_error_map in U. destruct (nth_error (s_kids s) k) as [c|] eqn:Ec; [|discriminate]. cbn [option_map] in U.
      apply bind_ok in U. destruct U as ((q & g1) & Eq & U). injection U as <- <-. rewrite Forall_forall in IH.
      destruct (IH c (nth_error_In _ _ Ec) (Gamma ++ nth k (s_forms s) []) _ _ _ Eq) as (Gn & n & Pn & Kn & Gg). exists Gn, n. split; [econstructor; eassumption|auto]. }
    destruct (is_beta (s_rule s)); [|eauto]. destruct (in_beta g (s_id s)) as [k|]; [eauto|]. destruct index as [|k index]; [discriminate|eauto].
Qed.

Lemma good_inv p : good p ->
    (ps_rule p = W -> ps_results p = []) /\
    (ps_rule p <> W -> ps_rule p <> R -> inst (ps_rule p) (ps_form p) (post_forms (ps_rule p) (ps_results p))) /\
    (is_delta (ps_rule p) = true -> exists r, ps_results p = [[r]] /\ forall t, delta_term (ps_form p) r = Ok (Some t) -> witness t r) /\
    (ps_children p <> [] -> (is_beta (ps_rule p) = true \/ ps_rule p = REWRITE /\ List.length (ps_children p) = 1%nat) /\ ~ same (ps_form p) empty_eq) /\
    Forall (Forall good) (ps_children p).
Proof. intros [q A B C D E]. auto 10. Qed.
Lemma weakening_good fs : Forall good (weakening_steps fs).
Proof. apply Forall_forall. intros p H. apply in_map_iff in H. destruct H as (f & <- & _). constructor; cbn; try discriminate; auto; intros K; contradiction. Qed.
Lemma children_good cur rest ws : Forall good rest -> forall l j l', rebuild_children cur rest ws j l = Ok l' -> Forall (Forall good) l -> Forall (Forall good) l' /\ List.length l' = List.length l.
Proof.
  intros Hr. induction l as [|c l IH]; intros j l' E H; cbn [rebuild_children] in E; [injection E as <-; auto|].
  apply bind_ok in E. destruct E as (c' & Ec & E). apply bind_ok in E. destruct E as (l1 & El & E). injection E as <-. inversion H as [|? ? H1 H2]; subst.
  destruct (IH _ _ El H2) as [I1 I2]. split; [|cbn; rewrite I2; reflexivity]. constructor; [|exact I1].
  destruct (match cur with Some k => Nat.eqb j k | None => false end); [injection Ec as <-; exact Hr|]. apply bind_ok in Ec. destruct Ec as (fs & _ & Ec). injection Ec as <-.
  apply Forall_app. split; [apply weakening_good|exact H1].
Qed.
Lemma rebuild_good g rules : forall p index, (forall x, In x rules -> good (snd x)) -> rebuild preinner g rules = Ok (p, index) -> Forall good p.
Proof.
  induction rules as [|x rules IH]; intros p index H E; cbn [rebuild] in E; [injection E as <- <-; constructor|].
  assert (H' : forall y, In y rules -> good (snd y)) by (intros y Hy; apply H; right; exact Hy).
  destruct (is_beta (fst x)).
  - pose proof (H x (or_introl eq_refl)) as Gx. destruct (snd x) as [f d i n rs cs]. apply bind_ok in E. destruct E as ((b & idx) & Eb & E). apply bind_ok in E. destruct E as (cs' & Ec & E). injection E as <- <-.
    constructor; [|constructor]. destruct (good_inv _ Gx) as (G1 & G2 & G3 & G4 & G5). cbn in G1, G2, G3, G4, G5.
    assert (Hb : Forall good b).
    { destruct (in_beta g i) as [k|]; [|injection Eb as <- <-; constructor]. destruct (k <? List.length cs)%nat; [|injection Eb as <- <-; constructor].
      apply bind_ok in Eb. destruct Eb as ((b' & idx') & Er & Eb). injection Eb as <- <-. exact (IH _ _ H' Er). }
    destruct (children_good _ _ _ Hb _ _ _ Ec G5) as [C1 C2]. constructor; cbn; auto.
    + rewrite C2. intros K. apply G4. intros ->. destruct cs'; [contradiction|discriminate].
  - apply bind_ok in E. destruct E as ((q & idx) & Eq & E). injection E as <- <-. constructor; [apply H; left; reflexivity|exact (IH _ _ H' Eq)].
Qed.

Section Make.
Variable make : gs -> list pstep -> out sequent.
Hypothesis make_ok : forall g Gamma proof s, Forall good proof -> fair Gamma g -> branch g <> [] -> make g proof = Ok s -> whole Gamma s.

Lemma back_ok Gamma Delta g rules parent p g' parent' cur' : ready Gamma Delta parent (CAt p) g -> branch g <> [] -> (forall x, In x rules -> good (snd x)) ->
  go_back preinner make g rules parent (CAt p) = Ok (g', parent', cur') -> exists Delta', ready Gamma Delta' parent' cur' g' /\ forall f, available Delta f -> available Delta' f.
Proof.
  intros R B H E. unfold go_back, rules_back in E. apply bind_ok in E. destruct E as ((sub & index) & Es & E). apply bind_ok in Es. destruct Es as ((q & idx) & Eq & Es).
  apply bind_ok in Es. destruct Es as (s0 & Em & Es). injection Es as -> ->.
  assert (Ws : whole Delta sub) by (eapply make_ok; [eapply rebuild_good; eassumption|exact (ready_fair _ _ _ _ _ R)|exact B|exact Em]).
  destruct (put_below _ _ _ _ _ _ R Ws) as (pa & p1 & Ep & Hp & Wp & Pp). apply bind_ok in E. destruct E as ((pa' & cu') & E1 & E). rewrite Ep in E1. injection E1 as <- <-.
  apply bind_ok in E. destruct E as ((q1 & g1) & El & E). injection E as <- <- <-.
  destruct (last_path _ _ Delta _ _ _ El) as (Gn & n & Pn & Kn & ->). pose proof (path_app _ _ _ _ _ _ _ _ Pp Pn) as Pq.
  exists (Gn ++ nth 0 (s_forms n) []). split.
  - apply at_ready; auto. pose proof (path_whole _ _ _ _ _ Pn Ws) as Wn. inversion Wn; assumption.
  - intros f Hf. apply available_app. exact (path_incl _ _ _ _ _ Pn f Hf).
Qed.

Lemma step_from_good p r : good p -> is_delta (ps_rule p) = true -> ps_results p = [[r]] -> good (step_from (ps_form p) r (ps_rule p)).
Proof.
  intros G D Hr. destruct (good_inv _ G) as (G1 & G2 & G3 & G4 & G5).
  assert (Er : ps_rule (step_from (ps_form p) r (ps_rule p)) = ps_rule p) by (destruct (ps_rule p); try discriminate; reflexivity).
  constructor; rewrite ?Er.
  - intros K. rewrite K in D. discriminate.
  - cbn [step_from ps_form ps_results]. rewrite <- Hr. exact G2.
  - cbn [step_from ps_form ps_results]. rewrite <- Hr. exact G3.
  - cbn. intros K. contradiction.
  - constructor.
Qed.

(** the delta rule itself *)
Lemma delta_ok Gamma Delta parent cur g p r t g' s : ready Gamma Delta parent cur g -> good p -> is_delta (ps_rule p) = true -> ps_results p = [[r]] ->
  delta_term (ps_form p) r = Ok t -> (forall u, t = Some u -> filter (has u) (branch g) = []) ->
  apply_delta_rule empty_eq g (ps_form p) r (ps_rule p) t (ps_node p) = Ok (s, g') ->
  exists parent' q, emit s parent cur = Ok (parent', CAt q) /\ ready Gamma (Delta ++ [r]) parent' (CAt q) g' /\ branch g' <> [].
Proof.
  intros R G D Hr Ht N E. unfold apply_delta_rule in E. apply bind_ok in E. destruct E as (i & Ei & E). injection E as <- <-.
  destruct (applied_ok _ _ _ Ei) as (x & Hx & Sx). destruct (good_inv _ G) as (_ & G2 & G3 & _ & _). pose proof (ready_fair _ _ _ _ _ R) as F.
  set (g' := mkGs (dep g) (branch g ++ [r]) (applied g ++ [(ps_rule p, step_from (ps_form p) r (ps_rule p))]) (beta_h g) (delta_h g ++ [(t, (r, ps_node p))])).
  assert (F' : fair (Delta ++ [r]) g').
  { destruct F as [F1 F2 F3]. split; cbn.
    - intros f Hf. apply in_app_or in Hf. destruct Hf as [Hf|Hf]; [apply available_app, F1, Hf|apply available_right, Hf].
    - intros y Hy. apply in_app_or in Hy. destruct Hy as [Hy|[<-|[]]]; [apply F2, Hy|]. apply step_from_good; assumption.
    - intros u r' j Hj. apply in_app_or in Hj. destruct Hj as [Hj|[Hj|[]]].
      + destruct (F3 _ _ _ Hj). auto using available_app.
      + injection Hj as -> <- <-. split; [apply available_right; left; reflexivity|]. destruct (G3 D) as (r' & Er & Hw). rewrite Hr in Er. injection Er as <-. apply Hw, Ht. }
  destruct (put _ _ _ _ _ (Seq (set_hyps (branch g)) (ps_rule p) i 0 t [[r]] [] (gs_copy g') 0) R) as (pa & q & Ep & Hp & Wp & Pp).
  - cbn. apply set_some.
  - apply leaf_whole; [exact F|apply fair_copy; exact F'| |].
    + intros _ u ->. apply none_new, N. reflexivity.
    + right. exists (ps_form p), x. split; [exact Hx|]. split; [exact Sx|].
      assert (W1 : inst (ps_rule p) (ps_form p) (post_forms (ps_rule p) (ps_results p))) by (apply G2; intros K; rewrite K in D; discriminate).
      rewrite Hr in W1. destruct (ps_rule p); try discriminate; exact W1.
  - exists pa, q. split; [exact Ep|]. split; [|cbn; intros K; apply app_eq_nil in K; destruct K; discriminate].
    apply (at_ready _ _ _ _ _ g' Hp Wp Pp eq_refl). exact F'.
Qed.
Lemma weaken_term_ok Delta g t s g' : fair Delta g -> weaken_term empty_eq g t = Ok (s, g') ->
  fair Delta g' /\ branch g' = branch g /\ s = Seq (set_hyps (branch g)) W 0 0 t [] [] (gs_copy g') 0.
Proof.
  intros F E. unfold weaken_term in E. apply bind_ok in E. destruct E as (dh & Ed & E). injection E as <- <-. split; [|auto].
  destruct F as [F1 F2 F3]. split; cbn; auto. intros u r i H. apply (F3 u r i). eapply remove_loop_in; [exact Ed|exact H].
Qed.
Lemma filter_good g P : forall Delta, fair Delta g -> forall x, In x (filter P (applied g)) -> good (snd x).
Proof. intros Delta F x H. apply filter_In in H. apply (r_applied _ _ F), H. Qed.

Lemma manage_ok Gamma Delta parent cur g p g' parent' cur' : ready Gamma Delta parent cur g -> good p -> is_delta (ps_rule p) = true ->
  manage_delta empty_eq preinner make g p (ps_rule p) parent cur = Ok (g', parent', cur') ->
  exists Delta' r, ready Gamma Delta' parent' cur' g' /\ ps_results p = [[r]] /\ available Delta' r.
Proof.
  intros R G D E. destruct (good_inv _ G) as (_ & _ & G3 & _ & _). destruct (G3 D) as (r & Hr & Hw). pose proof (ready_fair _ _ _ _ _ R) as F.
  unfold manage_delta, first_result in E. rewrite Hr in E. cbn [bind] in E. apply bind_ok in E. destruct E as (t & Et & E).
  apply bind_ok in E. destruct E as (skip & Esk & E). destruct skip.
  - injection E as <- <- <-. exists Delta, r. split; [exact R|]. split; [exact Hr|].
    destruct preinner eqn:Epre; [|discriminate]. apply bind_ok in Esk. destruct Esk as (b & Eb & Esk). injection Esk as Esk. destruct b; [discriminate|].
    assert (K : exists k r' i, In (Some k, (r', i)) (delta_h g) /\ eq_opt k t = true).
    { clear - Eb. induction (delta_h g) as [|[[k|] [x n]] l IH]; cbn in Eb; try discriminate. destruct (eq_opt k t) eqn:Ek; [exists k, x, n; split; [left; reflexivity|exact Ek]|].
      destruct (IH Eb) as (k' & r' & i & Hk & E). exists k', r', i. split; [right; exact Hk|exact E]. }
    destruct K as (k & r' & i & Hk & Ek). destruct (r_delta _ _ F _ _ _ Hk) as ((h & Hh & Sh) & Wk). destruct t as [t|]; [|discriminate]. cbn in Ek.
    exists h. split; [exact Hh|]. eapply form_eqb_trans; [exact Sh|]. exact (functional eq_refl k t r' r Wk (Hw t Et) Ek).
  - apply bind_ok in E. destruct E as (off & Eo & E). apply bind_ok in E. destruct E as ((previous & ((g9 & parent9) & cur9)) & E9 & E). injection E as <- <- <-.
    assert (Off : forall u, t = Some u -> filter (has u) (branch g) = off) by (intros u ->; symmetry; apply off_filter, Eo).
    assert (C : (forall x, In x previous -> good (snd x)) /\ exists Delta', ready Gamma Delta' parent9 cur9 g9 /\ available Delta' r).
    { assert (Simple : (let back := rules_of_forms g off in let prev := applied g in
         do (g, parent, cur) <- weaken_forms empty_eq g off parent cur;
         do (g, parent, cur) <-
           (match in_histo g t with
            | Some _ => do (s, g) <- weaken_term empty_eq g t; do (parent, cur) <- emit s parent cur; Ok (g, parent, cur)
            | None => Ok (g, parent, cur)
            end);
         do (s, g) <- apply_delta_rule empty_eq g (ps_form p) r (ps_rule p) t (ps_node p);
         do (parent, cur) <- emit s parent cur;
         do x <- (match back with [] => Ok (g, parent, cur) | _ => go_back preinner make g back parent cur end);
         Ok (prev, x)) = Ok (previous, (g9, parent9, cur9)) -> (forall x, In x previous -> good (snd x)) /\ exists Delta', ready Gamma Delta' parent9 cur9 g9 /\ available Delta' r).
      { clear E9. cbv zeta. intros E. apply bind_ok in E. destruct E as (((g1 & pa1) & cu1) & E1 & E). destruct (weaken_all _ _ _ _ _ _ _ _ _ R E1) as (R1 & _ & N1).
        assert (N1' : forall u, t = Some u -> filter (has u) (branch g1) = []) by (intros u Hu; apply (N1 u off []); [rewrite app_nil_r; reflexivity|apply Off, Hu]).
        apply bind_ok in E. destruct E as (((g2 & pa2) & cu2) & E2 & E).
        assert (K : ready Gamma Delta pa2 cu2 g2 /\ branch g2 = branch g1).
        { destruct (in_histo g1 t) as [fo|]; [|injection E2 as <- <- <-; auto]. apply bind_ok in E2. destruct E2 as ((s & g2') & Es & E2). apply bind_ok in E2. destruct E2 as ((pa2' & cu2') & Ee & E2). injection E2 as <- <- <-.
          destruct (weaken_term_ok _ _ _ _ _ (ready_fair _ _ _ _ _ R1) Es) as (F2 & B2 & ->). split; [|exact B2].
          destruct (put _ _ _ _ _ (Seq (set_hyps (branch g1)) W 0 0 t [] [] (gs_copy g2') 0) R1) as (pa & q & Ep & Hp & Wp & Pp); [cbn; apply set_some|apply w_whole; [exact (ready_fair _ _ _ _ _ R1)|apply fair_copy, F2]|].
          rewrite Ep in Ee. injection Ee as <- <-. rewrite <- (app_nil_r Delta). apply (at_ready _ _ _ _ _ g2' Hp Wp Pp eq_refl). cbn. rewrite app_nil_r. exact F2. }
        destruct K as [R2 B2]. apply bind_ok in E. destruct E as ((s & g3) & E3 & E).
        rewrite <- B2 in N1'. destruct (delta_ok _ _ _ _ _ _ _ _ _ _ R2 G D Hr Et N1' E3) as (pa3 & q3 & Ep & R3 & B3).
        apply bind_ok in E. destruct E as ((pa4 & cu4) & E4 & E). rewrite Ep in E4. injection E4 as <- <-. apply bind_ok in E. destruct E as (((g5 & pa5) & cu5) & E5 & E). injection E as <- <- <- <-.
        assert (Rg : forall x, In x (rules_of_forms g off) -> good (snd x)).
        { intros x Hx. apply in_flat_map in Hx. destruct Hx as (f & _ & Hx). eapply filter_good; [exact F|exact Hx]. }
        destruct (rules_of_forms g off) as [|b0 bs].
        - injection E5 as <- <- <-. split; [apply (r_applied _ _ F)|]. exists (Delta ++ [r]). split; [exact R3|]. apply available_right. left. reflexivity.
        - destruct (back_ok _ _ _ _ _ _ _ _ _ R3 B3 Rg E5) as (D5 & R5 & A5). split; [apply (r_applied _ _ F)|]. exists D5. split; [exact R5|]. apply A5, available_right. left. reflexivity. }
      destruct (deps_get (dep g) t) as [dl|] eqn:Ed; [|apply Simple; exact E9].
      destruct (rules_in_order g dl r off) as [|x0 xs] eqn:Eri; [apply Simple; exact E9|]. clear Simple. cbv zeta in E9.
      apply bind_ok in E9. destruct E9 as (((g1 & pa1) & cu1) & E1 & E). destruct (weaken_all _ _ _ _ _ _ _ _ _ R E1) as (R1 & C1 & N1).
      assert (N1' : forall u, t = Some u -> filter (has u) (branch g1) = []) by (intros u Hu; eapply (N1 u off); [reflexivity|apply Off, Hu]).
      apply bind_ok in E. destruct E as (((g2 & pa2) & cu2) & E2 & E).
      assert (K : ready Gamma Delta pa2 cu2 g2 /\ branch g2 = branch g1).
      { destruct (in_histo g t) as [fo|]; [|injection E2 as <- <- <-; auto]. apply bind_ok in E2. destruct E2 as ((s & g2') & Es & E2). apply bind_ok in E2. destruct E2 as ((pa2' & cu2') & Ee & E2). injection E2 as <- <- <-.
        destruct (weaken_term_ok _ _ _ _ _ (ready_fair _ _ _ _ _ R1) Es) as (F2 & B2 & ->). split; [|exact B2].
        destruct C1 as (q1 & ->); [destruct off; discriminate|].
        destruct (put_below _ _ _ _ _ (Seq (set_hyps (branch g1)) W 0 0 t [] [] (gs_copy g2') 0) R1) as (pa & q & Ep & Hp & Wp & Pp); [apply w_whole; [exact (ready_fair _ _ _ _ _ R1)|apply fair_copy, F2]|].
        rewrite Ep in Ee. injection Ee as <- <-. rewrite <- (app_nil_r Delta). apply (at_ready _ _ _ _ _ g2' Hp Wp Pp eq_refl). cbn. rewrite app_nil_r. exact F2. }
      destruct K as [R2 B2]. apply bind_ok in E. destruct E as ((s & g3) & E3 & E).
      rewrite <- B2 in N1'. destruct (delta_ok _ _ _ _ _ _ _ _ _ _ R2 G D Hr Et N1' E3) as (pa3 & q3 & Ep & R3 & B3).
      apply bind_ok in E. destruct E as ((pa4 & cu4) & E4 & E).
      assert (E4' : emit s pa2 cu2 = Ok (pa4, cu4)) by (destruct (is_empty pa2), cu2; try discriminate; exact E4). rewrite Ep in E4'. injection E4' as <- <-.
      apply bind_ok in E. destruct E as (((g5 & pa5) & cu5) & E5 & E). injection E as <- <- <- <-.
      assert (R3' : ready Gamma (Delta ++ [r]) pa3 (CAt q3) (mkGs (dep g3) (branch g3 ++ [r]) (applied g3) (beta_h g3) (delta_h g3))).
      { eapply ready_state; [exact R3|]. pose proof (ready_fair _ _ _ _ _ R3) as F3. apply fair_branch; [exact F3| |apply (r_applied _ _ F3)].
        intros x Hx. apply in_app_or in Hx. destruct Hx as [Hx|Hx]; [apply (r_branch _ _ F3), Hx|apply available_right, Hx]. }
      destruct (fun B H => back_ok _ _ _ (x0 :: xs) _ _ _ _ _ R3' B H E5) as (D5 & R5 & A5).
      - cbn. intros K. apply app_eq_nil in K. destruct K. discriminate.
      - rewrite <- Eri. intros x Hx. eapply filter_good; [exact F|exact Hx].
      - split.
        + intros x Hx. apply in_app_or in Hx. destruct Hx as [Hx|[<-|[]]]; [apply (r_applied _ _ F), Hx|]. apply step_from_good; assumption.
        + exists D5. split; [exact R5|]. apply A5, available_right. left. reflexivity. }
    destruct C as (Pg & Delta' & R' & A'). exists Delta', r. split; [|auto]. eapply ready_state; [exact R'|]. apply fair_applied; [exact (ready_fair _ _ _ _ _ R')|exact Pg].
Qed.

(** the last sequent has the formulas of its premises, and the state suits all of them *)
Definition branches (Gamma : list form) (parent : sequent) (cur : cursor) (g : gs) (forms : list (list form)) (m : nat) : Prop :=
  exists p Gn n, cur = CAt p /\ at_path Gamma parent p Gn n /\ s_kids n = [] /\ s_forms n = forms /\ branch g <> [] /\
    forall i fs, (i < m)%nat -> nth_error forms i = Some fs -> fair (Gn ++ fs) g.

Lemma post_ok Delta g p r forms g' : fair Delta g -> good p -> post g p r forms = Ok g' ->
  (forall fs, In fs forms -> nth 0 forms [] = fs -> forall f, In f fs -> available Delta f) ->
  fair Delta g'.
Proof.
  intros F G E A. unfold post in E.
  assert (F1 : fair Delta (mkGs (dep g) (branch g) (applied g ++ [(r, p)]) (beta_h g) (delta_h g))).
  { apply fair_applied; [exact F|]. intros x Hx. apply in_app_or in Hx. destruct Hx as [Hx|[<-|[]]]; [apply (r_applied _ _ F), Hx|exact G]. }
  destruct (is_alpha r || is_gamma r || is_delta r || rule_eqb r REWRITE); [|injection E as <-; exact F1].
  destruct forms as [|fs forms]; [discriminate|]. injection E as <-. pose proof F1 as [K1 K2 K3]. cbn in K1, K2, K3. split; cbn; [|exact K2|exact K3].
  intros f Hf. apply in_app_or in Hf. destruct Hf as [Hf|Hf]; [apply K1, Hf|]. eapply (A fs); [left; reflexivity|reflexivity|exact Hf].
Qed.
Lemma post_grow Delta g p r forms g' : fair Delta g -> good p -> post g p r forms = Ok g' -> fair (Delta ++ nth 0 forms []) g'.
Proof.
  intros F G E. eapply post_ok; [apply fair_app, F|exact G|exact E|]. intros fs _ <- f Hf. apply available_right, Hf.
Qed.
Lemma post_flat Delta g p r forms g' : fair Delta g -> good p -> is_beta r = true -> post g p r forms = Ok g' -> fair Delta g' /\ branch g' = branch g.
Proof.
  intros F G B E. unfold post in E. destruct r; try discriminate; injection E as <-; (split; [|reflexivity]);
    (apply fair_applied; [exact F|]); intros x Hx; apply in_app_or in Hx; (destruct Hx as [Hx|[<-|[]]]; [apply (r_applied _ _ F), Hx|exact G]).
Qed.
Lemma post_more g p r forms g' : post g p r forms = Ok g' -> branch g <> [] -> branch g' <> [].
Proof.
  unfold post. intros E H. destruct (is_alpha r || is_gamma r || is_delta r || rule_eqb r REWRITE); [|injection E as <-; exact H].
  destruct forms as [|fs forms]; [discriminate|]. injection E as <-. cbn. intros K. apply app_eq_nil in K. apply H, K.
Qed.
Lemma applied_branch f g i : applied_on f (set_hyps (branch g)) = Ok i -> ~ same f empty_eq -> branch g <> [].
Proof.
  intros E N K. destruct (applied_ok _ _ _ E) as (x & Hx & Sx). rewrite K in Hx. cbn in Hx. destruct i as [|[|i]]; cbn in Hx; try discriminate. injection Hx as <-. apply N, Sx.
Qed.

Definition at_once (r : rule) : bool := match r with NNOT | NOR | NIMP | AND | NAND | NEQU | OR | IMP | EQU | AX | REWRITE => true | _ => false end.
Lemma once_step g p parent cur : at_once (ps_rule p) = true -> one_step empty_eq preinner make g p parent cur =
  (let h := set_hyps (branch g) in
   do i <- applied_on (ps_form p) h;
   do w <- (if rule_eqb (ps_rule p) REWRITE then rewritten_with (ps_dmt p) h else Ok 0%nat);
   do g <- post g p (ps_rule p) (post_forms (ps_rule p) (ps_results p));
   do (parent, cur) <- emit (Seq h (ps_rule p) i w None (post_forms (ps_rule p) (ps_results p)) [] (gs_copy g) (ps_node p)) parent cur;
   Ok (g, parent, cur, post_forms (ps_rule p) (ps_results p))).
Proof. intros H. unfold one_step. destruct (ps_rule p); try discriminate; reflexivity. Qed.
Lemma gamma_step g p parent cur : is_gamma (ps_rule p) = true -> one_step empty_eq preinner make g p parent cur =
  (let h := set_hyps (branch g) in
   do result <- first_result p;
   do t <- gamma_term (ps_form p) result;
   let g := mkGs (fold_left (fun d k => deps_add d k (ps_form p)) (dep_from_opt t) (dep g)) (branch g) (applied g) (beta_h g) (delta_h g) in
   do i <- applied_on (ps_form p) h;
   do g <- post g p (ps_rule p) (post_forms (ps_rule p) (ps_results p));
   do (parent, cur) <- emit (Seq h (ps_rule p) i 0 t (post_forms (ps_rule p) (ps_results p)) [] (gs_copy g) 0) parent cur;
   Ok (g, parent, cur, post_forms (ps_rule p) (ps_results p))).
Proof. intros H. unfold one_step. destruct (ps_rule p); try discriminate; reflexivity. Qed.
Lemma delta_step g p parent cur : is_delta (ps_rule p) = true -> one_step empty_eq preinner make g p parent cur =
  (do (g, parent, cur) <- manage_delta empty_eq preinner make g p (ps_rule p) parent cur;
   do g <- post g p (ps_rule p) (post_forms (ps_rule p) (ps_results p));
   Ok (g, parent, cur, post_forms (ps_rule p) (ps_results p))).
Proof. intros H. unfold one_step. destruct (ps_rule p); try discriminate; reflexivity. Qed.

Lemma step_ok Gamma Delta parent cur g p g' parent' cur' forms : ready Gamma Delta parent cur g -> good p ->
  one_step empty_eq preinner make g p parent cur = Ok (g', parent', cur', forms) ->
  (exists Delta', ready Gamma Delta' parent' cur' g') /\ (ps_children p <> [] -> branches Gamma parent' cur' g' forms (List.length (ps_children p))).
Proof.
  intros R G E. destruct (good_inv _ G) as (G1 & G2 & G3 & G4 & G5). pose proof (ready_fair _ _ _ _ _ R) as F.
  destruct (at_once (ps_rule p)) eqn:Eo.
  { rewrite once_step in E by exact Eo. cbv zeta in E. apply bind_ok in E. destruct E as (i & Ei & E). apply bind_ok in E. destruct E as (w & Ew & E). apply bind_ok in E. destruct E as (g1 & Eg & E).
    destruct (applied_ok _ _ _ Ei) as (x & Hx & Sx). pose proof (post_grow _ _ _ _ _ _ F G Eg) as F1.
    destruct (put _ _ _ _ _ (Seq (set_hyps (branch g)) (ps_rule p) i w None (post_forms (ps_rule p) (ps_results p)) [] (gs_copy g1) (ps_node p)) R) as (pa & q & Ep & Hp & Wp & Pp).
    - cbn. apply set_some.
    - apply leaf_whole; [exact F|apply fair_copy, F1|discriminate|]. right. exists (ps_form p), x. split; [exact Hx|]. split; [exact Sx|]. apply G2; intros K; rewrite K in Eo; discriminate.
    - rewrite Ep in E. cbn [bind] in E. injection E as <- <- <- <-. split.
      + eexists. apply (at_ready _ _ _ _ _ g1 Hp Wp Pp eq_refl). exact F1.
      + intros K. destruct (G4 K) as [Kb Kn]. exists q, Delta, (Seq (set_hyps (branch g)) (ps_rule p) i w None (post_forms (ps_rule p) (ps_results p)) [] (gs_copy g1) (ps_node p)).
        split; [reflexivity|]. split; [exact Pp|]. split; [reflexivity|]. split; [reflexivity|]. split; [eapply post_more; [exact Eg|]; eapply applied_branch; eassumption|].
        intros j fs Hj En. destruct Kb as [Kb|[Kr Kl]].
        * apply fair_app. apply (post_flat _ _ _ _ _ _ F G Kb Eg).
        * rewrite Kl in Hj. assert (j = 0%nat) as -> by lia. destruct (post_forms (ps_rule p) (ps_results p)); [discriminate|]. cbn in En. injection En as ->. exact F1. }
  assert (Nc : ps_children p = []).
  { destruct (ps_children p) eqn:Ec; [reflexivity|]. rewrite <- Ec in *. destruct (G4 ltac:(rewrite Ec; discriminate)) as [[K|[K _]] _]; destruct (ps_rule p); discriminate. }
  split; [|intros K; contradiction].
  destruct (is_gamma (ps_rule p)) eqn:Ega.
  { rewrite gamma_step in E by exact Ega. cbv zeta in E. apply bind_ok in E. destruct E as (res & Er & E). apply bind_ok in E. destruct E as (t & Et & E). apply bind_ok in E. destruct E as (i & Ei & E). apply bind_ok in E. destruct E as (g1 & Eg & E).
    destruct (applied_ok _ _ _ Ei) as (x & Hx & Sx).
    assert (F1 : fair (Delta ++ nth 0 (post_forms (ps_rule p) (ps_results p)) []) g1) by (eapply post_grow; [|exact G|exact Eg]; destruct F; split; assumption).
    destruct (put _ _ _ _ _ (Seq (set_hyps (branch g)) (ps_rule p) i 0 t (post_forms (ps_rule p) (ps_results p)) [] (gs_copy g1) 0) R) as (pa & q & Ep & Hp & Wp & Pp).
    - cbn. apply set_some.
    - apply leaf_whole; [exact F|apply fair_copy, F1|intros K; destruct (ps_rule p); discriminate|]. right. exists (ps_form p), x. split; [exact Hx|]. split; [exact Sx|]. apply G2; intros K; rewrite K in Ega; discriminate.
    - rewrite Ep in E. cbn [bind] in E. injection E as <- <- <- <-. eexists. apply (at_ready _ _ _ _ _ g1 Hp Wp Pp eq_refl). exact F1. }
  destruct (is_delta (ps_rule p)) eqn:Ed.
  { rewrite delta_step in E by exact Ed. apply bind_ok in E. destruct E as (((g1 & pa1) & cu1) & E1 & E). apply bind_ok in E. destruct E as (g2 & E2 & E). injection E as <- <- <- <-.
    destruct (manage_ok _ _ _ _ _ _ _ _ _ R G Ed E1) as (D1 & r & R1 & Hr & A1). exists D1. eapply ready_state; [exact R1|]. eapply post_ok; [exact (ready_fair _ _ _ _ _ R1)|exact G|exact E2|].
    rewrite Hr. intros fs _ <- f Hf. assert (f = r) as ->; [|exact A1]. destruct (ps_rule p); try discriminate; destruct Hf as [->|[]]; reflexivity. }
  destruct (ps_rule p) eqn:Er; try discriminate; unfold one_step in E; rewrite Er in E.
  - (* W *)
    apply bind_ok in E. destruct E as ((s & g1) & E1 & E). apply bind_ok in E. destruct E as (g2 & E2 & E). destruct (weaken_ok _ _ _ _ _ F E1) as (F1 & _ & i & ->).
    assert (F2 : fair Delta g2) by (eapply post_ok; [exact F1|exact G|exact E2|]; rewrite (G1 eq_refl); intros fs []).
    rewrite (G1 eq_refl) in E. cbn [post_forms map] in E. apply bind_ok in E. destruct E as ((pa & cu) & Eb & E). injection E as <- <- <- <-.
    destruct cur as [| |q].
    + injection Eb as <- <-. exists Delta. inversion R; subst. eapply R_new; [reflexivity|discriminate|exact F2].
    + injection Eb as <- <-. exists Delta. inversion R; subst. eapply R_new; [reflexivity|discriminate|exact F2].
    + destruct (put_below _ _ _ _ _ (Seq (set_hyps (branch g)) W i 0 None [] [] (gs_copy g2) 0) R) as (pa' & q' & Ep & Hp & Wp & Pp); [apply w_whole; [exact F|apply fair_copy, F2]|].
      rewrite Ep in Eb. injection Eb as <- <-. eexists. apply (at_ready _ _ _ _ _ g2 Hp Wp Pp eq_refl). cbn. rewrite app_nil_r. exact F2.
  - apply bind_ok in E. destruct E as (g1 & E1 & E). injection E as <- <- <- <-. exists Delta. eapply ready_state; [exact R|]. unfold post in E1. cbn in E1. injection E1 as <-.
    apply fair_applied; [exact F|]. intros x Hx. apply in_app_or in Hx. destruct Hx as [Hx|[<-|[]]]; [apply (r_applied _ _ F), Hx|exact G].
  - apply bind_ok in E. destruct E as (g1 & E1 & E). injection E as <- <- <- <-. exists Delta. eapply ready_state; [exact R|]. unfold post in E1. cbn in E1. injection E1 as <-.
    apply fair_applied; [exact F|]. intros x Hx. apply in_app_or in Hx. destruct Hx as [Hx|[<-|[]]]; [apply (r_applied _ _ F), Hx|exact G].
Qed.

Lemma steps_ok Gamma proof : forall Delta parent cur g lst g' parent' cur' forms d, ready Gamma Delta parent cur g -> Forall good proof -> proof <> [] ->
  steps empty_eq preinner make g proof parent cur lst = Ok (g', parent', cur', forms) ->
  whole Gamma parent' /\ (ps_children (List.last proof d) <> [] -> branches Gamma parent' cur' g' forms (List.length (ps_children (List.last proof d)))).
Proof.
  induction proof as [|p proof IH]; intros Delta parent cur g lst g' parent' cur' forms d R G N E; [contradiction|]. cbn [steps] in E.
  apply bind_ok in E. destruct E as ((((g1 & pa1) & cu1) & fo1) & E1 & E). inversion G as [|? ? Gp Gr]; subst.
  destruct (step_ok _ _ _ _ _ _ _ _ _ _ R Gp E1) as ((D1 & R1) & B1). destruct proof as [|p2 proof].
  - cbn in E. injection E as <- <- <- <-. split; [exact (ready_whole _ _ _ _ _ R1)|exact B1].
  - eapply (IH _ _ _ _ _ _ _ _ _ d R1 Gr); [discriminate|exact E].
Qed.

Lemma kids_ok Gamma g node forms Gn : branch g <> [] -> forall cs m i parent p n s, Forall (Forall good) cs -> (i + List.length cs <= m)%nat ->
  (forall i fs, (i < m)%nat -> nth_error forms i = Some fs -> fair (Gn ++ fs) g) ->
  whole Gamma parent -> at_path Gamma parent p Gn n -> s_forms n = forms -> List.length (s_kids n) = i ->
  kids make g node i cs forms parent (CAt p) = Ok s -> whole Gamma s.
Proof.
  intros B. induction cs as [|c cs IH]; intros m i parent p n s G L H W P Fo Lk E; cbn [kids] in E; [injection E as <-; exact W|].
  destruct (nth_error forms i) as [fs|] eqn:En; [|discriminate]. apply bind_ok in E. destruct E as (k & Ek & E). apply bind_ok in E. destruct E as (pa & Ea & E).
  inversion G as [|? ? Gc Gr]; subst. cbn [List.length] in L. assert (Lt : (List.length (s_kids n) < m)%nat) by lia. pose proof (H _ fs Lt En) as Fg.
  assert (Wk : whole (Gn ++ fs) k).
  { eapply make_ok; [exact Gc| | |exact Ek].
    - destruct Fg as [K1 K2 K3]. split; cbn; auto. intros f Hf. apply in_app_or in Hf. destruct Hf as [Hf|Hf]; [apply K1, Hf|apply available_right, Hf].
    - cbn. intros K. apply app_eq_nil in K. apply B, K. }
  destruct (add_path _ _ _ _ _ k P W) as (s' & Es & Ws & _ & Ps); [rewrite (nth_error_nth _ _ [] En); exact Wk|]. rewrite Es in Ea. injection Ea as <-.
  apply (IH m (S (List.length (s_kids n))) s' p (set_kids n (s_kids n ++ [k])) s Gr); [lia|exact H|exact Ws|exact Ps| | |exact E]; destruct n; cbn; auto. rewrite app_length. cbn. lia.
Qed.
End Make.

Lemma make_whole n : forall g Gamma proof s, Forall good proof -> fair Gamma g -> branch g <> [] -> make_proof empty_eq preinner n g proof = Ok s -> whole Gamma s.
Proof.
  induction n as [|n IH]; intros g Gamma proof s G F B E; [discriminate|]. cbn [make_proof] in E. destruct proof as [|first rest].
  - injection E as <-. constructor; cbn; [intros K; contradiction|rewrite app_nil_r; apply fair_copy, F|intros [|i] k K; discriminate].
  - destruct (branch g) as [|b0 br] eqn:Eb; [contradiction|]. rewrite <- Eb in *. apply bind_ok in E. destruct E as ((((g1 & pa) & cu) & fo) & E1 & E).
    assert (R0 : ready Gamma Gamma seq_new CNil g) by (apply R_new; [reflexivity|discriminate|exact F]).
    destruct (steps_ok _ IH Gamma (first :: rest) _ _ _ _ _ _ _ _ _ first R0 G ltac:(discriminate) E1) as [W K].
    destruct (ps_children (List.last (first :: rest) first)) as [|c cs] eqn:Ec; [injection E as <-; exact W|]. rewrite <- Ec in *.
    destruct (K ltac:(rewrite Ec; discriminate)) as (p & Gn & nd & -> & P & Kn & Fo & B1 & Hf). subst fo.
    eapply (kids_ok _ IH Gamma g1 _ _ Gn B1 _ _ 0%nat pa p nd s); [|apply Nat.le_refl|exact Hf|exact W|exact P|reflexivity| |exact E].
    + assert (Gl : good (List.last (first :: rest) first)). { rewrite Forall_forall in G. apply G. destruct (exists_last (l := first :: rest)) as (l' & a & El); [discriminate|]. rewrite El, last_last. apply in_or_app. right. left. reflexivity. }
      apply (good_inv _ Gl).
    + rewrite Kn. reflexivity.
Qed.

Theorem translated_sound axioms first rest n s : Forall good (first :: rest) -> make_gs3 empty_eq preinner n axioms (first :: rest) = Ok s ->
  sound empty_eq inst (start axioms first) s.
Proof.
  intros G E. apply whole_sound. unfold start.
  assert (K : exists g, fair (start axioms first) g /\ branch g <> [] /\ make_proof empty_eq preinner n g (first :: rest) = Ok s).
  { destruct axioms as [l|]; cbn [make_gs3 app] in *.
    - exists (mkGs [] (l ++ [ps_form first]) [] [] []). split; [|split; [|exact E]].
      + split; cbn; [|contradiction..]. intros f Hf. exists f. split; [exact Hf|apply form_eqb_refl].
      + cbn. intros K. apply app_eq_nil in K. destruct K. discriminate.
    - exists (mkGs [] [ps_form first] [] [] []). split; [|split; [discriminate|]].
      + split; cbn; [|contradiction..]. intros f Hf. exists f. split; [exact Hf|apply form_eqb_refl].
      + destruct n; [discriminate|exact E]. }
  destruct K as (g & F & B & Em). eapply make_whole; eassumption.
Qed.
End All.

(** ** The steps of a tableau are good *)
Lemma tab_ind' (ok : list form -> tvar -> form -> term -> Prop) (P : list form -> list pstep -> Prop) :
  (forall Gamma p, ps_rule p = AX -> In (ps_form p) Gamma -> clash Gamma (ps_form p) -> ps_children p = [] -> P Gamma [p]) ->
  (forall Gamma p rest l fs, alpha_of (ps_rule p) (ps_form p) l -> ps_results p = [fs] -> among fs l -> P (Gamma ++ fs) rest -> ps_children p = [] -> P Gamma (p :: rest)) ->
  (forall Gamma p rest v b u r, gamma_by (ps_rule p) (ps_form p) v b u r -> ps_results p = [[r]] -> P (Gamma ++ [r]) rest -> ps_children p = [] -> P Gamma (p :: rest)) ->
  (forall Gamma p rest v b u r, delta_by (ps_rule p) (ps_form p) v b u r -> ps_results p = [[r]] -> P (Gamma ++ [r]) rest -> ps_children p = [] -> P Gamma (p :: rest)) ->
  (forall Gamma p rest, ps_rule p = R -> P Gamma rest -> ps_children p = [] -> P Gamma (p :: rest)) ->
  (forall Gamma p ls, beta_of (ps_rule p) (ps_form p) ls -> Forall2 among (ps_results p) ls ->
     Forall2 (fun fs c => P (Gamma ++ fs) c) (ps_results p) (ps_children p) -> P Gamma [p]) ->
  forall Gamma proof, tab ok Gamma proof -> P Gamma proof.
Proof.
  intros H1 H2 H3 H4 H5 H6. fix IH 3. intros Gamma proof T. destruct T as [Gamma p A B C D|Gamma p rest l fs A B C D E F|Gamma p rest v b u r A B C D E|Gamma p rest v b u r A B C K D E|Gamma p rest A B C|Gamma p ls A B C D E].
  - apply H1; assumption.
  - eapply H2; eauto.
  - eapply H3; eauto.
  - eapply H4; eauto.
  - apply H5; auto.
  - eapply H6; eauto. clear - IH E. induction E as [|fs c rs cs Hc E IHE]; constructor; [apply IH, Hc|exact IHE].
Qed.
Lemma alpha_pred r f l i p tys a : alpha_of r f l -> ~ same f (Pred i p tys a). Proof. intros []; cbn; discriminate. Qed.
Lemma beta_pred r f l i p tys a : beta_of r f l -> ~ same f (Pred i p tys a). Proof. intros []; cbn; discriminate. Qed.
Lemma beta_is r f l : beta_of r f l -> is_beta r = true. Proof. intros []; reflexivity. Qed.
Lemma good_more empty_eq inst (w w' : term -> form -> Prop) : (forall t r, w t r -> w' t r) -> forall p, good empty_eq inst w p -> good empty_eq inst w' p.
Proof.
  intros H. fix IH 2. intros p G. destruct G as [p A B C D E]. constructor; auto.
  - intros K. destruct (C K) as (r & Hr & Hw). exists r. split; [exact Hr|]. intros t Ht. apply H, Hw, Ht.
  - clear - IH E. induction E as [|c cs Hc E IHE]; constructor; [|exact IHE]. clear - IH Hc. induction Hc as [|x l Hx Hc IHc]; constructor; [apply IH, Hx|exact IHc].
Qed.
Lemma tab_good ok i q tys a Gamma proof : tab ok Gamma proof -> Forall (good (Pred i q tys a) tableau_rule (introduces proof)) proof.
Proof.
  intros T. induction T as [Gamma p A B C D|Gamma p rest l fs A B C D E|Gamma p rest v b u r A B C D|Gamma p rest v b u r A B C D|Gamma p rest A B C|Gamma p ls A B C] using tab_ind'.
  - constructor; [|constructor]. constructor; rewrite ?A, ?D; try discriminate; auto; try (intros K; contradiction). intros _ _. constructor.
  - constructor; [|eapply Forall_impl; [|exact D]; intros x Gx; eapply good_more; [|exact Gx]; intros; apply N_next; assumption].
    destruct (alpha_simple _ _ _ A) as [S1 S2]. constructor; rewrite ?E; try (intros K; contradiction); auto.
    + intros K. rewrite K in S1. discriminate.
    + intros _ _. rewrite B. destruct (post_head (ps_rule p) fs) as (fs' & -> & Q). eapply U_alpha; [exact A|]. eapply among_eqv; eassumption.
    + intros K. destruct (ps_rule p); discriminate.
  - constructor; [|eapply Forall_impl; [|exact C]; intros x Gx; eapply good_more; [|exact Gx]; intros; apply N_next; assumption].
    destruct (gamma_by_inst _ _ _ _ _ _ A) as [S1 S2]. constructor; rewrite ?D; try (intros K; contradiction); auto.
    + intros K. destruct S1; congruence.
    + intros _ _. rewrite B. replace (post_forms (ps_rule p) [[r]]) with [[r]] by (destruct S1 as [-> | ->]; reflexivity). eapply U_gamma; exact A.
    + intros K. destruct S1 as [S1|S1]; rewrite S1 in K; discriminate.
  - constructor; [|eapply Forall_impl; [|exact C]; intros x Gx; eapply good_more; [|exact Gx]; intros; apply N_next; assumption].
    destruct (delta_by_inst _ _ _ _ _ _ A) as [S1 S2]. constructor; rewrite ?D; try (intros K; contradiction); auto.
    + intros K. destruct S1; congruence.
    + intros _ _. rewrite B. replace (post_forms (ps_rule p) [[r]]) with [[r]] by (destruct S1 as [-> | ->]; reflexivity). eapply U_delta; exact A.
    + intros _. exists r. split; [exact B|]. intros t Et. destruct (delta_recovered _ _ _ _ _ S2) as [T1 T2].
      destruct (in_dec Z.eq_dec (tv_index v) (f_vars b)) as [H|H]; [rewrite (T1 H) in Et; injection Et as <-; eapply N_here; eassumption|rewrite (T2 H) in Et; discriminate].
  - constructor; [|eapply Forall_impl; [|exact B]; intros x Gx; eapply good_more; [|exact Gx]; intros; apply N_next; assumption].
    constructor; rewrite ?A, ?C; try discriminate; auto; intros K; contradiction.
  - constructor; [|constructor]. destruct (beta_simple _ _ _ A) as [S1 S2]. constructor.
    + intros K. rewrite K in S1. discriminate.
    + intros _ _. eapply U_beta; [exact A|]. apply among_all, B.
    + intros K. destruct (ps_rule p); discriminate.
    + intros _. split; [left; eapply beta_is; exact A|eapply beta_pred; exact A].
    + assert (K : forall c, In c (ps_children p) -> Forall (good (Pred i q tys a) tableau_rule (introduces c)) c).
      { clear - C. induction C as [|fs c rs cs Hc C IH]; intros x Hx; [contradiction|]. destruct Hx as [<-|Hx]; auto. }
      apply Forall_forall. intros c Hc. specialize (K c Hc). eapply Forall_impl; [|exact K]. intros x Gx. eapply good_more; [|exact Gx]. intros t r H. eapply N_child; eassumption.
Qed.
Theorem tableau_sound preinner i q tys a ok axioms first rest n s :
  tab ok (start axioms first) (first :: rest) ->
  (preinner = true -> forall t t' r r', introduces (first :: rest) t r -> introduces (first :: rest) t' r' -> term_eqb t t' = true -> same r r') ->
  make_gs3 (Pred i q tys a) preinner n axioms (first :: rest) = Ok s ->
  sound (Pred i q tys a) tableau_rule (start axioms first) s.
Proof. intros T F E. eapply translated_sound; [exact F|eapply tab_good; exact T|exact E]. Qed.
