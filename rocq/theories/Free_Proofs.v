(** Coincidence on free variables, metavariables and function symbols. *)
From Coq Require Import ZArith List Bool String Lia.
From Verif Require Import Ast_Model Sem_Spec Occ_Spec Free_Spec Ast_Proofs Sem_Proofs.
Import ListNotations.
Open Scope Z_scope.

Lemma Forall2_impl {A B} (P Q : A -> B -> Prop) l l' : (forall a b, P a b -> Q a b) -> Forall2 P l l' -> Forall2 Q l l'.
Proof. induction 2; constructor; auto. Qed.

Section Co.
Context {I : interp}.
Variable F : Z -> list (T I) -> list (D I) -> D I.
Notation J := (refn I F).
Record rel (A : list Z) (B : list string) (M : list Z) (TM : list (string * Z)) (v : val I) (w : val J) : Prop := {
  rel_bv : forall i, In i A -> bv v i = bv w i;
  rel_tbv : forall s, In s B -> tbv v s = tbv w s;
  rel_mv : forall i, In i M -> mv v i = mv w i;
  rel_tmv : forall s i, In (s, i) TM -> tmv v s i = tmv w s i }.
Lemma rel_incl A A' B B' M M' TM TM' v w : rel A B M TM v w -> incl A' A -> incl B' B -> incl M' M -> incl TM' TM ->
  rel A' B' M' TM' v w.
Proof. intros [a b c d] HA HB HM HT. constructor; auto. Qed.

Lemma map_eq_in {A B} (f g : A -> B) l : (forall x, In x l -> f x = g x) -> map f l = map g l.
Proof. apply map_ext_in. Qed.
Lemma evty_rel v w t : forall A M, rel A (ty_tyvars t) M (ty_tymetas t) v w -> @evty I v t = @evty J w t.
Proof.
  assert (L : forall l A M, Forall (fun t => forall A M, rel A (ty_tyvars t) M (ty_tymetas t) v w -> @evty I v t = @evty J w t) l ->
     rel A (flat_map ty_tyvars l) M (flat_map ty_tymetas l) v w -> map (@evty I v) l = map (@evty J w) l).
  { intros l A M H R. rewrite Forall_forall in H. apply map_ext_in. intros x Hx. apply (H x Hx A M).
    eapply rel_incl; eauto; try apply incl_refl; intros y Hy; apply in_flat_map; eauto. }
  induction t as [s|s j|s j f|s l H|l H|a b IHa IHb|vs b IHb] using ty_ind'; intros A M R; simpl.
  - reflexivity.
  - apply R. simpl; auto.
  - apply R. simpl; auto.
  - f_equal. apply (L l A M); auto.
  - f_equal. apply (L l A M); auto.
  - f_equal; [apply (IHa A M)|apply (IHb A M)]; eapply rel_incl; eauto; simpl;
    first [apply incl_refl | apply incl_appl, incl_refl | apply incl_appr, incl_refl].
  - f_equal. apply (IHb A M); auto.
Qed.
Lemma evtys_rel v w l A M : rel A (flat_map ty_tyvars l) M (flat_map ty_tymetas l) v w -> map (@evty I v) l = map (@evty J w) l.
Proof.
  intros R. apply map_ext_in. intros x Hx. apply (evty_rel v w x A M).
  eapply rel_incl; eauto; try apply incl_refl; intros y Hy; apply in_flat_map; eauto.
Qed.
Lemma ev_rel v w t : t_noid t = true -> (forall s, In s (t_funs t) -> forall ts ds, F s ts ds = fn I s ts ds) ->
  rel (t_vars t) (t_tyvars t) (t_metas t) (t_tymetas t) v w -> @ev I v t = @ev J w t.
Proof.
  induction t as [x|p tys l IH|x n|m] using term_ind'; intros N HF R; simpl.
  - discriminate.
  - simpl in *. rewrite forallb_forall in N. rewrite HF by auto. f_equal.
    + apply (evtys_rel v w tys (flat_map t_vars l) (flat_map t_metas l)).
      eapply rel_incl; eauto; try apply incl_refl; apply incl_appl, incl_refl.
    + apply map_ext_in. rewrite Forall_forall in IH. intros t Ht. apply IH; auto.
      * intros s Hs. apply HF. right. apply in_flat_map; eauto.
      * eapply rel_incl; eauto; try (intros y Hy; apply in_flat_map; eauto);
        intros y Hy; apply in_or_app; right; apply in_flat_map; eauto.
  - apply R. simpl; auto.
  - apply R. simpl; auto.
Qed.
Lemma evs_rel v w l : forallb t_noid l = true -> (forall s, In s (flat_map t_funs l) -> forall ts ds, F s ts ds = fn I s ts ds) ->
  rel (flat_map t_vars l) (flat_map t_tyvars l) (flat_map t_metas l) (flat_map t_tymetas l) v w ->
  map (@ev I v) l = map (@ev J w) l.
Proof.
  intros N HF R. rewrite forallb_forall in N. apply map_ext_in. intros t Ht. apply ev_rel; auto.
  - intros s Hs. apply HF. apply in_flat_map; eauto.
  - eapply rel_incl; eauto; intros y Hy; apply in_flat_map; eauto.
Qed.
Lemma quant_rel A B M TM (k : val I -> Prop) (k' : val J -> Prop) vs :
  (forall v w, rel A B M TM v w -> (k v <-> k' w)) ->
  forall v w, rel (fold_right unbind A vs) (fold_right unbind_ty B vs) M TM v w ->
  (forall_vars vs k v <-> forall_vars vs k' w) /\ (exists_vars vs k v <-> exists_vars vs k' w).
Proof.
  intros HK. induction vs as [|x r IH]; simpl; intros v w R; [split; apply HK; auto|].
  unfold unbind, unbind_ty in R. destruct (is_ttype (tv_ty x)).
  - assert (R' : forall t : T I, rel (fold_right unbind A r) (fold_right unbind_ty B r) M TM
       (set_tbv v (tv_name x) t) (@set_tbv J w (tv_name x) t)).
    { intros t. destruct R as [a b c d]. constructor; simpl; auto. intros s Hs. unfold upds.
      destruct (String.eqb s (tv_name x)) eqn:E; auto. apply b, filter_In. rewrite E; auto. }
    split; [split; intros H t; apply (IH _ _ (R' t)); apply H|].
    split; intros [t H]; exists t; apply (IH _ _ (R' t)); apply H.
  - assert (R' : forall t : D I, rel (fold_right unbind A r) (fold_right unbind_ty B r) M TM
       (set_bv v (tv_index x) t) (@set_bv J w (tv_index x) t)).
    { intros t. destruct R as [a b c d]. constructor; simpl; auto. intros s Hs. unfold upd.
      destruct (s =? tv_index x) eqn:E; auto. apply a, filter_In. rewrite E; auto. }
    split; [split; intros H t; apply (IH _ _ (R' t)); apply H|].
    split; intros [t H]; exists t; apply (IH _ _ (R' t)); apply H.
Qed.
Lemma fold_rel (fs : list form) v w : Forall (fun f => @holds I f v <-> @holds J f w) fs ->
  (fold_right (fun g P => @holds I g v \/ P) False fs <-> fold_right (fun g P => @holds J g w \/ P) False fs) /\
  (fold_right (fun g P => @holds I g v /\ P) True fs <-> fold_right (fun g P => @holds J g w /\ P) True fs).
Proof. induction 1; simpl; tauto. Qed.
Lemma noid_sub f (P : Prop) : f_noid f -> forall b, In b (f_collect (fun _ _ args => map t_noid args) f) -> b = true.
Proof. auto. Qed.
Lemma holds_rel f : f_noid f -> (forall s, In s (f_funs f) -> forall ts ds, F s ts ds = fn I s ts ds) ->
  forall v w, rel (fv f) (ftv f) (f_metas f) (f_tymetas f) v w -> (@holds I f v <-> @holds J f w).
Proof.
  induction f using form_ind'; intros N HF v w R.
  - apply (quant_rel (fv f) (ftv f) (f_metas f) (f_tymetas f)); auto.
  - apply (quant_rel (fv f) (ftv f) (f_metas f) (f_tymetas f)); auto.
  - rewrite Forall_forall in H. apply fold_rel. apply Forall_forall. intros g Hg. apply H; auto.
    + intros b Hb. apply N. simpl. apply in_flat_map; eauto.
    + intros s Hs. apply HF. unfold f_funs; simpl. apply in_flat_map; eauto.
    + eapply rel_incl; eauto; simpl; intros y Hy; apply in_flat_map; eauto.
  - rewrite Forall_forall in H. apply fold_rel. apply Forall_forall. intros g Hg. apply H; auto.
    + intros b Hb. apply N. simpl. apply in_flat_map; eauto.
    + intros s Hs. apply HF. unfold f_funs; simpl. apply in_flat_map; eauto.
    + eapply rel_incl; eauto; simpl; intros y Hy; apply in_flat_map; eauto.
  - assert (H1 : @holds I f1 v <-> @holds J f1 w).
    { apply IHf1.
      - intros b Hb. apply N. simpl. apply in_or_app; auto.
      - intros s Hs. apply HF. unfold f_funs; simpl. apply in_or_app; auto.
      - eapply rel_incl; eauto; simpl; apply incl_appl, incl_refl. }
    assert (H2 : @holds I f2 v <-> @holds J f2 w).
    { apply IHf2.
      - intros b Hb. apply N. simpl. apply in_or_app; auto.
      - intros s Hs. apply HF. unfold f_funs; simpl. apply in_or_app; auto.
      - eapply rel_incl; eauto; simpl; apply incl_appr, incl_refl. }
    simpl. tauto.
  - assert (H1 : @holds I f1 v <-> @holds J f1 w).
    { apply IHf1.
      - intros b Hb. apply N. simpl. apply in_or_app; auto.
      - intros s Hs. apply HF. unfold f_funs; simpl. apply in_or_app; auto.
      - eapply rel_incl; eauto; simpl; apply incl_appl, incl_refl. }
    assert (H2 : @holds I f2 v <-> @holds J f2 w).
    { apply IHf2.
      - intros b Hb. apply N. simpl. apply in_or_app; auto.
      - intros s Hs. apply HF. unfold f_funs; simpl. apply in_or_app; auto.
      - eapply rel_incl; eauto; simpl; apply incl_appr, incl_refl. }
    simpl. tauto.
  - simpl. rewrite (IHf N HF v w R). tauto.
  - simpl. rewrite (evs_rel v w args).
    + rewrite (evtys_rel v w tys (flat_map t_vars args) (flat_map t_metas args)); [tauto|].
      eapply rel_incl; eauto; try apply incl_refl; simpl; apply incl_appl, incl_refl.
    + apply forallb_forall. intros t Ht. apply N. simpl. apply in_map; auto.
    + auto.
    + eapply rel_incl; eauto; try apply incl_refl; simpl; apply incl_appr, incl_refl.
  - simpl; tauto.
  - simpl; tauto.
Qed.
End Co.

(** same interpretation *)
Lemma holds_free I f (v w : val I) : f_noid f ->
  (forall i, In i (fv f) -> bv v i = bv w i) -> (forall s, In s (ftv f) -> tbv v s = tbv w s) ->
  (forall i, In i (f_metas f) -> mv v i = mv w i) ->
  (forall s i, In (s, i) (f_tymetas f) -> tmv v s i = tmv w s i) -> (holds f v <-> holds f w).
Proof.
  intros N A B C E. transitivity (@holds (refn I (fn I)) f (revalF (fn I) w)).
  - apply holds_rel; auto. constructor; auto.
  - symmetry. apply holds_rel; auto. constructor; auto.
Qed.
Lemma holds_refn I F f (v : val I) : f_noid f -> (forall s, In s (f_funs f) -> forall ts ds, F s ts ds = fn I s ts ds) ->
  (holds f v <-> holds f (revalF F v)).
Proof. intros. apply holds_rel; auto. constructor; auto. Qed.

(** ** replacement of a variable: free variables and type metavariables *)
Section Rep.
Variables (i : Z) (n : string) (u : term).
Hypothesis Huv : t_vars u = [].
Hypothesis Hut : t_tyvars u = [].
Hypothesis Hum : t_tymetas u = [].

Lemma rep_list (P : term -> term -> Prop) args args' b :
  Forall (fun t => forall t' b, replace_tt (Var i n) u t = Some (t', b) -> P t t') args ->
  replace_tt_list (Var i n) u args = Some (args', b) -> Forall2 P args args'.
Proof.
  intros H. revert args' b. induction H as [|t l Ht Hl IH]; simpl; intros args' b E.
  - inversion E; constructor.
  - destruct (replace_tt (Var i n) u t) as [[t' b1]|] eqn:E1; [|discriminate].
    destruct (replace_tt_list (Var i n) u l) as [[l' b2]|] eqn:E2; [|discriminate].
    inversion E; subst. constructor; eauto.
Qed.
Lemma incl_flat2 {A} (c : term -> list A) l l' : Forall2 (fun t t' => incl (c t') (c t)) l l' ->
  incl (flat_map c l') (flat_map c l).
Proof. induction 1; simpl; [apply incl_refl|]. apply incl_app; [apply incl_appl|apply incl_appr]; auto. Qed.
Lemma rep_tt t : ~ In i (t_funs t) -> forall t' b, replace_tt (Var i n) u t = Some (t', b) ->
  (forall x, In x (t_vars t') -> In x (t_vars t) /\ x <> i) /\ incl (t_tyvars t') (t_tyvars t) /\ incl (t_tymetas t') (t_tymetas t).
Proof.
  induction t as [x|p tys l IH|x m|m] using term_ind'; intros NF t' b E.
  - discriminate.
  - rewrite replace_tt_fun in E. cbn [term_index] in E.
    destruct (i =? id_index p) eqn:Ei; [apply Z.eqb_eq in Ei; exfalso; apply NF; simpl; auto|].
    destruct (replace_tt_list (Var i n) u l) as [[l' b']|] eqn:El; [|discriminate].
    inversion E; subst t'. clear E.
    assert (IH' : Forall (fun t => forall t' b, replace_tt (Var i n) u t = Some (t', b) ->
      (forall x, In x (t_vars t') -> In x (t_vars t) /\ x <> i) /\ incl (t_tyvars t') (t_tyvars t) /\ incl (t_tymetas t') (t_tymetas t)) l).
    { rewrite Forall_forall in *. intros t Ht. apply IH; auto. intros K. apply NF. simpl. right. apply in_flat_map; eauto. }
    pose proof (rep_list _ _ _ _ IH' El) as R. cbn. split; [|split].
    + intros x. clear -R. induction R as [|t t1 l l1 Hh R IH]; simpl; [tauto|]. rewrite !in_app_iff.
      intros [H|H]; [apply Hh in H|apply IH in H]; tauto.
    + apply incl_app; [apply incl_appl, incl_refl|]. apply incl_appr, incl_flat2.
      eapply Forall2_impl; [|exact R]. cbn; tauto.
    + apply incl_app; [apply incl_appl, incl_refl|]. apply incl_appr, incl_flat2.
      eapply Forall2_impl; [|exact R]. cbn; tauto.
  - cbn in E. destruct (i =? x) eqn:Ei; inversion E; subst.
    + rewrite Huv, Hut, Hum. simpl. split; [tauto|]. split; intros y [].
    + apply Z.eqb_neq in Ei. simpl. split; [intros y [<-|[]]; auto|]. split; apply incl_refl.
  - cbn in E. destruct u; try discriminate Huv; inversion E; subst; cbn; (split; [tauto|split; intros y []]).
Qed.
Lemma rep_tts l l' b : ~ In i (flat_map t_funs l) -> replace_tt_list (Var i n) u l = Some (l', b) ->
  (forall x, In x (flat_map t_vars l') -> In x (flat_map t_vars l) /\ x <> i) /\
  incl (flat_map t_tyvars l') (flat_map t_tyvars l) /\ incl (flat_map t_tymetas l') (flat_map t_tymetas l).
Proof.
  intros NF E.
  assert (IH : Forall (fun t => forall t' b, replace_tt (Var i n) u t = Some (t', b) ->
      (forall x, In x (t_vars t') -> In x (t_vars t) /\ x <> i) /\ incl (t_tyvars t') (t_tyvars t) /\ incl (t_tymetas t') (t_tymetas t)) l).
  { rewrite Forall_forall in *. intros t Ht. apply rep_tt; auto. intros K. apply NF. apply in_flat_map; eauto. }
  pose proof (rep_list _ _ _ _ IH E) as R. split; [|split].
  - intros x. clear -R. induction R as [|t t1 l l1 Hh R IH]; simpl; [tauto|]. rewrite !in_app_iff.
    intros [H|H]; [apply Hh in H|apply IH in H]; tauto.
  - apply incl_flat2. eapply Forall2_impl; [|exact R]. cbn; tauto.
  - apply incl_flat2. eapply Forall2_impl; [|exact R]. cbn; tauto.
Qed.
Definition repf (f f' : form) : Prop :=
  (forall x, In x (fv f') -> In x (fv f) /\ x <> i) /\ incl (ftv f') (ftv f) /\ incl (f_tymetas f') (f_tymetas f).
Lemma unbinds_incl vs (A A' : list Z) : (forall x, In x A' -> In x A /\ x <> i) ->
  forall x, In x (fold_right unbind A' vs) -> In x (fold_right unbind A vs) /\ x <> i.
Proof.
  intros H. induction vs as [|y r IH]; simpl; auto. intros x. unfold unbind at 1 3.
  destruct (is_ttype (tv_ty y)); auto. rewrite !filter_In. intros [H1 H2]. apply IH in H1. tauto.
Qed.
Lemma unbinds_ty_incl vs A A' : incl A' A -> incl (fold_right unbind_ty A' vs) (fold_right unbind_ty A vs).
Proof.
  intros H. induction vs as [|y r IH]; simpl; auto. unfold unbind_ty at 1 3.
  destruct (is_ttype (tv_ty y)); auto. intros x. rewrite !filter_In. intros [H1 H2]. split; auto.
Qed.
Lemma rep_form f : ~ In i (f_funs f) -> forall f' b, replace_term (Var i n) u f = Some (f', b) -> repf f f'.
Proof.
  assert (L : forall fs, Forall (fun f => forall f' b, replace_term (Var i n) u f = Some (f', b) -> repf f f') fs ->
    forall fs' b, (fix go (l : list form) : option (list form * bool) :=
      match l with
      | [] => Some ([], false)
      | a :: r =>
        match replace_term (Var i n) u a, go r with
        | Some (a', b), Some (r', b') => Some (a' :: r', b || b')
        | _, _ => None
        end
      end) fs = Some (fs', b) ->
    (forall x, In x (flat_map fv fs') -> In x (flat_map fv fs) /\ x <> i) /\ incl (flat_map ftv fs') (flat_map ftv fs) /\
    incl (flat_map f_tymetas fs') (flat_map f_tymetas fs)).
  { induction 1 as [|a l Ha Hl IH]; intros fs' b E.
    - inversion E; subst. simpl. split; [tauto|split; apply incl_refl].
    - destruct (replace_term (Var i n) u a) as [[a' b1]|] eqn:E1; [|discriminate].
      match type of E with match ?X with _ => _ end = _ => destruct X as [[l' b2]|] eqn:E2; [|discriminate] end.
      inversion E; subst. destruct (Ha _ _ eq_refl) as (A1 & A2 & A3). destruct (IH _ _ eq_refl) as (B1 & B2 & B3).
      simpl. split; [|split].
      + intros x. rewrite !in_app_iff. intros [H|H]; [apply A1 in H|apply B1 in H]; tauto.
      + apply incl_app; [apply incl_appl|apply incl_appr]; auto.
      + apply incl_app; [apply incl_appl|apply incl_appr]; auto. }
  induction f using form_ind'; intros NF f' b E; cbn in E.
  - destruct (replace_term _ _ f) as [[g b1]|] eqn:E1; [|discriminate]. inversion E; subst.
    destruct (IHf NF _ _ eq_refl) as (A1 & A2 & A3). split; [|split]; simpl.
    + apply unbinds_incl; auto.
    + apply unbinds_ty_incl; auto.
    + auto.
  - destruct (replace_term _ _ f) as [[g b1]|] eqn:E1; [|discriminate]. inversion E; subst.
    destruct (IHf NF _ _ eq_refl) as (A1 & A2 & A3). split; [|split]; simpl.
    + apply unbinds_incl; auto.
    + apply unbinds_ty_incl; auto.
    + auto.
  - match type of E with match ?X with _ => _ end = _ => destruct X as [[l' b2]|] eqn:E2; [|discriminate] end.
    inversion E; subst. apply L in E2; [exact E2|]. rewrite Forall_forall in *. intros g Hg. apply H; auto.
    intros K. apply NF. unfold f_funs; simpl. apply in_flat_map; eauto.
  - match type of E with match ?X with _ => _ end = _ => destruct X as [[l' b2]|] eqn:E2; [|discriminate] end.
    inversion E; subst. apply L in E2; [exact E2|]. rewrite Forall_forall in *. intros g Hg. apply H; auto.
    intros K. apply NF. unfold f_funs; simpl. apply in_flat_map; eauto.
  - destruct (replace_term _ _ f1) as [[g1 b1]|] eqn:E1; [|discriminate].
    destruct (replace_term _ _ f2) as [[g2 b2]|] eqn:E2; [|discriminate]. inversion E; subst.
    unfold f_funs in NF; simpl in NF; rewrite in_app_iff in NF.
    destruct (IHf1 (fun K => NF (or_introl K)) _ _ eq_refl) as (A1 & A2 & A3).
    destruct (IHf2 (fun K => NF (or_intror K)) _ _ eq_refl) as (B1 & B2 & B3). split; [|split]; simpl.
    + intros x. rewrite !in_app_iff. intros [H|H]; [apply A1 in H|apply B1 in H]; tauto.
    + apply incl_app; [apply incl_appl|apply incl_appr]; auto.
    + unfold f_tymetas; simpl. apply incl_app; [apply incl_appl|apply incl_appr]; auto.
  - destruct (replace_term _ _ f1) as [[g1 b1]|] eqn:E1; [|discriminate].
    destruct (replace_term _ _ f2) as [[g2 b2]|] eqn:E2; [|discriminate]. inversion E; subst.
    unfold f_funs in NF; simpl in NF; rewrite in_app_iff in NF.
    destruct (IHf1 (fun K => NF (or_introl K)) _ _ eq_refl) as (A1 & A2 & A3).
    destruct (IHf2 (fun K => NF (or_intror K)) _ _ eq_refl) as (B1 & B2 & B3). split; [|split]; simpl.
    + intros x. rewrite !in_app_iff. intros [H|H]; [apply A1 in H|apply B1 in H]; tauto.
    + apply incl_app; [apply incl_appl|apply incl_appr]; auto.
    + unfold f_tymetas; simpl. apply incl_app; [apply incl_appl|apply incl_appr]; auto.
  - destruct (replace_term _ _ f) as [[g b1]|] eqn:E1; [|discriminate]. inversion E; subst.
    destruct (IHf NF _ _ eq_refl) as (A1 & A2 & A3). split; [|split]; simpl; auto.
  - destruct (replace_tt_list _ _ args) as [[l b1]|] eqn:E1; [|discriminate]. inversion E; subst.
    destruct (rep_tts _ _ _ NF E1) as (A1 & A2 & A3). split; [|split]; simpl; auto.
    + apply incl_app; [apply incl_appl, incl_refl|apply incl_appr]; auto.
    + unfold f_tymetas; simpl. apply incl_app; [apply incl_appl, incl_refl|apply incl_appr]; auto.
  - inversion E; subst. split; [|split]; simpl; try tauto; apply incl_refl.
  - inversion E; subst. split; [|split]; simpl; try tauto; apply incl_refl.
Qed.
End Rep.
