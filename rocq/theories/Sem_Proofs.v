(** Semantic lemmas: coincidence, replacement of a variable by a term, type substitution. *)
From Coq Require Import ZArith List Bool String Lia.
From Verif Require Import Ast_Model Sem_Spec Occ_Spec Ast_Proofs.
Import ListNotations.
Open Scope Z_scope.

(** ** Quantifier prefixes *)
Lemma forall_vars_rel {I} (R : val I -> val I -> Prop) (k k' : val I -> Prop) vs :
  (forall x, In x vs -> is_ttype (tv_ty x) = true ->
     forall v w t, R v w -> R (set_tbv v (tv_name x) t) (set_tbv w (tv_name x) t)) ->
  (forall x, In x vs -> is_ttype (tv_ty x) = false ->
     forall v w d, R v w -> R (set_bv v (tv_index x) d) (set_bv w (tv_index x) d)) ->
  (forall v w, R v w -> (k v <-> k' w)) ->
  forall v w, R v w -> (forall_vars vs k v <-> forall_vars vs k' w).
Proof.
  intros HT HD HK. induction vs as [|x r IH]; simpl; intros v w Rvw; auto.
  destruct (is_ttype (tv_ty x)) eqn:E.
  - split; intros H t; specialize (H t); revert H; apply IH; simpl in *; eauto.
  - split; intros H t; specialize (H t); revert H; apply IH; simpl in *; eauto.
Qed.
Lemma exists_vars_rel {I} (R : val I -> val I -> Prop) (k k' : val I -> Prop) vs :
  (forall x, In x vs -> is_ttype (tv_ty x) = true ->
     forall v w t, R v w -> R (set_tbv v (tv_name x) t) (set_tbv w (tv_name x) t)) ->
  (forall x, In x vs -> is_ttype (tv_ty x) = false ->
     forall v w d, R v w -> R (set_bv v (tv_index x) d) (set_bv w (tv_index x) d)) ->
  (forall v w, R v w -> (k v <-> k' w)) ->
  forall v w, R v w -> (exists_vars vs k v <-> exists_vars vs k' w).
Proof.
  intros HT HD HK. induction vs as [|x r IH]; simpl; intros v w Rvw; auto.
  destruct (is_ttype (tv_ty x)) eqn:E.
  - split; intros [t H]; exists t; revert H; apply IH; simpl in *; eauto.
  - split; intros [t H]; exists t; revert H; apply IH; simpl in *; eauto.
Qed.

Lemma fold_or_iff {A} (P Q : A -> Prop) l : Forall (fun x => P x <-> Q x) l ->
  (fold_right (fun g X => P g \/ X) False l <-> fold_right (fun g X => Q g \/ X) False l).
Proof. induction 1; simpl; tauto. Qed.
Lemma fold_and_iff {A} (P Q : A -> Prop) l : Forall (fun x => P x <-> Q x) l ->
  (fold_right (fun g X => P g /\ X) True l <-> fold_right (fun g X => Q g /\ X) True l).
Proof. induction 1; simpl; tauto. Qed.
Lemma fold_or_exists {A} (P : A -> Prop) l :
  fold_right (fun g X => P g \/ X) False l <-> exists x, In x l /\ P x.
Proof.
  induction l as [|a l IHl]; simpl; split; try tauto; try (intros (y & [] & _); fail).
  - intros [H|H]; [exists a; auto|]. apply IHl in H as (y & ? & ?); exists y; auto.
  - rewrite IHl. intros (y & [->|H] & ?); auto. right; exists y; auto.
Qed.
Lemma fold_and_forall {A} (P : A -> Prop) l :
  fold_right (fun g X => P g /\ X) True l <-> forall x, In x l -> P x.
Proof.
  induction l; simpl; split; try tauto.
  - intros [H1 H2] x [->|H]; auto. apply IHl; auto.
  - intros H; split; [apply H; auto|]. apply IHl; intros; apply H; auto.
Qed.

(** ** Coincidence *)
Record agree {I} (vars : list Z) (tyvars : list string) (v w : val I) : Prop := {
  ag_bv : forall i, In i vars -> bv v i = bv w i;
  ag_mv : forall i, mv v i = mv w i;
  ag_tbv : forall s, In s tyvars -> tbv v s = tbv w s;
  ag_tmv : forall s i, tmv v s i = tmv w s i }.

Lemma agree_incl {I} a a' b b' (v w : val I) : agree a b v w -> incl a' a -> incl b' b -> agree a' b' v w.
Proof. intros [? ? ? ?] Ha Hb; constructor; auto. Qed.

Lemma evty_agree {I} (v w : val I) t : 
  (forall s, In s (ty_tyvars t) -> tbv v s = tbv w s) -> (forall s i, tmv v s i = tmv w s i) ->
  evty v t = evty w t.
Proof.
  intros HB HM. induction t using ty_ind'; simpl in *; auto; try (f_equal; auto; fail).
  - f_equal. apply map_ext_in. intros a Ia. rewrite Forall_forall in H. apply H; auto.
    intros q Iq. apply HB. apply in_flat_map; eauto.
  - f_equal. apply map_ext_in. intros a Ia. rewrite Forall_forall in H. apply H; auto.
    intros q Iq. apply HB. apply in_flat_map; eauto.
  - f_equal; [apply IHt1|apply IHt2]; intros; apply HB; apply in_or_app; auto.
Qed.
Lemma evtys_agree {I} (v w : val I) l :
  (forall s, In s (flat_map ty_tyvars l) -> tbv v s = tbv w s) -> (forall s i, tmv v s i = tmv w s i) ->
  map (evty v) l = map (evty w) l.
Proof.
  intros HB HM. apply map_ext_in. intros a Ia. apply evty_agree; auto.
  intros; apply HB; apply in_flat_map; eauto.
Qed.

Lemma ev_agree {I} (v w : val I) t : agree (t_vars t) (t_tyvars t) v w -> ev v t = ev w t.
Proof.
  induction t as [x|p tys l IH|x n|m] using term_ind'; intros [HB HM HT HTM]; simpl in *; auto.
  f_equal.
  - apply evtys_agree; auto. intros; apply HT, in_or_app; auto.
  - apply map_ext_in. intros a Ia. rewrite Forall_forall in IH. apply IH; auto.
    constructor; auto; intros.
    + apply HB, in_flat_map; eauto.
    + apply HT, in_or_app; right; apply in_flat_map; eauto.
Qed.
Lemma evs_agree {I} (v w : val I) l : agree (flat_map t_vars l) (flat_map t_tyvars l) v w ->
  map (ev v) l = map (ev w) l.
Proof.
  intros A. apply map_ext_in. intros a Ia. apply ev_agree. eapply agree_incl; eauto;
  intros x Hx; apply in_flat_map; eauto.
Qed.

Lemma agree_set_bv {I} a b (v w : val I) i d : agree a b v w -> agree a b (set_bv v i d) (set_bv w i d).
Proof. intros [? ? ? ?]; constructor; simpl; auto. intros j Hj; unfold upd; destruct (j =? i); auto. Qed.
Lemma agree_set_tbv {I} a b (v w : val I) i d : agree a b v w -> agree a b (set_tbv v i d) (set_tbv w i d).
Proof. intros [? ? ? ?]; constructor; simpl; auto. intros j Hj; unfold upds; destruct (String.eqb j i); auto. Qed.

Lemma holds_agree {I} f : forall v w : val I, agree (f_vars f) (f_tyvars f) v w -> (holds f v <-> holds f w).
Proof.
  induction f using form_ind'; intros v w A; simpl.
  - eapply (forall_vars_rel (agree (f_vars f) (f_tyvars f))); auto; intros;
      [apply agree_set_tbv|apply agree_set_bv]; auto.
  - eapply (exists_vars_rel (agree (f_vars f) (f_tyvars f))); auto; intros;
      [apply agree_set_tbv|apply agree_set_bv]; auto.
  - apply fold_or_iff. apply Forall_forall. intros g Ig. rewrite Forall_forall in H. apply H; auto.
    eapply agree_incl; eauto; intros x Hx; unfold f_vars, f_tyvars; simpl; apply in_flat_map; eauto.
  - apply fold_and_iff. apply Forall_forall. intros g Ig. rewrite Forall_forall in H. apply H; auto.
    eapply agree_incl; eauto; intros x Hx; unfold f_vars, f_tyvars; simpl; apply in_flat_map; eauto.
  - rewrite (IHf1 v w), (IHf2 v w); try tauto; eapply agree_incl; eauto;
      intros x Hx; unfold f_vars, f_tyvars; simpl; apply in_or_app; auto.
  - rewrite (IHf1 v w), (IHf2 v w); try tauto; eapply agree_incl; eauto;
      intros x Hx; unfold f_vars, f_tyvars; simpl; apply in_or_app; auto.
  - rewrite (IHf v w); auto; tauto.
  - unfold f_vars, f_tyvars in A; simpl in A. rewrite (evtys_agree v w), (evs_agree v w); try tauto.
    + eapply agree_incl; eauto. apply incl_refl. apply incl_appr, incl_refl.
    + intros; apply (ag_tbv _ _ _ _ A); apply in_or_app; auto.
    + apply (ag_tmv _ _ _ _ A).
  - tauto.
  - tauto.
Qed.

(** ** Replacement of a variable by a term in terms *)
Definition rt_list (old new : term) : list term -> option (list term * bool) :=
  fix go (l : list term) : option (list term * bool) :=
    match l with
    | [] => Some ([], false)
    | a :: r =>
      match replace_tt old new a, go r with
      | Some (a', b), Some (r', b') => Some (a' :: r', b || b')
      | _, _ => None
      end
    end.
Lemma rt_list_eq old new l : replace_tt_list old new l = rt_list old new l.
Proof. induction l; simpl; auto. rewrite IHl; auto. Qed.
Lemma replace_tt_fun old new p tys args : replace_tt old new (Fun p tys args) =
  if term_index old =? id_index p then Some (new, true)
  else match replace_tt_list old new args with
       | Some (args', b) => Some (Fun p tys args', b)
       | None => None
       end.
Proof. rewrite rt_list_eq. reflexivity. Qed.

Section RT.
Variables (i : Z) (n : string) (u : term).
Hypothesis Hu : term_eqb (Var i n) u = false.

Lemma replace_tt_total t : t_noid t = true -> exists t' b, replace_tt (Var i n) u t = Some (t', b).
Proof.
  induction t as [x|p tys l IH|x m|m] using term_ind'; intros N.
  - discriminate.
  - rewrite replace_tt_fun. simpl term_index. destruct (i =? id_index p); [eauto|].
    assert (E : exists l' b, replace_tt_list (Var i n) u l = Some (l', b)).
    { simpl in N. induction IH as [|a l Ha F IHl]; simpl in *; eauto.
      apply andb_prop in N as [N1 N2]. destruct (Ha N1) as (a' & b & Ea). rewrite Ea.
      destruct (IHl N2) as (l' & b' & El). rewrite El. eauto. }
    destruct E as (l' & b & E). rewrite E. eauto.
  - simpl. destruct (i =? x); eauto.
  - cbn [replace_tt]. rewrite Hu; eauto.
Qed.
Lemma replace_tt_list_total l : forallb t_noid l = true ->
  exists l' b, replace_tt_list (Var i n) u l = Some (l', b).
Proof.
  induction l; simpl; intros N; eauto. apply andb_prop in N as [N1 N2].
  destruct (replace_tt_total a N1) as (a' & b & Ea). rewrite Ea.
  destruct (IHl N2) as (l' & b' & El). rewrite El. eauto.
Qed.

(** characterisation: flag, occurrences, value *)
Definition rt_ok (t t' : term) (b : bool) : Prop :=
  (b = true <-> In i (t_vars t)) /\ (b = false -> t' = t) /\
  (forall x, In x (t_vars t') -> (In x (t_vars t) /\ x <> i) \/ (b = true /\ In x (t_vars u))) /\
  (forall x, In x (t_funs t') -> In x (t_funs t) \/ (b = true /\ In x (t_funs u))) /\
  (forall x, In x (t_tyvars t') -> In x (t_tyvars t) \/ (b = true /\ In x (t_tyvars u))) /\
  (forall x, In x (t_metas t') -> In x (t_metas t) \/ (b = true /\ In x (t_metas u))) /\
  (t_noid u = true -> t_noid t' = true) /\
  (forall I (v : val I), ev v t' = ev (set_bv v i (ev v u)) t).

Definition rts_ok (t t' : list term) (b : bool) : Prop :=
  (b = true <-> In i (flat_map t_vars t)) /\ (b = false -> t' = t) /\
  (forall x, In x (flat_map t_vars t') -> (In x (flat_map t_vars t) /\ x <> i) \/ (b = true /\ In x (t_vars u))) /\
  (forall x, In x (flat_map t_funs t') -> In x (flat_map t_funs t) \/ (b = true /\ In x (t_funs u))) /\
  (forall x, In x (flat_map t_tyvars t') -> In x (flat_map t_tyvars t) \/ (b = true /\ In x (t_tyvars u))) /\
  (forall x, In x (flat_map t_metas t') -> In x (flat_map t_metas t) \/ (b = true /\ In x (t_metas u))) /\
  (t_noid u = true -> forallb t_noid t' = true) /\
  (forall I (v : val I), map (ev v) t' = map (ev (set_bv v i (ev v u))) t).

Lemma rts_cons a l : forall a' b l' b',
  rt_ok a a' b -> rts_ok l l' b' -> rts_ok (a :: l) (a' :: l') (b || b').
Proof.
  intros a' b l' b' (A1 & A2 & A3 & A4 & A5 & A6 & A7 & A8) (B1 & B2 & B3 & B4 & B5 & B6 & B7 & B8).
  split; [|split; [|split; [|split; [|split; [|split; [|split]]]]]]; simpl.
  - rewrite orb_true_iff, A1, B1, in_app_iff. tauto.
  - intros E. apply orb_false_elim in E as [-> ->]. rewrite A2, B2; auto.
  - intros x. rewrite !in_app_iff, orb_true_iff. intros [H|H]; [apply A3 in H|apply B3 in H]; tauto.
  - intros x. rewrite !in_app_iff, orb_true_iff. intros [H|H]; [apply A4 in H|apply B4 in H]; tauto.
  - intros x. rewrite !in_app_iff, orb_true_iff. intros [H|H]; [apply A5 in H|apply B5 in H]; tauto.
  - intros x. rewrite !in_app_iff, orb_true_iff. intros [H|H]; [apply A6 in H|apply B6 in H]; tauto.
  - intros H. rewrite A7, B7; auto.
  - intros I v. rewrite A8, B8; auto.
Qed.

Lemma evty_set_bv {I} (v : val I) x d t : evty (set_bv v x d) t = evty v t.
Proof. apply evty_agree; auto. Qed.

Lemma replace_tt_ok t : forall t' b, ~ In i (t_funs t) ->
  replace_tt (Var i n) u t = Some (t', b) -> rt_ok t t' b.
Proof.
  induction t as [x|p tys l IH|x m|m] using term_ind'; intros t' b NF E.
  - discriminate.
  - rewrite replace_tt_fun in E. simpl term_index in E. simpl in NF.
    destruct (i =? id_index p) eqn:Ei; [apply Z.eqb_eq in Ei; exfalso; apply NF; auto|].
    destruct (replace_tt_list (Var i n) u l) as [[l' b']|] eqn:El; [|discriminate].
    injection E as <- <-.
    assert (K : rts_ok l l' b').
    { assert (NF' : ~ In i (flat_map t_funs l)) by tauto. clear NF. revert l' b' El.
      induction IH as [|a l Ha F IHl]; simpl; intros l' b' El.
      - injection El as <- <-. unfold rts_ok; simpl; repeat split; intros; try tauto; try discriminate.
      - simpl in NF'. rewrite in_app_iff in NF'.
        destruct (replace_tt (Var i n) u a) as [[a' ba]|] eqn:Ea; [|discriminate].
        destruct (replace_tt_list (Var i n) u l) as [[l1 b1]|] eqn:E1; [|discriminate].
        injection El as <- <-. apply rts_cons; auto. }
    destruct K as (B1 & B2 & B3 & B4 & B5 & B6 & B7 & B8).
    split; [|split; [|split; [|split; [|split; [|split; [|split]]]]]]; simpl; auto.
    + intros ->; rewrite B2; auto.
    + intros x [->|H]; auto. apply B4 in H; tauto.
    + intros x. rewrite !in_app_iff. intros [H|H]; auto. apply B5 in H; tauto.
    + intros I v. rewrite B8. f_equal. apply map_ext. intros; symmetry; apply evty_set_bv.
  - simpl in E. destruct (i =? x) eqn:Ei; injection E as <- <-.
    + apply Z.eqb_eq in Ei; subst x. unfold rt_ok; simpl; repeat split; auto; try discriminate.
      intros I v; unfold upd; rewrite Z.eqb_refl; auto.
    + apply Z.eqb_neq in Ei. unfold rt_ok; simpl; repeat split; try tauto; try discriminate.
      * intros [->|[]]; congruence.
      * intros y [<-|[]]; left; split; auto.
      * intros I v; unfold upd. destruct (x =? i) eqn:E; auto. apply Z.eqb_eq in E; congruence.
  - cbn [replace_tt] in E. rewrite Hu in E. injection E as <- <-.
    unfold rt_ok; simpl; repeat split; try tauto; try discriminate.
Qed.

Lemma replace_tt_list_ok l : forall l' b, ~ In i (flat_map t_funs l) ->
  replace_tt_list (Var i n) u l = Some (l', b) -> rts_ok l l' b.
Proof.
  induction l as [|a l IHl]; simpl; intros l' b' NF El.
  - injection El as <- <-. unfold rts_ok; simpl; repeat split; intros; try tauto; try discriminate.
  - rewrite in_app_iff in NF.
    destruct (replace_tt (Var i n) u a) as [[a' ba]|] eqn:Ea; [|discriminate].
    destruct (replace_tt_list (Var i n) u l) as [[l1 b1]|] eqn:E1; [|discriminate].
    injection El as <- <-. apply rts_cons; auto. apply replace_tt_ok; auto.
Qed.

(** ** Formulas *)
Definition rf_list : list form -> option (list form * bool) :=
  fix go (l : list form) : option (list form * bool) :=
    match l with
    | [] => Some ([], false)
    | a :: r =>
      match replace_term (Var i n) u a, go r with
      | Some (a', b), Some (r', b') => Some (a' :: r', b || b')
      | _, _ => None
      end
    end.

Definition rf_ok (f f' : form) (b : bool) : Prop :=
  (b = true <-> In i (f_vars f)) /\ (b = false -> f' = f) /\
  (forall x, In x (f_vars f') -> (In x (f_vars f) /\ x <> i) \/ (b = true /\ In x (t_vars u))) /\
  (forall x, In x (f_funs f') -> In x (f_funs f) \/ (b = true /\ In x (t_funs u))) /\
  (forall x, In x (f_tyvars f') -> In x (f_tyvars f) \/ (b = true /\ In x (t_tyvars u))) /\
  (forall x, In x (f_metas f') -> In x (f_metas f) \/ (b = true /\ In x (t_metas u))) /\
  f_preds f' = f_preds f /\
  f_binders f' = f_binders f /\
  (t_noid u = true -> f_noid f') /\
  ((forall x, In x (f_binders f) -> tv_index x <> i /\ ~ In (tv_index x) (t_vars u) /\ ~ In (tv_name x) (t_tyvars u)) ->
   forall I (v : val I), holds f' v <-> holds f (set_bv v i (ev v u))).

Lemma set_bv_comm {I} (v : val I) a b x y : a <> b ->
  forall j, bv (set_bv (set_bv v a x) b y) j = bv (set_bv (set_bv v b y) a x) j.
Proof.
  intros N j; simpl; unfold upd. destruct (j =? b) eqn:E1, (j =? a) eqn:E2; auto.
  apply Z.eqb_eq in E1, E2; congruence.
Qed.

(** pointwise equality of valuations *)
Definition veq {I} (v w : val I) : Prop :=
  (forall i, bv v i = bv w i) /\ (forall i, mv v i = mv w i) /\
  (forall s, tbv v s = tbv w s) /\ (forall s i, tmv v s i = tmv w s i).
Lemma veq_agree {I} (v w : val I) a b : veq v w -> agree a b v w.
Proof. intros (?&?&?&?); constructor; auto. Qed.

Lemma quant_step {I} (f f' : form) vs :
  (forall x, In x vs -> tv_index x <> i /\ ~ In (tv_index x) (t_vars u) /\ ~ In (tv_name x) (t_tyvars u)) ->
  (forall v : val I, holds f' v <-> holds f (set_bv v i (ev v u))) ->
  forall v : val I, (forall_vars vs (holds f') v <-> forall_vars vs (holds f) (set_bv v i (ev v u))) /\
    (exists_vars vs (holds f') v <-> exists_vars vs (holds f) (set_bv v i (ev v u))).
Proof.
  intros HV HH v.
  set (R := fun v w : val I => veq w (set_bv v i (ev v u))).
  assert (R0 : R v (set_bv v i (ev v u))) by (unfold R, veq; auto).
  assert (RK : forall v w : val I, R v w -> (holds f' v <-> holds f w)).
  { intros v' w' H. rewrite HH. apply holds_agree. apply veq_agree.
    unfold R in H. destruct H as (A&B&C&E). repeat split; intros; symmetry; auto. }
  assert (RT : forall x, In x vs -> is_ttype (tv_ty x) = true ->
     forall (v w : val I) t, R v w -> R (set_tbv v (tv_name x) t) (set_tbv w (tv_name x) t)).
  { intros x Ix _ v' w' t (A&B&C&E). unfold R.
    assert (EU : ev (set_tbv v' (tv_name x) t) u = ev v' u).
    { apply ev_agree. constructor; simpl; auto. intros s Hs. unfold upds.
      destruct (String.eqb s (tv_name x)) eqn:Es; auto. apply String.eqb_eq in Es; subst.
      exfalso. apply HV in Ix; tauto. }
    rewrite EU. split; [exact A|split; [exact B|split; [|exact E]]].
    intros s. simpl. unfold upds. destruct (String.eqb s (tv_name x)); auto. exact (C s). }
  assert (RD : forall x, In x vs -> is_ttype (tv_ty x) = false ->
     forall (v w : val I) d, R v w -> R (set_bv v (tv_index x) d) (set_bv w (tv_index x) d)).
  { intros x Ix _ v' w' d (A&B&C&E). unfold R. destruct (HV x Ix) as (H1 & H2 & H3).
    assert (EU : ev (set_bv v' (tv_index x) d) u = ev v' u).
    { apply ev_agree. constructor; simpl; auto. intros s Hs. unfold upd.
      destruct (s =? tv_index x) eqn:Es; auto. apply Z.eqb_eq in Es; subst. contradiction. }
    rewrite EU. split; [|split; [exact B|split; [exact C|exact E]]]. intros j. simpl. unfold upd.
    destruct (j =? tv_index x) eqn:E1.
    - apply Z.eqb_eq in E1; subst. destruct (tv_index x =? i) eqn:E2; auto. apply Z.eqb_eq in E2; congruence.
    - rewrite A. simpl. unfold upd. destruct (j =? i); auto. }
  split.
  - eapply forall_vars_rel with (R := R); eauto.
  - eapply exists_vars_rel with (R := R); eauto.
Qed.

Definition rfs_ok (f f' : list form) (b : bool) : Prop :=
  (b = true <-> In i (flat_map f_vars f)) /\ (b = false -> f' = f) /\
  (forall x, In x (flat_map f_vars f') -> (In x (flat_map f_vars f) /\ x <> i) \/ (b = true /\ In x (t_vars u))) /\
  (forall x, In x (flat_map f_funs f') -> In x (flat_map f_funs f) \/ (b = true /\ In x (t_funs u))) /\
  (forall x, In x (flat_map f_tyvars f') -> In x (flat_map f_tyvars f) \/ (b = true /\ In x (t_tyvars u))) /\
  (forall x, In x (flat_map f_metas f') -> In x (flat_map f_metas f) \/ (b = true /\ In x (t_metas u))) /\
  flat_map f_preds f' = flat_map f_preds f /\
  flat_map f_binders f' = flat_map f_binders f /\
  (t_noid u = true -> Forall f_noid f') /\
  ((forall x, In x (flat_map f_binders f) -> tv_index x <> i /\ ~ In (tv_index x) (t_vars u) /\ ~ In (tv_name x) (t_tyvars u)) ->
   Forall2 (fun g' g => forall I (v : val I), holds g' v <-> holds g (set_bv v i (ev v u))) f' f).

Lemma rfs_cons a l : forall a' b l' b',
  rf_ok a a' b -> rfs_ok l l' b' -> rfs_ok (a :: l) (a' :: l') (b || b').
Proof.
  intros a' b l' b' (A1 & A2 & A3 & A4 & A5 & A6 & A7 & A8 & A9 & A10)
     (B1 & B2 & B3 & B4 & B5 & B6 & B7 & B8 & B9 & B10).
  split; [|split; [|split; [|split; [|split; [|split; [|split; [|split; [|split]]]]]]]]; simpl.
  - rewrite orb_true_iff, A1, B1, in_app_iff. tauto.
  - intros E. apply orb_false_elim in E as [-> ->]. rewrite A2, B2; auto.
  - intros x. rewrite !in_app_iff, orb_true_iff. intros [H|H]; [apply A3 in H|apply B3 in H]; tauto.
  - intros x. rewrite !in_app_iff, orb_true_iff. intros [H|H]; [apply A4 in H|apply B4 in H]; tauto.
  - intros x. rewrite !in_app_iff, orb_true_iff. intros [H|H]; [apply A5 in H|apply B5 in H]; tauto.
  - intros x. rewrite !in_app_iff, orb_true_iff. intros [H|H]; [apply A6 in H|apply B6 in H]; tauto.
  - congruence.
  - congruence.
  - intros H. constructor; auto.
  - intros H. constructor.
    + apply A10. intros; apply H, in_or_app; auto.
    + apply B10. intros; apply H, in_or_app; auto.
Qed.
Lemma rfs_nil : rfs_ok [] [] false.
Proof. repeat split; simpl; try tauto; try discriminate; auto. Qed.

Lemma f_noid_list fs : Forall f_noid fs -> 
  forall b, In b (flat_map (f_collect (fun _ _ args => map t_noid args)) fs) -> b = true.
Proof. rewrite Forall_forall. intros H b Hb. apply in_flat_map in Hb as (g & Ig & Hb). apply (H g Ig b Hb). Qed.

Lemma rf_list_ok fs :
  Forall (fun f => forall f' b, ~ In i (f_funs f) -> replace_term (Var i n) u f = Some (f', b) -> rf_ok f f' b) fs ->
  forall l b, ~ In i (flat_map f_funs fs) -> rf_list fs = Some (l, b) -> rfs_ok fs l b.
Proof.
  induction 1 as [|a l Ha F IHl]; simpl; intros l' b' NF El.
  - injection El as <- <-. apply rfs_nil.
  - rewrite in_app_iff in NF.
    destruct (replace_term (Var i n) u a) as [[a' ba]|] eqn:Ea; [|discriminate].
    destruct (rf_list l) as [[l1 b1]|] eqn:E1; [|discriminate].
    injection El as <- <-. apply rfs_cons; auto.
Qed.
Lemma rts_rf ix p tys l l' b : rts_ok l l' b -> rf_ok (Pred ix p tys l) (Pred ix p tys l') b.
Proof.
  intros (A1 & A2 & A3 & A4 & A5 & A6 & A7 & A8).
  unfold rf_ok, f_vars, f_funs, f_tyvars, f_metas, f_preds.
  split; [|split; [|split; [|split; [|split; [|split; [|split; [|split; [|split]]]]]]]]; cbn [f_collect f_binders]; auto.
  - intros E; rewrite A2; auto.
  - intros x. rewrite !in_app_iff. intros [H|H]; auto. apply A5 in H; tauto.
  - intros H b0 Hb. simpl in Hb. apply in_map_iff in Hb as (t & <- & It).
    specialize (A7 H). rewrite forallb_forall in A7. auto.
  - intros _ I v. simpl. rewrite A8.
    assert (E : map (evty v) tys = map (evty (set_bv v i (ev v u))) tys)
      by (apply map_ext; intros; symmetry; apply evty_set_bv).
    rewrite E. tauto.
Qed.

Lemma rf_two ix (k : Z -> form -> form -> form) a a' b b' x y :
  (forall P (h : form -> list P), True) ->
  (k = Equ \/ k = Imp) ->
  rf_ok a a' x -> rf_ok b b' y -> rf_ok (k ix a b) (k ix a' b') (x || y).
Proof.
  intros _ Hk A B.
  assert (E : rfs_ok [a; b] [a'; b'] (x || y)).
  { rewrite <- (orb_false_r y). apply rfs_cons; auto. apply rfs_cons; auto. apply rfs_nil. }
  destruct E as (A1 & A2 & A3 & A4 & A5 & A6 & A7 & A8 & A9 & A10). simpl in *.
  rewrite !app_nil_r in *.
  split; [|split; [|split; [|split; [|split; [|split; [|split; [|split; [|split]]]]]]]]; destruct Hk; subst k;
  unfold f_vars, f_funs, f_tyvars, f_metas, f_preds in *; cbn [f_collect f_binders]; rewrite ?app_nil_r in *; auto.
  - intros E; injection (A2 E) as -> ->; auto.
  - intros E; injection (A2 E) as -> ->; auto.
  - intros H. specialize (A9 H). intros b0 Hb. apply (f_noid_list _ A9). simpl in *. rewrite app_nil_r; auto.
  - intros H. specialize (A9 H). intros b0 Hb. apply (f_noid_list _ A9). simpl in *. rewrite app_nil_r; auto.
  - intros H I v. specialize (A10 H). inversion A10 as [|? ? ? ? X Y]; subst. inversion Y as [|? ? ? ? Z1 _]; subst.
    simpl. rewrite (X I v), (Z1 I v). tauto.
  - intros H I v. specialize (A10 H). inversion A10 as [|? ? ? ? X Y]; subst. inversion Y as [|? ? ? ? Z1 _]; subst.
    simpl. rewrite (X I v), (Z1 I v). tauto.
Qed.

Lemma Forall2_iff_list {I} (P Q : form -> Prop) l l' (R : form -> form -> Prop) :
  (forall a b, R a b -> (P a <-> Q b)) -> Forall2 R l' l ->
  (fold_right (fun g X => P g \/ X) False l' <-> fold_right (fun g X => Q g \/ X) False l) /\
  (fold_right (fun g X => P g /\ X) True l' <-> fold_right (fun g X => Q g /\ X) True l) /\ I = I :> Prop.
Proof.
  intros H. induction 1 as [|a b l1 l2 Hab F IH]; simpl; [tauto|].
  apply H in Hab. tauto.
Qed.

Lemma replace_term_ok f : forall f' b, ~ In i (f_funs f) ->
  replace_term (Var i n) u f = Some (f', b) -> rf_ok f f' b.
Proof.
  induction f using form_ind'; intros f' b NF E.
  - cbn [replace_term] in E. destruct (replace_term (Var i n) u f) as [[g' b']|] eqn:Eg; [|discriminate].
    injection E as <- <-. destruct (IHf g' b' NF eq_refl) as (A1 & A2 & A3 & A4 & A5 & A6 & A7 & A8 & A9 & A10).
    split; [|split; [|split; [|split; [|split; [|split; [|split; [|split; [|split]]]]]]]]; auto.
    + intros ->; rewrite A2; auto.
    + cbn [f_binders]. congruence.
    + cbn [f_binders]. intros H I v. cbn [holds].
      apply (quant_step f g' vs); [|intros w; apply A10]; intros; apply H, in_or_app; auto.
  - cbn [replace_term] in E. destruct (replace_term (Var i n) u f) as [[g' b']|] eqn:Eg; [|discriminate].
    injection E as <- <-. destruct (IHf g' b' NF eq_refl) as (A1 & A2 & A3 & A4 & A5 & A6 & A7 & A8 & A9 & A10).
    split; [|split; [|split; [|split; [|split; [|split; [|split; [|split; [|split]]]]]]]]; auto.
    + intros ->; rewrite A2; auto.
    + cbn [f_binders]. congruence.
    + cbn [f_binders]. intros H I v. cbn [holds].
      apply (quant_step f g' vs); [|intros w; apply A10]; intros; apply H, in_or_app; auto.
  - cbn [replace_term] in E. fold rf_list in E.
    destruct (rf_list fs) as [[l b']|] eqn:El; [|discriminate]. injection E as <- <-.
    destruct (rf_list_ok fs H l b' NF El) as (A1 & A2 & A3 & A4 & A5 & A6 & A7 & A8 & A9 & A10).
    split; [|split; [|split; [|split; [|split; [|split; [|split; [|split; [|split]]]]]]]]; auto.
    + intros ->; rewrite A2; auto.
    + intros HU. specialize (A9 HU). intros b0 Hb. apply (f_noid_list _ A9). auto.
    + intros HB I v. specialize (A10 HB). cbn [holds].
      eapply (@Forall2_iff_list True); [|exact A10]. intros; auto.
  - cbn [replace_term] in E. fold rf_list in E.
    destruct (rf_list fs) as [[l b']|] eqn:El; [|discriminate]. injection E as <- <-.
    destruct (rf_list_ok fs H l b' NF El) as (A1 & A2 & A3 & A4 & A5 & A6 & A7 & A8 & A9 & A10).
    split; [|split; [|split; [|split; [|split; [|split; [|split; [|split; [|split]]]]]]]]; auto.
    + intros ->; rewrite A2; auto.
    + intros HU. specialize (A9 HU). intros b0 Hb. apply (f_noid_list _ A9). auto.
    + intros HB I v. specialize (A10 HB). cbn [holds].
      eapply (@Forall2_iff_list True); [|exact A10]. intros; auto.
  - cbn [replace_term] in E.
    destruct (replace_term (Var i n) u f1) as [[g1 b1]|] eqn:E1; [|discriminate].
    destruct (replace_term (Var i n) u f2) as [[g2 b2]|] eqn:E2; [|discriminate].
    injection E as <- <-. unfold f_funs in NF; simpl in NF; rewrite in_app_iff in NF.
    apply rf_two; auto.
  - cbn [replace_term] in E.
    destruct (replace_term (Var i n) u f1) as [[g1 b1]|] eqn:E1; [|discriminate].
    destruct (replace_term (Var i n) u f2) as [[g2 b2]|] eqn:E2; [|discriminate].
    injection E as <- <-. unfold f_funs in NF; simpl in NF; rewrite in_app_iff in NF.
    apply rf_two; auto.
  - cbn [replace_term] in E. destruct (replace_term (Var i n) u f) as [[g' b']|] eqn:Eg; [|discriminate].
    injection E as <- <-. destruct (IHf g' b' NF eq_refl) as (A1 & A2 & A3 & A4 & A5 & A6 & A7 & A8 & A9 & A10).
    split; [|split; [|split; [|split; [|split; [|split; [|split; [|split; [|split]]]]]]]]; auto.
    + intros ->; rewrite A2; auto.
    + intros H I v. cbn [holds]. rewrite (A10 H I v). tauto.
  - cbn [replace_term] in E. destruct (replace_tt_list (Var i n) u args) as [[l b']|] eqn:El; [|discriminate].
    injection E as <- <-. apply rts_rf. apply replace_tt_list_ok; auto.
  - injection E as <- <-. repeat split; simpl; try tauto; try discriminate. intros _ ? [].
  - injection E as <- <-. repeat split; simpl; try tauto; try discriminate. intros _ ? [].
Qed.

Lemma replace_term_total f : f_noid f -> exists f' b, replace_term (Var i n) u f = Some (f', b).
Proof.
  induction f using form_ind'; intros N; cbn [replace_term]; eauto.
  - destruct (IHf N) as (f' & b & ->); eauto.
  - destruct (IHf N) as (f' & b & ->); eauto.
  - fold rf_list. assert (E : exists l b, rf_list fs = Some (l, b)).
    { assert (N' : Forall f_noid fs).
      { apply Forall_forall. intros g Ig b Hb. apply N. simpl. apply in_flat_map; eauto. }
      clear N. induction H; simpl; eauto. inversion N'; subst.
      destruct H as (a & b & ->); auto. destruct IHForall as (l' & b' & ->); eauto. }
    destruct E as (l & b & ->); eauto.
  - fold rf_list. assert (E : exists l b, rf_list fs = Some (l, b)).
    { assert (N' : Forall f_noid fs).
      { apply Forall_forall. intros g Ig b Hb. apply N. simpl. apply in_flat_map; eauto. }
      clear N. induction H; simpl; eauto. inversion N'; subst.
      destruct H as (a & b & ->); auto. destruct IHForall as (l' & b' & ->); eauto. }
    destruct E as (l & b & ->); eauto.
  - destruct IHf1 as (f1' & b1 & ->); [intros b Hb; apply N; simpl; apply in_or_app; auto|].
    destruct IHf2 as (f2' & b2 & ->); [intros b Hb; apply N; simpl; apply in_or_app; auto|]. eauto.
  - destruct IHf1 as (f1' & b1 & ->); [intros b Hb; apply N; simpl; apply in_or_app; auto|].
    destruct IHf2 as (f2' & b2 & ->); [intros b Hb; apply N; simpl; apply in_or_app; auto|]. eauto.
  - destruct (IHf N) as (f' & b & ->); eauto.
  - destruct (replace_tt_list_total args) as (l & b & ->); eauto.
    apply forallb_forall. intros t It. apply N. simpl. apply in_map; auto.
Qed.
End RT.

(** ** Substitution of a type variable in types, terms, formulas *)
Definition is_tyvar (o : ty) : Prop := match o with TyBound _ _ | TyMeta _ _ _ => True | _ => False end.
Definition set_ty {I} (v : val I) (o : ty) (t : T I) : val I :=
  match o with
  | TyBound n _ => set_tbv v n t
  | TyMeta n i _ => set_tmv v n i t
  | _ => v
  end.
Lemma subst_ty_ev {I} (v : val I) o u t : is_tyvar o ->
  evty v (subst_ty o u t) = evty (set_ty v o (evty v u)) t.
Proof.
  intros HO. induction t as [s|s j|s j f|s l H|l H|a b IHa IHb|vs b IHb] using ty_ind'; simpl.
  - reflexivity.
  - destruct o; simpl in *; try contradiction; auto. unfold upds. destruct (String.eqb s name); auto.
  - destruct o; simpl in *; try contradiction; auto.
    destruct (String.eqb s name && (j =? index)); auto.
  - f_equal. rewrite map_map. apply map_ext_in. rewrite Forall_forall in H; auto.
  - f_equal. rewrite map_map. apply map_ext_in. rewrite Forall_forall in H; auto.
  - rewrite IHa, IHb; auto.
  - rewrite IHb; auto.
Qed.
Lemma subst_tys_ev {I} (v : val I) o u l : is_tyvar o ->
  map (evty v) (map (subst_ty o u) l) = map (evty (set_ty v o (evty v u))) l.
Proof. intros; rewrite map_map; apply map_ext; intros; apply subst_ty_ev; auto. Qed.
Lemma set_ty_bv {I} (v : val I) o t : bv (set_ty v o t) = bv v.
Proof. destruct o; auto. Qed.
Lemma set_ty_mv {I} (v : val I) o t : mv (set_ty v o t) = mv v.
Proof. destruct o; auto. Qed.
Lemma term_subst_ty_ev {I} (v : val I) o u t : is_tyvar o ->
  ev v (term_subst_ty o u t) = ev (set_ty v o (evty v u)) t.
Proof.
  intros HO. induction t as [x|p tys l IH|x n|m] using term_ind'; simpl; rewrite ?set_ty_bv, ?set_ty_mv; auto.
  rewrite subst_tys_ev by auto. f_equal. rewrite map_map. apply map_ext_in. rewrite Forall_forall in IH; auto.
Qed.

Definition ty_not_bound (o u : ty) (f : form) : Prop :=
  forall x, In x (f_binders f) -> is_ttype (tv_ty x) = true ->
    ~ In (tv_name x) (ty_tyvars o) /\ ~ In (tv_name x) (ty_tyvars u).

Lemma is_ttype_subst o u t : is_tyvar o -> is_ttype u = false -> is_ttype (subst_ty o u t) = is_ttype t.
Proof.
  intros HO HU. unfold is_ttype, tType. destruct t; simpl; auto.
  - destruct o; auto. destruct (String.eqb name name0); auto.
  - destruct o; auto. destruct (String.eqb name name0 && (index =? index0)); auto.
  - destruct args; simpl; auto.
Qed.

Lemma forall_vars_rel2 {I} (R : val I -> val I -> Prop) (k k' : val I -> Prop) (h : tvar -> tvar) vs :
  (forall x, is_ttype (tv_ty (h x)) = is_ttype (tv_ty x) /\ tv_name (h x) = tv_name x /\ tv_index (h x) = tv_index x) ->
  (forall x, In x vs -> is_ttype (tv_ty x) = true ->
     forall v w t, R v w -> R (set_tbv v (tv_name x) t) (set_tbv w (tv_name x) t)) ->
  (forall x, In x vs -> is_ttype (tv_ty x) = false ->
     forall v w d, R v w -> R (set_bv v (tv_index x) d) (set_bv w (tv_index x) d)) ->
  (forall v w, R v w -> (k v <-> k' w)) ->
  forall v w, R v w -> (forall_vars (map h vs) k v <-> forall_vars vs k' w) /\
                       (exists_vars (map h vs) k v <-> exists_vars vs k' w).
Proof.
  intros HH HT HD HK v w Rvw.
  assert (E : forall v, (forall_vars (map h vs) k v <-> forall_vars vs k v) /\
                        (exists_vars (map h vs) k v <-> exists_vars vs k v)).
  { clear -HH. induction vs as [|x r IH]; simpl; intros v; [tauto|].
    destruct (HH x) as (-> & -> & ->).
    destruct (is_ttype (tv_ty x)); split.
    - split; intros H t; apply IH; auto.
    - split; intros [t H]; exists t; apply IH; auto.
    - split; intros H t; apply IH; auto.
    - split; intros [t H]; exists t; apply IH; auto. }
  destruct (E v) as [-> ->]. split.
  - eapply forall_vars_rel; eauto.
  - eapply exists_vars_rel; eauto.
Qed.

Lemma form_subst_ty_ok o u (HO : is_tyvar o) (HU : is_ttype u = false) f : ty_not_bound o u f ->
  forall I (v : val I), holds (form_subst_ty o u f) v <-> holds f (set_ty v o (evty v u)).
Proof.
  assert (Q : forall I f vs, ty_not_bound o u f ->
     (forall x, In x vs -> is_ttype (tv_ty x) = true ->
        ~ In (tv_name x) (ty_tyvars o) /\ ~ In (tv_name x) (ty_tyvars u)) ->
     (forall v : val I, holds (form_subst_ty o u f) v <-> holds f (set_ty v o (evty v u))) ->
     forall v : val I, 
      (forall_vars (map (tvar_subst_ty o u) vs) (holds (form_subst_ty o u f)) v <->
       forall_vars vs (holds f) (set_ty v o (evty v u))) /\
      (exists_vars (map (tvar_subst_ty o u) vs) (holds (form_subst_ty o u f)) v <->
       exists_vars vs (holds f) (set_ty v o (evty v u)))).
  { intros I g vs _ HV HK v.
    set (R := fun v w : val I => veq w (set_ty v o (evty v u))).
    apply (forall_vars_rel2 R).
    - intros x. simpl. rewrite is_ttype_subst; auto.
    - intros x Ix Tx v' w' t (A & B & C & E). destruct (HV x Ix Tx) as [N1 N2]. unfold R.
      assert (EU : evty (set_tbv v' (tv_name x) t) u = evty v' u).
      { apply evty_agree; auto. intros s Hs. simpl. unfold upds.
        destruct (String.eqb s (tv_name x)) eqn:Es; auto. apply String.eqb_eq in Es; subst; contradiction. }
      rewrite EU. destruct o; simpl in HO; try contradiction; simpl in A, B, C, E;
        (split; [exact A|split; [exact B|split]]); simpl; auto.
      intros s. unfold upds. destruct (String.eqb s (tv_name x)) eqn:Es.
      + apply String.eqb_eq in Es; subst. destruct (String.eqb (tv_name x) name) eqn:E2; auto.
        apply String.eqb_eq in E2; subst. exfalso; apply N1; simpl; auto.
      + rewrite C. reflexivity.
      + intros s. unfold upds. rewrite C. reflexivity.
    - intros x Ix Tx v' w' t (A & B & C & E). unfold R. rewrite evty_set_bv.
      rewrite set_ty_bv in A. rewrite set_ty_mv in B.
      split; [|split; [|split]].
      + intros j. rewrite set_ty_bv. simpl. unfold upd. rewrite A. reflexivity.
      + intros j. rewrite set_ty_mv. simpl. auto.
      + intros s. simpl. rewrite C. destruct o; reflexivity.
      + intros s j. simpl. rewrite E. destruct o; reflexivity.
    - intros v' w' (A & B & C & E). rewrite HK. apply holds_agree. constructor; intros; symmetry; auto.
    - unfold R, veq; auto. }
  induction f using form_ind'; intros NB I v; cbn [form_subst_ty holds].
  - apply Q; auto; intros; [intros y Iy; apply NB; simpl; apply in_or_app; auto| apply NB; simpl; auto; apply in_or_app; auto |].
    apply IHf. intros y Iy; apply NB; simpl; apply in_or_app; auto.
  - apply Q; auto; intros; [intros y Iy; apply NB; simpl; apply in_or_app; auto| apply NB; simpl; auto; apply in_or_app; auto |].
    apply IHf. intros y Iy; apply NB; simpl; apply in_or_app; auto.
  - assert (F : Forall2 (fun g' g => forall (v : val I), holds g' v <-> holds g (set_ty v o (evty v u))) (map (form_subst_ty o u) fs) fs).
    { assert (NB' : Forall (ty_not_bound o u) fs).
      { apply Forall_forall. intros g Ig x Hx. apply NB. simpl. apply in_flat_map; eauto. }
      clear NB. induction H; simpl; constructor; inversion NB'; subst; auto. }
    eapply (@Forall2_iff_list True); [|exact F]. intros; auto.
  - assert (F : Forall2 (fun g' g => forall (v : val I), holds g' v <-> holds g (set_ty v o (evty v u))) (map (form_subst_ty o u) fs) fs).
    { assert (NB' : Forall (ty_not_bound o u) fs).
      { apply Forall_forall. intros g Ig x Hx. apply NB. simpl. apply in_flat_map; eauto. }
      clear NB. induction H; simpl; constructor; inversion NB'; subst; auto. }
    eapply (@Forall2_iff_list True); [|exact F]. intros; auto.
  - rewrite IHf1, IHf2; try tauto; intros y Iy; apply NB; simpl; apply in_or_app; auto.
  - rewrite IHf1, IHf2; try tauto; intros y Iy; apply NB; simpl; apply in_or_app; auto.
  - rewrite IHf; auto; tauto.
  - rewrite subst_tys_ev by auto.
    assert (E : map (ev v) (map (term_subst_ty o u) args) = map (ev (set_ty v o (evty v u))) args)
      by (rewrite map_map; apply map_ext; intros; apply term_subst_ty_ev; auto).
    rewrite E; tauto.
  - tauto.
  - tauto.
Qed.

Lemma term_subst_ty_occ o u t :
  t_vars (term_subst_ty o u t) = t_vars t /\ t_funs (term_subst_ty o u t) = t_funs t /\
  t_metas (term_subst_ty o u t) = t_metas t /\ t_noid (term_subst_ty o u t) = t_noid t.
Proof.
  induction t as [x|p tys l IH|x n|m] using term_ind'; simpl; auto.
  assert (E : flat_map t_vars (map (term_subst_ty o u) l) = flat_map t_vars l /\
     flat_map t_funs (map (term_subst_ty o u) l) = flat_map t_funs l /\
     flat_map t_metas (map (term_subst_ty o u) l) = flat_map t_metas l /\
     forallb t_noid (map (term_subst_ty o u) l) = forallb t_noid l).
  { induction IH as [|a l (A & B & C & E) F (A' & B' & C' & E')]; simpl; auto. 
    rewrite A, B, C, E, A', B', C', E'; auto. }
  destruct E as (A & B & C & E). rewrite A, B, C, E; auto.
Qed.

(** Type variables of a substituted type *)
Lemma subst_ty_tyvars o u t x : is_tyvar o -> In x (ty_tyvars (subst_ty o u t)) ->
  (In x (ty_tyvars t) /\ ~ In x (ty_tyvars o)) \/ In x (ty_tyvars u).
Proof.
  intros HO. induction t as [s|s j|s j f|s l H|l H|a b IHa IHb|vs b IHb] using ty_ind'; simpl; try tauto.
  - destruct o; simpl in *; try contradiction; try tauto.
    destruct (String.eqb s name) eqn:E; simpl; auto.
    apply String.eqb_neq in E. intros [<-|[]]. left; split; auto. intros [->|[]]; auto.
  - destruct o; simpl in *; try contradiction; try tauto.
    destruct (String.eqb s name && (j =? index)); simpl; auto.
  - rewrite Forall_forall in H. rewrite !in_flat_map. intros (y & Iy & Hx).
    apply in_map_iff in Iy as (y' & <- & Iy'). apply H in Hx; auto. destruct Hx as [[? ?]|?]; auto.
    left; split; eauto.
  - rewrite Forall_forall in H. rewrite !in_flat_map. intros (y & Iy & Hx).
    apply in_map_iff in Iy as (y' & <- & Iy'). apply H in Hx; auto. destruct Hx as [[? ?]|?]; auto.
    left; split; eauto.
  - rewrite !in_app_iff. tauto.
Qed.
Lemma subst_tys_tyvars o u l x : is_tyvar o -> In x (flat_map ty_tyvars (map (subst_ty o u) l)) ->
  (In x (flat_map ty_tyvars l) /\ ~ In x (ty_tyvars o)) \/ In x (ty_tyvars u).
Proof.
  intros HO. rewrite !in_flat_map. intros (y & Iy & Hx). apply in_map_iff in Iy as (y' & <- & Iy').
  apply subst_ty_tyvars in Hx; auto. destruct Hx as [[? ?]|?]; auto. left; split; eauto.
Qed.
Lemma term_subst_ty_tyvars o u t x : is_tyvar o -> In x (t_tyvars (term_subst_ty o u t)) ->
  (In x (t_tyvars t) /\ ~ In x (ty_tyvars o)) \/ In x (ty_tyvars u).
Proof.
  intros HO. induction t as [y|p tys l IH|y n|m] using term_ind'; simpl; try tauto.
  rewrite !in_app_iff. intros [H|H].
  - apply subst_tys_tyvars in H; tauto.
  - rewrite Forall_forall in IH. apply in_flat_map in H. destruct H as (y & Iy & Hx).
    apply in_map_iff in Iy as (y' & <- & Iy'). apply IH in Hx; auto. destruct Hx as [[? ?]|?]; auto.
    left; split; auto. right; apply in_flat_map; eauto.
Qed.

Lemma f_collect_flat {A} (h : ident -> list ty -> list term -> list A) fs (x : A) :
  In x (flat_map (f_collect h) fs) <-> exists g, In g fs /\ In x (f_collect h g).
Proof. apply in_flat_map. Qed.

Lemma flat_map_map {A B C} (f : B -> list C) (h : A -> B) l : flat_map f (map h l) = flat_map (fun x => f (h x)) l.
Proof. induction l; simpl; auto. rewrite IHl; auto. Qed.
Lemma flat_map_ext_in {A B} (f g : A -> list B) l : (forall x, In x l -> f x = g x) -> flat_map f l = flat_map g l.
Proof. induction l; simpl; intros H; auto. rewrite H, IHl; auto. Qed.

Lemma form_subst_ty_collect {A} o u (h : ident -> list ty -> list term -> list A) f :
  (forall p tys args, h p (map (subst_ty o u) tys) (map (term_subst_ty o u) args) = h p tys args) ->
  f_collect h (form_subst_ty o u f) = f_collect h f.
Proof.
  intros HH. induction f using form_ind'; simpl; auto; try congruence.
  - rewrite flat_map_map. apply flat_map_ext_in. rewrite Forall_forall in H; auto.
  - rewrite flat_map_map. apply flat_map_ext_in. rewrite Forall_forall in H; auto.
Qed.
Lemma form_subst_ty_occ o u f :
  f_vars (form_subst_ty o u f) = f_vars f /\ f_funs (form_subst_ty o u f) = f_funs f /\
  f_metas (form_subst_ty o u f) = f_metas f /\ f_preds (form_subst_ty o u f) = f_preds f /\
  (f_noid (form_subst_ty o u f) <-> f_noid f) /\
  f_binders (form_subst_ty o u f) = map (tvar_subst_ty o u) (f_binders f).
Proof.
  split; [|split; [|split; [|split; [|split]]]].
  - apply form_subst_ty_collect. intros. rewrite flat_map_map. apply flat_map_ext_in. intros; apply term_subst_ty_occ.
  - apply form_subst_ty_collect. intros. rewrite flat_map_map. apply flat_map_ext_in. intros; apply term_subst_ty_occ.
  - apply form_subst_ty_collect. intros. rewrite flat_map_map. apply flat_map_ext_in. intros; apply term_subst_ty_occ.
  - apply form_subst_ty_collect. auto.
  - unfold f_noid. rewrite form_subst_ty_collect; [tauto|]. intros. rewrite map_map. apply map_ext. intros; apply term_subst_ty_occ.
  - assert (L : forall fs, Forall (fun f => f_binders (form_subst_ty o u f) = map (tvar_subst_ty o u) (f_binders f)) fs ->
       flat_map f_binders (map (form_subst_ty o u) fs) = map (tvar_subst_ty o u) (flat_map f_binders fs)).
    { induction 1; simpl; auto. rewrite map_app. congruence. }
    induction f using form_ind'; simpl; rewrite ?map_app; auto; congruence.
Qed.
Lemma form_subst_ty_tyvars o u f x : is_tyvar o -> In x (f_tyvars (form_subst_ty o u f)) ->
  (In x (f_tyvars f) /\ ~ In x (ty_tyvars o)) \/ In x (ty_tyvars u).
Proof.
  intros HO. unfold f_tyvars. induction f using form_ind'; simpl; auto.
  - rewrite Forall_forall in H. rewrite !in_flat_map. intros (y & Iy & Hx).
    apply in_map_iff in Iy as (y' & <- & Iy'). apply H in Hx; auto. destruct Hx as [[? ?]|?]; eauto.
  - rewrite Forall_forall in H. rewrite !in_flat_map. intros (y & Iy & Hx).
    apply in_map_iff in Iy as (y' & <- & Iy'). apply H in Hx; auto. destruct Hx as [[? ?]|?]; eauto.
  - rewrite !in_app_iff; tauto.
  - rewrite !in_app_iff; tauto.
  - rewrite !in_app_iff. intros [H|H].
    + apply subst_tys_tyvars in H; tauto.
    + apply in_flat_map in H. destruct H as (y & Iy & Hx). apply in_map_iff in Iy as (y' & <- & Iy').
      apply term_subst_ty_tyvars in Hx; auto. destruct Hx as [[? ?]|?]; auto.
      left; split; auto. right; apply in_flat_map; eauto.
Qed.
(** nothing to substitute: unchanged *)
Lemma subst_ty_notin o u t : (exists s j, o = TyBound s j /\ ~ In s (ty_tyvars t)) -> subst_ty o u t = t.
Proof.
  intros (s0 & j0 & -> & N). induction t as [s|s j|s j f|s l H|l H|a b IHa IHb|vs b IHb] using ty_ind'; simpl in *; auto.
  - destruct (String.eqb s s0) eqn:E; auto. apply String.eqb_eq in E; subst; exfalso; auto.
  - f_equal. rewrite <- (map_id l) at 2. apply map_ext_in. rewrite Forall_forall in H.
    intros a Ia. apply H; auto. intros K. apply N, in_flat_map; eauto.
  - f_equal. rewrite <- (map_id l) at 2. apply map_ext_in. rewrite Forall_forall in H.
    intros a Ia. apply H; auto. intros K. apply N, in_flat_map; eauto.
  - rewrite in_app_iff in N. rewrite IHa, IHb; auto.
  - rewrite IHb; auto.
Qed.
