(** Lemmas for C14 and C15. *)
From Coq Require Import ZArith List Bool String Lia.
From Verif Require Import Ast_Model Sem_Spec Ast_Proofs Subst_Model.
Import ListNotations.
Open Scope Z_scope.

Definition first_repl (g : term -> term) : bool -> list term -> list term :=
  fix go (updated : bool) (l : list term) : list term :=
    match l with
    | [] => []
    | c :: r =>
      let m := g c in
      if negb (term_eqb c m) && negb updated
      then m :: go true r
      else c :: go updated r
    end.

Lemma replace_sub_fun old new p tys args : replace_sub old new (Fun p tys args) =
  if term_eqb (Fun p tys args) old then new
  else Fun p tys (first_repl (replace_sub old new) false args).
Proof. reflexivity. Qed.

Lemma first_repl_true g l : first_repl g true l = l.
Proof. induction l; simpl; auto. rewrite andb_false_r. f_equal; auto. Qed.

Lemma mcount_occ i t : (mcount i t = 0)%nat <-> ~ occ_meta i t.
Proof.
  induction t as [x|p tys l IH|x n|m] using term_ind'; simpl.
  - split; auto. intros _ H; inversion H.
  - split.
    + intros H O. inversion O as [|? ? ? u Iu Ou]; subst.
      rewrite Forall_forall in IH. assert (C : (mcount i u = 0)%nat).
      { clear IH O Ou. induction l as [|x r IHr]; [contradiction|]. simpl in *.
        destruct Iu as [->|Iu]; [lia|apply IHr; auto; lia]. }
      apply (IH u Iu) in C. contradiction.
    + intros H. induction IH as [|x l Hx F IHl]; simpl; auto.
      assert (mcount i x = 0)%nat by (apply Hx; intros O; apply H; econstructor; simpl; eauto).
      rewrite H0; simpl. apply IHl. intros O; inversion O; subst. apply H; econstructor; simpl; eauto.
  - split; auto. intros _ H; inversion H.
  - destruct (m_index m =? i) eqn:E; split; intros H; try discriminate; auto.
    + exfalso; apply H; constructor; apply Z.eqb_eq; auto.
    + intros O; inversion O; subst. rewrite Z.eqb_refl in E; discriminate.
Qed.

Lemma msubst_noocc i u t : (mcount i t = 0)%nat -> msubst i u t = t.
Proof.
  induction t as [x|p tys l IH|x n|m] using term_ind'; simpl; auto.
  - intros H. f_equal. induction IH as [|x l Hx F IHl]; simpl in *; auto.
    rewrite Hx, IHl; auto; lia.
  - destruct (m_index m =? i); auto; discriminate.
Qed.

Lemma replace_sub_noocc m u t : (mcount (m_index m) t = 0)%nat -> replace_sub (Meta m) u t = t.
Proof.
  induction t as [x|p tys l IH|x n|m'] using term_ind'; simpl; auto.
  - intros H. f_equal. fold (first_repl (replace_sub (Meta m) u)).
    change ((fix go (updated : bool) (l : list term) : list term :=
     match l with
     | [] => []
     | c :: r =>
         if negb (term_eqb c (replace_sub (Meta m) u c)) && negb updated
         then replace_sub (Meta m) u c :: go true r
         else c :: go updated r
     end) false l) with (first_repl (replace_sub (Meta m) u) false l).
    induction IH as [|x l Hx F IHl]; simpl in *; auto.
    rewrite Hx, IHl, term_eqb_refl; auto; lia.
  - unfold meta_eqb. destruct (m_index m' =? m_index m); auto; discriminate.
Qed.

Lemma msubst_changes i u t : (forall m, u = Meta m -> m_index m <> i) -> occ_meta i t ->
  ~ same_term t (msubst i u t).
Proof.
  intros U. induction t as [x|p tys l IH|x n|m] using term_ind'; intros O S; inversion O as [? E|? ? ? t It Ot]; subst.
  - simpl in S. inversion S; subst. rewrite Forall_forall in IH. apply (IH t It Ot).
    match goal with H : Forall2 same_term l _ |- _ => rename H into F end.
    clear - F It. induction l as [|x r IHr]; [contradiction|]. simpl in F. inversion F; subst.
    destruct It as [->|It]; auto.
  - simpl in S. rewrite Z.eqb_refl in S. inversion S; subst. eapply U; eauto.
Qed.

Lemma occ_dec i t : {occ_meta i t} + {~ occ_meta i t}.
Proof.
  destruct (Nat.eq_dec (mcount i t) 0) as [E|E]; [right|left]; [apply mcount_occ; auto|].
  destruct (mcount i t) eqn:C; [congruence|].
  clear E. revert n C. induction t as [x|p tys l IH|x n|m] using term_ind'; simpl; intros k C; try discriminate.
  - revert k C. induction IH as [|x l Hx F IHl]; simpl; intros k C; [discriminate|].
    destruct (mcount i x) eqn:Cx.
    + assert (O : occ_meta i (Fun p tys l)) by (eapply IHl; eauto).
      inversion O; subst. econstructor; simpl; eauto.
    + econstructor; [left; reflexivity|]. eapply Hx; eauto.
  - destruct (m_index m =? i) eqn:E; [|discriminate]. constructor. apply Z.eqb_eq; auto.
Qed.

Lemma replace_sub_linear m u t : (forall m', u = Meta m' -> m_index m' <> m_index m) ->
  (mcount (m_index m) t <= 1)%nat -> replace_sub (Meta m) u t = msubst (m_index m) u t.
Proof.
  intros U. induction t as [x|p tys l IH|x n|m'] using term_ind'; auto.
  intros C. rewrite replace_sub_fun. simpl. f_equal. simpl in C.
  induction IH as [|x l Hx F IHl]; simpl in *; auto.
  destruct (occ_dec (m_index m) x) as [O|O].
  - assert (C1 : (mcount (m_index m) x <> 0)%nat) by (intros E; apply mcount_occ in E; auto).
    rewrite Hx by lia.
    assert (N : term_eqb x (msubst (m_index m) u x) = false).
    { apply not_true_is_false. rewrite term_eqb_reflect. apply msubst_changes; auto. }
    rewrite N; simpl. f_equal. rewrite first_repl_true.
    assert (Z0 : list_sum (map (mcount (m_index m)) l) = 0%nat) by lia.
    clear - Z0. induction l as [|y l IHl]; simpl in *; auto. rewrite msubst_noocc by lia.
    f_equal. apply IHl; lia.
  - apply mcount_occ in O. rewrite replace_sub_noocc, msubst_noocc, term_eqb_refl by auto. simpl.
    f_equal. apply IHl; lia.
Qed.

Theorem replace_meta_linear m u f : (forall m', u = Meta m' -> m_index m' <> m_index m) ->
  all_atom_args (fun t => mcount (m_index m) t <= 1)%nat f ->
  replace_meta m u f = fmsubst (m_index m) u f.
Proof.
  intros U. induction f using form_ind'; intros A; inversion A; subst; simpl; f_equal; auto.
  - apply map_ext_in. intros g I. rewrite Forall_forall in *. auto.
  - apply map_ext_in. intros g I. rewrite Forall_forall in *. auto.
  - apply map_ext_in. intros g I. rewrite Forall_forall in *. apply replace_sub_linear; auto.
Qed.

(** The textbook replacement is characterised semantically and by occurrences. *)
Lemma set_mv_evty {I} (v : val I) i d t : evty (set_mv v i d) t = evty v t.
Proof.
  induction t using ty_ind'; simpl; auto; try (f_equal; auto);
    apply map_ext_in; rewrite Forall_forall in *; auto.
Qed.
Lemma msubst_ev {I} (v : val I) i u t : ev v (msubst i u t) = ev (set_mv v i (ev v u)) t.
Proof.
  induction t as [x|p tys l IH|x n|m] using term_ind'; simpl; auto.
  - f_equal.
    + apply map_ext. intros; symmetry; apply set_mv_evty.
    + rewrite map_map. apply map_ext_in. rewrite Forall_forall in IH; auto.
  - unfold upd. destruct (m_index m =? i); auto.
Qed.
Lemma msubst_occ i u t : ~ occ_meta i u -> ~ occ_meta i (msubst i u t).
Proof.
  intros U. induction t as [x|p tys l IH|x n|m] using term_ind'; simpl; intros O.
  - inversion O.
  - inversion O as [|? ? ? z Iz Oz]; subst. apply in_map_iff in Iz as (y & <- & Iy).
    rewrite Forall_forall in IH. eapply IH; eauto.
  - inversion O.
  - destruct (m_index m =? i) eqn:E; auto. inversion O; subst. rewrite Z.eqb_refl in E; discriminate.
Qed.

(** C15 *)
Lemma apply_subst_on_term_msubst m u t : apply_subst_on_term m u t = msubst (m_index m) u t.
Proof.
  induction t as [x|p tys l IH|x n|m'] using term_ind'; simpl; auto.
  f_equal. apply map_ext_in. rewrite Forall_forall in IH; auto.
Qed.

Theorem apply_subst_on_term_ok m u t :
  apply_subst_on_term m u t = msubst (m_index m) u t /\
  (forall I (v : val I), ev v (apply_subst_on_term m u t) = ev (set_mv v (m_index m) (ev v u)) t) /\
  (~ occ_meta (m_index m) u -> ~ occ_meta (m_index m) (apply_subst_on_term m u t)) /\
  (~ occ_meta (m_index m) t -> apply_subst_on_term m u t = t).
Proof.
  rewrite apply_subst_on_term_msubst. repeat split.
  - intros; apply msubst_ev.
  - apply msubst_occ.
  - intros H. apply msubst_noocc, mcount_occ; auto.
Qed.

(** Bindings applied one after the other are the simultaneous substitution, provided no bound
    metavariable occurs in a bound term. *)
Lemma ssubst_nil t : ssubst [] t = t.
Proof.
  induction t as [x|p tys l IH|x n|m'] using term_ind'; simpl; auto.
  f_equal. rewrite <- (map_id l) at 2. apply map_ext_in. rewrite Forall_forall in IH; auto.
Qed.
Lemma assoc_none_noocc s t : (forall m u, In (m, u) s -> ~ occ_meta (m_index m) t) -> ssubst s t = t.
Proof.
  induction t as [x|p tys l IH|x n|m'] using term_ind'; simpl; auto; intros H.
  - f_equal. rewrite <- (map_id l) at 2. apply map_ext_in. intros a Ia. rewrite Forall_forall in IH.
    apply IH; auto. intros m u Im O. eapply H; eauto. econstructor; eauto.
  - assert (E : assoc (m_index m') s = None).
    { induction s as [|(m, u) s IHs]; simpl; auto. destruct (m_index m =? m_index m') eqn:E.
      - exfalso. eapply H; [left; reflexivity|]. constructor. apply Z.eqb_eq in E; auto.
      - apply IHs. intros; eapply H; right; eauto. }
    rewrite E; auto.
Qed.
Lemma ssubst_cons m u s t : (forall m' u', In (m', u') s -> ~ occ_meta (m_index m') u) ->
  ssubst ((m, u) :: s) t = ssubst s (msubst (m_index m) u t).
Proof.
  intros H. induction t as [x|p tys l IH|x n|m'] using term_ind'; simpl; auto.
  - f_equal. rewrite map_map. apply map_ext_in. rewrite Forall_forall in IH; auto.
  - rewrite (Z.eqb_sym (m_index m)). destruct (m_index m' =? m_index m) eqn:E; simpl; auto.
    symmetry. apply assoc_none_noocc; auto.
Qed.

Theorem apply_all_simultaneous s t :
  (forall m u m' u', In (m, u) s -> In (m', u') s -> ~ occ_meta (m_index m') u) ->
  fold_left (fun t b => apply_subst_on_term (fst b) (snd b) t) s t = ssubst s t.
Proof.
  revert t. induction s as [|(m, u) s IH]; intros t H; cbn [fold_left fst snd].
  - symmetry; apply ssubst_nil.
  - rewrite IH.
    + rewrite apply_subst_on_term_msubst. symmetry. apply ssubst_cons. intros; eapply H; simpl; eauto.
    + intros; eapply H; simpl; eauto.
Qed.

(** Witnesses *)
Definition mX : meta := mkMeta 5 0 "X" 0 (TyConstr "$i" []).
Definition cA : term := Fun (mkId 2 "a") [] [].
Definition fXX : term := Fun (mkId 3 "f") [] [Meta mX; Meta mX].
Definition pXX : form := Pred 0 (mkId 4 "p") [] [fXX].

Lemma replace_meta_misses :
  occ_meta (m_index mX) (replace_sub (Meta mX) cA fXX) /\
  focc_meta (m_index mX) (replace_meta mX cA pXX) /\ ~ occ_meta (m_index mX) cA.
Proof.
  cbn. repeat split.
  - econstructor; [right; left; reflexivity|]. constructor; auto.
  - econstructor; [left; reflexivity|]. econstructor; [right; left; reflexivity|]. constructor; auto.
  - intros H; inversion H; contradiction.
Qed.

Lemma apply_substs_misses :
  apply_substs_on_term [MTerm mX cA] fXX <> ssubst [(mX, cA)] fXX /\
  occ_meta (m_index mX) (apply_substs_on_term [MTerm mX cA] fXX).
Proof.
  split; [cbn; discriminate|]. cbn. econstructor; [right; left; reflexivity|]. constructor; auto.
Qed.

Lemma linear_witness : all_atom_args (fun t => mcount (m_index mX) t <= 1)%nat
  (Pred 0 (mkId 4 "p") [] [Fun (mkId 3 "f") [] [Meta mX; cA]; Meta mX]) /\
  replace_meta mX cA (Pred 0 (mkId 4 "p") [] [Fun (mkId 3 "f") [] [Meta mX; cA]; Meta mX])
  = Pred 0 (mkId 4 "p") [] [Fun (mkId 3 "f") [] [cA; cA]; cA].
Proof. split; [|reflexivity]. constructor. repeat constructor; cbn; lia. Qed.
