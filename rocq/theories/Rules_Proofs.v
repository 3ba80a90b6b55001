(** Proofs about rule families, alpha and beta rules, queues, reintroduction, statuses and the choice
    of a substitution (C18-C21, C25, C26, C29). *)
From Coq Require Import ZArith List Bool String Lia Classical Permutation.
From Verif Require Import Ast_Model Problem_Model Rules_Model Result_Model Sem_Spec Rules_Spec Ast_Proofs Sem_Proofs.
Import ListNotations.
Open Scope Z_scope.

(** *** C19 *)
Lemma kind_families f :
  (kind_of_rule f = KAtomic <-> literal f) /\ (kind_of_rule f = KAlpha <-> conjunctive f) /\
  (kind_of_rule f = KBeta <-> disjunctive f) /\ (kind_of_rule f = KDelta <-> existential f) /\
  (kind_of_rule f = KGamma <-> universal f).
Proof.
  destruct f; try (match goal with g : form |- context [Not _ ?g] => destruct g end); cbn;
  repeat split; intros H; try discriminate; try reflexivity; try (repeat constructor; fail);
  try (inversion H; try discriminate; match goal with A : atomic _ |- _ => inversion A end).
Qed.

(** *** equality of formulas preserves meaning *)
Lemma is_ttype_same a b : ty_eqb a b = true -> is_ttype a = is_ttype b.
Proof.
  intros E. apply bool_iff. unfold is_ttype. rewrite !ty_eqb_reflect. apply ty_eqb_reflect in E.
  split; intros H; eapply same_ty_trans; eauto. apply same_ty_sym; auto.
Qed.
Lemma vars_same {I} (k k' : val I -> Prop) vs : forall ws, list_eqb tvar_eqb vs ws = true ->
  (forall v, k v <-> k' v) -> forall v,
  (forall_vars vs k v <-> forall_vars ws k' v) /\ (exists_vars vs k v <-> exists_vars ws k' v).
Proof.
  induction vs as [|x r IH]; intros [|y s] E K v; simpl in E; try discriminate.
  - simpl. split; apply K.
  - apply andb_prop in E as [E1 E2]. unfold tvar_eqb in E1.
    apply andb_prop in E1 as [E1 E3]. apply andb_prop in E1 as [E0 E1].
    apply String.eqb_eq in E0. apply Z.eqb_eq in E1. apply is_ttype_same in E3.
    simpl. rewrite E0, E1, E3. destruct (is_ttype (tv_ty y)).
    + split; [split; intros H t; apply (IH s E2 K); apply H|].
      split; intros [t H]; exists t; apply (IH s E2 K); apply H.
    + split; [split; intros H t; apply (IH s E2 K); apply H|].
      split; intros [t H]; exists t; apply (IH s E2 K); apply H.
Qed.
Lemma forms_same {I} (v : val I) l : Forall (fun a => forall b, form_eqb a b = true -> holds a v <-> holds b v) l ->
  forall l', list_eqb form_eqb l l' = true ->
  (fold_right (fun g P => holds g v \/ P) False l <-> fold_right (fun g P => holds g v \/ P) False l') /\
  (fold_right (fun g P => holds g v /\ P) True l <-> fold_right (fun g P => holds g v /\ P) True l').
Proof.
  induction 1 as [|a l Ha Hl IH]; intros [|b l'] E; simpl in E; try discriminate; [simpl; tauto|].
  apply andb_prop in E as [E1 E2]. specialize (Ha b E1). destruct (IH l' E2). simpl. tauto.
Qed.
Lemma form_eqb_equiv a : forall b, form_eqb a b = true -> forall I (v : val I), holds a v <-> holds b v.
Proof.
  induction a using form_ind'; intros [ | | | | | | | | | ] E I v; simpl in E; try discriminate;
  try (apply andb_prop in E as [E1 E2]).
  - cbn. apply (vars_same (holds a) (holds f) vs vars E1). intros w; apply IHa; auto.
  - cbn. apply (vars_same (holds a) (holds f) vs vars E1). intros w; apply IHa; auto.
  - cbn. apply (forms_same v fs); auto. eapply Forall_impl; [|eassumption]. cbn. auto.
  - cbn. apply (forms_same v fs); auto. eapply Forall_impl; [|eassumption]. cbn. auto.
  - cbn. rewrite (IHa1 _ E1 I v), (IHa2 _ E2 I v). tauto.
  - cbn. rewrite (IHa1 _ E1 I v), (IHa2 _ E2 I v). tauto.
  - cbn. rewrite (IHa _ E I v). tauto.
  - cbn. apply andb_prop in E1 as [E1 E3]. apply Z.eqb_eq in E1. apply tys_eqb_reflect in E3.
    apply (list_eqb_reflect term_eqb same_term) in E2; [|apply Forall_forall; intros; apply term_eqb_reflect].
    rewrite E1, (same_tys_ev v _ _ E3).
    rewrite (map_Forall2 same_term (ev v) args (proj2 (Forall_forall _ _) (fun t _ => same_term_ev v t)) _ E2). tauto.
  - tauto.
  - tauto.
Qed.

Section Same.
Variable same : list term -> list term -> bool.
Notation fl_append := (fl_append same).
Lemma fat_eqb_equiv a b : fat_eqb same a b = true -> forall I (v : val I), holds (ft_form a) v <-> holds (ft_form b) v.
Proof. unfold fat_eqb. intros E. apply andb_prop in E as [E _]. apply form_eqb_equiv; auto. Qed.
Lemma fl_append_hold {I} (v : val I) l x : all_hold (fl_append l x) v <-> all_hold l v /\ holds (ft_form x) v.
Proof.
  unfold Rules_Model.fl_append, fl_contains. destruct (existsb _ l) eqn:E.
  - apply existsb_exists in E as (y & Hy & E). split; [|tauto]. intros H; split; auto.
    apply (fat_eqb_equiv _ _ E). apply H; auto.
  - unfold all_hold. split.
    + intros H. split; [intros y Hy; apply H, in_or_app; auto|]. apply H, in_or_app; simpl; auto.
    + intros [H1 H2] y Hy. apply in_app_or in Hy as [Hy|[<-|[]]]; auto.
Qed.
Lemma all_hold_nil {I} (v : val I) : all_hold [] v.
Proof. intros x []. Qed.

(** *** C20 *)
Lemma alpha_not_or_ok {I} (v : val I) fs terms : forall res g,
  all_hold (fst (alpha_not_or same fs terms res g)) v <->
  all_hold res v /\ ~ fold_right (fun g P => holds g v \/ P) False fs.
Proof.
  induction fs as [|f r IH]; intros res g; simpl; [tauto|].
  rewrite IH. rewrite fl_append_hold. cbn. tauto.
Qed.
Lemma fold_append_ok {I} (v : val I) terms fs : forall res,
  all_hold (fold_left (fun res f => fl_append res (mkFat f terms)) fs res) v <->
  all_hold res v /\ fold_right (fun g P => holds g v /\ P) True fs.
Proof.
  induction fs as [|f r IH]; intros res; simpl; [tauto|]. rewrite IH, fl_append_hold. cbn. tauto.
Qed.
Lemma alpha_ok x g I (v : val I) : conjunctive (ft_form x) ->
  (holds (ft_form x) v <-> all_hold (fst (apply_alpha same x g)) v).
Proof.
  destruct x as [f terms]. cbn. intros H. inversion H; subst; cbn.
  - rewrite fold_append_ok. split; [intros; split; auto; apply all_hold_nil|tauto].
  - rewrite alpha_not_or_ok. split; [intros; split; auto; apply all_hold_nil|tauto].
  - assert (X : all_hold [mkFat a terms] v <-> holds a v)
      by (unfold all_hold; simpl; split; [intros N; apply (N (mkFat a terms)); auto|intros N x [<-|[]]; auto]).
    match goal with |- _ <-> all_hold ?l v =>
      change (~ (holds a v -> holds b v) <-> all_hold (fl_append [mkFat a terms] (mkFat (Not (cpt_formula g) b) terms)) v) end.
    rewrite fl_append_hold, X. cbn. split; [|tauto].
    intros N. destruct (classic (holds a v)); tauto.
  - unfold all_hold; simpl. split.
    + intros N x [<-|[]]. cbn. apply NNPP; auto.
    + intros N M. apply M. apply (N (mkFat f0 terms)); auto.
Qed.

(** *** C21 *)
Lemma beta_not_and_ok {I} (v : val I) fs terms : forall g,
  (exists b, In b (fst (beta_not_and fs terms g)) /\ all_hold b v) <->
  ~ fold_right (fun g P => holds g v /\ P) True fs.
Proof.
  induction fs as [|f r IH]; intros g; simpl.
  - split; [intros (b & [] & _)|tauto].
  - specialize (IH (snd (maker_not f g))). cbn in IH.
    destruct (beta_not_and r terms _) as [l g2]. cbn in *. split.
    + intros (b & [<-|Hb] & H).
      * specialize (H _ (or_introl eq_refl)). cbn in H. tauto.
      * intros [_ H']. revert H'. apply IH. eauto.
    + intros N. destruct (classic (holds f v)) as [Hf|Hf].
      * assert (N' : ~ fold_right (fun g P => holds g v /\ P) True r) by tauto.
        apply IH in N' as (b & Hb & H). eauto.
      * eexists. split; [left; reflexivity|]. intros y [<-|[]]. cbn. auto.
Qed.
Lemma beta_ok x g I (v : val I) : disjunctive (ft_form x) ->
  (holds (ft_form x) v <-> exists b, In b (fst (apply_beta x g)) /\ all_hold b v).
Proof.
  destruct x as [f terms]. cbn. intros H. inversion H; subst; cbn.
  - rewrite fold_or_exists. split.
    + intros (y & Hy & H1). exists [mkFat y terms]. split; [apply in_map_iff; eauto|].
      intros z [<-|[]]; auto.
    + intros (b & Hb & H1). apply in_map_iff in Hb as (y & <- & Hy). exists y. split; auto.
      apply (H1 _ (or_introl eq_refl)).
  - rewrite beta_not_and_ok. tauto.
  - split.
    + intros H1. destruct (classic (holds a v)).
      * eexists. split; [right; left; reflexivity|]. intros z [<-|[]]; cbn; auto.
      * eexists. split; [left; reflexivity|]. intros z [<-|[]]; cbn; auto.
    + intros (c & [<-|[<-|[]]] & H1); specialize (H1 _ (or_introl eq_refl)); cbn in H1; tauto.
  - split.
    + intros H1. destruct (classic (holds a v)).
      * eexists. split; [right; left; reflexivity|]. intros z [<-|[<-|[]]]; cbn; tauto.
      * eexists. split; [left; reflexivity|]. intros z [<-|[<-|[]]]; cbn; tauto.
    + intros (c & [<-|[<-|[]]] & H1); pose proof (H1 _ (or_introl eq_refl)) as A;
      pose proof (H1 _ (or_intror (or_introl eq_refl))) as B; cbn in A, B; tauto.
  - split.
    + intros H1. destruct (classic (holds a v)).
      * eexists. split; [right; left; reflexivity|]. intros z [<-|[<-|[]]]; cbn; tauto.
      * eexists. split; [left; reflexivity|]. intros z [<-|[<-|[]]]; cbn; tauto.
    + intros (c & [<-|[<-|[]]] & H1); pose proof (H1 _ (or_introl eq_refl)) as A;
      pose proof (H1 _ (or_intror (or_introl eq_refl))) as B; cbn in A, B; tauto.
Qed.

(** *** C25 *)
Lemma fl_append_in l x y : In y (fl_append l x) <-> In y l \/ (y = x /\ fl_contains same l x = false).
Proof.
  unfold Rules_Model.fl_append. destruct (fl_contains same l x).
  - split; auto. intros [H|[_ H]]; auto; discriminate.
  - rewrite in_app_iff. simpl. intuition.
Qed.
Definition queue_of (f : form) (q : queues) : list fat :=
  match kind_of_rule f with
  | KAtomic => q_atomic q | KAlpha => q_alpha q | KBeta => q_beta q | KDelta => q_delta q | KGamma => q_gamma q
  end.
Lemma dispatch_in x q y :
  in_queues y (dispatch same x q) <->
  in_queues y q \/ (y = x /\ fl_contains same (queue_of (ft_form x) q) x = false).
Proof.
  unfold dispatch, queue_of, in_queues. destruct (kind_of_rule (ft_form x)); cbn; rewrite fl_append_in; tauto.
Qed.
Lemma dispatch_sorted x q : sorted_queues q -> sorted_queues (dispatch same x q).
Proof.
  intros (A & B & C & D & E). destruct (kind_families (ft_form x)) as (F1 & F2 & F3 & F4 & F5).
  unfold dispatch. destruct (kind_of_rule (ft_form x)) eqn:K;
  (split; [|split; [|split; [|split]]]); cbn; intros y Hy; auto;
  apply fl_append_in in Hy as [Hy|[-> _]]; auto; tauto.
Qed.
Lemma dispatch_all_sorted l : forall q, sorted_queues q -> sorted_queues (fold_left (fun q x => dispatch same x q) l q).
Proof. induction l; simpl; intros; auto. apply IHl, dispatch_sorted; auto. Qed.
(** the same formula with the same terms, up to [same] *)
Hypothesis same_refl : forall l, same l l = true.
Lemma form_eqb_refl f : form_eqb f f = true.
Proof.
  assert (TV : forall vs, list_eqb tvar_eqb vs vs = true).
  { induction vs as [|x r IH]; simpl; auto. rewrite IH. unfold tvar_eqb.
    rewrite String.eqb_refl, Z.eqb_refl. simpl. rewrite andb_true_r. apply ty_eqb_reflect, same_ty_refl. }
  induction f using form_ind'; cbn; rewrite ?TV, ?IHf, ?IHf1, ?IHf2; auto.
  - induction H as [|a l Ha Hl IHl]; cbn; auto. rewrite Ha; auto.
  - induction H as [|a l Ha Hl IHl]; cbn; auto. rewrite Ha; auto.
  - unfold id_eqb. rewrite Z.eqb_refl. simpl. apply andb_true_intro; split.
    + apply tys_eqb_reflect. apply Forall2_refl, Forall_forall. intros; apply same_ty_refl.
    + apply (list_eqb_reflect term_eqb same_term);
      [apply Forall_forall; intros; apply term_eqb_reflect|].
      apply Forall2_refl, Forall_forall. intros; apply same_term_refl.
Qed.
Lemma fat_eqb_refl x : fat_eqb same x x = true.
Proof. unfold fat_eqb. rewrite form_eqb_refl, same_refl. auto. Qed.
Lemma fl_contains_in l x : In x l -> fl_contains same l x = true.
Proof. intros H. apply existsb_exists. exists x. split; auto. apply fat_eqb_refl. Qed.
Lemma fl_contains_append l x y : fl_contains same l y = true -> fl_contains same (fl_append l x) y = true.
Proof.
  unfold fl_contains. rewrite !existsb_exists. intros (z & Hz & E). exists z. split; auto.
  apply fl_append_in; auto.
Qed.
Lemma fl_contains_self l x : fl_contains same (fl_append l x) x = true.
Proof.
  destruct (fl_contains same l x) eqn:E; [apply fl_contains_append; auto|].
  apply fl_contains_in, fl_append_in. auto.
Qed.
Lemma dispatch_contains x q : fl_contains same (queue_of (ft_form x) (dispatch same x q)) x = true.
Proof.
  unfold dispatch, queue_of. destruct (kind_of_rule (ft_form x)) eqn:K; rewrite ?K; cbn; apply fl_contains_self.
Qed.
Lemma dispatch_keeps f x q y : fl_contains same (queue_of f q) y = true ->
  fl_contains same (queue_of f (dispatch same x q)) y = true.
Proof.
  unfold dispatch, queue_of. destruct (kind_of_rule (ft_form x)), (kind_of_rule f); cbn; auto;
  apply fl_contains_append.
Qed.
Lemma dispatch_all_contains l : forall q x, In x l ->
  fl_contains same (queue_of (ft_form x) (fold_left (fun q x => dispatch same x q) l q)) x = true.
Proof.
  assert (K : forall l f q y, fl_contains same (queue_of f q) y = true ->
    fl_contains same (queue_of f (fold_left (fun q x => dispatch same x q) l q)) y = true).
  { induction l0; simpl; intros; auto. apply IHl0, dispatch_keeps; auto. }
  induction l as [|a r IH]; intros q x; simpl; [tauto|]. intros [<-|H]; auto.
  apply K, dispatch_contains.
Qed.
Lemma dispatch_all_in l : forall q x, in_queues x (fold_left (fun q x => dispatch same x q) l q) ->
  in_queues x q \/ In x l.
Proof.
  induction l as [|a r IH]; intros q x; simpl; auto. intros H. apply IH in H as [H|H]; auto.
  apply dispatch_in in H as [H|[-> _]]; auto.
Qed.
(** GetAllForms *)
Lemma fl_merge_in l2 : forall l1 x, In x (fl_merge same l1 l2) -> In x l1 \/ In x l2.
Proof.
  unfold fl_merge. induction l2 as [|a r IH]; intros l1 x; simpl; auto. intros H. apply IH in H as [H|H]; auto.
  apply fl_append_in in H as [H|[-> _]]; auto.
Qed.
Lemma fl_merge_contains l2 : forall l1 x, fl_contains same l1 x = true \/ In x l2 ->
  fl_contains same (fl_merge same l1 l2) x = true.
Proof.
  unfold fl_merge. induction l2 as [|a r IH]; intros l1 x; simpl; [intuition|].
  intros [H|[<-|H]]; apply IH; auto.
  - left. apply fl_contains_append; auto.
  - left. apply fl_contains_self.
Qed.
Lemma all_forms_ok q :
  (forall x, In x (all_forms same q) -> in_queues x q) /\
  (forall x, in_queues x q -> fl_contains same (all_forms same q) x = true).
Proof.
  unfold all_forms, in_queues. split.
  - intros x H. repeat (apply fl_merge_in in H as [H|H]; [|tauto]). destruct H.
  - intros x H.
    repeat match goal with
    | H : _ \/ _ |- _ => destruct H as [H|H]
    end; repeat (apply fl_merge_contains; first [right; assumption | left]).
Qed.
End Same.

(** *** C26 *)
Lemma choose_loop_ok l : forall i s c, Forall (fun x => 0 <= x) l -> (c = -1 \/ 0 <= c) ->
  (c = -1 -> l <> []) ->
  exists k x, (choose_loop l i s c = k) /\
    ((k = s /\ x = c /\ c <> -1) \/ ((i <= k)%nat /\ nth_error l (k - i) = Some x)) /\
    Forall (fun y => x <= y) l /\ (c <> -1 -> x <= c).
Proof.
  induction l as [|a r IH]; intros i s c N C E.
  - exists s, c. simpl. split; auto. destruct C as [->|C]; [exfalso; apply E; auto|].
    split; [left; repeat split; auto; lia|]. split; [constructor|lia].
  - inversion N as [|? ? Ha Hr]; subst. simpl. destruct ((a <? c) || (c =? -1)) eqn:L.
    + destruct (IH (S i) i a) as (k & x & H1 & H3 & H4 & H5); auto; [lia|].
      exists k, x. split; auto. split; [|split].
      * destruct H3 as [(-> & -> & _)|[H3 H6]].
        { right. split; auto. rewrite Nat.sub_diag. auto. }
        right. split; [lia|]. replace (k - i)%nat with (S (k - S i))%nat by lia. auto.
      * constructor; auto. apply H5. lia.
      * intros H6. apply orb_prop in L as [L|L]; [|apply Z.eqb_eq in L; lia]. apply Z.ltb_lt in L. 
        assert (x <= a) by (apply H5; lia). lia.
    + apply orb_false_elim in L as [L1 L2]. apply Z.ltb_ge in L1. apply Z.eqb_neq in L2.
      destruct (IH (S i) s c) as (k & x & H1 & H3 & H4 & H5); auto; try (intros; lia).
      exists k, x. split; auto. split; [|split]; auto.
      * destruct H3 as [H3|[H3 H6]]; auto.
        right. split; [lia|]. replace (k - i)%nat with (S (k - S i))%nat by lia. auto.
      * constructor; auto. specialize (H5 L2). lia.
Qed.
Lemma choose_less_ok l : l <> [] -> Forall (fun x => 0 <= x) l ->
  exists c, nth_error l (choose_less l) = Some c /\ forall y, In y l -> c <= y.
Proof.
  intros E N. destruct (choose_loop_ok l 0 0 (-1) N (or_introl eq_refl) (fun _ => E)) as (k & x & H1 & H2 & H3 & _).
  unfold choose_less. rewrite H1. exists x. destruct H2 as [(_ & _ & H)|[_ H]]; [congruence|].
  rewrite Nat.sub_0_r in H. split; auto. apply Forall_forall; auto.
Qed.
Lemma reintro_least l lim : l <> [] -> Forall (fun x => 0 <= x) l ->
  exists i c, reintroduce l None lim = Some (incr_at l i, i) /\ nth_error l i = Some c /\
  (forall y, In y l -> c <= y).
Proof.
  intros E N. destruct (choose_less_ok l E N) as (c & H1 & H2). exists (choose_less l), c.
  unfold reintroduce. destruct l; [congruence|]. auto.
Qed.
Lemma incr_at_in l : forall i x c, nth_error l i = Some c -> In x (incr_at l i) -> x = c + 1 \/ In x l.
Proof.
  induction l as [|a r IH]; intros [|i] x c H1 H2; simpl in *; try discriminate.
  - inversion H1; subst. destruct H2; auto.
  - destruct H2 as [H2|H2]; auto. destruct (IH _ _ _ H1 H2); auto.
Qed.
Lemma incr_at_nth l : forall i j, nth_error (incr_at l i) j =
  if Nat.eqb i j then option_map (fun c => c + 1) (nth_error l j) else nth_error l j.
Proof.
  induction l as [|a r IH]; intros [|i] [|j]; simpl; auto. destruct (Nat.eqb i j); auto.
Qed.
Lemma incr_at_length l : forall i, List.length (incr_at l i) = List.length l.
Proof. induction l; intros [|i]; simpl; auto. Qed.
Lemma incr_nonneg l i : Forall (fun x => 0 <= x) l -> Forall (fun x => 0 <= x) (incr_at l i).
Proof.
  intros N. revert i. induction N; intros [|i]; simpl; constructor; auto. lia.
Qed.
Lemma reintro_inv l lim l1 i : Forall (fun x => 0 <= x) l -> reintroduce l None lim = Some (l1, i) ->
  exists c, l1 = incr_at l i /\ nth_error l i = Some c /\ (forall y, In y l -> c <= y).
Proof.
  intros N E. destruct l as [|a r]; [discriminate|].
  destruct (reintro_least (a :: r) lim) as (j & c & H1 & H2 & H3); auto; [congruence|].
  rewrite H1 in E. inversion E; subst. eauto.
Qed.
Lemma calls_total lim l n : l <> [] -> Forall (fun x => 0 <= x) l ->
  exists p l2, calls lim l p l2 /\ List.length p = n.
Proof.
  revert l. induction n as [|n IH]; intros l E N.
  - exists [], l. split; auto. constructor.
  - destruct (reintro_least l lim E N) as (i & c & H1 & _).
    destruct (IH (incr_at l i)) as (p & l2 & H2 & H3).
    + intros X. apply (f_equal (@List.length Z)) in X. rewrite incr_at_length in X. destruct l; auto. discriminate.
    + apply incr_nonneg; auto.
    + exists (i :: p), l2. split; [econstructor; eauto|simpl; auto].
Qed.
Lemma calls_within lim l p l2 : calls lim l p l2 -> Forall (fun x => 0 <= x) l -> within_one l -> within_one l2.
Proof.
  induction 1; auto. intros N W. apply reintro_inv in H as (c & -> & H1 & H2); auto.
  apply IHcalls; [apply incr_nonneg; auto|]. intros a b Ha Hb.
  assert (Hc : In c l) by (eapply nth_error_In; eauto).
  destruct (incr_at_in _ _ _ _ H1 Ha) as [->|Ha'], (incr_at_in _ _ _ _ H1 Hb) as [->|Hb']; try lia.
  - apply H2 in Hb'. lia.
  - specialize (W _ _ Ha' Hc). lia.
  - apply W; auto.
Qed.
Lemma gap_nonneg c l : 0 <= gap c l.
Proof. induction l; simpl; lia. Qed.
Lemma gap_pos c l j : nth_error l j = Some c -> 1 <= gap c l.
Proof.
  revert j. induction l as [|a r IH]; intros [|j] H; simpl in *; try discriminate.
  - inversion H; subst. pose proof (gap_nonneg c r). lia.
  - apply IH in H. lia.
Qed.
Lemma gap_incr c l : forall i x, nth_error l i = Some x -> x <= c -> gap c (incr_at l i) = gap c l - 1.
Proof.
  induction l as [|a r IH]; intros [|i] x H L; simpl in *; try discriminate.
  - inversion H; subst. lia.
  - rewrite (IH _ _ H L). lia.
Qed.
Lemma calls_fair lim l p l2 : calls lim l p l2 -> forall j c, Forall (fun x => 0 <= x) l -> nth_error l j = Some c ->
  gap c l <= Z.of_nat (List.length p) -> In j p.
Proof.
  induction 1; intros j c N H1 G.
  - apply gap_pos in H1. simpl in G. lia.
  - apply reintro_inv in H as (x & -> & H2 & H3); auto.
    destruct (Nat.eq_dec i j) as [->|Hij]; [left; auto|right].
    apply (IHcalls j c); [apply incr_nonneg; auto| |].
    + rewrite incr_at_nth. destruct (Nat.eqb_spec i j); auto. congruence.
    + rewrite (gap_incr _ _ _ _ H2); [simpl in G; lia|]. apply H3. eapply nth_error_In; eauto.
Qed.
(** late registration *)
Lemma late_registration :
  exists l p l', calls 5 [1] p l /\ l' = register l /\ ~ within_one l'.
Proof.
  exists [3], [0%nat; 0%nat], [3; 1]. split; [|split; auto].
  - econstructor; [vm_compute; reflexivity|]. econstructor; [vm_compute; reflexivity|]. constructor.
  - intros W. specialize (W 3 1). simpl in W. lia.
Qed.
(** when a formula is registered before each call, an older one is never selected again *)
Fixpoint starve (n : nat) (l : list Z) : option (list Z * list nat) :=
  match n with
  | O => Some (l, [])
  | S k => match reintroduce (register l) None 100 with
           | Some (l1, i) => match starve k l1 with Some (l2, p) => Some (l2, i :: p) | None => None end
           | None => None
           end
  end.
Lemma choose_loop_all2 n : forall i s, (0 < i)%nat ->
  choose_loop (repeat 2 n ++ [1]) i s 2 = (i + n)%nat.
Proof.
  induction n as [|n IH]; intros i s P; simpl; [lia|]. rewrite IH by lia. lia.
Qed.
Lemma incr_last l x : incr_at (l ++ [x]) (List.length l) = l ++ [x + 1].
Proof. induction l; simpl; auto. rewrite IHl; auto. Qed.
Lemma starved n : forall k, starve n (repeat 2 (S k)) = Some (repeat 2 (S k + n), map (fun i => (S k + i)%nat) (seq 0 n)).
Proof.
  induction n as [|n IH]; intros k; [cbn [starve seq map]; rewrite Nat.add_0_r; auto|].
  cbn [starve]. unfold register, reintroduce.
  assert (C : choose_less (repeat 2 (S k) ++ [1]) = S k).
  { unfold choose_less. change (choose_loop (repeat 2 k ++ [1]) 1 0 2 = S k). rewrite choose_loop_all2; lia. }
  rewrite C. cbn [repeat app]. 
  assert (X : incr_at (2 :: repeat 2 k ++ [1]) (S k) = repeat 2 (S (S k))).
  { change (2 :: repeat 2 k ++ [1]) with (repeat 2 (S k) ++ [1]).
    replace (S k) with (List.length (repeat 2 (S k))) at 2 by apply repeat_length.
    rewrite incr_last. change [1 + 1] with (repeat 2 1). rewrite <- repeat_app. f_equal. lia. }
  rewrite X, (IH (S k)). f_equal. f_equal; [f_equal; lia|].
  cbn [seq map]. f_equal; [lia|]. rewrite <- seq_shift, map_map. apply map_ext. intros; lia.
Qed.

(** *** C18 *)
Lemma search_loop_ok fuel proof conj onestep step bound : forall limit out res k,
  search_loop fuel proof conj onestep step bound limit = Some (out, res, k) ->
  out = (if res && proof then [print_result conj true] else []) /\ res = step k /\
  exists n, k = limit * 2 ^ Z.of_nat n /\ (forall m, (m < n)%nat -> step (limit * 2 ^ Z.of_nat m) = false) /\
  (n <> 0%nat -> onestep = false /\ 0 < bound) /\ (res = false -> onestep = true \/ bound <= 0).
Proof.
  induction fuel as [|fuel IH]; intros limit out res k; [discriminate|]. cbn [search_loop do_one_step].
  destruct (negb (step limit) && (0 <? bound) && negb onestep) eqn:E.
  - destruct (search_loop fuel _ _ _ _ _ (2 * limit)) as [[[out' r] k']|] eqn:L; [|discriminate].
    intros H; inversion H; subst. apply IH in L as (-> & -> & n & -> & H1 & H2 & H4).
    apply andb_prop in E as [E E3]. apply andb_prop in E as [E1 E2].
    apply negb_true_iff in E1, E3. apply Z.ltb_lt in E2. rewrite E1. simpl. split; auto. split; auto.
    exists (S n). replace (limit * 2 ^ Z.of_nat (S n)) with (2 * limit * 2 ^ Z.of_nat n)
      by (rewrite Nat2Z.inj_succ, Z.pow_succ_r; lia).
    split; auto. split; [|split; auto].
    intros [|m] Hm; [simpl; rewrite Z.mul_1_r; auto|].
    replace (limit * 2 ^ Z.of_nat (S m)) with (2 * limit * 2 ^ Z.of_nat m)
      by (rewrite Nat2Z.inj_succ, Z.pow_succ_r; lia). apply H1; lia.
  - intros H; inversion H; subst. split; [destruct (step k); auto; destruct proof; auto|]. split; auto.
    exists 0%nat. simpl. rewrite Z.mul_1_r. split; auto. split; [intros; lia|]. split; [lia|].
    intros S. rewrite S in E. simpl in E. destruct (0 <? bound) eqn:B; simpl in E.
    + left. destruct onestep; auto.
    + right. apply Z.ltb_ge in B. auto.
Qed.
Lemma search_ok fuel proof conj onestep step bound out res k :
  search fuel proof conj onestep step bound = Some (out, res, k) ->
  out = [print_result conj res] /\ res = step k /\
  exists n, k = bound * 2 ^ Z.of_nat n /\ (forall m, (m < n)%nat -> step (bound * 2 ^ Z.of_nat m) = false) /\
  (res = false -> onestep = true \/ bound <= 0).
Proof.
  unfold search. destruct (search_loop _ _ _ _ _ _ _) as [[[o r] k']|] eqn:E; [|discriminate].
  intros H; inversion H; subst. apply search_loop_ok in E as (-> & -> & n & -> & H1 & H2 & H3).
  split; [destruct (step _), proof; auto|]. split; auto. exists n. auto.
Qed.
Lemma status_table c r :
  (print_result c r = "Theorem"%string <-> r = true /\ c = true) /\
  (print_result c r = "Unsatisfiable"%string <-> r = true /\ c = false) /\
  (print_result c r = "CounterSatisfiable"%string <-> r = false /\ c = true) /\
  (print_result c r = "Satisfiable"%string <-> r = false /\ c = false).
Proof. destruct c, r; cbn; intuition discriminate. Qed.

(** *** C29 *)
Section Choose.
Context {A : Type}.
Variable mother : A -> bool.
Lemma pick_loop_ok l : forall i,
  match pick_loop mother l i with
  | Some k => (i <= k)%nat /\ (k - i < List.length l - 1)%nat /\ exists s, nth_error l (k - i) = Some s /\ mother s = false
  | None => forall j s, (j < List.length l - 1)%nat -> nth_error l j = Some s -> mother s = true
  end.
Proof.
  induction l as [|a r IH]; intros i; [simpl; intros; lia|].
  destruct r as [|b r]; [simpl; intros; lia|].
  assert (U : pick_loop mother (a :: b :: r) i = if mother a then pick_loop mother (b :: r) (S i) else Some i)
    by reflexivity. rewrite U. destruct (mother a) eqn:M.
  - specialize (IH (S i)). destruct (pick_loop mother (b :: r) (S i)) as [k|].
    + destruct IH as (H1 & H2 & s & H3 & H4). cbn [List.length] in *. split; [lia|]. split; [lia|]. exists s. split; auto.
      replace (k - i)%nat with (S (k - S i))%nat by lia. auto.
    + intros [|j] s H1 H2; cbn in H2; [congruence|]. apply (IH j s); auto. cbn [List.length] in *; lia.
  - rewrite Nat.sub_diag. split; auto. split; [cbn [List.length]; lia|]. exists a. auto.
Qed.
Lemma set_nth_remove (l : list A) : forall k s x, nth_error l k = Some s -> nth_error l (List.length l - 1) = Some x ->
  (1 < List.length l)%nat -> Permutation l (s :: removelast (set_nth l k x)).
Proof.
  intros k s x H1 H2 H3.
  destruct (@exists_last _ l) as (l0 & y & ->); [intros ->; simpl in H3; lia|].
  rewrite app_length in *. cbn [List.length] in *.
  replace (List.length l0 + 1 - 1)%nat with (List.length l0) in H2 by lia.
  rewrite nth_error_app2, Nat.sub_diag in H2 by lia. inversion H2; subst y. clear H2.
  assert (SN : forall (l0 : list A) k s, nth_error l0 k = Some s -> 
     exists l1 l2, l0 = l1 ++ s :: l2 /\ forall y, set_nth (l0 ++ [y]) k x = l1 ++ x :: l2 ++ [y]).
  { clear. induction l0 as [|a r IH]; intros [|k] s H; simpl in H; try discriminate.
    - inversion H; subst. exists [], r. split; auto.
    - destruct (IH _ _ H) as (l1 & l2 & -> & E). exists (a :: l1), l2. split; auto. intros y. cbn. rewrite E; auto. }
  destruct (Nat.lt_ge_cases k (List.length l0)) as [L|L].
  - rewrite nth_error_app1 in H1 by auto. destruct (SN _ _ _ H1) as (l1 & l2 & -> & E). rewrite E.
    replace (l1 ++ x :: l2 ++ [x]) with ((l1 ++ x :: l2) ++ [x]) by (rewrite <- app_assoc; auto).
    rewrite removelast_last. rewrite <- app_assoc. cbn.
    transitivity (s :: l1 ++ l2 ++ [x]); [symmetry; apply Permutation_middle|]. apply perm_skip.
    apply Permutation_app_head. rewrite Permutation_app_comm. auto.
  - rewrite nth_error_app2 in H1 by lia. destruct (k - List.length l0)%nat eqn:K; [|destruct n; discriminate].
    inversion H1; subst s. assert (k = List.length l0) by lia. subst k.
    assert (E : set_nth (l0 ++ [x]) (List.length l0) x = l0 ++ [x]).
    { clear. induction l0; simpl; auto. rewrite IHl0; auto. }
    rewrite E, removelast_last. rewrite Permutation_app_comm. auto.
Qed.
Lemma choose_subst_ok l r : l <> [] ->
  exists s rest, choose_subst mother l r = Some (s, rest) /\ Permutation l (s :: rest) /\
  ((exists j t, (j < List.length l - 1)%nat /\ nth_error l j = Some t /\ mother t = false) -> mother s = false).
Proof.
  intros E. unfold choose_subst. destruct l as [|a l0] eqn:El; [congruence|]. rewrite <- El in *.
  pose proof (pick_loop_ok l 0) as C.
  set (k := match pick_loop mother l 0 with Some i => i | None => Nat.modulo r (List.length l) end).
  assert (LEN : (0 < List.length l)%nat) by (subst l; simpl; lia).
  assert (K : (k < List.length l)%nat).
  { unfold k. destruct (pick_loop mother l 0); [lia|]. apply Nat.mod_upper_bound. lia. }
  destruct (nth_error l k) as [s|] eqn:N; [|apply nth_error_None in N; lia].
  assert (M : (exists j t, (j < List.length l - 1)%nat /\ nth_error l j = Some t /\ mother t = false) -> mother s = false).
  { intros (j & t & Hj & Ht & Hm). unfold k in N. destruct (pick_loop mother l 0) as [i|].
    - destruct C as (_ & _ & u & Hu & Hv). rewrite Nat.sub_0_r in Hu. congruence.
    - rewrite (C j t Hj Ht) in Hm. discriminate. }
  destruct (1 <? Z.of_nat (List.length l)) eqn:L.
  - apply Z.ltb_lt in L. destruct (nth_error l (List.length l - 1)) as [x|] eqn:X.
    + exists s, (removelast (set_nth l k x)). split; auto. split; auto. apply set_nth_remove; auto. lia.
    + apply nth_error_None in X. lia.
  - apply Z.ltb_ge in L. exists s, []. split; auto. split; auto.
    destruct l as [|b [|c l1]]; simpl in *; try lia; try congruence.
    inversion N; subst. auto.
Qed.
End Choose.
Lemma choose_last_missed :
  exists (mother : nat -> bool) l r s rest, choose_subst mother l r = Some (s, rest) /\
  existsb (fun x => negb (mother x)) l = true /\ mother s = true.
Proof.
  exists (Nat.eqb 0), [0; 1]%nat, 0%nat, 0%nat, [1%nat]. repeat split.
Qed.

(** *** statements of the properties *)
Lemma search_status fuel proof conj onestep step bound out res k :
  search fuel proof conj onestep step bound = Some (out, res, k) ->
  res = step k /\
  exists s, out = [s] /\
  (s = "Theorem"%string <-> step k = true /\ conj = true) /\
  (s = "Unsatisfiable"%string <-> step k = true /\ conj = false) /\
  (s = "CounterSatisfiable"%string <-> step k = false /\ conj = true) /\
  (s = "Satisfiable"%string <-> step k = false /\ conj = false).
Proof.
  intros H. apply search_ok in H as (-> & -> & _). split; auto. eexists; split; [reflexivity|]. apply status_table.
Qed.
Lemma search_deepening fuel proof conj onestep step bound out res k :
  search fuel proof conj onestep step bound = Some (out, res, k) ->
  exists n, k = bound * 2 ^ Z.of_nat n /\
  (forall m, (m < n)%nat -> step (bound * 2 ^ Z.of_nat m) = false) /\
  (res = false -> onestep = true \/ bound <= 0).
Proof. intros H. apply search_ok in H as (_ & _ & H). exact H. Qed.
Lemma dispatch_summary same l q : (forall l, same l l = true) -> sorted_queues q ->
  let q' := fold_left (fun q x => dispatch same x q) l q in
  sorted_queues q' /\
  (forall x, In x l -> fl_contains same (queue_of (ft_form x) q') x = true) /\
  (forall x, in_queues x q' -> in_queues x q \/ In x l) /\
  (forall x, In x (all_forms same q') -> in_queues x q') /\
  (forall x, in_queues x q' -> fl_contains same (all_forms same q') x = true).
Proof.
  intros R S q'. split; [apply dispatch_all_sorted; auto|]. split; [apply dispatch_all_contains; auto|].
  split; [apply dispatch_all_in|]. apply all_forms_ok; auto.
Qed.
Lemma calls_summary lim l : l <> [] -> Forall (fun x => 0 <= x) l ->
  (forall n, exists p l2, calls lim l p l2 /\ List.length p = n) /\
  (forall p l2, calls lim l p l2 ->
     (within_one l -> within_one l2) /\
     (forall j c, nth_error l j = Some c -> gap c l <= Z.of_nat (List.length p) -> In j p)).
Proof.
  intros E N. split; [intros n; apply calls_total; auto|]. intros p l2 H. split.
  - eapply calls_within; eauto.
  - intros j c H1 H2. eapply calls_fair; eauto.
Qed.
Lemma starvation n : exists l p, starve n [2] = Some (l, p) /\ List.length p = n /\ ~ In 0%nat p.
Proof.
  eexists; eexists. split; [apply (starved n 0)|]. split; [rewrite map_length, seq_length; auto|].
  intros H. apply in_map_iff in H as (i & H & _). lia.
Qed.
