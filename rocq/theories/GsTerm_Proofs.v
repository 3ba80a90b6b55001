(** The instantiation term is recovered from the formula and its instance (C51). *)
From Coq Require Import ZArith List Bool Lia.
From Verif Require Import Ast_Model Sem_Spec Occ_Spec Ast_Proofs Sem_Proofs Subst_Model Subst_Proofs Rules_Model Unif_Model GsTerm_Model GsTerm_Spec.
Import ListNotations.
Open Scope list_scope.
Open Scope Z_scope.

Lemma var_occs_fun v path p tys args : var_occs_term v path (Fun p tys args) = var_occs_terms v path 0 args.
Proof. cbn. generalize 0%nat. induction args as [|a r IH]; intros k; cbn; [reflexivity|]. rewrite IH. reflexivity. Qed.
Fixpoint var_occs_forms (v : Z) (path : list nat) (k : nat) (l : list form) : list (list nat) :=
  match l with
  | [] => []
  | a :: r => var_occs_form v (path ++ [k]) a ++ var_occs_forms v path (S k) r
  end.
Lemma var_occs_and v path i fs : var_occs_form v path (And i fs) = var_occs_forms v path 0 fs.
Proof. cbn. generalize 0%nat. induction fs as [|a r IH]; intros k; cbn; [reflexivity|]. rewrite IH. reflexivity. Qed.
Lemma var_occs_or v path i fs : var_occs_form v path (Or i fs) = var_occs_forms v path 0 fs.
Proof. cbn. generalize 0%nat. induction fs as [|a r IH]; intros k; cbn; [reflexivity|]. rewrite IH. reflexivity. Qed.

(** *** the occurrences lead to the term *)
Section Occ.
Variable i : Z.
Variable u : term.
Lemma occs_terms (l : list term) : Forall (fun t => forall path o, In o (var_occs_term i path t) -> exists q, o = path ++ q /\ get_term q (vinst i u t) = Some u) l ->
  forall path k o, In o (var_occs_terms i path k l) -> exists j q t, o = path ++ (k + j)%nat :: q /\ nth_error (map (vinst i u) l) j = Some t /\ get_term q t = Some u.
Proof.
  induction 1 as [|a l Ha Hl IH]; intros path k o H; cbn in H; [contradiction|]. apply in_app_or in H. destruct H as [H|H].
  - destruct (Ha _ _ H) as (q & -> & Hq). exists 0%nat, q, (vinst i u a). rewrite Nat.add_0_r, <- app_assoc. auto.
  - destruct (IH _ _ _ H) as (j & q & t & -> & Hj & Hq). exists (S j), q, t. rewrite Nat.add_succ_r. auto.
Qed.
Lemma occs_term t : forall path o, In o (var_occs_term i path t) -> exists q, o = path ++ q /\ get_term q (vinst i u t) = Some u.
Proof.
  induction t as [x|p tys l IH|x n|m] using term_ind'; intros path o H; try contradiction.
  - rewrite var_occs_fun in H. destruct (occs_terms l IH _ _ _ H) as (j & q & t & -> & Hj & Hq). exists (j :: q). cbn. rewrite Hj. auto.
  - cbn in H |- *. destruct (x =? i) eqn:E; [|contradiction]. destruct H as [<-|[]]. exists []. rewrite app_nil_r. auto.
Qed.
Lemma occs_forms (l : list form) : Forall (fun f => forall path o, In o (var_occs_form i path f) -> exists q, o = path ++ q /\ get_term_aux q (fvinst i u f) = Ok (Some u)) l ->
  forall path k o, In o (var_occs_forms i path k l) -> exists j q f, o = path ++ (k + j)%nat :: q /\ nth_error (map (fvinst i u) l) j = Some f /\ get_term_aux q f = Ok (Some u).
Proof.
  induction 1 as [|a l Ha Hl IH]; intros path k o H; cbn in H; [contradiction|]. apply in_app_or in H. destruct H as [H|H].
  - destruct (Ha _ _ H) as (q & -> & Hq). exists 0%nat, q, (fvinst i u a). rewrite Nat.add_0_r, <- app_assoc. auto.
  - destruct (IH _ _ _ H) as (j & q & t & -> & Hj & Hq). exists (S j), q, t. rewrite Nat.add_succ_r. auto.
Qed.
Lemma occs_form f : forall path o, In o (var_occs_form i path f) -> exists q, o = path ++ q /\ get_term_aux q (fvinst i u f) = Ok (Some u).
Proof.
  induction f using form_ind'; intros path o K; try contradiction.
  - cbn in K. destruct (IHf _ _ K) as (q & -> & Hq). exists (0%nat :: q). rewrite <- app_assoc. auto.
  - cbn in K. destruct (IHf _ _ K) as (q & -> & Hq). exists (0%nat :: q). rewrite <- app_assoc. auto.
  - rewrite var_occs_or in K. destruct (occs_forms _ H _ _ _ K) as (j & q & g & -> & Hj & Hq). exists (j :: q). cbn [fvinst get_term_aux]. rewrite Hj. auto.
  - rewrite var_occs_and in K. destruct (occs_forms _ H _ _ _ K) as (j & q & g & -> & Hj & Hq). exists (j :: q). cbn [fvinst get_term_aux]. rewrite Hj. auto.
  - cbn in K. apply in_app_or in K. destruct K as [K|K]; [destruct (IHf1 _ _ K) as (q & -> & Hq); exists (0%nat :: q)|destruct (IHf2 _ _ K) as (q & -> & Hq); exists (1%nat :: q)]; rewrite <- app_assoc; auto.
  - cbn in K. apply in_app_or in K. destruct K as [K|K]; [destruct (IHf1 _ _ K) as (q & -> & Hq); exists (0%nat :: q)|destruct (IHf2 _ _ K) as (q & -> & Hq); exists (1%nat :: q)]; rewrite <- app_assoc; auto.
  - cbn in K. destruct (IHf _ _ K) as (q & -> & Hq). exists (0%nat :: q). rewrite <- app_assoc. auto.
  - cbn [var_occs_form] in K. destruct (occs_terms args) with (path := path) (k := 0%nat) (o := o) as (j & q & t & -> & Hj & Hq); [apply Forall_forall; intros; apply occs_term; assumption|exact K|].
    exists (j :: q). cbn [fvinst get_term_aux]. cbn in Hj. rewrite Hj, Hq. auto.
Qed.
(** *** there is one when the variable occurs *)
Lemma occs_term_some t : forall path, In i (t_vars t) <-> var_occs_term i path t <> [].
Proof.
  induction t as [x|p tys l IH|x n|m] using term_ind'; intros path; try (cbn; tauto).
  - rewrite var_occs_fun. cbn [t_vars]. generalize 0%nat. induction IH as [|a l Ha Hl IHl]; intros k; cbn; [tauto|]. rewrite in_app_iff, (Ha (path ++ [k])), (IHl (S k)).
    destruct (var_occs_term i (path ++ [k]) a); cbn; [tauto|]. split; [discriminate|intros _; left; discriminate].
  - cbn. destruct (x =? i) eqn:E; [apply Z.eqb_eq in E|apply Z.eqb_neq in E].
    + split; [discriminate|auto].
    + split; [intros [->|[]]; contradiction|congruence].
Qed.
Lemma app_some {A} (P Q : Prop) (a b : list A) : (P <-> a <> []) -> (Q <-> b <> []) -> (P \/ Q <-> a ++ b <> []).
Proof. intros [H1 H2] [H3 H4]. destruct a; cbn; [tauto|]. split; [discriminate|]. intros _. left. apply H2. discriminate. Qed.
Lemma occs_form_some f : forall path, In i (f_vars f) <-> var_occs_form i path f <> [].
Proof.
  unfold f_vars. induction f using form_ind'; intros path; cbn [f_collect]; try (cbn; tauto); try (cbn [var_occs_form]; apply IHf).
  - rewrite var_occs_or. generalize 0%nat. induction H as [|a l Ha Hl IHl]; intros k; cbn; [tauto|]. rewrite in_app_iff. apply app_some; [apply Ha|apply IHl].
  - rewrite var_occs_and. generalize 0%nat. induction H as [|a l Ha Hl IHl]; intros k; cbn; [tauto|]. rewrite in_app_iff. apply app_some; [apply Ha|apply IHl].
  - cbn [var_occs_form]. rewrite in_app_iff. apply app_some; auto.
  - cbn [var_occs_form]. rewrite in_app_iff. apply app_some; auto.
  - cbn [var_occs_form]. generalize 0%nat. induction args as [|a l IH]; intros k; cbn; [tauto|]. rewrite in_app_iff. apply app_some; [apply occs_term_some|apply IH].
Qed.
Lemma get_at f l : (forall o, In o l -> get_term_aux o f = Ok (Some u)) -> forall acc, acc = None \/ acc = Some u ->
  get_term_at f acc l = Ok (match l with [] => acc | _ => Some u end).
Proof.
  induction l as [|o l IH]; intros H acc A; [reflexivity|]. cbn. rewrite (H o (or_introl eq_refl)). cbn [bind].
  assert (IH' : get_term_at f (Some u) l = Ok (Some u)) by (rewrite IH; [destruct l; reflexivity|intros o' Ho; apply H; right; exact Ho|auto]).
  destruct A as [-> | ->]; [exact IH'|]. rewrite (proj2 (term_eqb_reflect u u) (same_term_refl u)). exact IH'.
Qed.
Lemma result_term v f last : tv_index v = i -> (forall q, get_term_aux q last = get_term_aux q (fvinst i u f)) ->
  (In i (f_vars f) -> get_result_term v f last = Ok (Some u)) /\ (~ In i (f_vars f) -> get_result_term v f last = Ok None).
Proof.
  intros E L. unfold get_result_term. rewrite E, get_at; [|intros o Ho; destruct (occs_form f _ _ Ho) as (q & -> & Hq); rewrite L; exact Hq|auto].
  rewrite (occs_form_some f []). destruct (var_occs_form i [] f); split; intros H; try reflexivity; [congruence|destruct H; discriminate].
Qed.
End Occ.

Lemma f_vars_all i vs f : f_vars (All i vs f) = f_vars f. Proof. reflexivity. Qed.
Lemma f_vars_ex i vs f : f_vars (Ex i vs f) = f_vars f. Proof. reflexivity. Qed.
Lemma f_vars_not i f : f_vars (Not i f) = f_vars f. Proof. reflexivity. Qed.
Theorem gamma_recovered f v body u r : gamma_instance f v body u r ->
  (In (tv_index v) (f_vars body) -> gamma_term f r = Ok (Some u)) /\ (~ In (tv_index v) (f_vars body) -> gamma_term f r = Ok None).
Proof.
  intros [(i & -> & ->)|[(i & j & w & rest & -> & ->)|[(i & j & k & -> & ->)|(i & j & k & l & w & rest & -> & ->)]]]; unfold gamma_term; cbn [get_next_formula tl at0].
  - apply (result_term _ u v body _ eq_refl). reflexivity.
  - apply (result_term _ u v (All 0 (w :: rest) body) _ eq_refl). intros [|q1 q]; reflexivity.
  - apply (result_term _ u v (Not 0 body) _ eq_refl). intros [|q1 q]; reflexivity.
  - apply (result_term _ u v (Not 0 (Ex 0 (w :: rest) body)) _ eq_refl). intros [|[|q1] [|q2 q]]; reflexivity.
Qed.
Theorem delta_recovered f v body u r : delta_instance f v body u r ->
  (In (tv_index v) (f_vars body) -> delta_term f r = Ok (Some u)) /\ (~ In (tv_index v) (f_vars body) -> delta_term f r = Ok None).
Proof.
  intros [(i & -> & ->)|[(i & j & w & rest & -> & ->)|[(i & j & k & -> & ->)|(i & j & k & l & w & rest & -> & ->)]]]; unfold delta_term; cbn [get_next_formula tl at0].
  - apply (result_term _ u v body _ eq_refl). reflexivity.
  - apply (result_term _ u v (Ex 0 (w :: rest) body) _ eq_refl). intros [|q1 q]; reflexivity.
  - apply (result_term _ u v (Not 0 body) _ eq_refl). intros [|q1 q]; reflexivity.
  - apply (result_term _ u v (Not 0 (All 0 (w :: rest) body)) _ eq_refl). intros [|[|q1] [|q2 q]]; reflexivity.
Qed.

(** *** the rules make instances *)
Section Rep.
Variable i : Z.
Variable n : String.string.
Variable u : term.
Hypothesis Hu : forall m, u <> Var i m.
Lemma not_old : term_eqb (Var i n) u = false.
Proof. destruct u as [| |j m|]; try reflexivity. cbn. apply Z.eqb_neq. intros <-. exact (Hu m eq_refl). Qed.
Lemma rep_vinst t : ~ In i (t_funs t) -> forall t' b, replace_tt (Var i n) u t = Some (t', b) -> t' = vinst i u t.
Proof.
  induction t as [x|p tys l IH|x m|m] using term_ind'; intros N t' b E; [discriminate| | |].
  - rewrite replace_tt_fun in E. cbn [term_index] in E. cbn in N. destruct (i =? id_index p) eqn:Ei; [apply Z.eqb_eq in Ei; exfalso; apply N; auto|].
    destruct (replace_tt_list (Var i n) u l) as [[l' b']|] eqn:El; [|discriminate]. injection E as <- _. cbn. f_equal.
    assert (N' : ~ In i (flat_map t_funs l)) by tauto. clear - IH N' El. revert l' b' El. induction IH as [|a l Ha Hl IHl]; intros l' b' El; cbn in El; [injection El as <- _; reflexivity|].
    cbn in N'. rewrite in_app_iff in N'. destruct (replace_tt (Var i n) u a) as [[a' b1]|] eqn:Ea; [|discriminate].
    destruct (replace_tt_list (Var i n) u l) as [[r' b2]|]; [|discriminate]. injection El as <- _. cbn.
    rewrite (Ha ltac:(tauto) _ _ eq_refl), (IHl ltac:(tauto) _ _ eq_refl). reflexivity.
  - cbn in E |- *. rewrite Z.eqb_sym in E. destruct (x =? i); injection E as <- _; reflexivity.
  - cbn [replace_tt] in E. rewrite not_old in E. injection E as <- _. reflexivity.
Qed.
Lemma rep_vinsts l : ~ In i (flat_map t_funs l) -> forall l' b, replace_tt_list (Var i n) u l = Some (l', b) -> l' = map (vinst i u) l.
Proof.
  induction l as [|a l IH]; intros N l' b E; cbn in E; [injection E as <- _; reflexivity|]. cbn in N. rewrite in_app_iff in N.
  destruct (replace_tt (Var i n) u a) as [[a' b1]|] eqn:Ea; [|discriminate]. destruct (replace_tt_list (Var i n) u l) as [[r' b2]|]; [|discriminate].
  injection E as <- _. cbn. rewrite (rep_vinst a ltac:(tauto) _ _ Ea), (IH ltac:(tauto) _ _ eq_refl). reflexivity.
Qed.
Lemma rep_fvinst f : ~ In i (f_funs f) -> forall f' b, replace_term (Var i n) u f = Some (f', b) -> f' = fvinst i u f.
Proof.
  assert (L : forall fs, Forall (fun f => ~ In i (f_funs f) -> forall f' b, replace_term (Var i n) u f = Some (f', b) -> f' = fvinst i u f) fs ->
    ~ In i (flat_map f_funs fs) -> forall fs' b, (fix go (l : list form) : option (list form * bool) :=
      match l with
      | [] => Some ([], false)
      | a :: r =>
        match replace_term (Var i n) u a, go r with
        | Some (a', b), Some (r', b') => Some (a' :: r', b || b')
        | _, _ => None
        end
      end) fs = Some (fs', b) -> fs' = map (fvinst i u) fs).
  { induction 1 as [|a l Ha Hl IH]; intros N fs' b E.
    - injection E as <- _. reflexivity.
    - cbn in N. rewrite in_app_iff in N. destruct (replace_term (Var i n) u a) as [[a' b1]|] eqn:E1; [|discriminate].
      match type of E with match ?X with _ => _ end = _ => destruct X as [[l' b2]|] eqn:E2; [|discriminate] end.
      injection E as <- _. cbn. rewrite (Ha ltac:(tauto) _ _ eq_refl), (IH ltac:(tauto) _ _ eq_refl). reflexivity. }
  unfold f_funs in *. induction f using form_ind'; intros N f' b' E; cbn [replace_term] in E; cbn [f_collect] in N.
  - destruct (replace_term (Var i n) u f) as [[g c]|]; [|discriminate]. injection E as <- _. cbn. rewrite (IHf N _ _ eq_refl). reflexivity.
  - destruct (replace_term (Var i n) u f) as [[g c]|]; [|discriminate]. injection E as <- _. cbn. rewrite (IHf N _ _ eq_refl). reflexivity.
  - match type of E with match ?X with _ => _ end = _ => destruct X as [[l' b2]|] eqn:E2; [|discriminate] end. injection E as <- _. cbn. f_equal. apply (L _ H N _ _ E2).
  - match type of E with match ?X with _ => _ end = _ => destruct X as [[l' b2]|] eqn:E2; [|discriminate] end. injection E as <- _. cbn. f_equal. apply (L _ H N _ _ E2).
  - rewrite in_app_iff in N. destruct (replace_term (Var i n) u f1) as [[g c]|]; [|discriminate]. destruct (replace_term (Var i n) u f2) as [[g2 c2]|]; [|discriminate].
    injection E as <- _. cbn. rewrite (IHf1 ltac:(tauto) _ _ eq_refl), (IHf2 ltac:(tauto) _ _ eq_refl). reflexivity.
  - rewrite in_app_iff in N. destruct (replace_term (Var i n) u f1) as [[g c]|]; [|discriminate]. destruct (replace_term (Var i n) u f2) as [[g2 c2]|]; [|discriminate].
    injection E as <- _. cbn. rewrite (IHf1 ltac:(tauto) _ _ eq_refl), (IHf2 ltac:(tauto) _ _ eq_refl). reflexivity.
  - destruct (replace_term (Var i n) u f) as [[g c]|]; [|discriminate]. injection E as <- _. cbn. rewrite (IHf N _ _ eq_refl). reflexivity.
  - destruct (replace_tt_list (Var i n) u args) as [[l' b2]|] eqn:El; [|discriminate]. injection E as <- _. cbn. f_equal. apply (rep_vinsts _ N _ _ El).
  - injection E as <- _. reflexivity.
  - injection E as <- _. reflexivity.
Qed.
End Rep.
Theorem gamma_rule x index g y m g' v rest body : gamma_of (ft_form x) (v :: rest) body -> ~ In (tv_index v) (f_funs body) ->
  apply_gamma x index g = Some (y, Some m, g') -> gamma_instance (ft_form x) v body (Meta m) (ft_form y).
Proof.
  intros Hg N E. destruct x as [f terms]. cbn [ft_form] in *. unfold gamma_instance.
  destruct Hg as [(i & ->)|(i & j & ->)]; unfold apply_gamma, real_instantiate in E; cbn [ft_form ft_terms] in E.
  - destruct (is_ttype (tv_ty v)); [destruct (maker_tymeta _ _ _); destruct rest; cbn in E; discriminate|].
    destruct (maker_meta _ _ _ _) as [m0 g1]. unfold subst_var_meta in E.
    destruct (replace_term _ _ body) as [[sub b]|] eqn:Er; [|discriminate]. apply rep_fvinst in Er; [|discriminate|exact N]. subst sub.
    destruct rest as [|w rest]; cbn in E; injection E as <- <- _; cbn [ft_form]; [left|right; left]; eauto 10.
  - destruct (is_ttype (tv_ty v)); [destruct (maker_tymeta _ _ _); destruct rest; cbn in E; discriminate|].
    destruct (maker_meta _ _ _ _) as [m0 g1]. unfold subst_var_meta in E.
    destruct (replace_term _ _ body) as [[sub b]|] eqn:Er; [|discriminate]. apply rep_fvinst in Er; [|discriminate|exact N]. subst sub.
    destruct rest as [|w rest]; cbn in E; injection E as <- <- _; cbn [ft_form]; right; right; [left|right]; eauto 10.
Qed.
Theorem delta_rule s x mm mc g y s' g' v rest body : delta_of (ft_form x) (v :: rest) body -> ~ In (tv_index v) (f_funs body) ->
  is_ttype (tv_ty v) = false -> apply_delta s x mm mc g = Some (y, s', g') ->
  exists sym args, delta_instance (ft_form x) v body (Fun sym [] args) (ft_form y).
Proof.
  intros Hg N T E. unfold apply_delta in E. destruct (mset_union _ _) as [metas|]; [|discriminate].
  destruct x as [f terms]. cbn [ft_form] in *. unfold delta_instance.
  destruct Hg as [(i & ->)|(i & j & ->)]; cbn [skolemize] in E; unfold real_skolemize in E; rewrite T in E; unfold sko_skolemize in E;
    destruct (sko_symbol _ _ _ _) as [[sym s1] g1]; (destruct (sko_args _ _ _) as [args|]; [|discriminate]);
    (destruct (replace_term _ _ body) as [[sub b]|] eqn:Er; [|discriminate]); (apply rep_fvinst in Er; [|discriminate|exact N]); subst sub; exists sym, args;
    (destruct rest as [|w rest]; cbn in E; injection E as <- _ _; cbn [ft_form]).
  - left; eauto 10.
  - right; left; eauto 10.
  - right; right; left; eauto 10.
  - right; right; right; eauto 10.
Qed.

(** *** the final substitution *)
Lemma vinst_notin i w v : ~ In i (t_vars v) -> vinst i w v = v.
Proof.
  intros N. induction v as [x|p tys l IH|x n|n] using term_ind'; cbn; auto.
  - f_equal. transitivity (map (fun x => x) l); [|apply map_id]. apply map_ext_in. rewrite Forall_forall in IH. intros a Ha. apply IH; [exact Ha|]. intros K. apply N. cbn. apply in_flat_map. eauto.
  - destruct (x =? i) eqn:E; [|reflexivity]. apply Z.eqb_eq in E. destruct N. left. exact E.
Qed.
Lemma msubst_vinst i k v u t : ~ In i (t_vars v) -> msubst k v (vinst i u t) = vinst i (msubst k v u) (msubst k v t).
Proof.
  intros N. induction t as [x|p tys l IH|x m|m] using term_ind'; cbn; auto.
  - f_equal. rewrite !map_map. apply map_ext_in. rewrite Forall_forall in IH. exact IH.
  - destruct (x =? i); reflexivity.
  - destruct (m_index m =? k); [|reflexivity]. symmetry. apply vinst_notin, N.
Qed.
Lemma subst_ty_vinst i a b u t : term_subst_ty a b (vinst i u t) = vinst i (term_subst_ty a b u) (term_subst_ty a b t).
Proof.
  induction t as [x|p tys l IH|x m|m] using term_ind'; cbn; auto.
  - f_equal. rewrite !map_map. apply map_ext_in. rewrite Forall_forall in IH. exact IH.
  - destruct (x =? i); reflexivity.
Qed.
Definition avoids1 (i : Z) (b : mixed) : Prop := forall m u, b = MTerm m u -> ~ In i (t_vars u).
Lemma bind_vinst i b u t : avoids1 i b -> bind_term b (vinst i u t) = vinst i (bind_term b u) (bind_term b t).
Proof. destruct b as [m v|m v]; intros A; cbn; [apply subst_ty_vinst|]. apply msubst_vinst, (A m v eq_refl). Qed.
Lemma bind_fvinst i b u f : avoids1 i b -> bind_form b (fvinst i u f) = fvinst i (bind_term b u) (bind_form b f).
Proof.
  intros A. assert (T : forall l, map (bind_term b) (map (vinst i u) l) = map (vinst i (bind_term b u)) (map (bind_term b) l)).
  { intros l. rewrite !map_map. apply map_ext. intros t. apply bind_vinst, A. }
  destruct b as [m v|m v]; cbn [bind_form bind_term] in *;
  (induction f using form_ind'; cbn; try (f_equal; auto; fail); try (f_equal; rewrite !map_map; apply map_ext_in; rewrite Forall_forall in H; exact H); f_equal; apply T).
Qed.
Lemma msubst_vars i k v t : ~ In i (t_vars v) -> (In i (t_vars (msubst k v t)) <-> In i (t_vars t)).
Proof.
  intros N. induction t as [x|p tys l IH|x m|m] using term_ind'; cbn; try tauto.
  - rewrite flat_map_concat_map, map_map, <- flat_map_concat_map. rewrite !in_flat_map. rewrite Forall_forall in IH.
    split; intros (a & Ha & Hi); exists a; (split; [exact Ha|]); apply (IH a Ha), Hi.
  - destruct (m_index m =? k); cbn; tauto.
Qed.
Lemma subst_ty_vars a b t : t_vars (term_subst_ty a b t) = t_vars t.
Proof.
  induction t as [x|p tys l IH|x m|m] using term_ind'; cbn; auto. rewrite !flat_map_concat_map, map_map. f_equal. apply map_ext_in. rewrite Forall_forall in IH. exact IH.
Qed.
Lemma bind_vars i b f : avoids1 i b -> (In i (f_vars (bind_form b f)) <-> In i (f_vars f)).
Proof.
  intros A. assert (T : forall l, In i (flat_map t_vars (map (bind_term b) l)) <-> In i (flat_map t_vars l)).
  { intros l. rewrite flat_map_concat_map, map_map, <- flat_map_concat_map, !in_flat_map.
    assert (Q : forall t, In i (t_vars (bind_term b t)) <-> In i (t_vars t)).
    { intros t. destruct b as [m v|m v]; cbn; [rewrite subst_ty_vars; tauto|]. apply msubst_vars, (A m v eq_refl). }
    split; intros (t & Ht & Hi); exists t; (split; [exact Ht|]); apply Q, Hi. }
  assert (F : forall fs, Forall (fun f => In i (f_vars (bind_form b f)) <-> In i (f_vars f)) fs ->
    (In i (flat_map f_vars (map (bind_form b) fs)) <-> In i (flat_map f_vars fs))).
  { intros fs H. rewrite flat_map_concat_map, map_map, <- flat_map_concat_map, !in_flat_map. rewrite Forall_forall in H.
    split; intros (t & Ht & Hi); exists t; (split; [exact Ht|]); apply (H t Ht), Hi. }
  unfold f_vars in *. destruct b as [m v|m v]; cbn [bind_form bind_term] in *;
  (induction f using form_ind'; cbn [form_subst_ty fmsubst f_collect]; try tauto; try (apply (F _ H)); try (rewrite !in_app_iff; tauto); apply T).
Qed.
Definition bind_tvar (b : mixed) (v : tvar) : tvar := match b with MTy m u => tvar_subst_ty m u v | MTerm _ _ => v end.
Lemma bind_tvar_index b v : tv_index (bind_tvar b v) = tv_index v.
Proof. destruct b; reflexivity. Qed.
Lemma bind_all b i vs f : bind_form b (All i vs f) = All i (map (bind_tvar b) vs) (bind_form b f).
Proof. destruct b; cbn; [reflexivity|]. rewrite map_id. reflexivity. Qed.
Lemma bind_ex b i vs f : bind_form b (Ex i vs f) = Ex i (map (bind_tvar b) vs) (bind_form b f).
Proof. destruct b; cbn; [reflexivity|]. rewrite map_id. reflexivity. Qed.
Lemma bind_not b i f : bind_form b (Not i f) = Not i (bind_form b f).
Proof. destruct b; reflexivity. Qed.
Lemma gamma_bind b f v body u r : avoids1 (tv_index v) b -> gamma_instance f v body u r ->
  gamma_instance (bind_form b f) (bind_tvar b v) (bind_form b body) (bind_term b u) (bind_form b r).
Proof.
  intros A H. unfold gamma_instance in *. rewrite bind_tvar_index, <- (bind_fvinst _ _ _ _ A).
  destruct H as [(i & -> & ->)|[(i & j & w & rest & -> & ->)|[(i & j & k & -> & ->)|(i & j & k & l & w & rest & -> & ->)]]]; rewrite ?bind_not, ?bind_all, ?bind_ex, ?bind_not; cbn [map].
  - left. eauto.
  - right; left. eauto 10.
  - right; right; left. eauto 10.
  - right; right; right. eauto 10.
Qed.
Lemma delta_bind b f v body u r : avoids1 (tv_index v) b -> delta_instance f v body u r ->
  delta_instance (bind_form b f) (bind_tvar b v) (bind_form b body) (bind_term b u) (bind_form b r).
Proof.
  intros A H. unfold delta_instance in *. rewrite bind_tvar_index, <- (bind_fvinst _ _ _ _ A).
  destruct H as [(i & -> & ->)|[(i & j & w & rest & -> & ->)|[(i & j & k & -> & ->)|(i & j & k & l & w & rest & -> & ->)]]]; rewrite ?bind_not, ?bind_all, ?bind_ex, ?bind_not; cbn [map].
  - left. eauto.
  - right; left. eauto 10.
  - right; right; left. eauto 10.
  - right; right; right. eauto 10.
Qed.
Lemma linear_full s : forall f, stays_linear s f -> apply_substs_on_form s f = full_form s f.
Proof.
  induction s as [|b s IH]; intros f L; [reflexivity|]. destruct L as [L1 L2]. unfold apply_substs_on_form, full_form in *. cbn [fold_left].
  rewrite <- (IH _ L2). f_equal. destruct b as [m v|m v]; cbn; [reflexivity|]. destruct L1. apply replace_meta_linear; assumption.
Qed.
Theorem gamma_final s : forall f v body u r, gamma_instance f v body u r -> avoids (tv_index v) s -> stays_linear s f -> stays_linear s r ->
  (In (tv_index v) (f_vars body) -> gamma_term (apply_substs_on_form s f) (apply_substs_on_form s r) = Ok (Some (full_term s u))) /\
  (~ In (tv_index v) (f_vars body) -> gamma_term (apply_substs_on_form s f) (apply_substs_on_form s r) = Ok None).
Proof.
  intros f v body u r H A Lf Lr. rewrite (linear_full _ _ Lf), (linear_full _ _ Lr). clear Lf Lr.
  revert f v body u r H A. induction s as [|b s IH]; intros f v body u r H A; [exact (gamma_recovered _ _ _ _ _ H)|].
  assert (A1 : avoids1 (tv_index v) b) by (intros m w ->; apply (A m w); left; reflexivity).
  destruct (IH _ _ _ _ _ (gamma_bind b _ _ _ _ _ A1 H)) as [I1 I2]; [rewrite bind_tvar_index; intros m w K; apply (A m w); right; exact K|].
  rewrite bind_tvar_index, (bind_vars _ _ _ A1) in I1, I2. split; assumption.
Qed.
Theorem delta_final s : forall f v body u r, delta_instance f v body u r -> avoids (tv_index v) s -> stays_linear s f -> stays_linear s r ->
  (In (tv_index v) (f_vars body) -> delta_term (apply_substs_on_form s f) (apply_substs_on_form s r) = Ok (Some (full_term s u))) /\
  (~ In (tv_index v) (f_vars body) -> delta_term (apply_substs_on_form s f) (apply_substs_on_form s r) = Ok None).
Proof.
  intros f v body u r H A Lf Lr. rewrite (linear_full _ _ Lf), (linear_full _ _ Lr). clear Lf Lr.
  revert f v body u r H A. induction s as [|b s IH]; intros f v body u r H A; [exact (delta_recovered _ _ _ _ _ H)|].
  assert (A1 : avoids1 (tv_index v) b) by (intros m w ->; apply (A m w); left; reflexivity).
  destruct (IH _ _ _ _ _ (delta_bind b _ _ _ _ _ A1 H)) as [I1 I2]; [rewrite bind_tvar_index; intros m w K; apply (A m w); right; exact K|].
  rewrite bind_tvar_index, (bind_vars _ _ _ A1) in I1, I2. split; assumption.
Qed.
