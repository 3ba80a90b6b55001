(** The delta rule: one step, then runs (C23). *)
From Coq Require Import ZArith List Bool String Lia Classical IndefiniteDescription.
From Verif Require Import LibSet_Model Ast_Model Problem_Model Rules_Model Sem_Spec Occ_Spec Free_Spec Rules_Spec Skolem_Spec
  LibSet_Proofs Ast_Proofs Sem_Proofs Free_Proofs Rules_Proofs Inst_Proofs Skolem_Proofs.
Import ListNotations.
Open Scope Z_scope.

Lemma skolem_choice {I} (P : val I -> Prop) (Q : val I -> D I -> Prop) (ms : list Z) :
  (forall v, P v -> exists d, Q v d) ->
  (forall v w d, map (mv v) ms = map (mv w) ms -> Q v d -> Q w d) ->
  exists c : list (D I) -> D I, forall v, P v -> Q v (c (map (mv v) ms)).
Proof.
  intros E H.
  assert (X : forall ds, exists d, forall v, map (mv v) ms = ds -> P v -> Q v d).
  { intros ds. destruct (classic (exists v, map (mv v) ms = ds /\ P v)) as [(v & V1 & V2)|N].
    - destruct (E v V2) as [d Hd]. exists d. intros w W1 W2. apply (H v); auto. congruence.
    - exists (fn I 0 [] []). intros v V1 V2. exfalso. apply N. eauto. }
  exists (fun ds => proj1_sig (constructive_indefinite_description _ (X ds))).
  intros v Hv. exact (proj2_sig (constructive_indefinite_description _ (X (map (mv v) ms))) v eq_refl Hv).
Qed.

(** valuations of the changed interpretation are those of the original one *)
Definition down {I F} (v : val (refn I F)) : val I := @mkVal I (bv v) (mv v) (tbv v) (tmv v).
Lemma holds_down I F f (v : val (refn I F)) : f_noid f -> (forall s, In s (f_funs f) -> forall ts ds, F s ts ds = fn I s ts ds) ->
  (holds f (down v) <-> holds f v).
Proof. intros N H. destruct v. apply (holds_refn I F f (down (mkVal bv mv tbv tmv))); auto. Qed.

(** symbol [f] with arguments [l] is a witness for the first variable of [d] *)
Definition witness_at (I : interp) (d : form) (f : Z) (l : list Z) : Prop :=
  forall x t, ex_tail d = Some (x, t) -> forall v : val I, holds d v -> holds t (set_bv v (tv_index x) (fn I f [] (map (mv v) l))).
Definition meta_list (d : form) : list Z := match form_metas d with Some s => map m_index (elements s) | None => [] end.
Definition sko_ok (b0 : Z) (I : interp) (g : gen) (s : sko) : Prop :=
  forall real f, In (real, f) (sk_linked s) -> b0 <= id_index f < cpt_term g /\
  exists d, wff g d /\ no_ty_binders d /\ (exists x t, ex_tail d = Some (x, t)) /\ real = fst (alpha_convert d 0 []) /\ witness_at I d (id_index f) (meta_list d).

(** *** metavariable lists *)
Lemma focc_in i f : focc_meta i f <-> In i (f_metas f).
Proof.
  assert (T : forall t, occ_meta i t <-> In i (t_metas t)).
  { induction t as [j|p tys l IH|j n|m] using term_ind'; cbn.
    - split; [inversion 1|tauto].
    - rewrite in_flat_map. rewrite Forall_forall in IH. split.
      + inversion 1; subst. eexists; split; eauto. apply IH; auto.
      + intros (t & H1 & H2). econstructor; eauto. apply IH; auto.
    - split; [inversion 1|tauto].
    - split; [inversion 1; auto|intros [H|[]]; constructor; auto]. }
  unfold f_metas. induction f using form_ind'; cbn [f_collect].
  - rewrite <- IHf. split; [inversion 1; auto|constructor; auto].
  - rewrite <- IHf. split; [inversion 1; auto|constructor; auto].
  - rewrite in_flat_map. rewrite Forall_forall in H. split.
    + inversion 1; subst. eexists; split; eauto. apply H; auto.
    + intros (t & H1 & H2). econstructor; eauto. apply H; auto.
  - rewrite in_flat_map. rewrite Forall_forall in H. split.
    + inversion 1; subst. eexists; split; eauto. apply H; auto.
    + intros (t & H1 & H2). econstructor; eauto. apply H; auto.
  - rewrite in_app_iff, <- IHf1, <- IHf2. split; [inversion 1; auto|intros [K|K]; [apply focc_equ1|apply focc_equ2]; auto].
  - rewrite in_app_iff, <- IHf1, <- IHf2. split; [inversion 1; auto|intros [K|K]; [apply focc_imp1|apply focc_imp2]; auto].
  - rewrite <- IHf. split; [inversion 1; auto|constructor; auto].
  - rewrite in_flat_map. split.
    + inversion 1; subst. eexists; split; eauto. apply T; auto.
    + intros (t & H1 & H2). econstructor; eauto. apply T; auto.
  - split; [inversion 1|intros []].
  - split; [inversion 1|intros []].
Qed.
Lemma has_index s m : has s m <-> In (m_index m) (map m_index (elements s)).
Proof.
  unfold has, InE, meta_eqb. rewrite in_map_iff. split.
  - intros (y & A & B). exists y. apply Z.eqb_eq in B. split; auto. apply elements_InT; auto.
  - intros (y & A & B). exists y. split; [apply elements_InT; auto|apply Z.eqb_eq; auto].
Qed.
Definition some_meta (i : Z) : meta := mkMeta i 0 "" 0 (TyVar "").
Lemma meta_list_in d i : In i (meta_list d) <-> In i (f_metas d).
Proof.
  unfold meta_list. destruct (form_metas_ok d) as (s & -> & _ & H). specialize (H (some_meta i)).
  rewrite has_index in H. cbn in H. rewrite H. apply focc_in.
Qed.
Lemma meta_list_eqb a b : form_eqb a b = true -> meta_list a = meta_list b.
Proof.
  intros E. pose proof (form_metas_rel a b E) as R. unfold meta_list.
  destruct (form_metas a), (form_metas b); cbn in R; try tauto. apply trel_elements in R.
  induction R; cbn; congruence.
Qed.

(** *** shape of an existential formula *)
Inductive shape : form -> tvar -> list tvar -> form -> bool -> form -> Prop :=
| sh_ex i x r h : shape (Ex i (x :: r) h) x r h false (Ex i r h)
| sh_nall j i x r h : shape (Not j (All i (x :: r) h)) x r h true (Not j (All i r h)).
Lemma ex_tail_shape d x t : ex_tail d = Some (x, t) -> exists r h n, shape d x r h n t.
Proof.
  destruct d; cbn; try discriminate.
  - destruct vars; [discriminate|]. intros E; inversion E; subst. eexists _, _, _; constructor.
  - destruct d; try discriminate. destruct vars; [discriminate|]. intros E; inversion E; subst. eexists _, _, _; constructor.
Qed.
Lemma shape_wff g d x r h n t : shape d x r h n t -> (wff g d <-> wff g (All 0 (x :: r) h)).
Proof.
  intros S; inversion S; subst.
  - apply ex_all_wff.
  - rewrite not_wff. split; intros []; constructor; auto.
Qed.
Lemma shape_metas d x r h n t : shape d x r h n t ->
  f_metas d = f_metas h /\ f_metas t = f_metas h /\ form_metas d = form_metas h /\ f_tymetas d = f_tymetas h /\ f_tymetas t = f_tymetas h /\
  f_binders d = x :: r ++ f_binders h /\ f_funs t = f_funs h /\ f_funs d = f_funs h /\ (f_noid h -> f_noid t).
Proof. intros S; inversion S; subst; repeat split; auto. Qed.
Lemma shape_holds d x r h n t : shape d x r h n t -> is_ttype (tv_ty x) = false ->
  forall I (v : val I), holds d v -> exists e, holds t (set_bv v (tv_index x) e).
Proof.
  intros S TT I v H; inversion S; subst.
  - change (if is_ttype (tv_ty x) then exists e, exists_vars r (holds h) (set_tbv v (tv_name x) e)
            else exists e, exists_vars r (holds h) (set_bv v (tv_index x) e)) in H. rewrite TT in H. exact H.
  - change (~ (if is_ttype (tv_ty x) then forall e, forall_vars r (holds h) (set_tbv v (tv_name x) e)
            else forall e, forall_vars r (holds h) (set_bv v (tv_index x) e))) in H. rewrite TT in H.
    apply not_all_ex_not in H. exact H.
Qed.
Lemma shape_fv d x r h n t g : shape d x r h n t -> is_ttype (tv_ty x) = false -> wff g d ->
  (forall i, In i (fv t) -> i = tv_index x) /\ ftv t = [].
Proof.
  intros S TT W.
  assert (E : unbind x (fv t) = [] /\ unbind_ty x (ftv t) = []).
  { split; [pose proof (wf_fv _ _ W) as F|pose proof (wf_ftv _ _ W) as F]; inversion S; subst; exact F. }
  destruct E as [E1 E2]. unfold unbind in E1. unfold unbind_ty in E2. rewrite TT in E1, E2. split; auto.
  intros i Hi. destruct (i =? tv_index x) eqn:Ei; [apply Z.eqb_eq; auto|].
  assert (K : In i (filter (fun i => negb (i =? tv_index x)) (fv t))) by (apply filter_In; rewrite Ei; auto).
  rewrite E1 in K. destruct K.
Qed.

(** *** a witness, chosen *)
Lemma choose_witness I d g l sym : wff g d -> (exists x t, ex_tail d = Some (x, t) /\ is_ttype (tv_ty x) = false) ->
  f_tymetas d = [] -> incl (f_metas d) l -> ~ In sym (f_funs d) ->
  exists F, only_at I sym F /\ witness_at (refn I F) d sym l.
Proof.
  intros W (x & t & E & TT) TM ML NF. destruct (ex_tail_shape _ _ _ E) as (r & h & n & S).
  destruct (shape_metas _ _ _ _ _ _ S) as (M1 & M2 & M3 & M4 & M5 & M6 & M7 & M8 & M9).
  destruct (shape_fv _ _ _ _ _ _ g S TT W) as [V1 V2].
  assert (NT : f_noid t). { apply M9. apply (wf_noid _ _ (proj1 (shape_wff g _ _ _ _ _ _ S) W)). }
  destruct (skolem_choice (I := I) (holds d) (fun v e => holds t (set_bv v (tv_index x) e)) l) as [c Hc].
  - intros v H. eapply shape_holds; eauto.
  - intros v w e M H. apply (holds_free I t (set_bv v (tv_index x) e)); auto.
    + intros i Hi. apply V1 in Hi; subst. cbn. unfold upd. rewrite Z.eqb_refl. auto.
    + rewrite V2. intros s [].
    + intros i Hi. cbn. rewrite M2, <- M1 in Hi. apply ML in Hi.
      clear -M Hi. induction l as [|a l IH]; cbn in *; [tauto|]. inversion M. destruct Hi as [->|Hi]; auto.
    + rewrite M5, <- M4, TM. intros s i [].
  - exists (fun i ts ds => if i =? sym then c ds else fn I i ts ds). split.
    + intros i Hi ts ds. apply Z.eqb_neq in Hi. rewrite Hi. auto.
    + intros x' t' E' v H. rewrite E in E'. inversion E'; subst x' t'.
      set (F := fun i ts ds => if i =? sym then c ds else fn I i ts ds) in *.
      assert (FA : forall s, s <> sym -> forall ts ds, F s ts ds = fn I s ts ds).
      { intros s Hs ts ds. unfold F. apply Z.eqb_neq in Hs. rewrite Hs. auto. }
      assert (H0 : holds d (down v)).
      { apply holds_down; [apply W| |exact H]. intros s Hs. apply FA. intros ->. auto. }
      apply Hc in H0.
      assert (FS : fn (refn I F) sym [] (map (mv v) l) = c (map (mv (down v)) l)) by (cbn; unfold F; rewrite Z.eqb_refl; auto).
      rewrite FS. apply holds_down; auto. intros s Hs. apply FA. intros ->. apply NF. rewrite M8, <- M7. auto.
Qed.

(** *** the result of the rule *)
Lemma delta_result I d g b0 x t r h n sym l g1 :
  shape d x r h n t -> is_ttype (tv_ty x) = false -> wff g d -> cpt_term g <= cpt_term g1 ->
  (forall y, In y (f_binders d) -> tv_index y < b0) -> b0 <= id_index sym -> id_index sym < cpt_term g1 ->
  (forall m, In m l -> m_index m < cpt_term g1) ->
  witness_at I d (id_index sym) (map m_index l) ->
  exists h' b, replace_term (Var (tv_index x) (tv_name x)) (Fun sym [] (map Meta l)) h = Some (h', b) /\
  forall res,
    (forall J (v : val J), holds res v <-> if n then ~ holds (All 0 r h') v else holds (Ex 0 r h') v) ->
    (forall g', wff g' res <-> wff g' (All 0 r h')) -> f_metas res = f_metas h' -> f_tymetas res = f_tymetas h' ->
    f_binders res = r ++ f_binders h' ->
    (forall v : val I, holds d v -> holds res v) /\ wff g1 res /\
    (forall i, In i (f_metas res) -> In i (f_metas d) \/ In i (map m_index l)) /\
    incl (f_tymetas res) (f_tymetas d) /\ incl (f_binders res) (f_binders d).
Proof.
  intros S TT W L1 OLD L2 L3 L4 WIT. set (u := Fun sym [] (map Meta l)).
  assert (U1 : t_vars u = []) by (cbn; clear; induction l; auto).
  assert (U2 : t_tyvars u = []) by (cbn; clear; induction l; auto).
  assert (U3 : t_tymetas u = []) by (cbn; clear; induction l; auto).
  assert (U4 : t_noid u = true) by (cbn; clear; induction l; auto).
  assert (U5 : t_funs u = [id_index sym]) by (cbn; f_equal; clear; induction l; auto).
  assert (U6 : t_metas u = map m_index l) by (cbn; clear; induction l; cbn; congruence).
  pose proof (proj1 (shape_wff g _ _ _ _ _ _ S) W) as W'.
  destruct (shape_metas _ _ _ _ _ _ S) as (M1 & M2 & M3 & M4 & M5 & M6 & M7 & M8 & M9).
  destruct (inst_ok g 0 x r u h W' TT U1 U2 U3 U4) as (h' & b & R & IN).
  exists h', b. split; auto. intros res R1 R2 R3 R4 R5. split; [|split; [|split; [|split]]].
  - intros v H. apply R1.
    assert (EV : ev v u = fn I (id_index sym) [] (map (mv v) (map m_index l))).
    { unfold u. cbn. rewrite !map_map. auto. }
    inversion S; subst.
    + pose proof (WIT _ _ eq_refl v H) as K. apply (in_ex _ _ _ _ _ _ IN). rewrite EV. exact K.
    + pose proof (WIT _ _ eq_refl v H) as K. rewrite (in_all _ _ _ _ _ _ IN). rewrite EV. exact K.
  - apply R2. apply (in_wff _ _ _ _ _ _ IN); auto.
    + rewrite U5, U6. intros i [[<-|[]]|Hi]; auto. apply in_map_iff in Hi as (m & <- & Hm). auto.
    + rewrite U5. intros y Hy [K|[]]. assert (tv_index y < b0); [|lia]. apply OLD. rewrite M6. right; auto.
  - intros i Hi. rewrite R3 in Hi. apply (in_metas _ _ _ _ _ _ IN) in Hi. rewrite M1, <- U6. auto.
  - rewrite R4, M4. apply (in_tymetas _ _ _ _ _ _ IN).
  - rewrite R5, M6, (in_binders _ _ _ _ _ _ IN). apply incl_tl, incl_refl.
Qed.

(** *** the linked symbols of pre-inner Skolemization *)
Lemma wff_apart g d : wff g d -> no_ty_binders d -> apart d.
Proof. intros W N. split; auto. split; [apply W|]. rewrite (wf_fv _ _ W). auto. Qed.
(** what conversion does to the first variable *)
Lemma alpha_shape g d x r h n t : shape d x r h n t -> wff g d -> no_ty_binders d ->
  exists x' r' h' t', shape (fst (alpha_convert d 0 [])) x' r' h' n t' /\
  meta_list (fst (alpha_convert d 0 [])) = meta_list d /\
  (forall I (v : val I), holds d v <-> holds (fst (alpha_convert d 0 [])) v) /\
  (forall I (v : val I) e, holds t (set_bv v (tv_index x) e) <-> holds t' (set_bv v (tv_index x') e)).
Proof.
  intros S W N. pose proof (wff_apart g d W N) as AP.
  destruct (alpha_convert d 0 []) as [d' s'] eqn:E. cbn [fst].
  destruct (alpha_convert_ok d _ _ _ _ AP E) as (A1 & A2 & A3).
  assert (HD : forall I (v : val I), holds d v <-> holds d' v).
  { intros I v. apply A3. constructor; auto. rewrite (wf_fv _ _ W). intros i []. }
  assert (ML : meta_list d' = meta_list d) by (unfold meta_list; rewrite A2; auto).
  assert (TT : is_ttype (tv_ty x) = false) by (apply N; destruct (shape_metas _ _ _ _ _ _ S) as (_&_&_&_&_&->&_); left; auto).
  destruct (shape_fv _ _ _ _ _ _ g S TT W) as [V1 V2].
  assert (K : forall i vs f (q : Z -> list tvar -> form -> form), (q = All \/ q = Ex) ->
     apart (q i (x :: vs) f) -> (forall j, In j (fv (q i vs f)) -> j = tv_index x) ->
     exists r' h' s2, alpha_convert (q i (x :: vs) f) 0 [] = (q i (mkTV (fresh 0) 0 (tv_ty x) :: r') h', s2) /\
     forall I (v : val I) e, holds (q i vs f) (set_bv v (tv_index x) e) <-> holds (q i r' h') (set_bv v 0 e)).
  { intros i vs f q Hq APq FV.
    destruct (apart_quant (x :: vs) f q i Hq APq) as [P1 P2].
    destruct (converted_vars (0 + 1) [(tv_index x, (0, fresh 0))] vs) as [s1 vl] eqn:E1.
    destruct (alpha_convert f (0 + Z.of_nat (List.length (x :: vs))) s1) as [h' s2] eqn:E2.
    exists vl, h', s2. split.
    - destruct Hq; subst; cbn [alpha_convert converted_vars]; rewrite E1; cbn [fst snd]; rewrite E2; reflexivity.
    - intros I v e. destruct (alpha_convert_ok f _ _ _ _ P1 E2) as (B1 & B2 & B3).
      assert (R : arel (fold_right unbind (fv f) vs) 1 [(tv_index x, (0, fresh 0))] (set_bv v (tv_index x) e) (set_bv v 0 e)).
      { constructor; auto. intros j Hj.
        assert (J : j = tv_index x) by (apply FV; destruct Hq; subst; exact Hj). subst j.
        exists 0, (fresh 0). cbn. rewrite Z.eqb_refl. split; auto. split; [lia|]. unfold upd. rewrite !Z.eqb_refl. auto. }
      destruct (fun P => converted_quant vs 1 _ _ _ (fv f) (holds f) (holds h') (fun y Hy => P2 y (or_intror Hy)) E1 P _ _ R) as [Q1 Q2].
      + intros v' w' R'. apply B3. replace (0 + Z.of_nat (List.length (x :: vs))) with (1 + Z.of_nat (List.length vs)); auto.
        cbn [List.length]. lia.
      + destruct Hq; subst; cbn [holds]; auto. }
  inversion S; subst.
  - destruct (K i r h Ex (or_intror eq_refl) AP V1) as (r' & h' & s2 & E3 & E4). rewrite E3 in E. inversion E; subst.
    eexists _, _, _, _. split; [constructor|]. split; [exact ML|]. split; [exact HD|]. intros I v e. apply E4.
  - destruct (K i r h All (or_introl eq_refl) AP V1) as (r' & h' & s2 & E3 & E4). cbn [alpha_convert] in E.
    change (let '(h'0, s1) := alpha_convert (All i (x :: r) h) 0 [] in (Not j h'0, s1)) with
      (let '(h'0, s1) := alpha_convert (All i (x :: r) h) 0 [] in (Not j h'0, s1)) in E.
    assert (E5 : alpha_convert (Not j (All i (x :: r) h)) 0 [] = (Not j (All i (mkTV (fresh 0) 0 (tv_ty x) :: r') h'), s2)).
    { change (alpha_convert (Not j (All i (x :: r) h)) 0 []) with
        (let '(h', s1) := alpha_convert (All i (x :: r) h) 0 [] in (Not j h', s1)). rewrite E3. auto. }
    assert (E6 : d' = Not j (All i (mkTV (fresh 0) 0 (tv_ty x) :: r') h')).
    { change (alpha_convert (Not j (All i (x :: r) h)) 0 [] = (d', s')) in E. congruence. }
    subst d'. eexists _, _, _, _. split; [constructor|]. split; [exact ML|]. split; [exact HD|]. intros I v e.
    cbn [holds]. specialize (E4 I v e). cbn [holds] in E4. rewrite E4. cbn [tv_index]. tauto.
Qed.
(** equal converted formulas: the tails are equivalent *)
Lemma shape_eqb a b x r h n t x' r' h' n' t' : shape a x r h n t -> shape b x' r' h' n' t' -> form_eqb a b = true ->
  forall I (v : val I) e, holds t (set_bv v (tv_index x) e) <-> holds t' (set_bv v (tv_index x') e).
Proof.
  intros S1 S2 E I v e. inversion S1; subst; inversion S2; subst; try discriminate; cbn in E.
  - apply andb_prop in E as [E1 E2]. apply andb_prop in E1 as [E1 E3].
    assert (X : tv_index x = tv_index x').
    { unfold tvar_eqb in E1. apply andb_prop in E1 as [E1 _]. apply andb_prop in E1 as [_ E1]. apply Z.eqb_eq; auto. }
    rewrite X. apply form_eqb_equiv. cbn. rewrite E2, E3. auto.
  - apply andb_prop in E as [E1 E2]. apply andb_prop in E1 as [E1 E3].
    assert (X : tv_index x = tv_index x').
    { unfold tvar_eqb in E1. apply andb_prop in E1 as [E1 _]. apply andb_prop in E1 as [_ E1]. apply Z.eqb_eq; auto. }
    rewrite X. apply form_eqb_equiv. cbn. rewrite E2, E3. auto.
Qed.
Lemma witness_transfer I g d d0 f : wff g d -> no_ty_binders d -> wff g d0 -> no_ty_binders d0 ->
  (exists x t, ex_tail d = Some (x, t)) ->
  form_eqb (fst (alpha_convert d0 0 [])) (fst (alpha_convert d 0 [])) = true ->
  (exists x t, ex_tail d0 = Some (x, t)) ->
  witness_at I d0 f (meta_list d0) -> witness_at I d f (meta_list d).
Proof.
  intros W N W0 N0 _ E (x0 & t0 & T0) WIT x t T v H.
  destruct (ex_tail_shape _ _ _ T) as (r & h & n & S). destruct (ex_tail_shape _ _ _ T0) as (r0 & h0 & n0 & S0).
  destruct (alpha_shape g _ _ _ _ _ _ S W N) as (x1 & r1 & h1 & t1 & S1 & M1 & H1 & T1).
  destruct (alpha_shape g _ _ _ _ _ _ S0 W0 N0) as (x2 & r2 & h2 & t2 & S2 & M2 & H2 & T2).
  pose proof (meta_list_eqb _ _ E) as ML. rewrite M1, M2 in ML. rewrite <- ML.
  apply T1. apply (shape_eqb _ _ _ _ _ _ _ _ _ _ _ _ S2 S1 E). apply T2. apply (WIT x0 t0 T0).
  apply H2. apply (form_eqb_equiv _ _ E). apply H1. auto.
Qed.
Lemma find_linked_in d l i : find_linked d l = Some i -> exists f, In (f, i) l /\ form_eqb f d = true.
Proof.
  induction l as [|[f j] l IH]; cbn; [discriminate|]. destruct (form_eqb f d) eqn:E.
  - intros H; inversion H; subst. exists f. auto.
  - intros H. destruct (IH H) as (f' & A & B). exists f'. auto.
Qed.
Lemma witness_refn I F g d f l : wff g d -> (forall i, i < cpt_term g -> forall ts ds, F i ts ds = fn I i ts ds) ->
  f < cpt_term g -> witness_at I d f l -> witness_at (refn I F) d f l.
Proof.
  intros W FA L H x t E v K. destruct (ex_tail_shape _ _ _ E) as (r & h & n & S).
  destruct (shape_metas _ _ _ _ _ _ S) as (M1 & M2 & M3 & M4 & M5 & M6 & M7 & M8 & M9).
  assert (FN : forall s, In s (f_funs d) -> forall ts ds, F s ts ds = fn I s ts ds).
  { intros s Hs. apply FA. apply (wf_lt _ _ W). auto. }
  assert (K0 : holds d (down v)). { apply holds_down; auto. apply W. }
  apply (H x t E) in K0. cbn [fn refn]. rewrite (FA f L).
  apply holds_down; auto.
  - apply M9. apply (wf_noid _ _ (proj1 (shape_wff g _ _ _ _ _ _ S) W)).
  - intros s Hs. apply FN. rewrite M8, <- M7. auto.
Qed.

(** *** one step *)
Lemma delta_step b0 I s x mm mc g : b0 <= cpt_term g -> delta_ok b0 (sk_kind s) g mm mc (ft_form x) -> sko_ok b0 I g s ->
  exists y s' g', apply_delta s x mm mc g = Some (y, s', g') /\ cpt_term g <= cpt_term g' /\ sk_kind s' = sk_kind s /\
  wff g' (ft_form y) /\ f_tymetas (ft_form y) = [] /\ incl (f_binders (ft_form y)) (f_binders (ft_form x)) /\
  (forall i, In i (f_metas (ft_form y)) -> In i (f_metas (ft_form x)) \/ exists m, m_index m = i /\ (has mm m \/ has mc m)) /\
  exists F, (forall i, i < cpt_term g -> forall ts ds, F i ts ds = fn I i ts ds) /\
    (forall v : val (refn I F), holds (ft_form x) v -> holds (ft_form y) v) /\ sko_ok b0 (refn I F) g' s'.
Proof.
  intros B0 OK SK. destruct x as [d terms]. cbn [ft_form] in *. destruct OK as [W OLD (x & t & ET & TT) TM [O1 O2] LT OUT PRE].
  destruct (mcpy_ok mm O1) as [OC HC]. destruct (munion_ok _ _ OC O2) as (ms & MU & OM & HM).
  assert (HM' : forall m, has ms m <-> has mm m \/ has mc m) by (intros m; rewrite HM, HC; tauto). clear HM HC.
  destruct (ex_tail_shape _ _ _ ET) as (r & h & n & S).
  destruct (shape_metas _ _ _ _ _ _ S) as (M1 & M2 & M3 & M4 & M5 & M6 & M7 & M8 & M9).
  (* symbol and interpretation *)
  destruct (form_metas_ok h) as (mh & MH & OMH & HMH).
  set (l := match sk_kind s with Outer => elements ms | _ => elements mh end).
  assert (ARGS : sko_args s h ms = Some (map Meta l)).
  { unfold sko_args, l. rewrite MH. destruct (sk_kind s); reflexivity. }
  assert (MD : meta_list d = map m_index (elements mh)) by (unfold meta_list; rewrite M3, MH; auto).
  assert (LI : incl (f_metas d) (map m_index l)).
  { intros i Hi. unfold l. destruct (sk_kind s).
    - apply (has_index ms (some_meta i)). apply HM'. apply (OUT eq_refl (some_meta i)). exact Hi.
    - rewrite <- MD. apply meta_list_in. auto.
    - rewrite <- MD. apply meta_list_in. auto. }
  assert (LL : forall m, In m l -> m_index m < cpt_term g /\ (In (m_index m) (f_metas d) \/ has mm m \/ has mc m)).
  { intros m Hm. unfold l in Hm. destruct (sk_kind s).
    - assert (Q : has ms m) by (apply has_index, in_map; auto). apply HM' in Q. split; auto.
    - assert (Q : In (m_index m) (f_metas d)) by (apply meta_list_in; rewrite MD; apply in_map; auto).
      split; auto. apply (wf_lt _ _ W). auto.
    - assert (Q : In (m_index m) (f_metas d)) by (apply meta_list_in; rewrite MD; apply in_map; auto).
      split; auto. apply (wf_lt _ _ W). auto. }
  assert (SYM : exists sym s1 g1 F, sko_symbol s d x g = (sym, s1, g1) /\ cpt_term g <= cpt_term g1 /\ b0 <= id_index sym < cpt_term g1 /\
     sk_kind s1 = sk_kind s /\ (forall i, i < cpt_term g -> forall ts ds, F i ts ds = fn I i ts ds) /\
     witness_at (refn I F) d (id_index sym) (map m_index l) /\ sko_ok b0 (refn I F) g1 s1).
  { assert (FRESH : forall sym, id_index sym = cpt_term g -> exists F, (forall i, i < cpt_term g -> forall ts ds, F i ts ds = fn I i ts ds) /\
       witness_at (refn I F) d (id_index sym) (map m_index l)).
    { intros sym ES. destruct (choose_witness I d g (map m_index l) (id_index sym)) as (F & F1 & F2); eauto.
      - intros K. assert (id_index sym < cpt_term g) by (apply (wf_lt _ _ W); auto). lia.
      - exists F. split; auto. intros i Hi. apply F1. lia. }
    assert (KEEP : forall F g1 l', (forall i, i < cpt_term g -> forall ts ds, F i ts ds = fn I i ts ds) -> cpt_term g <= cpt_term g1 ->
       incl l' (sk_linked s) -> forall real f, In (real, f) l' -> b0 <= id_index f < cpt_term g1 /\
       exists d, wff g1 d /\ no_ty_binders d /\ (exists x t, ex_tail d = Some (x, t)) /\ real = fst (alpha_convert d 0 []) /\ witness_at (refn I F) d (id_index f) (meta_list d)).
    { intros F g1 l' FA G1 IL real f Hin. destruct (SK real f (IL _ Hin)) as (L & d0 & W0 & N0 & X0 & R0 & WI0). split; [lia|].
      exists d0. split; [eapply wff_mono; eauto|]. split; auto. split; auto. split; auto. eapply witness_refn; eauto. lia. }
    unfold sko_symbol. destruct (sk_kind s) eqn:KD.
    - unfold gen_fresh_symbol, maker_new_id. destruct (FRESH (mkId (cpt_term g) (append "skolem@" (append (tv_name x) (append "@" (dec (sk_count s))))))) as (F & F1 & F2); auto.
      eexists _, _, _, F. split; [reflexivity|]. cbn [cpt_term id_index sk_kind]. split; [lia|]. split; [lia|]. split; auto. split; auto. split; auto.
      intros real f Hin. cbn [sk_linked] in Hin. apply (KEEP F _ (sk_linked s)); cbn; auto; [lia|apply incl_refl].
    - unfold gen_fresh_symbol, maker_new_id. destruct (FRESH (mkId (cpt_term g) (append "skolem@" (append (tv_name x) (append "@" (dec (sk_count s))))))) as (F & F1 & F2); auto.
      eexists _, _, _, F. split; [reflexivity|]. cbn [cpt_term id_index sk_kind]. split; [lia|]. split; [lia|]. split; auto. split; auto. split; auto.
      intros real f Hin. cbn [sk_linked] in Hin. apply (KEEP F _ (sk_linked s)); cbn; auto; [lia|apply incl_refl].
    - specialize (PRE eq_refl). destruct (find_linked (fst (alpha_convert d 0 [])) (sk_linked s)) as [i|] eqn:FL.
      + apply find_linked_in in FL as (real & Hin & EQ). destruct (SK real i Hin) as (L & d0 & W0 & N0 & X0 & R0 & WI0).
        exists i, s, g, (fn I). split; [reflexivity|]. split; [lia|]. split; [lia|]. split; auto. split; auto. split.
        * assert (WT : witness_at I d (id_index i) (meta_list d)).
          { apply (witness_transfer I g d d0); auto; [eauto|subst real; auto]. }
          replace (map m_index l) with (meta_list d) by (unfold l; rewrite MD; auto).
          apply (witness_refn I (fn I) g); auto. lia.
        * intros real' f Hf. apply (KEEP (fn I) g (sk_linked s)); auto; [lia|apply incl_refl].
      + unfold gen_fresh_symbol, maker_new_id.
        destruct (FRESH (mkId (cpt_term g) (append "skolem@" (append (tv_name x) (append "@" (dec (sk_count s))))))) as (F & F1 & F2); auto.
        eexists _, _, _, F. split; [reflexivity|]. cbn [cpt_term id_index sk_kind]. split; [lia|]. split; [lia|]. split; auto. split; auto. split; auto.
        intros real f Hin. cbn [sk_linked] in Hin. apply in_app_iff in Hin as [Hin|[Hin|[]]].
        * apply (KEEP F _ (sk_linked s)); cbn; auto; [lia|apply incl_refl].
        * inversion Hin; subst. cbn [id_index cpt_term]. split; [lia|]. exists d.
          split; [eapply wff_mono; [|exact W]; cbn; lia|]. split; auto. split; eauto. split; auto. rewrite MD. exact F2. }
  destruct SYM as (sym & s1 & g1 & F & ES & G1 & L & KD & FA & WIT & SK1).
  destruct (delta_result (refn I F) d g b0 x t r h n sym l g1 S TT W G1 OLD (proj1 L) (proj2 L)) as (h' & b & RT & RES); auto.
  { intros m Hm. apply LL in Hm as [Hm _]. lia. }
  assert (SS : sko_skolemize s d h x ms g = Some (h', s1, g1)).
  { unfold sko_skolemize. rewrite ES, ARGS, RT. reflexivity. }
  assert (FIN : exists res g2, skolemize s d ms g = Some (res, s1, g2) /\ cpt_term g2 = cpt_term g1 /\
     (forall J (v : val J), holds res v <-> if n then ~ holds (All 0 r h') v else holds (Ex 0 r h') v) /\
     (forall g', wff g' res <-> wff g' (All 0 r h')) /\ f_metas res = f_metas h' /\ f_tymetas res = f_tymetas h' /\
     f_binders res = r ++ f_binders h').
  { clear -S SS TT. inversion S; subst; cbn [skolemize]; unfold real_skolemize; rewrite TT, SS; destruct r as [|y r].
    - eexists _, _. split; [reflexivity|]. split; auto. split; [intros; cbn; tauto|]. split; [|auto].
      intros g'. symmetry. apply all_nil_wff.
    - eexists _, _. split; [reflexivity|]. split; auto. split; [intros; cbn; tauto|]. split; [|auto].
      intros g'. apply ex_all_wff.
    - eexists _, _. split; [reflexivity|]. split; auto. split; [intros; cbn; tauto|]. split; [|auto].
      intros g'. rewrite not_wff. symmetry. apply all_nil_wff.
    - eexists _, _. split; [reflexivity|]. split; auto. split; [intros; cbn; tauto|]. split; [|auto].
      intros g'. rewrite not_wff. split; intros []; constructor; auto. }
  destruct FIN as (res & g2 & SKR & C2 & R1 & R2 & R3 & R4 & R5).
  destruct (RES res R1 R2 R3 R4 R5) as (Q1 & Q2 & Q3 & Q4 & Q5).
  exists (mkFat res (map Meta (elements ms))), s1, g2. unfold apply_delta. rewrite MU. cbn [ft_form]. rewrite SKR.
  split; auto. split; [lia|]. split; auto. split; [eapply wff_mono; [|exact Q2]; lia|]. split.
  { rewrite TM in Q4. destruct (f_tymetas res) as [|z zs]; auto. exfalso. apply (Q4 z). left; auto. }
  split; auto. split.
  { intros i Hi. apply Q3 in Hi as [Hi|Hi]; auto. apply in_map_iff in Hi as (m & <- & Hm). apply LL in Hm as [_ [Hm|Hm]]; eauto. }
  exists F. split; auto. split; auto.
  intros real f Hin. destruct (SK1 real f Hin) as (L5 & d0 & W0 & N0 & X0 & R0 & WI0). split; [lia|].
  exists d0. split; [eapply wff_mono; [|exact W0]; lia|]. auto.
Qed.

(** *** runs *)
Lemma sko_run_ok b0 k g s h : sko_run b0 k g s h -> b0 <= cpt_term g /\ sk_kind s = k /\
  forall I, exists F, (forall i, i < b0 -> forall ts ds, F i ts ds = fn I i ts ds) /\ sko_ok b0 (refn I F) g s /\
  forall d y, In (d, y) h -> wff g d /\ wff g y /\ forall v : val (refn I F), holds d v -> holds y v.
Proof.
  induction 1 as [g c L|g g' s h R IH L|g s h x mm mc y s' g' R IH OK E].
  - split; auto. split; auto. intros I. exists (fn I). split; auto. split; [intros ? ? []|intros ? ? []].
  - destruct IH as (A & B & C). split; [lia|]. split; auto. intros I. destruct (C I) as (F & F1 & F2 & F3).
    exists F. split; auto. split.
    + intros real f Hin. destruct (F2 real f Hin) as (L5 & d0 & W0 & N0 & X0 & R0 & WI0). split; [lia|].
      exists d0. split; [eapply wff_mono; eauto|]. auto.
    + intros d y Hd. destruct (F3 d y Hd) as (H1 & H2 & H3). split; [eapply wff_mono; eauto|]. split; [eapply wff_mono; eauto|auto].
  - destruct IH as (A & B & C). subst k.
    assert (GG : cpt_term g <= cpt_term g' /\ sk_kind s' = sk_kind s).
    { destruct (C (mkInterp unit unit (fun _ _ _ => tt) (fun _ _ _ => True) (fun _ _ => tt) (fun _ => tt) (fun _ => tt) (fun _ _ => tt) (fun _ _ => tt))) as (F & F1 & F2 & F3).
      destruct (delta_step b0 _ s x mm mc g A OK F2) as (y0 & s0 & g0 & E0 & G0 & K0 & _). rewrite E in E0. inversion E0; subst. auto. }
    destruct GG as [GG KK]. split; [lia|]. split; auto. intros I. destruct (C I) as (F & F1 & F2 & F3).
    destruct (delta_step b0 _ s x mm mc g A OK F2) as (y0 & s0 & g0 & E0 & G0 & K0 & W0 & _ & _ & _ & F' & FA & FB & FC).
    rewrite E in E0. inversion E0; subst y0 s0 g0. exists F'. split; [|split].
    + intros i Hi ts ds. rewrite FA by lia. cbn. auto.
    + exact FC.
    + intros d z [Hd|Hd].
      * inversion Hd; subst. split; [eapply wff_mono; [exact G0|apply OK]|]. split; auto.
      * destruct (F3 d z Hd) as (H1 & H2 & H3). split; [eapply wff_mono; eauto|]. split; [eapply wff_mono; eauto|].
        intros v Hv. 
        assert (FN : forall f, wff g f -> (holds f (@down (refn I F) F' v) <-> holds f v)).
        { intros f Wf. apply (holds_down (refn I F) F' f v); [apply Wf|]. intros s1 Hs. apply FA. apply (wf_lt _ _ Wf). auto. }
        apply FN; auto. apply H3. apply FN; auto.
Qed.
Lemma sko_run_sound b0 k g s h : sko_run b0 k g s h -> forall I, exists F,
  (forall i, i < b0 -> forall ts ds, F i ts ds = fn I i ts ds) /\
  forall d y, In (d, y) h -> forall v : val (refn I F), holds d v -> holds y v.
Proof.
  intros R I. apply sko_run_ok in R as (_ & _ & R). destruct (R I) as (F & A & _ & B). exists F. split; auto.
  intros d y H. apply B; auto.
Qed.
Definition unitI : interp :=
  mkInterp unit unit (fun _ _ _ => tt) (fun _ _ _ => True) (fun _ _ => tt) (fun _ => tt) (fun _ => tt) (fun _ _ => tt) (fun _ _ => tt).
Lemma sko_run_total b0 k g s h x mm mc : sko_run b0 k g s h -> delta_ok b0 k g mm mc (ft_form x) ->
  exists y s' g', apply_delta s x mm mc g = Some (y, s', g') /\ cpt_term g <= cpt_term g' /\ wff g' (ft_form y) /\
  f_tymetas (ft_form y) = [] /\ incl (f_binders (ft_form y)) (f_binders (ft_form x)).
Proof.
  intros R OK. apply sko_run_ok in R as (B & <- & R). destruct (R unitI) as (F & _ & A & _).
  destruct (delta_step b0 _ s x mm mc g B OK A) as (y & s' & g' & E & G & _ & W & T & BI & _). exists y, s', g'. auto 10.
Qed.
