(** Lemmas for C27 and C28. *)
From Coq Require Import ZArith List Bool Lia Permutation.
From Verif Require Import Ast_Model Sem_Spec Ast_Proofs Unif_Model Closure_Model Dmt_Model Select_Model Select_Spec.
Import ListNotations.
Open Scope list_scope.

(** *** equality of substitutions *)
Lemma binding_eqb a b : mixed_eqb a b = true <-> same_binding a b.
Proof.
  destruct a as [n i f v|k v], b as [n' i' f' v'|k' v']; cbn [mixed_eqb same_binding]; try (split; [discriminate|intros []]).
  - rewrite andb_true_iff, !ty_eqb_reflect. tauto.
  - rewrite andb_true_iff, term_eqb_reflect. unfold meta_eqb. rewrite Z.eqb_eq. tauto.
Qed.
Lemma subst_eqb s t : same_subst s t = true <-> same_bindings s t.
Proof. apply list_eqb_reflect. apply Forall_forall. intros x _ y. apply binding_eqb. Qed.
Lemma binding_refl a : same_binding a a.
Proof. destruct a; cbn; split; auto using same_ty_refl, same_term_refl. Qed.
Lemma binding_sym a b : same_binding a b -> same_binding b a.
Proof. destruct a, b; cbn; try tauto; intros [H1 H2]; split; auto using same_ty_sym, same_term_sym. Qed.
Lemma binding_trans a b c : same_binding a b -> same_binding b c -> same_binding a c.
Proof. destruct a, b, c; cbn; try tauto; intros [H1 H2] [H3 H4]; split; eauto using same_ty_trans, same_term_trans; congruence. Qed.
Lemma bindings_refl s : same_bindings s s.
Proof. induction s; constructor; auto using binding_refl. Qed.
Lemma bindings_sym s t : same_bindings s t -> same_bindings t s.
Proof. induction 1; constructor; auto using binding_sym. Qed.
Lemma bindings_trans s t u : same_bindings s t -> same_bindings t u -> same_bindings s u.
Proof. intros H. revert u. induction H; intros u K; inversion K; subst; constructor; eauto using binding_trans. apply IHForall2. assumption. Qed.
Lemma bindings_nil s : same_bindings s [] -> s = [].
Proof. intros H. inversion H. reflexivity. Qed.

Section Sel.
Variable mg : list mixed -> list mixed -> out (list mixed).
Variable cur : saf.
Notation same s t := (same_bindings (fst s) (fst t)).

(** *** the loop *)
Definition taken (l : list answer) : acc := fold_left (fun a x => take cur a (an_substs x)) l (acc0 cur).
Lemma collect_answers l : forall a,
  collect cur (List.length l) (map Answer l) a =
  if forallb an_closed l then (Some (inr tt), fold_left (fun a x => take cur a (an_substs x)) l a)
  else (Some (inl Opened), snd (collect cur (List.length l) (map Answer l) a)).
Proof.
  induction l as [|x l IH]; intros a; cbn [List.length map collect forallb fold_left]; [reflexivity|].
  destruct (an_closed x); cbn [andb]; [apply IH|reflexivity].
Qed.
Lemma select_answers l : select mg cur (List.length l) (map Answer l) =
  if forallb an_closed l then do r <- finish mg (taken l); Ok (fst r, remove_empty (snd r))
  else Ok (Opened, remove_empty (ac_result (snd (collect cur (List.length l) (map Answer l) (acc0 cur))))).
Proof. unfold select. rewrite (collect_answers l (acc0 cur)). destruct (forallb an_closed l); reflexivity. Qed.

(** *** the children that want a substitution *)
Definition is_new (x : answer) : bool := match an_substs x with [] => false | l => match returns_current cur l with Some _ => false | None => true end end.
Definition is_cur (x : answer) : bool := match returns_current cur (an_substs x) with Some _ => true | None => false end.
Lemma returns_ok l : match returns_current cur l with
  | Some s => l = [s] /\ same s cur
  | None => ~ exists s, l = [s] /\ same s cur end.
Proof.
  unfold returns_current. destruct l as [|s [|s' l]]; try (intros (t & E & _); discriminate E).
  destruct (same_subst (fst s) (fst cur)) eqn:E.
  - apply subst_eqb in E. auto.
  - intros (t & Et & K). injection Et as ->. apply subst_eqb in K. congruence.
Qed.
Lemma is_new_ok x : is_new x = true <-> wants cur x.
Proof.
  unfold is_new, wants. pose proof (returns_ok (an_substs x)) as R. destruct (an_substs x) as [|s l]; [split; [discriminate|intros [H _]; congruence]|].
  destruct (returns_current cur (s :: l)).
  - split; [discriminate|]. intros [_ H]. destruct H. exists s0. exact R.
  - split; [|auto]. intros _. split; [discriminate|exact R].
Qed.
Lemma is_cur_ok x : is_cur x = true <-> exists s, an_substs x = [s] /\ same s cur.
Proof.
  unfold is_cur. pose proof (returns_ok (an_substs x)) as R. destruct (returns_current cur (an_substs x)) as [s|].
  - split; [intros _; exists s; exact R|auto].
  - split; [discriminate|]. intros H. destruct (R H).
Qed.
Lemma kinds x : an_substs x <> [] -> is_new x = true \/ is_cur x = true.
Proof. intros N. unfold is_new, is_cur. destruct (an_substs x); [congruence|]. destruct (returns_current cur (s :: l)); auto. Qed.
Lemma at_most_count n l : at_most (wants cur) n l -> (List.length (filter is_new l) <= n)%nat.
Proof.
  induction 1 as [n|n a l N H IH|n a l H IH]; cbn; [lia| |].
  - destruct (is_new a) eqn:E; [destruct N; apply is_new_ok, E|exact IH].
  - destruct (is_new a); cbn; lia.
Qed.
(** results of the children that want one *)
Definition grow (p : list saf * list saf) (L : list saf) : list saf * list saf := (fold_left (add_result cur) L (fst p), common_of L (fst p)).
Lemma add_result_cur c : same c cur -> forall L r, fold_left (add_result c) L r = fold_left (add_result cur) L r.
Proof.
  intros S. induction L as [|v L IH]; intros r; cbn; [reflexivity|]. rewrite IH. f_equal. unfold add_result.
  assert (E : same_subst (fst v) (fst c) = same_subst (fst v) (fst cur)).
  { apply eq_true_iff_eq. rewrite !subst_eqb. split; intros H; eapply bindings_trans; eauto using bindings_sym. }
  rewrite E. reflexivity.
Qed.
Lemma taken_ok l : let a := taken l in
  (ac_result a, ac_common a) = fold_left grow (map an_substs (filter is_new l)) ([], []) /\
  ac_count a = List.length (filter is_new l) /\ ac_seen a = existsb is_cur l /\ fst (ac_current a) = fst cur /\
  (existsb is_cur l = false -> ac_current a = cur).
Proof.
  induction l as [|x l IH] using rev_ind; [cbn; auto|]. unfold taken in *. cbv zeta in *. rewrite fold_left_app. cbn [fold_left].
  destruct IH as (H1 & H2 & H3 & H4 & H5). set (a := fold_left (fun a x => take cur a (an_substs x)) l (acc0 cur)) in *.
  rewrite filter_app, map_app, fold_left_app, app_length, existsb_app. cbn [filter existsb].
  assert (En : is_new x = match an_substs x with [] => false | l => match returns_current cur l with Some _ => false | None => true end end) by reflexivity.
  assert (Ec : is_cur x = match returns_current cur (an_substs x) with Some _ => true | None => false end) by reflexivity.
  rewrite En, Ec. unfold take. destruct (an_substs x) as [|s L] eqn:Ex.
  - cbn. rewrite <- H1, orb_false_r, Nat.add_0_r. auto.
  - rewrite <- Ex. destruct (returns_current cur (an_substs x)) as [c|] eqn:Er.
    + cbn. rewrite <- H1, orb_true_r, Nat.add_0_r. cbn. repeat (split; auto). discriminate.
    + cbn. rewrite <- H1, orb_false_r, H3. cbn. split; [|split; [lia|auto]]. unfold grow. cbn [fst]. f_equal. apply add_result_cur. rewrite H4. apply bindings_refl.
Qed.

(** *** one list of answers *)
Lemma add_result_in v r x : In x (add_result cur r v) -> (exists y, In y r /\ fst y = fst x) \/ fst x = fst v.
Proof.
  unfold add_result, append_saf. destruct (same_subst (fst v) (fst cur)); [eauto|]. destruct (existsb (fun x => same_subst (fst v) (fst x)) r).
  - intros H. apply in_map_iff in H. destruct H as (y & E & Hy). left. exists y. split; [exact Hy|]. destruct (same_subst (fst v) (fst y)); subst; reflexivity.
  - destruct (existsb _ r); [eauto|]. intros H. apply in_app_or in H. destruct H as [H|[<-|[]]]; eauto.
Qed.
Lemma results_in L : forall r x, In x (fold_left (add_result cur) L r) -> (exists y, In y r /\ fst y = fst x) \/ exists v, In v L /\ fst v = fst x.
Proof.
  induction L as [|v L IH]; intros r x H; cbn in H; [left; exists x; auto|]. apply IH in H. destruct H as [(y & Hy & E)|(w & Hw & E)].
  - apply add_result_in in Hy. destruct Hy as [(z & Hz & E2)|E2]; [left; exists z; split; [exact Hz|congruence]|right; exists v; split; [left; reflexivity|congruence]].
  - right. exists w. split; [right; exact Hw|exact E].
Qed.
Definition covers (r : list saf) (v : saf) : Prop := same v cur \/ exists x, In x r /\ same v x.
Lemma add_result_covers r v w : covers r w \/ w = v -> covers (add_result cur r v) w.
Proof.
  assert (K : forall r', (forall x, In x r -> exists y, In y r' /\ fst y = fst x) -> covers r w -> covers r' w).
  { intros r' H [S|(x & Hx & S)]; [left; exact S|]. destruct (H x Hx) as (y & Hy & E). right. exists y. rewrite E. auto. }
  unfold add_result. destruct (same_subst (fst v) (fst cur)) eqn:Ec.
  - intros [C| ->]; [exact C|left; apply subst_eqb; exact Ec].
  - destruct (existsb (fun x => same_subst (fst v) (fst x)) r) eqn:Ee.
    + assert (M : forall x, In x r -> exists y, In y (map (fun x => if same_subst (fst v) (fst x) then add_formulas x (snd v) else x) r) /\ fst y = fst x).
      { intros x Hx. eexists. split; [apply in_map, Hx|]. cbn beta. destruct (same_subst (fst v) (fst x)); reflexivity. }
      intros [C| ->]; [apply (K _ M C)|]. apply (K _ M). apply existsb_exists in Ee. destruct Ee as (x & Hx & S). right. exists x. rewrite <- subst_eqb. auto.
    + unfold append_saf. destruct (existsb (fun x => saf_eqb x v) r) eqn:Ef.
      * intros [C| ->]; [exact C|]. apply existsb_exists in Ef. destruct Ef as (x & Hx & S). apply andb_prop in S. destruct S as [S _].
        right. exists x. split; [exact Hx|]. apply bindings_sym, subst_eqb, S.
      * intros [C| ->]; [apply (K (r ++ [v])); [|exact C]; intros x Hx; exists x; split; [apply in_or_app; auto|reflexivity]|].
        right. exists v. split; [apply in_or_app; right; left; reflexivity|apply bindings_refl].
Qed.
Lemma results_cover L : forall r w, covers r w \/ In w L -> covers (fold_left (add_result cur) L r) w.
Proof.
  induction L as [|v L IH]; intros r w H; cbn; [destruct H as [H|[]]; exact H|]. apply IH.
  destruct H as [H|[<-|H]]; [left; apply add_result_covers; auto|left; apply add_result_covers; auto|auto].
Qed.
Lemma results_not_cur L : forall r, (forall x, In x r -> ~ same x cur) -> forall x, In x (fold_left (add_result cur) L r) -> ~ same x cur.
Proof.
  induction L as [|v L IH]; intros r H; cbn; [exact H|]. apply IH. intros x. unfold add_result. destruct (same_subst (fst v) (fst cur)) eqn:Ec; [apply H|].
  destruct (existsb (fun x => same_subst (fst v) (fst x)) r).
  - intros Hx. apply in_map_iff in Hx. destruct Hx as (y & E & Hy). specialize (H y Hy). destruct (same_subst (fst v) (fst y)); subst; exact H.
  - unfold append_saf. destruct (existsb (fun x => saf_eqb x v) r); [apply H|]. intros Hx. apply in_app_or in Hx. destruct Hx as [Hx|[<-|[]]]; [apply H, Hx|].
    intros K. apply subst_eqb in K. congruence.
Qed.
Lemma common_in L r c : In c (common_of L r) <-> exists v x, In v L /\ In x r /\ same v x /\ c = add_formulas x (snd v).
Proof.
  unfold common_of. rewrite in_flat_map. split.
  - intros (v & Hv & H). apply in_flat_map in H. destruct H as (x & Hx & H). destruct (same_subst (fst v) (fst x)) eqn:E; [|destruct H].
    destruct H as [<-|[]]. exists v, x. rewrite <- subst_eqb. auto.
  - intros (v & x & Hv & Hx & S & ->). exists v. split; [exact Hv|]. apply in_flat_map. exists x. split; [exact Hx|]. apply subst_eqb in S. rewrite S. left. reflexivity.
Qed.
Lemma remove_in l s : In s (remove_empty l) -> In s l.
Proof. unfold remove_empty. rewrite filter_In. tauto. Qed.

(** *** at most two children want one *)
Lemma fold_none : fold_left grow [] ([], []) = ([], []).
Proof. reflexivity. Qed.
Definition res1 (L : list saf) : list saf := fold_left (add_result cur) L [].
Lemma res1_in L x : In x (res1 L) -> exists v, In v L /\ fst v = fst x.
Proof. intros H. apply results_in in H. destruct H as [(y & [] & _)|H]; exact H. Qed.
Lemma new_has x : distinct x -> is_new x = true -> exists v, In v (an_substs x) /\ ~ same v cur.
Proof.
  intros D N. apply is_new_ok in N. destruct N as [N1 N2]. unfold distinct in D. destruct (an_substs x) as [|s [|t L]]; [congruence| |].
  - exists s. split; [left; reflexivity|]. intros K. apply N2. exists s. auto.
  - inversion D as [|? ? F _]; subst. apply Forall_inv in F.
    destruct (same_subst (fst s) (fst cur)) eqn:E.
    + exists t. split; [right; left; reflexivity|]. intros K. apply F. apply subst_eqb in E. eapply bindings_trans; eauto using bindings_sym.
    + exists s. split; [left; reflexivity|]. intros K. apply subst_eqb in K. congruence.
Qed.
Lemma two_results x y : distinct x -> distinct y -> is_new x = true -> is_new y = true ->
  forall s, fold_left (add_result cur) (an_substs y) (res1 (an_substs x)) = [s] -> common_of (an_substs y) (res1 (an_substs x)) <> [].
Proof.
  intros Dx Dy Nx Ny s E. destruct (new_has x Dx Nx) as (v & Hv & Kv). destruct (new_has y Dy Ny) as (w & Hw & Kw).
  assert (Cv : covers (res1 (an_substs x)) v) by (apply results_cover; auto). destruct Cv as [Cv|(v1 & Hv1 & Sv)]; [contradiction|].
  assert (Cv : covers [s] v) by (rewrite <- E; apply results_cover; left; right; eauto). destruct Cv as [Cv|(z & [<-|[]] & Sz)]; [contradiction|].
  assert (Cw : covers [s] w) by (rewrite <- E; apply results_cover; right; exact Hw). destruct Cw as [Cw|(z & [<-|[]] & Sw)]; [contradiction|].
  assert (I : In (add_formulas v1 (snd w)) (common_of (an_substs y) (res1 (an_substs x)))).
  { apply common_in. exists w, v1. repeat split; auto. eapply bindings_trans; [exact Sw|]. eapply bindings_trans; [apply bindings_sym, Sz|exact Sv]. }
  intros K. rewrite K in I. exact I.
Qed.
Lemma filter_one {A} (f : A -> bool) l x : filter f l = [x] -> forall a, In a l -> f a = true -> a = x.
Proof. intros E a Ha Fa. assert (H : In a (filter f l)) by (apply filter_In; auto). rewrite E in H. destruct H as [H|[]]; auto. Qed.
Lemma filter_two {A} (f : A -> bool) l x y : filter f l = [x; y] -> forall a, In a l -> f a = true -> a = x \/ a = y.
Proof. intros E a Ha Fa. assert (H : In a (filter f l)) by (apply filter_In; auto). rewrite E in H. destruct H as [H|[H|[]]]; auto. Qed.
Lemma merge_current_in c : forall l r, merge_current mg c l = Ok r -> forall m, In m r -> exists s, In s l /\ merge_saf mg s c = Ok m.
Proof.
  induction l as [|s l IH]; intros r H m Hm; cbn in H; [injection H as <-; destruct Hm|].
  destruct (same_subst (fst s) (fst c)); [destruct (IH _ H _ Hm) as (t & Ht & E); exists t; split; [right; exact Ht|exact E]|].
  destruct (merge_saf mg s c) as [m0| | |] eqn:E; cbn in H; try discriminate. destruct (merge_current mg c l) as [r0| | |]; cbn in H; try discriminate.
  injection H as <-. destruct Hm as [<-|Hm]; [exists s; split; [left; reflexivity|exact E]|]. destruct (IH _ eq_refl _ Hm) as (t & Ht & Et). exists t. split; [right; exact Ht|exact Et].
Qed.
Lemma empty_fst s : saf_empty s = true -> fst s = [].
Proof. destruct s as [[|] [|]]; cbn; congruence. Qed.
Lemma merge_saf_ent ent s c m : entailment ent -> (forall m, mg (fst s) (fst c) = Ok m -> ent m (fst s) /\ ent m (fst c)) -> merge_saf mg s c = Ok m -> ent (fst m) (fst s) /\ ent (fst m) (fst c).
Proof.
  intros (E1 & E2 & E3) M H. unfold merge_saf in H. destruct (saf_empty s) eqn:Es.
  - injection H as <-. rewrite (empty_fst _ Es). split; [apply E3|apply E1, bindings_refl].
  - destruct (saf_empty c) eqn:Ec; [injection H as <-; rewrite (empty_fst _ Ec); split; [apply E1, bindings_refl|apply E3]|].
    destruct (mg (fst s) (fst c)) as [r| | |] eqn:Em; cbn in H; try discriminate. injection H as <-. apply (M _ eq_refl).
Qed.

(** C27 *)
Theorem parent_closes_all ent l r : entailment ent -> merges ent mg cur l ->
  at_most (wants cur) 2 l -> Forall distinct l ->
  (Forall (fun a => ~ returns_just cur a) l \/ at_most (wants cur) 1 l \/
   Forall (fun a => wants cur a -> Forall (fun t => ent (fst t) (fst cur)) (an_substs a)) l) ->
  select mg cur (List.length l) (map Answer l) = Ok (SubstForParent, r) ->
  forall s, In s r -> closes_all ent l s.
Proof.
  intros En Mg A2 D C H s Hs. rewrite select_answers in H. destruct (forallb an_closed l); [|discriminate].
  destruct (taken_ok l) as (T1 & T2 & T3 & T4 & T5). set (a := taken l) in *.
  destruct (finish mg a) as [[v R]| | |] eqn:F; cbn in H; try discriminate. injection H as -> <-. apply remove_in in Hs.
  pose proof En as (E1 & E2 & E3).
  apply at_most_count in A2. unfold finish in F. rewrite T2 in F.
  assert (Cur : forall x, is_cur x = true -> ent (fst s) (fst cur) -> exists t, In t (an_substs x) /\ ent (fst s) (fst t)).
  { intros x Hx He. apply is_cur_ok in Hx. destruct Hx as (t & -> & S). exists t. split; [left; reflexivity|]. eapply E2; [exact He|apply bindings_sym, S]. }
  destruct (filter is_new l) as [|x [|y [|z q]]] eqn:Ef; cbn [List.length] in F, A2; [| | |lia]; cbn [map fold_left] in T1.
  - injection T1 as T1 _. rewrite T3, T1 in F. destruct (existsb is_cur l); [|discriminate]. injection F as <-. destruct Hs as [<-|[]].
    intros b Hb Nb. destruct (kinds b Nb) as [K|K]; [assert (I : In b (filter is_new l)) by (apply filter_In; auto); rewrite Ef in I; destruct I|].
    apply Cur; [exact K|]. rewrite T4. apply E1, bindings_refl.
  - injection T1 as T1 _.
    assert (G : ent (fst s) (fst cur) /\ exists w, In w (an_substs x) /\ ent (fst s) (fst w)).
    { destruct (saf_empty (ac_current a)) eqn:Ee.
      - injection F as <-. rewrite T1 in Hs. apply res1_in in Hs. destruct Hs as (w & Hw & E). apply empty_fst in Ee. rewrite <- T4, Ee.
        split; [apply E3|]. exists w. split; [exact Hw|]. rewrite E. apply E1, bindings_refl.
      - destruct (merge_current mg (ac_current a) (ac_result a)) as [R'| | |] eqn:Em; cbn in F; try discriminate. injection F as <-.
        destruct (merge_current_in _ _ _ Em _ Hs) as (t & Ht & Et). rewrite T1 in Ht. apply res1_in in Ht. destruct Ht as (w & Hw & E).
        
        assert (Mw : forall m, mg (fst t) (fst (ac_current a)) = Ok m -> ent m (fst t) /\ ent m (fst (ac_current a))).
        { rewrite T4, <- E. intros m. apply (Mg x); [|exact Hw]. assert (I : In x (filter is_new l)) by (rewrite Ef; left; reflexivity). apply filter_In in I. apply I. }
        destruct (merge_saf_ent ent _ _ _ En Mw Et) as [G1 G2]. rewrite T4 in G2. split; [exact G2|]. exists w. rewrite E. auto. }
    destruct G as [Gc Gx]. intros b Hb Nb. destruct (kinds b Nb) as [K|K]; [rewrite (filter_one _ _ _ Ef b Hb K); exact Gx|apply Cur; auto].
  - injection T1 as T1 T1'. fold (res1 (an_substs x)) in T1, T1'.
    assert (Ix : In x l /\ is_new x = true) by (apply filter_In; rewrite Ef; left; reflexivity).
    assert (Iy : In y l /\ is_new y = true) by (apply filter_In; rewrite Ef; right; left; reflexivity).
    destruct Ix as [Ix Nx], Iy as [Iy Ny]. pose proof (proj1 (Forall_forall _ _) D) as D'.
    assert (Hc : In s (ac_common a)).
    { destruct (ac_common a) as [|c cs] eqn:Ec; [|injection F as <-; exact Hs].
      destruct (ac_result a) as [|s0 [|]] eqn:Er; try discriminate. exfalso.
      apply (two_results x y (D' _ Ix) (D' _ Iy) Nx Ny s0); [symmetry; exact T1|symmetry; exact T1']. }
    rewrite T1' in Hc. apply common_in in Hc. destruct Hc as (v & u & Hv & Hu & Sv & ->). cbn [fst add_formulas].
    apply res1_in in Hu. destruct Hu as (w & Hw & Eu).
    intros b Hb Nb. destruct (kinds b Nb) as [K|K].
    + destruct (filter_two _ _ _ _ Ef b Hb K) as [-> | ->].
      * exists w. split; [exact Hw|]. rewrite Eu. apply E1, bindings_refl.
      * exists v. split; [exact Hv|]. apply E1, bindings_sym, Sv.
    + apply Cur; [exact K|]. cbn [fst add_formulas]. rewrite <- Eu. destruct C as [C|[C|C]].
      * exfalso. rewrite Forall_forall in C. apply (C b Hb). apply is_cur_ok, K.
      * apply at_most_count in C. rewrite Ef in C. cbn in C. lia.
      * rewrite Forall_forall in C. specialize (C x Ix (proj1 (is_new_ok x) Nx)). rewrite Forall_forall in C. apply C, Hw.
Qed.
(** closing by itself *)
Theorem itself_all_closed l r : select mg cur (List.length l) (map Answer l) = Ok (CloseByItself, r) ->
  r = [] /\ Forall (fun a => an_closed a = true /\ an_substs a = []) l.
Proof.
  intros H. rewrite select_answers in H. destruct (forallb an_closed l) eqn:Ecl; [|discriminate].
  destruct (taken_ok l) as (T1 & T2 & T3 & T4 & T5). set (a := taken l) in *.
  destruct (finish mg a) as [[v R]| | |] eqn:F; cbn in H; try discriminate. injection H as -> <-.
  unfold finish in F. rewrite T2 in F. destruct (filter is_new l) as [|x [|y q]] eqn:Ef; cbn [List.length] in F.
  - injection T1 as T1 _. rewrite T3, T1 in F. destruct (existsb is_cur l) eqn:Es; [discriminate|]. injection F as <-. split; [reflexivity|].
    apply Forall_forall. intros b Hb. split; [rewrite forallb_forall in Ecl; apply Ecl, Hb|].
    destruct (an_substs b) eqn:Eb; [reflexivity|]. destruct (kinds b) as [K|K]; [rewrite Eb; discriminate| |].
    + assert (I : In b (filter is_new l)) by (apply filter_In; auto). rewrite Ef in I. destruct I.
    + assert (existsb is_cur l = true) by (apply existsb_exists; eauto). congruence.
  - destruct (saf_empty (ac_current a)); [discriminate|]. destruct (merge_current mg _ _); cbn in F; discriminate.
  - destruct (ac_common a); [|discriminate]. destruct (ac_result a) as [|? [|]]; discriminate.
Qed.
(** an open child *)
Theorem open_child l : (exists a, In a l /\ an_closed a = false) -> exists r, select mg cur (List.length l) (map Answer l) = Ok (Opened, r).
Proof.
  intros (a & Ha & Ca). rewrite select_answers. destruct (forallb an_closed l) eqn:E; [rewrite forallb_forall in E; rewrite (E a Ha) in Ca; discriminate|]. eauto.
Qed.
Theorem opened_child l r : select mg cur (List.length l) (map Answer l) = Ok (Opened, r) -> exists a, In a l /\ an_closed a = false.
Proof.
  intros H. rewrite select_answers in H. destruct (forallb an_closed l) eqn:E.
  - exfalso. destruct (finish mg (taken l)) as [[v R]| | |] eqn:F; cbn in H; try discriminate. injection H as -> _. unfold finish in F.
    destruct (ac_count (taken l)) as [|[|]]; [destruct (ac_seen _); discriminate| |].
    + destruct (saf_empty _); [discriminate|]. destruct (merge_current mg _ _); cbn in F; discriminate.
    + destruct (ac_common _); [|discriminate]. destruct (ac_result _) as [|? [|]]; discriminate.
  - assert (K : exists a, In a l /\ negb (an_closed a) = true).
    { apply existsb_exists. clear H. induction l as [|b l IH]; cbn in *; [discriminate|]. destruct (an_closed b); cbn in *; [apply IH, E|reflexivity]. }
    destruct K as (a & Ha & Ka). exists a. split; [exact Ha|]. destruct (an_closed a); [discriminate|reflexivity].
Qed.

(** C28 *)
Lemma perm_filter {A} (f : A -> bool) l l' : Permutation l l' -> Permutation (filter f l) (filter f l').
Proof. induction 1; cbn; [constructor|destruct (f x); auto|destruct (f x), (f y); auto using perm_swap|eauto using perm_trans]. Qed.
Lemma perm_existsb {A} (f : A -> bool) l l' : Permutation l l' -> existsb f l = existsb f l'.
Proof. induction 1; cbn; [reflexivity|congruence|rewrite !orb_assoc, (orb_comm (f y)); reflexivity|congruence]. Qed.
Lemma perm_forallb {A} (f : A -> bool) l l' : Permutation l l' -> forallb f l = forallb f l'.
Proof. induction 1; cbn; [reflexivity|congruence|rewrite !andb_assoc, (andb_comm (f y)); reflexivity|congruence]. Qed.
Lemma same_nil s t : same_bindings s t -> (s = [] <-> t = []).
Proof. intros H. inversion H; subst; split; congruence. Qed.
Lemma remove_keeps l s : In s (remove_empty l) <-> In s l /\ fst s <> [].
Proof. unfold remove_empty. rewrite filter_In. destruct (fst s); split; intros [H1 H2]; split; auto; try discriminate; congruence. Qed.
Lemma remove_set l r : same_set l r -> same_set (remove_empty l) (remove_empty r).
Proof.
  intros [H1 H2]. split; intros s Hs; apply remove_keeps in Hs; destruct Hs as [Hs N].
  - destruct (H1 s Hs) as (t & Ht & S). exists t. split; [|exact S]. apply remove_keeps. split; [exact Ht|]. rewrite <- (same_nil _ _ S). exact N.
  - destruct (H2 s Hs) as (t & Ht & S). exists t. split; [|exact S]. apply remove_keeps. split; [exact Ht|]. rewrite (same_nil _ _ S). exact N.
Qed.
Lemma set_of_fst l r : map fst l = map fst r -> same_set l r.
Proof.
  revert r. induction l as [|a l IH]; intros [|b r] E; cbn in E; try discriminate; [split; intros s []|]. injection E as E1 E2. destruct (IH r E2) as [I1 I2].
  split; intros s [<-|Hs].
  - exists b. split; [left; reflexivity|]. rewrite E1. apply bindings_refl.
  - destruct (I1 s Hs) as (t & Ht & S). exists t. split; [right; exact Ht|exact S].
  - exists a. split; [left; reflexivity|]. rewrite E1. apply bindings_refl.
  - destruct (I2 s Hs) as (t & Ht & S). exists t. split; [right; exact Ht|exact S].
Qed.
Lemma set_refl l : same_set l l.
Proof. apply set_of_fst. reflexivity. Qed.
Lemma merge_empty c l : saf_empty c = true -> (forall x, In x l -> ~ same x c) -> merge_current mg c l = Ok l.
Proof.
  intros Ec. induction l as [|s l IH]; intros N; cbn; [reflexivity|].
  destruct (same_subst (fst s) (fst c)) eqn:E; [apply subst_eqb in E; destruct (N s (or_introl eq_refl) E)|].
  assert (Es : saf_empty s = false).
  { destruct (saf_empty s) eqn:Es; [|reflexivity]. apply empty_fst in Es. apply empty_fst in Ec. destruct (N s (or_introl eq_refl)). rewrite Es, Ec. apply bindings_refl. }
  unfold merge_saf. rewrite Es, Ec. cbn. rewrite IH; [reflexivity|]. intros x Hx. apply N. right. exact Hx.
Qed.
Lemma merge_saf_fst s c c' m m' : mg (fst s) [] = Ok (fst s) -> fst c = fst c' -> ~ same s c -> merge_saf mg s c = Ok m -> merge_saf mg s c' = Ok m' -> fst m = fst m'.
Proof.
  intros Z E N. unfold merge_saf. destruct (saf_empty s) eqn:Es; [intros H H'; congruence|].
  assert (K : forall d, fst d = fst c -> forall x, (if saf_empty d then Ok s else do t <- mg (fst s) (fst d); Ok (t, fold_left form_add (snd d) (snd s))) = Ok x -> mg (fst s) (fst c) = Ok (fst x)).
  { intros d Ed x Hx. rewrite <- Ed. destruct (saf_empty d) eqn:Ee; [rewrite (empty_fst _ Ee), Z; congruence|].
    destruct (mg (fst s) (fst d)); cbn in Hx; try discriminate. injection Hx as <-. reflexivity. }
  intros H H'. apply K in H; [|reflexivity]. apply K in H'; [|congruence]. congruence.
Qed.
Lemma merge_current_fst c c' : fst c = fst c' -> forall l r r', (forall s, In s l -> mg (fst s) [] = Ok (fst s)) ->
  merge_current mg c l = Ok r -> merge_current mg c' l = Ok r' -> map fst r = map fst r'.
Proof.
  intros E. induction l as [|s l IH]; intros r r' Z H H'; cbn in H, H'; [congruence|]. rewrite <- E in H'.
  assert (Z' : forall s, In s l -> mg (fst s) [] = Ok (fst s)) by (intros t Ht; apply Z; right; exact Ht).
  destruct (same_subst (fst s) (fst c)) eqn:Es; [apply (IH _ _ Z' H H')|].
  destruct (merge_saf mg s c) as [m| | |] eqn:M; cbn in H; try discriminate. destruct (merge_current mg c l) as [r0| | |]; cbn in H; try discriminate.
  destruct (merge_saf mg s c') as [m'| | |] eqn:M'; cbn in H'; try discriminate. destruct (merge_current mg c' l) as [r0'| | |]; cbn in H'; try discriminate.
  injection H as <-. injection H' as <-. cbn. rewrite (IH r0 r0' Z' eq_refl eq_refl). f_equal. apply (merge_saf_fst s c c'); auto; [apply Z; left; reflexivity|].
  intros K. apply subst_eqb in K. congruence.
Qed.
Lemma two_in L1 L2 s : In s (fold_left (add_result cur) L2 (res1 L1)) -> ~ same s cur /\ exists v, (In v L1 \/ In v L2) /\ fst v = fst s.
Proof.
  intros H. split.
  - revert H. apply results_not_cur. apply results_not_cur. intros x [].
  - apply results_in in H. destruct H as [(y & Hy & E)|(v & Hv & E)]; [|eauto]. apply res1_in in Hy. destruct Hy as (v & Hv & Ev). exists v. split; [auto|congruence].
Qed.
Lemma two_cover L1 L2 v : In v L1 \/ In v L2 -> ~ same v cur -> exists s, In s (fold_left (add_result cur) L2 (res1 L1)) /\ same v s.
Proof.
  intros H N. assert (C : covers (fold_left (add_result cur) L2 (res1 L1)) v).
  { apply results_cover. destruct H as [H|H]; [left; apply results_cover; auto|auto]. }
  destruct C as [C|C]; [contradiction|exact C].
Qed.
Lemma two_set L1 L2 : same_set (fold_left (add_result cur) L2 (res1 L1)) (fold_left (add_result cur) L1 (res1 L2)).
Proof.
  assert (K : forall A B s, In s (fold_left (add_result cur) B (res1 A)) -> exists t, In t (fold_left (add_result cur) A (res1 B)) /\ same s t).
  { intros A B s H. apply two_in in H. destruct H as (N & v & Hv & E). destruct (two_cover B A v) as (t & Ht & S); [tauto|rewrite E; exact N|]. exists t. rewrite <- E. auto. }
  split; [apply K|]. intros t Ht. destruct (K _ _ _ Ht) as (s & Hs & S). exists s. split; [exact Hs|apply bindings_sym, S].
Qed.
Lemma common_set L1 L2 : same_set (common_of L2 (res1 L1)) (common_of L1 (res1 L2)).
Proof.
  assert (K : forall A B s, In s (common_of B (res1 A)) -> exists t, In t (common_of A (res1 B)) /\ same s t).
  { intros A B s H. apply common_in in H. destruct H as (v & x & Hv & Hx & S & ->). cbn [add_formulas fst].
    assert (Nx : ~ same x cur) by (revert Hx; apply results_not_cur; intros y []). destruct (res1_in A x Hx) as (w & Hw & Ew).
    assert (Nv : ~ same v cur) by (intros Q; apply Nx; eapply bindings_trans; [apply bindings_sym, S|exact Q]).
    assert (Cv : covers (res1 B) v) by (apply results_cover; auto). destruct Cv as [Q|(y & Hy & Sy)]; [contradiction|].
    exists (add_formulas y (snd w)). split.
    - apply common_in. exists w, y. repeat split; auto. rewrite Ew. eapply bindings_trans; [apply bindings_sym, S|exact Sy].
    - cbn. eapply bindings_trans; [apply bindings_sym, S|exact Sy]. }
  split; [apply K|]. intros t Ht. destruct (K _ _ _ Ht) as (s & Hs & S). exists s. split; [exact Hs|apply bindings_sym, S].
Qed.
Lemma set_nil l r : same_set l r -> (l = [] <-> r = []).
Proof.
  intros [H1 H2]. split; intros ->; [destruct r as [|t r]; [reflexivity|destruct (H2 t (or_introl eq_refl)) as (s & [] & _)]|].
  destruct l as [|s l]; [reflexivity|destruct (H1 s (or_introl eq_refl)) as (t & [] & _)].
Qed.
(** the verdict when two children want a substitution *)
Lemma finish_two a x y : distinct x -> distinct y -> is_new x = true -> is_new y = true -> ac_count a = 2%nat ->
  ac_result a = fold_left (add_result cur) (an_substs y) (res1 (an_substs x)) -> ac_common a = common_of (an_substs y) (res1 (an_substs x)) ->
  finish mg a = match ac_common a with [] => Ok (SubstForChildren, ac_result a) | l => Ok (SubstForParent, l) end.
Proof.
  intros Dx Dy Nx Ny E2 Er Ec. unfold finish. rewrite E2. destruct (ac_common a) as [|c cs] eqn:Ea; [|reflexivity].
  destruct (ac_result a) as [|s [|]]; try reflexivity. exfalso. apply (two_results x y Dx Dy Nx Ny s); auto.
Qed.
Theorem any_order l l' v v' r r' : (forall a s, In a l -> In s (an_substs a) -> mg (fst s) [] = Ok (fst s)) -> Permutation l l' -> at_most (wants cur) 2 l -> Forall distinct l ->
  select mg cur (List.length l) (map Answer l) = Ok (v, r) -> select mg cur (List.length l') (map Answer l') = Ok (v', r') ->
  v = v' /\ (v <> Opened -> same_set r r').
Proof.
  intros Z P A2 D H H'. rewrite select_answers in H, H'. rewrite <- (perm_forallb _ _ _ P) in H'.
  destruct (forallb an_closed l); [|injection H as <- _; injection H' as <- _; split; [reflexivity|congruence]].
  destruct (taken_ok l) as (T1 & T2 & T3 & T4 & T5). destruct (taken_ok l') as (T1' & T2' & T3' & T4' & T5').
  set (a := taken l) in *. set (a' := taken l') in *. rewrite <- (perm_existsb _ _ _ P) in T3', T5'.
  destruct (finish mg a) as [[w R]| | |] eqn:F; cbn in H; try discriminate. injection H as -> <-.
  destruct (finish mg a') as [[w' R']| | |] eqn:F'; cbn in H'; try discriminate. injection H' as -> <-.
  cut (v = v' /\ same_set R R'); [intros [-> S]; split; [reflexivity|intros _; apply remove_set, S]|].
  apply at_most_count in A2. pose proof (perm_filter is_new _ _ P) as Pf. pose proof (proj1 (Forall_forall _ _) D) as D'.
  destruct (filter is_new l) as [|x [|y [|z q]]] eqn:Ef; cbn [List.length] in A2; [| | |lia].
  - apply Permutation_nil in Pf. rewrite Pf in *. unfold finish in F, F'. rewrite T2 in F. rewrite T2' in F'. cbn in F, F', T1, T1'. injection T1 as T1 _. injection T1' as T1' _.
    rewrite T3, T1 in F. rewrite T3', T1' in F'. destruct (existsb is_cur l).
    + injection F as <- <-. injection F' as <- <-. split; [reflexivity|]. apply set_of_fst. cbn. congruence.
    + injection F as <- <-. injection F' as <- <-. split; [reflexivity|apply set_refl].
  - apply Permutation_length_1_inv in Pf. rewrite Pf in *. unfold finish in F, F'. rewrite T2 in F. rewrite T2' in F'. cbn [List.length] in F, F'.
    cbn [map fold_left] in T1, T1'. injection T1 as T1 _. injection T1' as T1' _. fold (res1 (an_substs x)) in T1, T1'.
    assert (Q : forall b S w, fst (ac_current b) = fst cur -> ac_result b = res1 (an_substs x) ->
      (if saf_empty (ac_current b) then Ok (SubstForParent, ac_result b) else do l <- merge_current mg (ac_current b) (ac_result b); Ok (SubstForParent, l)) = Ok (w, S) ->
      w = SubstForParent /\ merge_current mg (ac_current b) (res1 (an_substs x)) = Ok S).
    { intros b S w Eb Er Hb. rewrite Er in Hb. destruct (saf_empty (ac_current b)) eqn:Ee.
      - injection Hb as <- <-. split; [reflexivity|]. apply merge_empty; [exact Ee|]. rewrite Eb. apply results_not_cur. intros u [].
      - destruct (merge_current mg (ac_current b) (res1 (an_substs x))) as [u| | |]; cbn in Hb; try discriminate. injection Hb as <- <-. auto. }
    apply Q in F; auto. apply Q in F'; auto. destruct F as [-> F], F' as [-> F']. split; [reflexivity|]. apply set_of_fst.
    apply (merge_current_fst (ac_current a) (ac_current a')) with (l := res1 (an_substs x)); auto; [congruence|].
    intros s Hs. apply res1_in in Hs. destruct Hs as (w & Hw & <-). apply (Z x); [|exact Hw].
    assert (I : In x (filter is_new l)) by (rewrite Ef; left; reflexivity). apply filter_In in I. apply I.
  - assert (Ix : In x l /\ is_new x = true) by (apply filter_In; rewrite Ef; left; reflexivity).
    assert (Iy : In y l /\ is_new y = true) by (apply filter_In; rewrite Ef; right; left; reflexivity).
    destruct Ix as [Ix Nx], Iy as [Iy Ny].
    cbn [map fold_left] in T1. injection T1 as T1 Tc. fold (res1 (an_substs x)) in T1, Tc.
    rewrite (finish_two a x y) in F; auto.
    apply Permutation_length_2_inv in Pf. destruct Pf as [Pf|Pf]; rewrite Pf in *; cbn [map fold_left] in T1'; injection T1' as T1' Tc'.
    + fold (res1 (an_substs x)) in T1', Tc'. rewrite (finish_two a' x y) in F'; auto. rewrite T1, Tc in F. rewrite T1', Tc' in F'.
      rewrite F in F'. injection F' as <- <-. split; [reflexivity|apply set_refl].
    + fold (res1 (an_substs y)) in T1', Tc'. rewrite (finish_two a' y x) in F'; auto. rewrite T1, Tc in F. rewrite T1', Tc' in F'.
      pose proof (common_set (an_substs x) (an_substs y)) as Cs. pose proof (set_nil _ _ Cs) as Cn. pose proof (two_set (an_substs x) (an_substs y)) as Ts.
      destruct (common_of (an_substs y) (res1 (an_substs x))) as [|c cs], (common_of (an_substs x) (res1 (an_substs y))) as [|d ds].
      * injection F as <- <-. injection F' as <- <-. split; [reflexivity|exact Ts].
      * destruct Cn as [Cn _]. specialize (Cn eq_refl). discriminate.
      * destruct Cn as [_ Cn]. specialize (Cn eq_refl). discriminate.
      * injection F as <- <-. injection F' as <- <-. split; [reflexivity|exact Cs].
Qed.

(** *** any number of children: the last one that wants a substitution and an earlier one agree *)
Lemma grow_in P x : In x (fst (fold_left grow P ([], []))) -> exists L v, In L P /\ In v L /\ fst v = fst x.
Proof.
  assert (K : forall P p, In x (fst (fold_left grow P p)) -> (exists y, In y (fst p) /\ fst y = fst x) \/ exists L v, In L P /\ In v L /\ fst v = fst x).
  { clear P. induction P as [|L P IH]; intros p H; cbn in H; [left; exists x; auto|]. apply IH in H. destruct H as [(y & Hy & E)|(M & v & HM & Hv & E)].
    - cbn in Hy. apply results_in in Hy. destruct Hy as [(z & Hz & E2)|(v & Hv & E2)].
      + left. exists z. split; [exact Hz|congruence].
      + right. exists L, v. split; [left; reflexivity|]. split; [exact Hv|congruence].
    - right. exists M, v. split; [right; exact HM|auto]. }
  intros H. destruct (K _ _ H) as [(y & [] & _)|H']; exact H'.
Qed.
Lemma grow_cover P : forall p w, covers (fst p) w \/ (exists L, In L P /\ In w L) -> covers (fst (fold_left grow P p)) w.
Proof.
  induction P as [|L P IH]; intros p w H; cbn; [destruct H as [H|(L & [] & _)]; exact H|]. apply IH. cbn.
  destruct H as [H|(M & [<-|HM] & Hw)]; [left; apply results_cover; auto|left; apply results_cover; auto|right; eauto].
Qed.
Lemma filter_none {A} (f : A -> bool) l : (forall a, In a l -> f a = false) -> filter f l = [].
Proof. induction l as [|b l IH]; intros H; cbn; [reflexivity|]. rewrite (H b (or_introl eq_refl)). apply IH. intros a Ha. apply H. right. exact Ha. Qed.
Theorem parent_last_two l1 a l2 r : Forall distinct (l1 ++ a :: l2) -> wants cur a -> (exists b, In b l1 /\ wants cur b) -> (forall b, In b l2 -> ~ wants cur b) ->
  select mg cur (List.length (l1 ++ a :: l2)) (map Answer (l1 ++ a :: l2)) = Ok (SubstForParent, r) ->
  forall s, In s r -> (exists t, In t (an_substs a) /\ same s t) /\ exists b t, In b l1 /\ wants cur b /\ In t (an_substs b) /\ same s t.
Proof.
  intros D Wa (b0 & Hb0 & Wb0) N2 H s Hs. set (l := l1 ++ a :: l2) in *. rewrite select_answers in H. destruct (forallb an_closed l); [|discriminate].
  destruct (taken_ok l) as (T1 & T2 & T3 & T4 & T5). set (c := taken l) in *.
  destruct (finish mg c) as [[v R]| | |] eqn:F; cbn in H; try discriminate. injection H as -> <-. apply remove_in in Hs.
  assert (Ef : filter is_new l = filter is_new l1 ++ [a]).
  { unfold l. rewrite filter_app. cbn. rewrite (proj2 (is_new_ok a) Wa). rewrite (filter_none is_new l2); [reflexivity|].
    intros b Hb. destruct (is_new b) eqn:E; [|reflexivity]. apply is_new_ok in E. destruct (N2 b Hb E). }
  rewrite Ef in T1, T2. rewrite map_app, fold_left_app in T1. cbn in T1. rewrite app_length in T2. cbn in T2.
  set (G := fst (fold_left grow (map an_substs (filter is_new l1)) ([], []))) in *. injection T1 as T1 Tc.
  assert (Ib0 : In b0 (filter is_new l1)) by (apply filter_In; split; [exact Hb0|apply is_new_ok, Wb0]).
  assert (Cnt : exists k, ac_count c = S (S k)) by (rewrite T2; destruct (filter is_new l1) as [|? q]; [destruct Ib0|exists (List.length q); cbn; rewrite Nat.add_1_r; reflexivity]).
  destruct Cnt as (k & Ck). unfold finish in F. rewrite Ck in F. pose proof (proj1 (Forall_forall _ _) D) as D'.
  assert (Hc : In s (ac_common c)).
  { destruct (ac_common c) as [|c0 cs] eqn:Ec; [|injection F as <-; exact Hs].
    destruct (ac_result c) as [|s0 [|]] eqn:Er; try discriminate. exfalso.
    destruct (new_has a) as (w & Hw & Kw); [apply D'; unfold l; apply in_or_app; right; left; reflexivity|apply is_new_ok, Wa|].
    destruct (new_has b0) as (u & Hu & Ku); [apply D'; unfold l; apply in_or_app; left; exact Hb0|apply is_new_ok, Wb0|].
    assert (Cu : covers G u) by (apply grow_cover; right; exists (an_substs b0); split; [apply in_map, Ib0|exact Hu]).
    assert (Cu' : covers [s0] u) by (rewrite T1; apply results_cover; left; exact Cu).
    assert (Cw : covers [s0] w) by (rewrite T1; apply results_cover; right; exact Hw).
    destruct Cu as [Cu|(x & Hx & Sx)]; [contradiction|]. destruct Cu' as [Cu'|(z & [<-|[]] & Sz)]; [contradiction|]. destruct Cw as [Cw|(z & [<-|[]] & Sw)]; [contradiction|].
    assert (I : In (add_formulas x (snd w)) (common_of (an_substs a) G)).
    { apply common_in. exists w, x. repeat split; auto. eapply bindings_trans; [exact Sw|]. eapply bindings_trans; [apply bindings_sym, Sz|exact Sx]. }
    assert (Q : common_of (an_substs a) G = []) by (symmetry; exact Tc). rewrite Q in I. destruct I. }
  rewrite Tc in Hc. apply common_in in Hc. destruct Hc as (v & x & Hv & Hx & S & ->). cbn [fst add_formulas]. split.
  - exists v. split; [exact Hv|apply bindings_sym, S].
  - apply grow_in in Hx. destruct Hx as (L & w & HL & Hw & E). apply in_map_iff in HL. destruct HL as (b & <- & Hb). apply filter_In in Hb. destruct Hb as [Hb Nb].
    exists b, w. split; [exact Hb|]. split; [apply is_new_ok, Nb|]. split; [exact Hw|]. rewrite E. apply bindings_refl.
Qed.
End Sel.
