(** Unification adds nothing: a solution of the given bindings that equates the two terms satisfies the result, in every
    algebra where the functions are injective. *)
From Coq Require Import ZArith List Bool String Lia PeanoNat.
From Verif Require Import Ast_Model Ast_Proofs Occ_Spec Sem_Spec Unif_Model Unif_Spec UnifLoss_Model Elim_Proofs UnifRun_Proofs UnifLoss_Proofs Unif_Final.
Import ListNotations.
Open Scope list_scope.
Open Scope Z_scope.

Section Mgu.
Variable ar : signature.
Variable fe : nat.
Variable add : term -> term -> substs -> out substs.
Hypothesis Hadd : add_ok ar False add.
Variable A : alg.
Variable w : Z -> dom A.
Hypothesis Inj : forall p tys l tys' l', a_fun A p tys l = a_fun A p tys' l' -> l = l'.
Hypothesis Hc : forall a b s s', okS ar s -> well ar a -> well ar b -> add a b s = Ok s' -> is_failure s' = false ->
  solves A w s -> tev A w a = tev A w b -> solves A w s'.
Notation exec := (exec add).
Notation exec_all := (exec_all add).
Notation Inv := (Inv ar False).

Definition Good (mt : list meta) (m : mach) : Prop := solves A w (mc_meta m) /\ Binds mt m A w.

Lemma bind_ok {X Y} (x : out X) (f : X -> out Y) y : bind x f = Ok y -> exists a, x = Ok a /\ f a = Ok y.
Proof. destruct x; cbn; intros H; try discriminate. eauto. Qed.
Lemma add_okS a b s s' : okS ar s -> well ar a -> well ar b -> add a b s = Ok s' -> is_failure s' = false -> okS ar s'.
Proof. intros O Wa Wb E F. pose proof (Hadd a b s O Wa Wb) as Q. rewrite E in Q. cbn in Q. destruct Q as [Q|[Q _]]; [congruence|exact Q]. Qed.
Lemma try_sub_c a b m m' : okS ar (mc_meta m) -> well ar a -> well ar b -> try_substitute add a b m = Ok m' ->
  solves A w (mc_meta m) -> tev A w a = tev A w b -> exists s, m' = set_meta m s /\ okS ar s /\ solves A w s.
Proof.
  intros O Wa Wb E Hs Hab. unfold try_substitute in E. apply bind_ok in E. destruct E as (s & Es & E).
  destruct (is_failure s) eqn:F; [discriminate|]. injection E as <-. exists s. split; [reflexivity|]. split; [exact (add_okS a b (mc_meta m) s O Wa Wb Es F)|].
  exact (Hc a b (mc_meta m) s O Wa Wb Es F Hs Hab).
Qed.
Lemma subst_at_some l i a : subst_at l i = Some a -> In (i, a) l.
Proof.
  induction l as [|[j t] r IH]; cbn; [discriminate|]. destruct (Nat.eqb_spec j i) as [->|]; [intros E; injection E as ->; auto|auto].
Qed.
Lemma compares_c n d js : forall m m', okS ar (mc_meta m) -> (forall i u, In (i, u) (mc_subst m) -> well ar u) ->
  (forall j a, j = n \/ In j js -> In (j, a) (mc_subst m) -> tev A w a = d) ->
  exec_all (map (fun j => Compare j n) js) m = Ok m' -> solves A w (mc_meta m) -> exists s, m' = set_meta m s /\ okS ar s /\ solves A w s.
Proof.
  induction js as [|j js IH]; intros m m' O W D E Hs.
  { injection E as <-. exists (mc_meta m). split; [destruct m; reflexivity|]. auto. }
  cbn [map Unif_Model.exec_all] in E. apply bind_ok in E. destruct E as (m1 & E1 & E).
  assert (Q : exists s, m1 = set_meta m s /\ okS ar s /\ solves A w s).
  { assert (Same : exists s, m = set_meta m s /\ okS ar s /\ solves A w s) by (exists (mc_meta m); split; [destruct m; reflexivity|auto]).
    cbn -[unwrap term_eqb try_substitute] in E1. destruct (unlocked m); [|injection E1 as <-; exact Same].
    destruct (subst_at (mc_subst m) j) as [a|] eqn:Ea; [destruct (subst_at (mc_subst m) n) as [b|] eqn:Eb|]; try (injection E1 as <-; exact Same).
    apply subst_at_some in Ea, Eb.
    destruct (unwrap_ok ar (mc_meta m) O (S (List.length (mc_meta m))) [] a (W _ _ Ea)) as [Wa Ta].
    destruct (unwrap_ok ar (mc_meta m) O (S (List.length (mc_meta m))) [] b (W _ _ Eb)) as [Wb Tb].
    change (unwrap_from _ [] (mc_meta m) a) with (unwrap (mc_meta m) a) in *.
    change (unwrap_from _ [] (mc_meta m) b) with (unwrap (mc_meta m) b) in *.
    destruct (term_eqb (unwrap (mc_meta m) a) (unwrap (mc_meta m) b)); [injection E1 as <-; exact Same|].
    apply (try_sub_c _ _ m m1 O Wa Wb E1 Hs). rewrite (Ta A w Hs), (Tb A w Hs). rewrite (D j a), (D n b); auto. right. left. reflexivity. }
  destruct Q as (s1 & -> & O1 & H1).
  destruct (IH (set_meta m s1) m' O1 W) as (s2 & -> & O2 & H2); auto.
  - intros i a Hi Hin. apply (D i a); [|exact Hin]. destruct Hi as [Hi|Hi]; [auto|]. right. right. exact Hi.
  - exists s2. auto.
Qed.
Lemma Binds_ext mt e m : (forall i u, In (i, u) (mc_subst m) -> (i < List.length mt)%nat) -> Binds mt m A w -> Binds (mt ++ e) m A w.
Proof. intros L H i u x Hin Hx. apply (H i u x Hin). rewrite nth_error_app1 in Hx; [exact Hx|apply (L i u Hin)]. Qed.
Lemma right_c mt m m' : m_right m = Ok m' -> Good mt m -> Good mt m'.
Proof.
  unfold m_right. destruct (unlocked m); [|intros E; injection E as <-; auto]. destruct (Nat.leb _ _); [discriminate|]. intros E; injection E as <-. auto.
Qed.
Lemma check_end_same m m' : check_end m = Ok m' -> m' = m.
Proof. unfold check_end. destruct (_ && _); [discriminate|]. intros E; injection E; auto. Qed.

Lemma meta_c x right mt pc m c m' : pmeta ar x -> Inv mt m -> at_ m c -> well ar c ->
  exec_all (fst (parse_term right (Meta x) mt pc)) m = Ok m' -> Good mt m -> w (m_index x) = tev A w c -> Good (mt ++ [x]) m'.
Proof.
  intros Hx I Hat Wc E [G1 G2] Hxc. cbn [parse_term fst Unif_Model.exec_all] in E. pose proof I as (O & Lk & Pu & Po & Cn & Hl & N & _).
  assert (EP : exec (Put (List.length mt)) m = Ok (mkMach (mc_q m) (mc_count m) (mc_lock m) (mc_pushed m) (mc_poped m) (mc_post m)
     (mc_subst m ++ [(List.length mt, c)]) (mc_terms m) (mc_meta m) (mc_tot m) (mc_cnt m))).
  { cbn. rewrite (Inv_unl _ _ _ _ I). unfold current. rewrite Hat. reflexivity. }
  rewrite EP in E. cbn [bind] in E. clear EP. set (m1 := mkMach _ _ _ _ _ _ _ _ _ _ _) in E.
  rewrite exec_all_app in E. apply bind_ok in E. destruct E as (m2 & E2 & E). unfold comparisons in E2.
  assert (B1 : Binds (mt ++ [x]) m1 A w).
  { intros i u y Hin Hy. cbn in Hin. apply in_app_iff in Hin. destruct Hin as [Hin|[Hin|[]]].
    - apply (Binds_ext mt [x] m (fun i u H => proj1 (Hl i u H)) G2 i u y Hin Hy).
    - injection Hin as <- <-. rewrite nth_error_app2, Nat.sub_diag in Hy by lia. injection Hy as <-. exact Hxc. }
  assert (W1 : forall i u, In (i, u) (mc_subst m1) -> well ar u).
  { intros i u Hin. cbn in Hin. apply in_app_iff in Hin. destruct Hin as [Hin|[Hin|[]]]; [apply (Hl i u Hin)|injection Hin as <- <-; exact Wc]. }
  match type of E2 with Unif_Model.exec_all _ (map _ ?l) _ = _ => set (js := l) in * end.
  assert (D : forall j a, j = List.length mt \/ In j js -> In (j, a) (mc_subst m1) -> tev A w a = w (m_index x)).
  { intros j a Hj Hin. destruct Hj as [->|Hj].
    + symmetry. apply (B1 _ a x Hin). rewrite nth_error_app2, Nat.sub_diag by lia. reflexivity.
    + apply filter_In in Hj. destruct Hj as [Hj1 Hj2]. apply in_seq in Hj1. destruct (nth_error mt j) as [y|] eqn:Ey; [|discriminate].
      apply meta_eqb_idx in Hj2. symmetry. replace (m_index x) with (m_index y) by congruence.
      apply (B1 j a y Hin). rewrite nth_error_app1; [exact Ey|]. apply nth_error_Some. congruence. }
  destruct (compares_c (List.length mt) (w (m_index x)) js m1 m2 O W1 D E2 G1) as (s & -> & Os & Hs).
  - assert (G : Good (mt ++ [x]) (set_meta m1 s)) by (split; [exact Hs|exact B1]).
    destruct right; cbn in E; [|injection E as <-; exact G]. apply bind_ok in E. destruct E as (m3 & E3 & E). injection E as <-. eapply right_c; eauto.
Qed.

(** the metavariable of the query against an application *)
Lemma unlock_c mt m b y t m' : Inv mt m -> at_ m (Meta y) -> pmeta ar y -> well ar t ->
  exec (End (Some t)) (mkMach (mc_q m) (mc_count m + 1) (mc_count m) b b (mc_post m) (mc_subst m) (mc_terms m) (mc_meta m) (mc_tot m) (mc_cnt m)) = Ok m' ->
  Good mt m -> w (m_index y) = tev A w t -> Good mt m'.
Proof.
  intros I Hat Hy Wt E [G1 G2] Hyt. pose proof I as (O & Lk & Pu & Po & Cn & _).
  cbn [Unif_Model.exec] in E. unfold try_unlock in E. cbn -[Z.add try_substitute locked_right check_end] in E.
  replace (mc_count m + 1 - 1) with (mc_count m) in E by lia. unfold unlocked in E. cbn -[Z.add try_substitute locked_right check_end] in E.
  replace (mc_count m =? -1) with false in E by (symmetry; apply Z.eqb_neq; lia). rewrite Z.eqb_refl in E.
  cbn -[Z.add try_substitute locked_right check_end] in E. unfold current in E. cbn -[Z.add try_substitute locked_right check_end] in E. rewrite Hat in E.
  cbn -[Z.add try_substitute locked_right check_end] in E.
  apply bind_ok in E. destruct E as (m1 & E1 & E). apply check_end_same in E. subst m1.
  apply bind_ok in E1. destruct E1 as (m1 & E1 & E).
  eapply try_sub_c in E1; [|exact O|exact Hy|exact Wt|exact G1|exact Hyt]. destruct E1 as (s & -> & Os & Hs).
  unfold locked_right in E. cbn -[Z.add m_right Z.sub] in E. destruct (b && b); [|injection E as <-; split; [exact Hs|exact G2]].
  destruct (_ <? _); [|injection E as <-; split; [exact Hs|exact G2]]. eapply right_c; [exact E|]. split; [exact Hs|exact G2].
Qed.

Definition comp_spec (t : term) : Prop := well ar t -> forall right mt m c m',
  Inv mt m -> at_ m c -> well ar c -> last_ok right m ->
  exec_all (fst (parse_term right t mt (List.length (mc_post m)))) m = Ok m' -> Good mt m -> tev A w t = tev A w c -> Good (mt ++ meta_list t) m'.

Lemma list_c l : Forall comp_spec l -> l <> [] -> Forall (well ar) l -> forall mt m pre cs m',
  Inv mt m -> mc_terms m = pre ++ cs -> mc_q m = List.length pre -> List.length cs = List.length l -> Forall (well ar) cs ->
  exec_all (fst (parse_list l mt (List.length (mc_post m)))) m = Ok m' -> Good mt m -> map (tev A w) l = map (tev A w) cs ->
  Good (mt ++ flat_map meta_list l) m'.
Proof.
  induction l as [|a r IH]; intros F Hne W mt m pre cs m' I T Q L Wc E G Hm; [congruence|].
  inversion F as [|? ? Fa Fr]; subst. inversion W as [|? ? Wa Wr]; subst.
  destruct cs as [|c cs]; [discriminate|]. inversion Wc as [|? ? Wc1 Wcs]; subst. injection L as L. cbn [map] in Hm. injection Hm as Hac Hm.
  rewrite parse_list_cons in E by (intros i E0; subst a; destruct Wa). rewrite exec_all_app in E. apply bind_ok in E. destruct E as (m1 & E1 & E).
  assert (Hat : at_ m c) by (unfold at_; rewrite T, Q, nth_error_app2, Nat.sub_diag by lia; reflexivity).
  assert (La : last_ok (nonempty r) m).
  { unfold last_ok. rewrite T, Q, app_length. cbn. destruct r as [|b r], cs as [|d cs]; cbn in *; try discriminate; lia. }
  pose proof (run_term ar False add Hadd a Wa (nonempty r) mt m c I Hat Wc1 La) as R1. rewrite E1 in R1. cbn in R1.
  destruct R1 as (S1 & _ & M1). pose proof S1 as (I1 & _ & _ & P1 & _ & _).
  pose proof (Fa Wa (nonempty r) mt m c m1 I Hat Wc1 La E1 G Hac) as G1.
  cbn [flat_map]. rewrite app_assoc. destruct r as [|b r].
  - cbn in E. injection E as <-. cbn. rewrite app_nil_r. exact G1.
  - destruct (M1 eq_refl) as [T1 Q1]. rewrite <- P1 in E.
    refine (IH Fr _ Wr (mt ++ meta_list a) m1 (pre ++ [c]) cs m' I1 _ _ L Wcs E G1 Hm); [discriminate| |].
    + rewrite T1, T, <- app_assoc. reflexivity.
    + rewrite Q1, Q, app_length. cbn. lia.
Qed.
Lemma Good_ext mt e m : Inv mt m -> Good mt m -> Good (mt ++ e) m.
Proof. intros (_ & _ & _ & _ & _ & Hl & _) [G1 G2]. split; [exact G1|]. apply Binds_ext; [intros i u H; apply (Hl i u H)|exact G2]. Qed.
Lemma end_c mt m t m' : Inv mt m -> 1 <= mc_count m -> exec (End t) m = Ok m' ->
  m' = goto (mc_q m) (mc_terms m) (mc_count m - 1) (mc_tot m) (mc_cnt m) (mc_post m) m.
Proof. intros I H E. pose proof (end_unl ar False add mt m t I H) as Q. rewrite E in Q. exact Q. Qed.

Lemma term_c t : comp_spec t.
Proof.
  induction t as [i|p tys l IH|i n|x] using term_ind'; intros Wt right mt m c m' I Hat Wc L E G Htc.
  1,3: destruct Wt.
  2: { cbn [meta_list]. eapply meta_c; eauto. }
  pose proof Wt as Wt'. rewrite well_fun in Wt'. destruct Wt' as (_ & Hlen & _ & Wl).
  pose proof I as (O & Lk & Pu & Po & Cn & Hl & N & R).
  assert (Iup : Inv mt (up m)) by (apply (Inv_goto ar False mt m (mc_q m) (mc_terms m) (mc_count m + 1) (mc_tot m) (mc_cnt m) (mc_post m)); [exact I|lia]).
  assert (HR : forall mt m2 m3, (if right then [Right] else []) = [Right] \/ True -> exec_all (if right then [Right] else []) m2 = Ok m3 -> Good mt m2 -> Good mt m3).
  { intros mt0 m2 m3 _ E0 G0. destruct right; cbn in E0; [|injection E0 as <-; exact G0]. apply bind_ok in E0. destruct E0 as (m4 & E4 & E0).
    injection E0 as <-. eapply right_c; eauto. }
  destruct c as [| q' tys' args' | |y]; try (destruct Wc; fail).
  - rewrite well_fun in Wc. destruct Wc as (Hty' & Hlen' & _ & Wl').
    assert (Hup : at_ (up m) (Fun q' tys' args')) by exact Hat.
    assert (CK : forall m1, exec (Check p) (up m) = Ok m1 -> m1 = up m /\ id_index q' = id_index p).
    { intros m1 E1. pose proof (check_fun ar False add mt (up m) p q' tys' args' Iup Hup) as Q. rewrite E1 in Q. exact Q. }
    destruct l as [|a r].
    + cbn [parse_term fst Unif_Model.exec_all] in E. rewrite (begin_fun ar False add mt m q' tys' args' I Hat) in E. cbn [bind] in E.
      apply bind_ok in E. destruct E as (m1 & E1 & E). destruct (CK m1 E1) as [-> Ei].
      apply bind_ok in E. destruct E as (m2 & E2 & E). apply (end_c mt _ _ _ Iup) in E2; [|cbn; lia]. subst m2.
      cbn [meta_list flat_map]. rewrite app_nil_r. apply (HR mt _ _ (or_intror Logic.I) E). exact G.
    + set (args := a :: r) in *. rewrite parse_fun in E by discriminate. cbn [meta_list].
      assert (Res : forall post tot cnt m4, List.length post = (if right then S (List.length (mc_post m)) else List.length (mc_post m)) ->
        id_index q' = id_index p ->
        exec_all (fst (parse_list args mt (if right then S (List.length (mc_post m)) else List.length (mc_post m)))) (goto 0 args' (mc_count m + 1) tot cnt post m) = Ok m4 ->
        Good (mt ++ flat_map meta_list args) m4 /\ Inv (mt ++ flat_map meta_list args) m4 /\ mc_post m4 = post /\ mc_count m4 = mc_count m + 1).
      { intros post tot cnt m4 Hp Ei E4.
        assert (I3 : Inv mt (goto 0 args' (mc_count m + 1) tot cnt post m)) by (apply Inv_goto; [exact I|lia]).
        assert (Ll : List.length args' = List.length args) by (rewrite Hlen', Ei; symmetry; exact Hlen).
        assert (RS : Forall (run_spec ar False add) args) by (apply Forall_forall; intros t _; apply (run_term ar False add Hadd)).
        pose proof (run_list ar False add args RS ltac:(discriminate) Wl mt _ [] args' I3 eq_refl eq_refl Ll Wl') as RL. cbn [mc_post goto] in RL. rewrite Hp in RL.
        rewrite E4 in RL. cbn in RL. destruct RL as ((I4 & _ & _ & P4 & C4 & _) & _). split; [|auto].
        pose proof (list_c args IH ltac:(discriminate) Wl mt _ [] args' m4 I3 eq_refl eq_refl Ll Wl') as LC. cbn [mc_post goto] in LC. rewrite Hp in LC.
        apply LC; [exact E4|exact G|]. cbn [tev] in Htc. rewrite Ei in Htc. apply Inj in Htc. exact Htc. }
      destruct (parse_list args mt _) as [is mt'] eqn:Epl. cbn [fst] in *. cbn [Unif_Model.exec_all] in E.
      rewrite (begin_fun ar False add mt m q' tys' args' I Hat) in E. cbn [bind] in E.
      apply bind_ok in E. destruct E as (m1 & E1 & E). destruct (CK m1 E1) as [-> Ei].
      destruct right.
      * cbn [app Unif_Model.exec_all] in E.
        assert (EP : exec (Push (List.length (mc_post m))) (up m) = Ok (goto (mc_q m) (mc_terms m) (mc_count m + 1) (mc_tot m) (mc_cnt m) (mc_post m ++ [(S (mc_q m), mc_terms m)]) m)).
        { cbn. change (unlocked (up m)) with (unlocked m). rewrite (Inv_unl _ _ _ _ I). reflexivity. }
        rewrite EP in E. cbn [bind] in E.
        assert (ED : exec Down (goto (mc_q m) (mc_terms m) (mc_count m + 1) (mc_tot m) (mc_cnt m) (mc_post m ++ [(S (mc_q m), mc_terms m)]) m) =
          Ok (goto 0 args' (mc_count m + 1) (mc_tot m + Z.of_nat (List.length args')) (mc_cnt m + 1) (mc_post m ++ [(S (mc_q m), mc_terms m)]) m)).
        { cbn -[Z.add Z.of_nat]. match goal with |- (if ?u then _ else _) = _ => replace u with true by (symmetry; exact (Inv_unl _ _ _ _ I)) end.
          unfold current. cbn -[Z.add Z.of_nat]. rewrite Hat. reflexivity. }
        rewrite ED in E. cbn [bind] in E. rewrite exec_all_app in E. apply bind_ok in E. destruct E as (m4 & E4 & E).
        destruct (Res (mc_post m ++ [(S (mc_q m), mc_terms m)]) _ _ m4 ltac:(rewrite app_length; cbn; lia) Ei E4) as (G4 & I4 & P4 & C4).
        cbn [Unif_Model.exec_all] in E.
        assert (EO : exec (Pop (List.length (mc_post m))) m4 = Ok (goto (S (mc_q m)) (mc_terms m) (mc_count m4) (mc_tot m4) (mc_cnt m4 + 1) (mc_post m) m4)).
        { cbn -[Z.add nth_error Nat.leb]. rewrite (Inv_unl _ _ _ _ I4). rewrite P4, nth_error_app2, Nat.sub_diag by lia. cbn [nth_error].
          unfold last_ok in L. replace (Nat.leb _ _) with false by (symmetry; apply Nat.leb_gt; exact L). rewrite remove_last. reflexivity. }
        rewrite EO in E. cbn [bind] in E. apply bind_ok in E. destruct E as (m5 & E5 & E). injection E as <-.
        apply (end_c (mt ++ flat_map meta_list args)) in E5; [|apply Inv_goto; [exact I4|lia]|cbn; lia]. subst m5. exact G4.
      * cbn [app Unif_Model.exec_all] in E.
        assert (ED : exec Down (up m) =
          Ok (goto 0 args' (mc_count m + 1) (mc_tot m + Z.of_nat (List.length args')) (mc_cnt m + 1) (mc_post m) m)).
        { cbn -[Z.add Z.of_nat]. match goal with |- (if ?u then _ else _) = _ => replace u with true by (symmetry; exact (Inv_unl _ _ _ _ I)) end.
          unfold current. cbn -[Z.add Z.of_nat]. rewrite Hat. reflexivity. }
        rewrite ED in E. cbn [bind] in E. rewrite exec_all_app in E. apply bind_ok in E. destruct E as (m4 & E4 & E).
        destruct (Res (mc_post m) _ _ m4 eq_refl Ei E4) as (G4 & I4 & P4 & C4).
        cbn [Unif_Model.exec_all] in E. apply bind_ok in E. destruct E as (m5 & E5 & E). injection E as <-.
        apply (end_c (mt ++ flat_map meta_list args)) in E5; [|exact I4|lia]. subst m5. exact G4.
  - set (m1 := mkMach (mc_q m) (mc_count m + 1) (mc_count m) false false (mc_post m) (mc_subst m) (mc_terms m) (mc_meta m) (mc_tot m) (mc_cnt m)) in *.
    assert (K1 : lockd m1).
    { unfold lockd, m1; cbn. split; [lia|]. apply nth_error_Some. unfold at_ in Hat. congruence. }
    assert (HC : exec (Check p) m1 = Ok m1) by (cbn; rewrite (lockd_unl _ K1); reflexivity).
    assert (U : forall b m2, exec (End (Some (Fun p tys l))) (mkMach (mc_q m) (mc_count m + 1) (mc_count m) b b (mc_post m) (mc_subst m) (mc_terms m) (mc_meta m) (mc_tot m) (mc_cnt m)) = Ok m2 ->
      Good (mt ++ flat_map meta_list l) m2).
    { intros b m2 E2.
      pose proof (unlock_ok ar False add Hadd mt m b y (Fun p tys l) right I Hat Wc Wt L) as Q. rewrite E2 in Q. cbn in Q. destruct Q as ((I2 & _) & _).
      apply Good_ext; [exact I2|]. apply (unlock_c mt m b y (Fun p tys l) m2 I Hat Wc Wt E2 G). symmetry. exact Htc. }
    cbn [meta_list]. destruct l as [|a r].
    + cbn [parse_term fst Unif_Model.exec_all] in E. rewrite (begin_meta ar False add mt m y I Hat) in E. cbn [bind] in E. fold m1 in E. rewrite HC in E. cbn [bind] in E.
      apply bind_ok in E. destruct E as (m2 & E2 & E). apply (HR _ _ _ (or_intror Logic.I) E). apply (U false m2 E2).
    + set (args := a :: r) in *. rewrite parse_fun in E by discriminate.
      destruct (parse_list args mt _) as [is mt'] eqn:Epl. cbn [fst] in E.
      assert (LL : forall m, lockd m -> exists b, exec_all is m = Ok (flags b m)).
      { intros m0 K0. destruct (locked_list add args mt (if right then S (List.length (mc_post m)) else List.length (mc_post m)) m0 K0) as (b & E0).
        rewrite Epl in E0. exists b. exact E0. }
      cbn [Unif_Model.exec_all] in E. rewrite (begin_meta ar False add mt m y I Hat) in E. cbn [bind] in E. fold m1 in E. rewrite HC in E. cbn [bind] in E.
      destruct right.
      * cbn [app Unif_Model.exec_all] in E.
        set (m2 := mkMach (mc_q m) (mc_count m + 1) (mc_count m) true false (mc_post m) (mc_subst m) (mc_terms m) (mc_meta m) (mc_tot m) (mc_cnt m)) in *.
        assert (EP : exec (Push (List.length (mc_post m))) m1 = Ok m2) by (cbn; rewrite (lockd_unl _ K1); reflexivity).
        rewrite EP in E. cbn [bind] in E.
        assert (K2 : lockd m2) by exact K1.
        assert (ED : exec Down m2 = Ok m2) by (cbn; rewrite (lockd_unl _ K2); reflexivity). rewrite ED in E. cbn [bind] in E.
        destruct (LL m2 K2) as (b & E2). rewrite exec_all_app, E2 in E. cbn [bind Unif_Model.exec_all] in E.
        assert (EO : exec (Pop (List.length (mc_post m))) (flags b m2) = Ok (mkMach (mc_q m) (mc_count m + 1) (mc_count m) true true (mc_post m) (mc_subst m) (mc_terms m) (mc_meta m) (mc_tot m) (mc_cnt m))).
        { cbn. match goal with |- (if ?u then _ else _) = _ => replace u with false by (symmetry; exact (lockd_unl _ K1)) end. reflexivity. }
        rewrite EO in E. cbn [bind] in E. apply bind_ok in E. destruct E as (m3 & E3 & E). injection E as <-. apply (U true m3 E3).
      * cbn [app Unif_Model.exec_all] in E.
        assert (ED : exec Down m1 = Ok m1) by (cbn; rewrite (lockd_unl _ K1); reflexivity). rewrite ED in E. cbn [bind] in E.
        destruct (LL m1 K1) as (b & E2). rewrite exec_all_app, E2 in E. cbn [bind Unif_Model.exec_all] in E.
        change (flags b m1) with (mkMach (mc_q m) (mc_count m + 1) (mc_count m) b b (mc_post m) (mc_subst m) (mc_terms m) (mc_meta m) (mc_tot m) (mc_cnt m)) in E.
        apply bind_ok in E. destruct E as (m3 & E3 & E). injection E as <-. apply (U b m3 E3).
Qed.

(** ** Reading the machine *)
Lemma solves_set s k v : solves A w s -> w (m_index k) = tev A w v -> solves A w (sset s k v).
Proof. intros H E k' t Hin. apply sset_in in Hin. destruct Hin as [Hin|Hin]; [apply H, Hin|injection Hin as -> ->; exact E]. Qed.
Lemma elim_c s s' : okS ar s -> solves A w s -> elim_out fe s = Ok s' -> is_failure s' = false -> okS ar s' /\ solves A w s'.
Proof.
  intros O H E F. unfold elim_out in E. destruct (eliminate_both fe s) as [r|] eqn:Er; [|discriminate]. injection E as <-.
  destruct (elim_both_ok ar _ _ _ O Er) as [G|(G1 & _ & _ & G2)]; [congruence|]. split; [exact G1|apply G2, H].
Qed.
Lemma loop_fails l res r : okS ar l -> is_failure res = true -> merge_loop fe add l res = Ok r -> is_failure r = true.
Proof.
  intros O F E. destruct l as [|p l]; [injection E as <-; exact F|]. apply (merge_failure_l ar fe add res (p :: l) r O F).
  destruct (is_failure_inv res F) as (e & e' & -> & _). exact E.
Qed.
Lemma okS_tail p l : okS ar (p :: l) -> okS ar l.
Proof. intros [N O]. split; [inversion N; auto|]. intros; apply O; right; auto. Qed.
Lemma merge_loop_c l : forall res r, okS ar l -> okS ar res -> solves A w l -> solves A w res -> merge_loop fe add l res = Ok r ->
  is_failure r = false -> okS ar r /\ solves A w r.
Proof.
  induction l as [|[k v] l IH]; intros res r Ol Or Hl Hr E F; [injection E as <-; auto|]. cbn [merge_loop] in E.
  destruct (proj2 Ol k v (or_introl eq_refl)) as [Hk Wv]. apply bind_ok in E. destruct E as (res1 & E1 & E).
  destruct (is_failure res1) eqn:F1; [rewrite (loop_fails l res1 r (okS_tail _ _ Ol) F1 E) in F; discriminate|].
  assert (Q : okS ar res1 /\ solves A w res1).
  { assert (Hkv : w (m_index k) = tev A w v) by (apply Hl; left; reflexivity). destruct (has_subst res k).
    - split; [apply (add_okS (Meta k) v res res1 Or Hk Wv E1 F1)|apply (Hc (Meta k) v res res1 Or Hk Wv E1 F1 Hr Hkv)].
    - apply (elim_c (sset res k v)); auto; [apply okS_sset; auto|apply solves_set; auto]. }
  apply (IH res1 r); try tauto; [eapply okS_tail, Ol|]. intros k' t' H'. apply Hl. right. exact H'.
Qed.
Lemma merge_c s1 s2 r : okS ar s1 -> okS ar s2 -> solves A w s1 -> solves A w s2 -> merge fe add s1 s2 = Ok r -> is_failure r = false ->
  okS ar r /\ solves A w r.
Proof.
  intros O1 O2 H1 H2 E F. destruct s1 as [|p1 s1]; [injection E as <-; auto|]. destruct s2 as [|p2 s2]; [injection E as <-; auto|].
  cbn [merge] in E. pose proof (add_all_nodup (p1 :: s1) [] (proj1 O1)) as Q. unfold add_all in Q. rewrite Q in E. cbn [app] in E.
  apply (merge_loop_c _ _ _ O2 O1 H2 H1 E F).
Qed.
Lemma compute_loop_c mt subs : (forall x, In x mt -> pmeta ar x) -> (forall i v, In (i, v) subs -> well ar v) ->
  (forall i v x, In (i, v) subs -> nth_error mt i = Some x -> w (m_index x) = tev A w v) ->
  forall metas tree metas' tree', okS ar metas -> okS ar tree -> solves A w metas -> solves A w tree ->
  compute_loop add subs mt metas tree = Ok (Some (metas', tree')) -> okS ar metas' /\ okS ar tree' /\ solves A w metas' /\ solves A w tree'.
Proof.
  intros Hmt. induction subs as [|[i v] r IH]; intros Hs He metas tree metas' tree' Om Ot Hm Ht E; [injection E as <- <-; auto|].
  cbn [compute_loop] in E. destruct (nth_error mt i) as [x|] eqn:Ex; [|discriminate].
  assert (Wv : well ar v) by (apply (Hs i v); left; reflexivity). assert (Hx : pmeta ar x) by (apply Hmt; eapply nth_error_In; eauto).
  assert (Exv : w (m_index x) = tev A w v) by (apply (He i v x); [left; reflexivity|exact Ex]).
  assert (IH' := IH (fun i v H => Hs i v (or_intror H)) (fun i v x H => He i v x (or_intror H))). clear IH.
  destruct (term_eqb (Meta x) v); [apply (IH' _ _ _ _ Om Ot Hm Ht E)|].
  assert (Ot1 : okS ar (sset tree x v)) by (apply okS_sset; auto).
  assert (Ht1 : solves A w (sset tree x v)) by (apply solves_set; auto).
  destruct (has_subst metas x); [|apply (IH' _ _ _ _ Om Ot1 Hm Ht1 E)].
  destruct (sget metas x) as [[t0 idx]|] eqn:Eg; [|apply (IH' _ _ _ _ Om Ot1 Hm Ht1 E)].
  destruct (sget_in _ _ _ _ Eg) as (k0 & Hk0 & Ek0 & Hn).
  destruct (negb (term_eqb v t0)); [|apply (IH' _ _ _ _ Om Ot1 Hm Ht1 E)]. cbv zeta in E.
  apply bind_ok in E. destruct E as (u & Eu & E). destruct (is_failure u) eqn:Fu; [discriminate|].
  assert (Wt0 : well ar t0) by (apply (proj2 Om k0 t0 Hk0)).
  assert (Evt : tev A w v = tev A w t0) by (rewrite <- Exv, <- Ek0; apply Hm, Hk0).
  apply (IH' (sremove metas idx) u metas' tree'); [eapply okS_sremove; eauto|apply (add_okS _ _ _ _ Ot1 Wv Wt0 Eu Fu)| | |exact E].
  - intros k t Hin. apply Hm. apply (sremove_in _ _ _ _ Hn). auto.
  - apply (Hc v t0 (sset tree x v) u Ot1 Wv Wt0 Eu Fu Ht1 Evt).
Qed.
Lemma compute_c mt subs metas r : (forall x, In x mt -> pmeta ar x) -> (forall i v, In (i, v) subs -> well ar v) ->
  (forall i v x, In (i, v) subs -> nth_error mt i = Some x -> w (m_index x) = tev A w v) ->
  okS ar metas -> solves A w metas -> compute fe add subs mt metas = Ok r -> is_failure r = false -> okS ar r /\ solves A w r.
Proof.
  intros Hmt Hs He Om Hm E F. unfold compute in E. apply bind_ok in E. destruct E as ([[m1 t1]|] & E1 & E); [|injection E as <-; discriminate].
  destruct (compute_loop_c mt subs Hmt Hs He metas [] m1 t1 Om (okS_nil ar) Hm (fun k t H => match H with end) E1) as (O1 & O2 & H1 & H2).
  apply bind_ok in E. destruct E as (m2 & E2 & E). destruct (is_failure m2) eqn:F2; [injection E as <-; discriminate|].
  destruct (elim_c _ _ O1 H1 E2 F2) as [O3 H3].
  apply bind_ok in E. destruct E as (t2 & E3 & E). destruct (is_failure t2) eqn:F3; [injection E as <-; discriminate|].
  destruct (elim_c _ _ O2 H2 E3 F3) as [O4 H4].
  apply bind_ok in E. destruct E as (res & E4 & E). destruct (is_failure res) eqn:F4; [injection E as <-; congruence|].
  destruct (merge_c _ _ _ O3 O4 H3 H4 E4 F4) as [O5 H5]. apply (elim_c _ _ O5 H5 E F).
Qed.
Lemma body_c t1 t2 s s' : okS ar s -> well ar t1 -> well ar t2 -> add_body fe add t1 t2 s = Ok s' -> is_failure s' = false ->
  solves A w s -> tev A w t1 = tev A w t2 -> solves A w s'.
Proof.
  intros O W1 W2 E F Hs Ht. unfold add_body in E. cbv beta zeta in E.
  match type of E with (if ?c then _ else _) = _ => destruct c end.
  - apply bind_ok in E. destruct E as ([r|] & E1 & E); [|injection E as <-; discriminate]. unfold try_unification in E1.
    destruct (exec_all (parse_one t1) (make_machine [t2] s)) as [m| | |] eqn:Em; try discriminate.
    apply bind_ok in E1. destruct E1 as (r' & Er & E1). destruct (is_failure r') eqn:Fr; [discriminate|]. injection E1 as <-.
    assert (I0 : Inv [] (make_machine [t2] s)).
    { split; [exact O|]. split; [reflexivity|]. split; [reflexivity|]. split; [reflexivity|]. split; [cbn; lia|].
      split; [intros i u []|]. split; [constructor|]. intros []. }
    unfold parse_one in Em.
    pose proof (run_term ar False add Hadd t1 W1 false [] (make_machine [t2] s) t2 I0 eq_refl W2 eq_refl) as R.
    cbn [mc_post make_machine List.length] in R. rewrite Em in R. cbn in R. destruct R as ((I1 & _) & _).
    assert (G : Good (meta_list t1) m).
    { apply (term_c t1 W1 false [] (make_machine [t2] s) t2 m I0 eq_refl W2 eq_refl); [exact Em| |exact Ht]. split; [exact Hs|intros i u x []]. }
    destruct G as [G1 G2]. destruct I1 as (J1 & _ & _ & _ & _ & J6 & _).
    destruct (compute_c (meta_list t1) (mc_subst m) (mc_meta m) r' (meta_list_well ar t1 W1) (fun i v H => proj2 (J6 i v H)) G2 J1 G1 Er Fr) as [Or Hr].
    apply (elim_c _ _ Or Hr E F).
  - assert (Q : forall m u, pmeta ar m -> well ar u -> w (m_index m) = tev A w u -> elim_out fe (sset s m u) = Ok s' -> solves A w s').
    { intros m u Hm Wu Hmu E0. apply (elim_c (sset s m u) s'); auto; [apply okS_sset; auto|apply solves_set; auto]. }
    destruct t1 as [i|p tys l|i n|m]; [destruct W1| |destruct W1|apply (Q m t2 W1 W2 Ht E)].
    destruct t2 as [i|p' tys' l'|i n|m]; [destruct W2|injection E as <-; discriminate|destruct W2|].
    apply (Q m (Fun p tys l) W2 W1 (eq_sym Ht) E).
Qed.
End Mgu.

Lemma real_ok ar n fe : add_ok ar False (add_unif n fe).
Proof. intros a b s O Wa Wb. eapply safe_imp; [|apply (add_safe ar n fe a b s O Wa Wb)]. intros r [G|[G _]]; auto. right. split; [exact G|intros []]. Qed.
Theorem add_general ar n fe : forall t1 t2 s s', okS ar s -> well ar t1 -> well ar t2 ->
  add_unif n fe t1 t2 s = Ok s' -> is_failure s' = false ->
  forall A w, injective A -> solves A w s -> tev A w t1 = tev A w t2 -> solves A w s'.
Proof.
  induction n as [|n IH]; intros t1 t2 s s' O W1 W2 E F A w Inj Hs Ht; [discriminate|]. cbn [add_unif] in E.
  apply (body_c ar fe (add_unif n fe) (real_ok ar n fe) A w Inj) with (t1 := t1) (t2 := t2) (s := s); auto.
  intros a b s0 s0' O0 Wa Wb E0 F0 H0 Hab. apply (IH a b s0 s0' O0 Wa Wb E0 F0 A w Inj H0 Hab).
Qed.
Theorem merge_general ar n fe s1 s2 s' : okS ar s1 -> okS ar s2 -> merge fe (add_unif n fe) s1 s2 = Ok s' -> is_failure s' = false ->
  forall A w, injective A -> solves A w s1 -> solves A w s2 -> solves A w s'.
Proof.
  intros O1 O2 E F A w Inj H1 H2. apply (merge_c ar fe (add_unif n fe) (real_ok ar n fe) A w) with (s1 := s1) (s2 := s2); auto.
  intros a b s0 s0' O0 Wa Wb E0 F0 H0 Hab. apply (add_general ar n fe a b s0 s0' O0 Wa Wb E0 F0 A w Inj H0 Hab).
Qed.

(** ** On terms *)
Lemma T_injective : injective T.
Proof. intros p tys l tys' l' E. injection E as _ E. exact E. Qed.
Lemma tev_erase v t : tev T (fun i => erase (v i)) t = erase (tsub v t).
Proof.
  induction t as [i|p tys l IH|i n|m] using term_ind'; try reflexivity. cbn [tsub]. rewrite erase_fun. cbn. f_equal. rewrite map_map.
  apply map_ext_in. rewrite Forall_forall in IH. exact IH.
Qed.
Lemma well_tsub ar v t : (forall i, well ar (v i)) -> well ar t -> well ar (tsub v t).
Proof.
  intros Hv. induction t as [i|p tys l IH|i n|m] using term_ind'; intros W; try exact W; [|apply Hv]. cbn [tsub]. rewrite well_fun in *.
  destruct W as (H1 & H2 & H3 & H4). split; [exact H1|]. split; [rewrite map_length; exact H2|]. split; [exact H3|].
  rewrite Forall_forall in *. intros x Hx. apply in_map_iff in Hx. destruct Hx as (a & <- & Ha). auto.
Qed.
Lemma same_erase ar t u : well ar t -> well ar u -> same_term t u -> erase t = erase u.
Proof. intros Wt Wu E. apply (same_tev ar T (fun i => Meta (plain_meta i)) t u); auto. apply term_eqb_reflect, E. Qed.
(** every unifier is an instance of the result: it satisfies its bindings *)
Theorem add_most_general ar n fe t1 t2 s s' v : okS ar s -> well ar t1 -> well ar t2 ->
  add_unif n fe t1 t2 s = Ok s' -> is_failure s' = false ->
  (forall i, well ar (v i)) -> unifies v s -> same_term (tsub v t1) (tsub v t2) -> unifies v s'.
Proof.
  intros O W1 W2 E F Hv Us U k t Hin. apply erase_same. rewrite <- tev_erase.
  apply (add_general ar n fe t1 t2 s s' O W1 W2 E F T (fun i => erase (v i)) T_injective); [| |exact Hin].
  - intros k0 t0 H0. rewrite tev_erase. destruct (proj2 O k0 t0 H0) as [_ Wt]. apply (same_erase ar); auto using well_tsub.
  - rewrite !tev_erase. apply (same_erase ar); auto using well_tsub.
Qed.
