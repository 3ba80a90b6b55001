(** The unification machine: what a run on the instructions of a term establishes. *)
From Coq Require Import ZArith List Bool String Lia PeanoNat Permutation.
From Verif Require Import Ast_Model Ast_Proofs Occ_Spec Sem_Spec Unif_Model Unif_Spec Elim_Proofs.
Import ListNotations.
Open Scope list_scope.
Open Scope Z_scope.

Definition safe {A} (P : A -> Prop) (r : out A) : Prop :=
  match r with Ok a => P a | Crash => False | _ => True end.
Lemma safe_bind {A B} (P : A -> Prop) (Q : B -> Prop) x f :
  safe P x -> (forall a, x = Ok a -> P a -> safe Q (f a)) -> safe Q (bind x f).
Proof. destruct x; cbn; intuition. Qed.
Lemma safe_imp {A} (P Q : A -> Prop) x : (forall a, P a -> Q a) -> safe P x -> safe Q x.
Proof. destruct x; cbn; intuition. Qed.

Section Well.
Variable ar : signature.
Lemma well_fun p tys l : well ar (Fun p tys l) <-> tys = [] /\ List.length l = ar (id_index p) /\ symbol ar p /\ Forall (well ar) l.
Proof.
  cbn. assert (E : forall l, (fix go (l : list term) : Prop := match l with [] => True | a :: r => well ar a /\ go r end) l <-> Forall (well ar) l).
  { induction l0 as [|a r IH]; [split; constructor|]. rewrite IH. split; [intros [? ?]; constructor; auto|inversion 1; auto]. }
  rewrite E. tauto.
Qed.
Lemma well_msubst k v t : well ar v -> well ar t -> well ar (msubst k v t).
Proof.
  intros Hv. induction t as [i|p tys l IH|i n|m] using term_ind'; intros Ht; try exact Ht.
  - cbn [msubst]. rewrite well_fun in *. destruct Ht as (H1 & H2 & Hs & H3). split; [exact H1|]. split; [rewrite map_length; exact H2|]. split; [exact Hs|].
    rewrite Forall_forall in *. intros x Hx. apply in_map_iff in Hx. destruct Hx as (a & <- & Ha). auto.
  - cbn. destruct (m_index m =? k); auto.
Qed.
Local Notation okS := (Unif_Spec.okS ar).
Lemma okS_proper s : okS s -> proper s.
Proof. intros [_ H] Hk. apply keys_ex in Hk. destruct Hk as (k & t & Hin & E). destruct (H k t Hin) as [[? ?] ?]. lia. Qed.
Lemma okS_nil : okS [].
Proof. split; [constructor|intros k t []]. Qed.
Lemma okS_sset s k v : okS s -> pmeta ar k -> well ar v -> okS (sset s k v).
Proof.
  intros [N H] Hk Hv. split; [apply sset_nodup, N|]. intros k' t Hin. apply sset_in in Hin. destruct Hin as [Hin|E]; [auto|].
  injection E as -> ->. auto.
Qed.
Lemma okS_phis s : okS s -> okS (phis s s).
Proof.
  intros [N H]. split; [rewrite keys_phis; exact N|]. intros k t Hin. apply in_phis in Hin. destruct Hin as (t0 & Hin & ->).
  destruct (H k t0 Hin) as [H1 H2]. split; [exact H1|]. clear Hin H1. revert t0 H2.
  assert (G : forall todo, (forall k t, In (k, t) todo -> well ar t) -> forall t0, well ar t0 -> well ar (phi todo t0)).
  { induction todo as [|[k1 v1] todo IH]; intros Ht t0 H0; [exact H0|]. cbn. apply IH; [intros; eapply Ht; right; eauto|].
    apply well_msubst; [eapply Ht; left; reflexivity|exact H0]. }
  apply G. intros k1 t1 H1. apply (H k1 t1 H1).
Qed.
Lemma okS_elim n : forall s s', okS s -> elim_loop n s = Some s' -> s' = failure \/ okS s'.
Proof.
  induction n as [|n IH]; intros s s' O E; [discriminate|]. cbn in E.
  destruct (elim_round n s s false) as [[s1 c]|] eqn:E1; [|discriminate].
  destruct (elim_round_pc _ _ _ _ _ _ (proj1 O) (okS_proper s O) E1) as [(-> & -> & _)|(-> & _ & _)].
  - injection E as <-. auto.
  - destruct c; [eapply IH; [|exact E]|injection E as <-; right]; apply okS_phis, O.
Qed.

Lemma entails_refl s : entails s s. Proof. intros A w H; exact H. Qed.
Lemma entails_trans a b c : entails a b -> entails b c -> entails a c.
Proof. intros H1 H2 A w H. apply H2, H1, H. Qed.

Lemma elim_both_ok n s s' : okS s -> eliminate_both n s = Some s' ->
  is_failure s' = true \/ (okS s' /\ solved s' /\ entails s' s /\ entails s s').
Proof.
  intros O. unfold eliminate_both, eliminate. destruct (eliminate_meta_ok s (proj1 O)) as (I & N & Eq).
  assert (O1 : okS (eliminate_meta s)) by (split; [exact N|]; intros k t Hin; apply (proj2 O), I, Hin).
  rewrite (is_failure_proper _ (okS_proper _ O1)). intros E.
  destruct (elim_loop_pc _ _ _ N (okS_proper _ O1) E) as [(-> & _)|(_ & So & _ & Eq2)]; [left; reflexivity|].
  destruct (okS_elim _ _ _ O1 E) as [->|O2]; [left; reflexivity|]. right. split; [exact O2|]. split; [exact So|].
  split; intros A w H; [apply Eq, Eq2, H|apply Eq2, Eq, H].
Qed.

Lemma same_tev A w t u : well ar t -> well ar u -> term_eqb t u = true -> tev A w t = tev A w u.
Proof.
  intros Ht Hu E. apply term_eqb_reflect in E. revert u Hu E.
  induction t as [i|p tys l IH|i n|m] using term_ind'; intros u Hu E.
  - destruct Ht.
  - inversion E as [|p0 q t1 t2 l1 l2 Hi Hty Hl| |]; subst. rewrite well_fun in Ht, Hu. cbn.
    destruct Ht as (-> & _ & _ & Ht). destruct Hu as (-> & _ & _ & Hu). rewrite Hi. f_equal. clear E Hty Hi.
    revert Ht Hu IH. induction Hl as [|a b r1 r2 Hab Hr IHr]; [reflexivity|].
    intros Ht Hu IH. inversion Ht; inversion Hu; inversion IH; subst. cbn. f_equal; auto.
  - destruct Ht.
  - inversion E; subst. cbn. congruence.
Qed.
End Well.

(** ** Instructions of a term *)
Lemma parse_list_eq l : forall mt pc,
  (fix parse_list (l : list term) (mt : list meta) (pc : nat) : list instr * list meta :=
    match l with
    | [] => ([], mt)
    | a :: r =>
      let '(i1, mt1) := parse_term (nonempty r) a mt pc in
      let '(i2, mt2) := parse_list r mt1 pc in
      (i1 ++ i2, mt2)
    end) l mt pc = parse_list l mt pc.
Proof.
  induction l as [|a r IH]; intros mt pc; [reflexivity|]. cbn. destruct (parse_term (nonempty r) a mt pc) as [i1 mt1].
  rewrite IH. reflexivity.
Qed.
Lemma parse_fun right p tys args mt pc : args <> [] ->
  parse_term right (Fun p tys args) mt pc =
  (let '(is, mt') := parse_list args mt (if right then S pc else pc) in
   (Begin :: Check p :: (if right then [Push pc] else []) ++ Down :: is ++ (if right then [Pop pc] else []) ++ [End (Some (Fun p tys args))], mt')).
Proof.
  intros H. destruct args as [|a r]; [congruence|].
  rewrite <- parse_list_eq. reflexivity.
Qed.
Lemma parse_metas t : forall right mt pc, (forall i, t <> TId i) -> snd (parse_term right t mt pc) = mt ++ meta_list t.
Proof.
  induction t as [i|p tys l IH|i n|m] using term_ind'; intros right mt pc H; cbn [meta_list]; try (cbn; now rewrite app_nil_r).
  - destruct l as [|a r]; [cbn; now rewrite app_nil_r|]. rewrite parse_fun by discriminate.
    assert (G : forall l, Forall (fun t => forall right mt pc, (forall i, t <> TId i) -> snd (parse_term right t mt pc) = mt ++ meta_list t) l ->
      forall mt pc, snd (parse_list l mt pc) = mt ++ flat_map meta_list l).
    { clear. induction l as [|a r IHr]; intros F mt pc; [cbn; now rewrite app_nil_r|]. inversion F; subst. cbn.
      assert (E : snd (parse_term (nonempty r) a mt pc) = mt ++ meta_list a).
      { destruct a; try (apply H1; discriminate). cbn. now rewrite app_nil_r. }
      destruct (parse_term (nonempty r) a mt pc) as [i1 mt1]. cbn in E. subst mt1.
      specialize (IHr H2 (mt ++ meta_list a) pc). destruct (parse_list r (mt ++ meta_list a) pc) as [i2 mt2]. cbn in *.
      rewrite IHr, app_assoc. reflexivity. }
    specialize (G _ IH mt (if right then S pc else pc)).
    destruct (parse_list (a :: r) mt (if right then S pc else pc)) as [is mt']. exact G.
  - reflexivity.
Qed.
Lemma parse_list_metas l : forall mt pc, snd (parse_list l mt pc) = mt ++ flat_map meta_list l.
Proof.
  induction l as [|a r IHr]; intros mt pc; [cbn; now rewrite app_nil_r|]. cbn.
  assert (E : snd (parse_term (nonempty r) a mt pc) = mt ++ meta_list a).
  { destruct a; try (apply parse_metas; discriminate). cbn. now rewrite app_nil_r. }
  destruct (parse_term (nonempty r) a mt pc) as [i1 mt1]. cbn in E. subst mt1.
  specialize (IHr (mt ++ meta_list a) pc). destruct (parse_list r (mt ++ meta_list a) pc) as [i2 mt2]. cbn in *.
  rewrite IHr, app_assoc. reflexivity.
Qed.
Lemma parse_list_cons a r mt pc : (forall i, a <> TId i) -> fst (parse_list (a :: r) mt pc) =
  fst (parse_term (nonempty r) a mt pc) ++ fst (parse_list r (mt ++ meta_list a) pc).
Proof.
  intros H. cbn. pose proof (parse_metas a (nonempty r) mt pc H) as E.
  destruct (parse_term (nonempty r) a mt pc) as [i1 mt1]. cbn in E. subst mt1.
  destruct (parse_list r (mt ++ meta_list a) pc). reflexivity.
Qed.

Section Run.
Variables (ar : signature) (Sem : Prop) (fe : nat).
Variable add : term -> term -> substs -> out substs.
Definition add_ok : Prop := forall a b s, okS ar s -> well ar a -> well ar b ->
  safe (fun s' => is_failure s' = true \/
    (okS ar s' /\ (Sem -> forall A w, solves A w s' -> solves A w s /\ tev A w a = tev A w b))) (add a b s).
Hypothesis Hadd : add_ok.

Notation exec := (exec add).
Notation exec_all := (exec_all add).

Lemma exec_all_app is1 is2 m : exec_all (is1 ++ is2) m = bind (exec_all is1 m) (exec_all is2).
Proof.
  revert m. induction is1 as [|i r IH]; intros m; [reflexivity|]. cbn.
  destruct (exec i m); cbn; auto.
Qed.

(** *** locked: nothing happens *)
Definition flags (b : bool) (m : mach) : mach :=
  mkMach (mc_q m) (mc_count m) (mc_lock m) (mc_pushed m || b) (mc_poped m || b) (mc_post m) (mc_subst m) (mc_terms m)
    (mc_meta m) (mc_tot m) (mc_cnt m).
Lemma flags_false m : flags false m = m.
Proof. destruct m; unfold flags; cbn. rewrite !orb_false_r. reflexivity. Qed.
Lemma flags_flags a b m : flags a (flags b m) = flags (b || a) m.
Proof. destruct m; unfold flags; cbn. rewrite !orb_assoc. reflexivity. Qed.
Definition up (m : mach) : mach :=
  mkMach (mc_q m) (mc_count m + 1) (mc_lock m) (mc_pushed m) (mc_poped m) (mc_post m) (mc_subst m) (mc_terms m)
    (mc_meta m) (mc_tot m) (mc_cnt m).
Definition lockd (m : mach) : Prop := 0 <= mc_lock m < mc_count m /\ (mc_q m < List.length (mc_terms m))%nat.
Lemma lockd_unl m : lockd m -> unlocked m = false.
Proof. intros [H _]. unfold unlocked. apply Z.eqb_neq. lia. Qed.
Lemma lockd_up m : lockd m -> lockd (up m).
Proof. unfold lockd, up; cbn. lia. Qed.
Lemma lockd_flags b m : lockd m -> lockd (flags b m).
Proof. auto. Qed.
Lemma lk_begin m : lockd m -> exec Begin m = Ok (up m).
Proof.
  intros H. cbn. unfold current. pose proof (lockd_unl m H) as U. destruct H as [_ H].
  apply nth_error_Some in H. destruct (nth_error (mc_terms m) (mc_q m)); [|congruence]. cbn. rewrite U, andb_false_r. reflexivity.
Qed.
Lemma lk_end t b m : lockd m -> exec (End t) (flags b (up m)) = Ok (flags b m).
Proof.
  intros H. cbn. pose proof (lockd_unl m H) as U. destruct H as [H _]. unfold try_unlock, check_end. cbn.
  unfold unlocked in *; cbn. rewrite U. cbn. replace (mc_count m + 1 - 1) with (mc_count m) by lia.
  replace (mc_count m =? mc_lock m) with false by (symmetry; apply Z.eqb_neq; lia). cbn.
  replace (mc_count m =? 0) with false by (symmetry; apply Z.eqb_neq; lia). cbn. unfold flags; cbn. reflexivity.
Qed.
Lemma locked_run t : forall right mt pc m, lockd m -> exists b,
  exec_all (fst (parse_term right t mt pc)) m = Ok (flags b m).
Proof.
  induction t as [i|p tys l IH|i n|x] using term_ind'; intros right mt pc m H; pose proof (lockd_unl m H) as U.
  - exists false. cbn. rewrite flags_false. reflexivity.
  - assert (HC : forall m q, lockd m -> exec (Check q) m = Ok m) by (intros m' q H'; cbn; rewrite (lockd_unl m' H'); reflexivity).
    destruct l as [|a r].
    + exists false. cbn [parse_term fst Unif_Model.exec_all]. rewrite lk_begin by exact H. cbn [bind].
      rewrite HC by (apply lockd_up, H). cbn [bind].
      rewrite <- (flags_false (up m)). rewrite lk_end by exact H. cbn [bind]. destruct right; [|reflexivity].
      cbn [Unif_Model.exec_all Unif_Model.exec]. unfold m_right. rewrite flags_false, U. reflexivity.
    + rewrite parse_fun by discriminate. set (args := a :: r) in *.
      assert (G : forall l, Forall (fun t => forall right mt pc m, lockd m -> exists b,
         exec_all (fst (parse_term right t mt pc)) m = Ok (flags b m)) l ->
         forall mt pc m, lockd m -> exists b, exec_all (fst (parse_list l mt pc)) m = Ok (flags b m)).
      { clear. induction l as [|a r IHr]; intros F mt pc m H; [exists false; cbn; rewrite flags_false; reflexivity|].
        inversion F as [|? ? Fa Fr]; subst. cbn [parse_list].
        destruct (Fa (nonempty r) mt pc m H) as (b1 & E1).
        destruct (parse_term (nonempty r) a mt pc) as [i1 mt1].
        destruct (IHr Fr mt1 pc (flags b1 m) (lockd_flags b1 m H)) as (b2 & E2).
        destruct (parse_list r mt1 pc) as [i2 mt2]. cbn [fst] in *. exists (b1 || b2). rewrite exec_all_app, E1. cbn [bind].
        rewrite E2, flags_flags. reflexivity. }
      pose proof (G args IH mt (if right then S pc else pc)) as GI.
      destruct (parse_list args mt (if right then S pc else pc)) as [is mt']. cbn [fst] in *.
      cbn [Unif_Model.exec_all]. rewrite lk_begin by exact H. cbn [bind]. rewrite HC by (apply lockd_up, H). cbn [bind].
      pose proof (lockd_up m H) as H1.
      destruct right.
      * cbn [app Unif_Model.exec_all]. 
        assert (EP : exec (Push pc) (up m) = Ok (mkMach (mc_q m) (mc_count m + 1) (mc_lock m) true (mc_poped m) (mc_post m) (mc_subst m) (mc_terms m) (mc_meta m) (mc_tot m) (mc_cnt m))).
        { cbn. rewrite (lockd_unl _ H1). reflexivity. }
        rewrite EP. cbn [bind]. set (m2 := mkMach _ _ _ _ _ _ _ _ _ _ _).
        assert (H2 : lockd m2) by (destruct H1; unfold lockd, m2; cbn in *; lia).
        assert (ED : exec Down m2 = Ok m2) by (cbn; rewrite (lockd_unl _ H2); reflexivity). rewrite ED. cbn [bind].
        destruct (GI m2 H2) as (b & E2). rewrite exec_all_app, E2. cbn [bind Unif_Model.exec_all].
        assert (EO : exec (Pop pc) (flags b m2) = Ok (flags true (up m))).
        { pose proof (lockd_unl _ (lockd_flags b m2 H2)) as U2. cbn. rewrite U2. unfold flags, m2, up; cbn. rewrite !orb_true_r. reflexivity. }
        rewrite EO. cbn [bind]. rewrite lk_end by exact H. exists true. reflexivity.
      * cbn [app Unif_Model.exec_all].
        assert (ED : exec Down (up m) = Ok (up m)) by (cbn; rewrite (lockd_unl _ H1); reflexivity). rewrite ED. cbn [bind].
        destruct (GI (up m) H1) as (b & E2). rewrite exec_all_app, E2. cbn [bind Unif_Model.exec_all].
        rewrite lk_end by exact H. exists b. reflexivity.
  - exists false. cbn. rewrite flags_false. reflexivity.
  - exists false. cbn [parse_term fst Unif_Model.exec_all].
    assert (HP : forall i, exec (Put i) m = Ok m) by (intros; cbn; rewrite U; reflexivity). rewrite HP. cbn [bind].
    rewrite exec_all_app.
    assert (HCo : forall l, exec_all (map (fun j => Compare j (List.length mt)) l) m = Ok m).
    { induction l as [|j l IHl]; [reflexivity|]. cbn [map Unif_Model.exec_all]. cbn [Unif_Model.exec]. rewrite U. cbn. exact IHl. }
    unfold comparisons. rewrite HCo. cbn [bind]. rewrite flags_false. destruct right; [|reflexivity].
    cbn. unfold m_right. rewrite U. reflexivity.
Qed.

(** *** unlocked *)
Definition Rep (mt : list meta) (m : mach) : Prop :=
  forall i j a b x y, In (i, a) (mc_subst m) -> In (j, b) (mc_subst m) -> nth_error mt i = Some x -> nth_error mt j = Some y ->
    m_index x = m_index y -> forall A w, solves A w (mc_meta m) -> tev A w a = tev A w b.
Definition Inv (mt : list meta) (m : mach) : Prop :=
  okS ar (mc_meta m) /\ mc_lock m = -1 /\ mc_pushed m = false /\ mc_poped m = false /\ 0 <= mc_count m /\
  (forall i u, In (i, u) (mc_subst m) -> (i < List.length mt)%nat /\ well ar u) /\
  NoDup (map fst (mc_subst m)) /\ (Sem -> Rep mt m).
Definition Step (mt mt' : list meta) (m m' : mach) : Prop :=
  Inv mt' m' /\ (exists e, mt' = mt ++ e) /\ incl (mc_subst m) (mc_subst m') /\ mc_post m' = mc_post m /\
  mc_count m' = mc_count m /\ (Sem -> entails (mc_meta m') (mc_meta m)).
Definition Binds (mt : list meta) (m : mach) (A : alg) (w : Z -> dom A) : Prop :=
  forall i u x, In (i, u) (mc_subst m) -> nth_error mt i = Some x -> w (m_index x) = tev A w u.
Definition Agree (mt : list meta) (m : mach) (t c : term) : Prop :=
  Sem -> forall A w, solves A w (mc_meta m) -> Binds mt m A w -> tev A w t = tev A w c.

Lemma Inv_unl mt m : Inv mt m -> unlocked m = true.
Proof. intros (_ & H & _). unfold unlocked. rewrite H. reflexivity. Qed.
Lemma Step_refl mt m : Inv mt m -> Step mt mt m m.
Proof. intros H. split; [exact H|]. split; [exists []; symmetry; apply app_nil_r|]. split; [apply incl_refl|]. repeat split; auto. intros _. apply entails_refl. Qed.
Lemma Step_trans a b c m1 m2 m3 : Step a b m1 m2 -> Step b c m2 m3 -> Step a c m1 m3.
Proof.
  intros (I1 & (e1 & E1) & S1 & P1 & C1 & M1) (I2 & (e2 & E2) & S2 & P2 & C2 & M2).
  split; [exact I2|]. split; [exists (e1 ++ e2); rewrite E2, E1, app_assoc; reflexivity|].
  split; [eapply incl_tran; eauto|]. split; [congruence|]. split; [congruence|].
  intros HS. eapply entails_trans; [apply M2, HS|apply M1, HS].
Qed.
Lemma Agree_later a b m1 m2 t c : Inv a m1 -> Step a b m1 m2 -> Agree a m1 t c -> Agree b m2 t c.
Proof.
  intros I1 (I2 & (e & ->) & S1 & _ & _ & M1) H HS A w Hw HB. apply (H HS A w); [apply (M1 HS), Hw|].
  intros i u x Hin Hx. apply (HB i u x); [apply S1, Hin|].
  destruct I1 as (_ & _ & _ & _ & _ & Hlt & _). destruct (Hlt i u Hin) as [Hi _]. rewrite nth_error_app1 by exact Hi. exact Hx.
Qed.

Definition at_ (m : mach) (c : term) : Prop := nth_error (mc_terms m) (mc_q m) = Some c.
Definition last_ok (right : bool) (m : mach) : Prop :=
  if right then (S (mc_q m) < List.length (mc_terms m))%nat else S (mc_q m) = List.length (mc_terms m).
Definition moved (right : bool) (m m' : mach) : Prop :=
  right = true -> mc_terms m' = mc_terms m /\ mc_q m' = S (mc_q m).

(** changing the substitution *)
Lemma Step_meta mt m s : Inv mt m -> okS ar s -> (Sem -> entails s (mc_meta m)) -> Step mt mt m (set_meta m s).
Proof.
  intros (I1 & I2 & I3 & I4 & I5 & I6 & I7 & I8) O E. split.
  - split; [exact O|]. split; [exact I2|]. split; [exact I3|]. split; [exact I4|]. split; [exact I5|]. split; [exact I6|].
    split; [exact I7|]. intros HS i j a b x y H1 H2 H3 H4 H5 A w Hw. apply (I8 HS i j a b x y H1 H2 H3 H4 H5 A w). apply (E HS), Hw.
  - split; [exists []; symmetry; apply app_nil_r|]. split; [apply incl_refl|]. repeat split; auto.
Qed.
Lemma try_substitute_ok mt m a b : Inv mt m -> well ar a -> well ar b ->
  safe (fun m' => exists s, m' = set_meta m s /\ okS ar s /\
     (Sem -> forall A w, solves A w s -> solves A w (mc_meta m) /\ tev A w a = tev A w b)) (try_substitute add a b m).
Proof.
  intros I Ha Hb. unfold try_substitute. eapply safe_bind; [apply (Hadd a b (mc_meta m)); auto; apply I|].
  intros s _ [F|[O E]]; [rewrite F; exact Logic.I|]. rewrite (is_failure_proper _ (okS_proper _ _ O)). cbn. exists s. auto.
Qed.

Lemma right_ok mt m : Inv mt m -> (S (mc_q m) < List.length (mc_terms m))%nat ->
  exists m', m_right m = Ok m' /\ Step mt mt m m' /\ mc_terms m' = mc_terms m /\ mc_q m' = S (mc_q m) /\
    mc_meta m' = mc_meta m /\ mc_subst m' = mc_subst m.
Proof.
  intros I H. unfold m_right. rewrite (Inv_unl _ _ I). replace (Nat.leb _ _) with false by (symmetry; apply Nat.leb_gt; exact H).
  eexists. split; [reflexivity|]. split; [|cbn; auto].
  split; [exact I|]. split; [exists []; symmetry; apply app_nil_r|]. split; [apply incl_refl|]. repeat split; auto. intros _. apply entails_refl.
Qed.

Lemma subst_at_in l i a : NoDup (map fst l) -> subst_at l i = Some a <-> In (i, a) l.
Proof.
  induction l as [|[j t] r IH]; cbn; intros N; [split; [discriminate|tauto]|]. inversion N as [|? ? N1 N2]; subst.
  destruct (Nat.eqb j i) eqn:E.
  - apply Nat.eqb_eq in E. subst j. split; [intros H; injection H as ->; auto|]. intros [H|H]; [congruence|].
    destruct N1. apply in_map_iff. exists (i, a). auto.
  - apply Nat.eqb_neq in E. rewrite IH by exact N2. intuition congruence.
Qed.

Lemma unwrap_ok s : okS ar s -> forall n seen t, well ar t -> well ar (unwrap_from n seen s t) /\
  forall A w, solves A w s -> tev A w (unwrap_from n seen s t) = tev A w t.
Proof.
  intros O. induction n as [|n IH]; intros seen t Ht; [split; auto|]. destruct t as [i|p tys l|i nm|m]; try (split; auto; fail).
  cbn. destruct (sget s m) as [[v j]|] eqn:E; [|split; auto]. destruct (existsb _ seen); [split; auto|].
  destruct (sget_in _ _ _ _ E) as (k & Hin & Ek & _). destruct (proj2 O k v Hin) as [_ Hv].
  destruct (IH (m_index m :: seen) v Hv) as [H1 H2]. split; [exact H1|]. intros A w Hw. rewrite H2 by exact Hw.
  rewrite <- Ek. symmetry. apply Hw, Hin.
Qed.

(** Compare *)
Lemma compare_ok mt m i j : Inv mt m ->
  safe (fun m' => exists s, m' = set_meta m s /\ okS ar s /\ (Sem -> entails s (mc_meta m)) /\
    (Sem -> forall a b, In (i, a) (mc_subst m) -> In (j, b) (mc_subst m) -> forall A w, solves A w s -> tev A w a = tev A w b))
    (exec (Compare i j) m).
Proof.
  intros I. cbn. rewrite (Inv_unl _ _ I). pose proof I as (O & _ & _ & _ & _ & Hl & N & _).
  assert (Same : set_meta m (mc_meta m) = m) by (destruct m; reflexivity).
  destruct (subst_at (mc_subst m) i) as [a|] eqn:Ea; [destruct (subst_at (mc_subst m) j) as [b|] eqn:Eb|].
  - apply subst_at_in in Ea; [|exact N]. apply subst_at_in in Eb; [|exact N].
    destruct (Hl _ _ Ea) as [_ Wa]. destruct (Hl _ _ Eb) as [_ Wb].
    destruct (unwrap_ok (mc_meta m) O (S (List.length (mc_meta m))) [] a Wa) as [Wa' Ta].
    destruct (unwrap_ok (mc_meta m) O (S (List.length (mc_meta m))) [] b Wb) as [Wb' Tb].
    change (unwrap_from _ [] (mc_meta m) a) with (unwrap (mc_meta m) a) in *.
    change (unwrap_from _ [] (mc_meta m) b) with (unwrap (mc_meta m) b) in *.
    assert (Fin : forall a' b', In (i, a') (mc_subst m) -> In (j, b') (mc_subst m) -> a' = a /\ b' = b).
    { intros a' b' H1 H2. apply subst_at_in in H1, H2, Ea, Eb; try exact N. rewrite Ea in H1. rewrite Eb in H2.
      injection H1 as ->. injection H2 as ->. auto. }
    destruct (term_eqb _ _) eqn:E.
    + cbn. exists (mc_meta m). rewrite Same. split; [reflexivity|]. split; [exact O|]. split; [intros _; apply entails_refl|].
      intros _ a' b' H1 H2 A w Hw. destruct (Fin _ _ H1 H2) as [-> ->]. rewrite <- Ta, <- Tb by exact Hw.
      apply (same_tev ar); auto.
    + eapply safe_imp; [|apply (try_substitute_ok mt m); eauto]. cbn. intros m' (s & -> & Os & Es). exists s.
      split; [reflexivity|]. split; [exact Os|]. split; [intros HS A w Hw; apply (Es HS A w Hw)|].
      intros HS a' b' H1 H2 A w Hw. destruct (Fin _ _ H1 H2) as [-> ->]. destruct (Es HS A w Hw) as [Hm Hab].
      rewrite Ta, Tb in Hab by exact Hm. exact Hab.
  - cbn. exists (mc_meta m). rewrite Same. split; [reflexivity|]. split; [exact O|]. split; [intros _; apply entails_refl|].
    intros _ a' b' H1 H2. apply subst_at_in in H2; [|exact N]. congruence.
  - cbn. exists (mc_meta m). rewrite Same. split; [reflexivity|]. split; [exact O|]. split; [intros _; apply entails_refl|].
    intros _ a' b' H1 H2. apply subst_at_in in H1; [|exact N]. congruence.
Qed.
Lemma compares_ok mt n l : forall m, Inv mt m ->
  safe (fun m' => exists s, m' = set_meta m s /\ okS ar s /\ (Sem -> entails s (mc_meta m)) /\
    (Sem -> forall j a b, In j l -> In (j, a) (mc_subst m) -> In (n, b) (mc_subst m) -> forall A w, solves A w s -> tev A w a = tev A w b))
    (exec_all (map (fun j => Compare j n) l) m).
Proof.
  induction l as [|j l IH]; intros m I.
  - cbn. exists (mc_meta m). split; [destruct m; reflexivity|]. split; [apply I|]. split; [intros _; apply entails_refl|]. intros _ j a b [].
  - cbn [map Unif_Model.exec_all]. eapply safe_bind; [apply (compare_ok mt), I|]. intros m1 _ (s1 & -> & O1 & E1 & C1).
    destruct (Step_meta mt m s1 I O1 E1) as (I1 & _).
    eapply safe_imp; [|apply (IH _ I1)]. intros m2 (s2 & -> & O2 & E2 & C2). cbn in *. exists s2. split; [reflexivity|].
    split; [exact O2|]. split; [intros HS; eapply entails_trans; [apply E2, HS|apply E1, HS]|].
    intros HS k a b [<-|Hk] Ha Hb A w Hw; [apply (C1 HS a b Ha Hb A w), (E2 HS), Hw|eapply C2; eauto].
Qed.

(** the metavariable of an indexed term *)
Lemma run_meta x right mt pc m c : pmeta ar x -> Inv mt m -> at_ m c -> well ar c -> last_ok right m ->
  safe (fun m' => Step mt (mt ++ [x]) m m' /\ Agree (mt ++ [x]) m' (Meta x) c /\ moved right m m')
    (exec_all (fst (parse_term right (Meta x) mt pc)) m).
Proof.
  intros Hx I Hc Wc L. cbn [parse_term fst Unif_Model.exec_all].
  pose proof I as (O & Lk & Pu & Po & Cn & Hl & N & R).
  assert (EP : exec (Put (List.length mt)) m = Ok (mkMach (mc_q m) (mc_count m) (mc_lock m) (mc_pushed m) (mc_poped m) (mc_post m)
     (mc_subst m ++ [(List.length mt, c)]) (mc_terms m) (mc_meta m) (mc_tot m) (mc_cnt m))).
  { cbn. rewrite (Inv_unl _ _ I). unfold current. rewrite Hc. reflexivity. }
  rewrite EP. cbn [bind]. clear EP. set (m1 := mkMach _ _ _ _ _ _ _ _ _ _ _).
  rewrite exec_all_app. unfold comparisons.
  set (js := filter _ _).
  (* the machine after Put, seen with the old list of metavariables plus an unrelated one, to use compares_ok *)
  assert (N1 : NoDup (map fst (mc_subst m1))).
  { cbn. rewrite map_app. cbn. apply (Permutation_NoDup (l := List.length mt :: map fst (mc_subst m))); [apply Permutation_cons_append|].
    constructor; [|exact N]. intros H. apply in_map_iff in H. destruct H as ([i u] & E & H). cbn in E. subst i. destruct (Hl _ _ H). lia. }
  assert (Hl1 : forall i u, In (i, u) (mc_subst m1) -> (i < List.length (mt ++ [x]))%nat /\ well ar u).
  { intros i u H. cbn in H. rewrite app_length. cbn. apply in_app_iff in H. destruct H as [H|[H|[]]]; [destruct (Hl _ _ H); split; [lia|auto]|].
    injection H as <- <-. split; [lia|exact Wc]. }
  assert (C1 : safe (fun m' => exists s, m' = set_meta m1 s /\ okS ar s /\ (Sem -> entails s (mc_meta m1)) /\
    (Sem -> forall j a b, In j js -> In (j, a) (mc_subst m1) -> In (List.length mt, b) (mc_subst m1) -> forall A w, solves A w s -> tev A w a = tev A w b))
    (exec_all (map (fun j => Compare j (List.length mt)) js) m1)).
  { (* compares_ok does not use Rep: run it with fresh metavariables *)
    set (mt0 := map (fun i => mkMeta (Z.of_nat i) 0 "" 0 (TyVar "")) (seq 0 (List.length (mt ++ [x])))).
    apply (compares_ok mt0). split; [exact O|]. split; [exact Lk|]. split; [exact Pu|]. split; [exact Po|]. split; [exact Cn|].
    split; [intros i u H; unfold mt0; rewrite map_length, seq_length; apply Hl1, H|]. split; [exact N1|].
    intros _ i j a b y z H1 H2 H3 H4 H5 A w _.
    assert (Q : forall i y, nth_error mt0 i = Some y -> m_index y = Z.of_nat i).
    { clear. unfold mt0. intros i y E. rewrite nth_error_map in E. destruct (nth_error (seq 0 _) i) as [k|] eqn:E1; [|discriminate].
      injection E as <-. cbn. f_equal. assert (i < List.length (seq 0 (List.length (mt ++ [x]))))%nat by (apply nth_error_Some; congruence).
      apply nth_error_nth with (d := O) in E1. rewrite seq_nth in E1 by (rewrite seq_length in *; exact H). lia. }
    apply Q in H3, H4. assert (i = j) by lia. subst j.
    apply subst_at_in in H1, H2; try exact N1. congruence. }
  eapply safe_bind; [exact C1|]. intros m2 _ (s & -> & Os & Es & Cs).
  assert (I2 : Inv (mt ++ [x]) (set_meta m1 s)).
  { split; [exact Os|]. split; [exact Lk|]. split; [exact Pu|]. split; [exact Po|]. split; [exact Cn|].
    split; [exact Hl1|]. split; [exact N1|]. intros HS i j a b y z H1 H2 H3 H4 H5 A w Hw. cbn in H1, H2, Hw.
    assert (New : forall j b z, In (j, b) (mc_subst m) -> nth_error (mt ++ [x]) j = Some z -> m_index x = m_index z ->
      forall A w, solves A w s -> tev A w b = tev A w c).
    { intros j' b' z' Hin Hz Hxz A' w' Hw'. apply (Cs HS j' b' c); [|cbn; apply in_or_app; auto|cbn; apply in_or_app; right; left; reflexivity|exact Hw'].
      destruct (Hl _ _ Hin) as [Hj _]. rewrite nth_error_app1 in Hz by exact Hj. unfold js. apply filter_In. split; [apply in_seq; lia|].
      rewrite Hz. apply meta_eqb_idx. congruence. }
    assert (Xn : nth_error (mt ++ [x]) (List.length mt) = Some x) by (rewrite nth_error_app2, Nat.sub_diag by lia; reflexivity).
    apply in_app_iff in H1, H2. destruct H1 as [H1|[H1|[]]], H2 as [H2|[H2|[]]].
    - destruct (Hl _ _ H1) as [L1 _]. destruct (Hl _ _ H2) as [L2 _]. rewrite nth_error_app1 in H3, H4 by assumption.
      apply (R HS i j a b y z H1 H2 H3 H4 H5 A w). apply (Es HS), Hw.
    - injection H2 as <- <-. rewrite Xn in H4. injection H4 as <-. apply (New i a y H1 H3); auto.
    - injection H1 as <- <-. rewrite Xn in H3. injection H3 as <-. symmetry. apply (New j b z H2 H4); auto.
    - congruence. }
  assert (St : Step mt (mt ++ [x]) m (set_meta m1 s)).
  { split; [exact I2|]. split; [exists [x]; reflexivity|]. split; [intros p Hp; cbn; apply in_or_app; auto|]. repeat split; auto. }
  assert (Ag : Agree (mt ++ [x]) (set_meta m1 s) (Meta x) c).
  { intros HS A w Hw HB. cbn. apply (HB (List.length mt) c x); [cbn; apply in_or_app; right; left; reflexivity|].
    rewrite nth_error_app2, Nat.sub_diag by lia. reflexivity. }
  destruct right.
  - cbn [Unif_Model.exec_all Unif_Model.exec]. destruct (right_ok (mt ++ [x]) (set_meta m1 s) I2 L) as (m3 & E3 & S3 & T3 & Q3 & _).
    rewrite E3. cbn. split; [eapply Step_trans; eauto|]. split; [eapply Agree_later; eauto|]. intros _. rewrite T3, Q3. auto.
  - cbn. split; [exact St|]. split; [exact Ag|]. discriminate.
Qed.

(** *** applications *)
Lemma locked_list l : forall mt pc m, lockd m -> exists b, exec_all (fst (parse_list l mt pc)) m = Ok (flags b m).
Proof.
  induction l as [|a r IHr]; intros mt pc m H; [exists false; cbn; rewrite flags_false; reflexivity|].
  cbn [parse_list]. destruct (locked_run a (nonempty r) mt pc m H) as (b1 & E1).
  destruct (parse_term (nonempty r) a mt pc) as [i1 mt1].
  destruct (IHr mt1 pc (flags b1 m) (lockd_flags b1 m H)) as (b2 & E2).
  destruct (parse_list r mt1 pc) as [i2 mt2]. cbn [fst] in *. exists (b1 || b2). rewrite exec_all_app, E1. cbn [bind].
  rewrite E2, flags_flags. reflexivity.
Qed.

(** the same machine elsewhere in the query *)
Definition goto (q : nat) (terms : list term) (count : Z) (tot cnt : Z) (post : list (nat * list term)) (m : mach) : mach :=
  mkMach q count (mc_lock m) (mc_pushed m) (mc_poped m) post (mc_subst m) terms (mc_meta m) tot cnt.
Lemma Inv_goto mt m q terms count tot cnt post : Inv mt m -> 0 <= count -> Inv mt (goto q terms count tot cnt post m).
Proof. intros (I1 & I2 & I3 & I4 & I5 & I6 & I7 & I8) H. split; [exact I1|]. repeat (split; [assumption|]). exact I8. Qed.
Lemma Step_goto mt m q terms tot cnt : Inv mt m -> Step mt mt m (goto q terms (mc_count m) tot cnt (mc_post m) m).
Proof.
  intros I. split; [apply Inv_goto; [exact I|apply I]|]. split; [exists []; symmetry; apply app_nil_r|].
  split; [apply incl_refl|]. repeat split; auto. intros _. apply entails_refl.
Qed.
Lemma end_unl mt m t : Inv mt m -> 1 <= mc_count m ->
  safe (fun m' => m' = goto (mc_q m) (mc_terms m) (mc_count m - 1) (mc_tot m) (mc_cnt m) (mc_post m) m) (exec (End t) m).
Proof.
  intros I H. cbn. unfold try_unlock. cbn. assert (U := Inv_unl _ _ I). unfold unlocked in *. cbn. rewrite U. cbn.
  unfold check_end. cbn. destruct (_ && _); cbn; [exact Logic.I|reflexivity].
Qed.

Lemma unlock_ok mt m b y t right : Inv mt m -> at_ m (Meta y) -> pmeta ar y -> well ar t -> last_ok right m ->
  safe (fun m' => Step mt mt m m' /\ (Sem -> forall A w, solves A w (mc_meta m') -> w (m_index y) = tev A w t) /\
      mc_terms m' = mc_terms m /\ mc_q m' = (if b && right then S (mc_q m) else mc_q m))
    (exec (End (Some t)) (mkMach (mc_q m) (mc_count m + 1) (mc_count m) b b (mc_post m) (mc_subst m) (mc_terms m) (mc_meta m) (mc_tot m) (mc_cnt m))).
Proof.
  intros I Hat Hy Wt L. cbn [Unif_Model.exec]. pose proof I as (O & Lk & Pu & Po & Cn & Hl & N & R).
  unfold try_unlock. cbn -[Z.add try_substitute locked_right]. replace (mc_count m + 1 - 1) with (mc_count m) by lia.
  unfold unlocked. cbn -[Z.add try_substitute locked_right]. replace (mc_count m =? -1) with false by (symmetry; apply Z.eqb_neq; lia). rewrite Z.eqb_refl.
  cbn -[Z.add try_substitute locked_right]. unfold current. cbn -[Z.add try_substitute locked_right]. rewrite Hat.
  cbn -[Z.add try_substitute locked_right].
  unfold try_substitute. cbn -[Z.add locked_right].
  assert (Q : forall m2, Step mt mt m m2 /\ (Sem -> forall A w, solves A w (mc_meta m2) -> w (m_index y) = tev A w t) /\
      mc_terms m2 = mc_terms m /\ mc_q m2 = (if b && right then S (mc_q m) else mc_q m) -> safe (fun m' => Step mt mt m m' /\ (Sem -> forall A w, solves A w (mc_meta m') -> w (m_index y) = tev A w t) /\
      mc_terms m' = mc_terms m /\ mc_q m' = (if b && right then S (mc_q m) else mc_q m)) (check_end m2)).
  { intros m2 H2. unfold check_end. destruct ((mc_count m2 =? 0) && _); [exact Logic.I|exact H2]. }
  destruct (add (Meta y) t (mc_meta m)) as [s| | |] eqn:Ea; cbn -[Z.add locked_right].
  2,4: exact Logic.I.
  2:{ pose proof (Hadd (Meta y) t (mc_meta m) O Hy Wt) as H. rewrite Ea in H. exact H. }
  pose proof (Hadd (Meta y) t (mc_meta m) O Hy Wt) as H. rewrite Ea in H. cbn in H.
  destruct H as [F|[Os Es]]; [rewrite F; exact Logic.I|]. rewrite (is_failure_proper _ (okS_proper _ _ Os)).
  cbn -[Z.add locked_right].
  assert (I2 : forall q tot cnt, Inv mt (mkMach q (mc_count m) (-1) false false (mc_post m) (mc_subst m) (mc_terms m) s tot cnt)).
  { intros q tot cnt. split; [exact Os|]. split; [reflexivity|]. split; [reflexivity|]. split; [reflexivity|]. split; [exact Cn|].
    split; [exact Hl|]. split; [exact N|]. intros HS i j a0 b0 x z H1 H2 H3 H4 H5 A w Hw.
    apply (R HS i j a0 b0 x z H1 H2 H3 H4 H5 A w). apply (Es HS A w Hw). }
  assert (S2 : forall q tot cnt, Step mt mt m (mkMach q (mc_count m) (-1) false false (mc_post m) (mc_subst m) (mc_terms m) s tot cnt)).
  { intros q tot cnt. split; [apply I2|]. split; [exists []; symmetry; apply app_nil_r|]. split; [apply incl_refl|].
    repeat split; auto. intros HS A w Hw. apply (Es HS A w Hw). }
  assert (V2 : Sem -> forall A w, solves A w s -> w (m_index y) = tev A w t) by (intros HS A w Hw; apply (Es HS A w Hw)).
  unfold locked_right, set_meta. cbn -[Z.add Z.sub]. destruct b; cbn -[Z.add Z.sub].
  - destruct right.
    + unfold last_ok in L. replace (Z.of_nat (mc_q m) <? _) with true by (symmetry; apply Z.ltb_lt; lia).
      unfold m_right, unlocked. cbn -[Z.add Z.sub Nat.leb]. replace (Nat.leb _ _) with false by (symmetry; apply Nat.leb_gt; exact L).
      cbn -[Z.add]. apply Q. split; [apply S2|]. split; [exact V2|]. cbn. auto.
    + unfold last_ok in L. replace (Z.of_nat (mc_q m) <? _) with false by (symmetry; apply Z.ltb_ge; lia).
      cbn -[Z.add]. apply Q. split; [apply S2|]. split; [exact V2|]. cbn. auto.
  - apply Q. split; [apply S2|]. split; [exact V2|]. cbn. auto.
Qed.

Definition run_spec (t : term) : Prop := well ar t -> forall right mt m c,
  Inv mt m -> at_ m c -> well ar c -> last_ok right m ->
  safe (fun m' => Step mt (mt ++ meta_list t) m m' /\ Agree (mt ++ meta_list t) m' t c /\ moved right m m')
    (exec_all (fst (parse_term right t mt (List.length (mc_post m)))) m).

Lemma run_list l : Forall run_spec l -> l <> [] -> Forall (well ar) l -> forall mt m pre cs,
  Inv mt m -> mc_terms m = pre ++ cs -> mc_q m = List.length pre -> List.length cs = List.length l -> Forall (well ar) cs ->
  safe (fun m' => Step mt (mt ++ flat_map meta_list l) m m' /\ Forall2 (Agree (mt ++ flat_map meta_list l) m') l cs)
    (exec_all (fst (parse_list l mt (List.length (mc_post m)))) m).
Proof.
  induction l as [|a r IH]; intros F Hne W mt m pre cs I T Q L Wc; [congruence|].
  inversion F as [|? ? Fa Fr]; subst. inversion W as [|? ? Wa Wr]; subst.
  destruct cs as [|c cs]; [discriminate|]. inversion Wc as [|? ? Wc1 Wcs]; subst. injection L as L.
  rewrite parse_list_cons by (intros i E; subst a; destruct Wa). rewrite exec_all_app.
  assert (Hat : at_ m c) by (unfold at_; rewrite T, Q, nth_error_app2, Nat.sub_diag by lia; reflexivity).
  assert (La : last_ok (nonempty r) m).
  { unfold last_ok. rewrite T, Q, app_length. cbn. destruct r as [|b r], cs as [|d cs]; cbn in *; try discriminate; lia. }
  eapply safe_bind; [apply (Fa Wa (nonempty r) mt m c I Hat Wc1 La)|].
  intros m1 _ (S1 & A1 & M1). pose proof S1 as (I1 & _ & _ & P1 & _ & _).
  cbn [flat_map]. rewrite app_assoc. destruct r as [|b r].
  - destruct cs as [|d cs]; [|discriminate]. cbn. rewrite app_nil_r. split; [exact S1|]. constructor; [exact A1|constructor].
  - destruct (M1 eq_refl) as [T1 Q1].
    assert (R := IH Fr ltac:(discriminate) Wr (mt ++ meta_list a) m1 (pre ++ [c]) cs I1).
    rewrite P1 in R. eapply safe_imp; [|apply R].
    + intros m2 (S2 & A2). split; [eapply Step_trans; eauto|]. constructor; [eapply Agree_later; eauto|exact A2].
    + rewrite T1, T, <- app_assoc. reflexivity.
    + rewrite Q1, Q, app_length. cbn. lia.
    + exact L.
    + exact Wcs.
Qed.

(** the first instructions of an application *)
Lemma begin_fun mt m p tys l : Inv mt m -> at_ m (Fun p tys l) -> exec Begin m = Ok (up m).
Proof. intros I H. cbn. unfold current. rewrite H. reflexivity. Qed.
Lemma begin_meta mt m y : Inv mt m -> at_ m (Meta y) ->
  exec Begin m = Ok (mkMach (mc_q m) (mc_count m + 1) (mc_count m) false false (mc_post m) (mc_subst m) (mc_terms m) (mc_meta m) (mc_tot m) (mc_cnt m)).
Proof.
  intros I H. cbn. unfold current. rewrite H. cbn. rewrite (Inv_unl _ _ I). destruct I as (_ & _ & -> & -> & _). reflexivity.
Qed.
Lemma check_fun mt m q p tys l : Inv mt m -> at_ m (Fun p tys l) ->
  safe (fun m' => m' = m /\ id_index p = id_index q) (exec (Check q) m).
Proof.
  intros I H. cbn. rewrite (Inv_unl _ _ I). unfold current. rewrite H. cbn.
  destruct (id_index p =? id_index q) eqn:E; cbn; [|exact Logic.I]. apply Z.eqb_eq in E. auto.
Qed.
Lemma remove_last {X} (l : list X) x : remove_post (l ++ [x]) (List.length l) = l.
Proof.
  destruct l as [|a l]; [reflexivity|]. assert (E : remove_post ((a :: l) ++ [x]) (List.length (a :: l)) =
    firstn (List.length (a :: l)) ((a :: l) ++ [x]) ++ skipn (S (List.length (a :: l))) ((a :: l) ++ [x])).
  { destruct l; reflexivity. }
  rewrite E. rewrite firstn_app, Nat.sub_diag, firstn_all. cbn [firstn]. rewrite app_nil_r.
  rewrite skipn_all2 by (rewrite app_length; cbn; lia). apply app_nil_r.
Qed.

Lemma run_term t : run_spec t.
Proof.
  induction t as [i|p tys l IH|i n|x] using term_ind'; intros Wt right mt m c I Hat Wc L.
  1,3: destruct Wt.
  2: cbn [meta_list]; eapply run_meta; eauto.
  pose proof Wt as Wt'. rewrite well_fun in Wt'. destruct Wt' as (_ & Hlen & _ & Wl).
  pose proof I as (O & Lk & Pu & Po & Cn & Hl & N & R).
  assert (Iup : Inv mt (up m)) by (apply (Inv_goto mt m (mc_q m) (mc_terms m) (mc_count m + 1) (mc_tot m) (mc_cnt m) (mc_post m)); [exact I|lia]).
  destruct c as [| q' tys' args' | |y]; try (destruct Wc; fail).
  - (* application against application *)
    rewrite well_fun in Wc. destruct Wc as (Hty' & Hlen' & _ & Wl').
    assert (Hup : at_ (up m) (Fun q' tys' args')) by exact Hat.
    destruct l as [|a r].
    + cbn [parse_term fst Unif_Model.exec_all meta_list flat_map]. rewrite app_nil_r.
      rewrite (begin_fun mt m q' tys' args' I Hat). cbn [bind].
      eapply safe_bind; [apply (check_fun mt (up m) p q' tys' args' Iup Hup)|]. intros m1 _ [-> Ei].
      assert (args' = []) by (apply length_zero_iff_nil; rewrite Hlen', Ei; symmetry; exact Hlen). subst args'.
      eapply safe_bind; [apply (end_unl mt (up m)); [exact Iup|cbn; lia]|]. intros m2 _ ->.
      assert (S2 : Step mt mt m (goto (mc_q (up m)) (mc_terms (up m)) (mc_count (up m) - 1) (mc_tot (up m)) (mc_cnt (up m)) (mc_post (up m)) (up m))).
      { cbn. replace (mc_count m + 1 - 1) with (mc_count m) by lia. apply (Step_goto mt m (mc_q m) (mc_terms m) (mc_tot m) (mc_cnt m) I). }
      assert (Ag : Agree mt (goto (mc_q (up m)) (mc_terms (up m)) (mc_count (up m) - 1) (mc_tot (up m)) (mc_cnt (up m)) (mc_post (up m)) (up m)) (Fun p tys []) (Fun q' tys' [])).
      { intros _ A w _ _. cbn. rewrite Ei. f_equal. rewrite well_fun in Wt. destruct Wt as (-> & _). rewrite Hty'. reflexivity. }
      destruct right.
      * cbn [Unif_Model.exec_all Unif_Model.exec]. destruct (right_ok mt _ (proj1 S2) L) as (m3 & E3 & S3 & T3 & Q3 & _).
        rewrite E3. cbn [bind safe]. split; [eapply Step_trans; eauto|]. split; [eapply Agree_later; [exact (proj1 S2)|exact S3|exact Ag]|].
        intros _. rewrite T3, Q3. auto.
      * cbn [Unif_Model.exec_all safe]. split; [exact S2|]. split; [exact Ag|]. discriminate.
    + set (args := a :: r) in *. rewrite parse_fun by discriminate.
      cbn [meta_list].
      assert (Res : forall post tot cnt, List.length post = (if right then S (List.length (mc_post m)) else List.length (mc_post m)) ->
        id_index q' = id_index p ->
        let m3 := goto 0 args' (mc_count m + 1) tot cnt post m in
        safe (fun m' => Step mt (mt ++ flat_map meta_list args) m3 m' /\ Forall2 (Agree (mt ++ flat_map meta_list args) m') args args')
          (exec_all (fst (parse_list args mt (if right then S (List.length (mc_post m)) else List.length (mc_post m)))) m3)).
      { intros post tot cnt Hp Ei m3.
        pose proof (run_list args IH ltac:(discriminate) Wl mt m3 [] args') as RL. cbn [mc_post m3 goto] in RL. rewrite Hp in RL.
        apply RL; try reflexivity; [apply Inv_goto; [exact I|lia]|rewrite Hlen', Ei; symmetry; exact Hlen|exact Wl']. }
      destruct (parse_list args mt _) as [is mt'] eqn:Epl.
      assert (Emt : mt' = mt ++ flat_map meta_list args) by (pose proof (parse_list_metas args mt (if right then S (List.length (mc_post m)) else List.length (mc_post m))) as Q; rewrite Epl in Q; exact Q).
      cbn [fst] in *. cbn [Unif_Model.exec_all]. rewrite (begin_fun mt m q' tys' args' I Hat). cbn [bind].
      eapply safe_bind; [apply (check_fun mt (up m) p q' tys' args' Iup Hup)|]. intros m1 _ [-> Ei].
      assert (Ag : forall m4, Forall2 (Agree (mt ++ flat_map meta_list args) m4) args args' -> Agree (mt ++ flat_map meta_list args) m4 (Fun p tys args) (Fun q' tys' args')).
      { intros m4 F HS A w Hw HB. cbn -[map args]. rewrite Ei. rewrite well_fun in Wt. destruct Wt as (-> & _).
        rewrite Hty'. f_equal.
        clear -F HS Hw HB. induction F as [|x y r1 r2 Hxy F IHF]; [reflexivity|]. cbn. f_equal; [apply (Hxy HS A w Hw HB)|exact IHF]. }
      destruct right.
      * cbn [app Unif_Model.exec_all].
        assert (EP : exec (Push (List.length (mc_post m))) (up m) = Ok (goto (mc_q m) (mc_terms m) (mc_count m + 1) (mc_tot m) (mc_cnt m) (mc_post m ++ [(S (mc_q m), mc_terms m)]) m)).
        { cbn. change (unlocked (up m)) with (unlocked m). rewrite (Inv_unl _ _ I). reflexivity. }
        rewrite EP. cbn [bind].
        assert (ED : exec Down (goto (mc_q m) (mc_terms m) (mc_count m + 1) (mc_tot m) (mc_cnt m) (mc_post m ++ [(S (mc_q m), mc_terms m)]) m) =
          Ok (goto 0 args' (mc_count m + 1) (mc_tot m + Z.of_nat (List.length args')) (mc_cnt m + 1) (mc_post m ++ [(S (mc_q m), mc_terms m)]) m)).
        { cbn -[Z.add Z.of_nat]. match goal with |- (if ?u then _ else _) = _ => replace u with true by (symmetry; exact (Inv_unl _ _ I)) end.
          unfold current. cbn -[Z.add Z.of_nat]. rewrite Hat. reflexivity. }
        rewrite ED. cbn [bind]. rewrite exec_all_app.
        eapply safe_bind; [apply Res; [rewrite app_length; cbn; lia|exact Ei]|]. cbn beta. intros m4 _ (S4 & A4).
        pose proof S4 as (I4 & Ex & In4 & P4 & C4 & E4). cbn [goto mc_post mc_count mc_subst mc_meta] in P4, C4, In4, E4.
        cbn [Unif_Model.exec_all].
        assert (EO : exec (Pop (List.length (mc_post m))) m4 = Ok (goto (S (mc_q m)) (mc_terms m) (mc_count m4) (mc_tot m4) (mc_cnt m4 + 1) (mc_post m) m4)).
        { cbn -[Z.add nth_error Nat.leb]. rewrite (Inv_unl _ _ I4). rewrite P4, nth_error_app2, Nat.sub_diag by lia. cbn [nth_error].
          unfold last_ok in L. replace (Nat.leb _ _) with false by (symmetry; apply Nat.leb_gt; exact L). rewrite remove_last. reflexivity. }
        rewrite EO. cbn [bind].
        assert (I5 : Inv (mt ++ flat_map meta_list args) (goto (S (mc_q m)) (mc_terms m) (mc_count m4) (mc_tot m4) (mc_cnt m4 + 1) (mc_post m) m4))
          by (apply Inv_goto; [exact I4|lia]).
        eapply safe_bind; [apply (end_unl _ _ _ I5); cbn; lia|]. intros m6 _ ->. cbn [safe goto mc_q mc_terms mc_count mc_tot mc_cnt mc_post].
        split; [|split].
        -- split; [apply Inv_goto; [apply Inv_goto; [exact I4|lia]|rewrite C4; lia]|]. split; [exact Ex|]. split; [exact In4|]. split; [reflexivity|].
           split; [cbn; rewrite C4; lia|]. exact E4.
        -- apply (Ag m4 A4).
        -- intros _. cbn. auto.
      * cbn [app Unif_Model.exec_all].
        assert (ED : exec Down (up m) =
          Ok (goto 0 args' (mc_count m + 1) (mc_tot m + Z.of_nat (List.length args')) (mc_cnt m + 1) (mc_post m) m)).
        { cbn -[Z.add Z.of_nat]. match goal with |- (if ?u then _ else _) = _ => replace u with true by (symmetry; exact (Inv_unl _ _ I)) end.
          unfold current. cbn -[Z.add Z.of_nat]. rewrite Hat. reflexivity. }
        rewrite ED. cbn [bind]. rewrite exec_all_app.
        eapply safe_bind; [apply Res; [reflexivity|exact Ei]|]. cbn beta. intros m4 _ (S4 & A4).
        pose proof S4 as (I4 & Ex & In4 & P4 & C4 & E4). cbn [goto mc_post mc_count mc_subst mc_meta] in P4, C4, In4, E4.
        cbn [Unif_Model.exec_all].
        eapply safe_bind; [apply (end_unl _ _ _ I4); cbn; lia|]. intros m6 _ ->. cbn [safe].
        split; [|split].
        -- split; [apply Inv_goto; [exact I4|lia]|]. split; [exact Ex|]. split; [exact In4|]. split; [exact P4|].
           split; [cbn; rewrite C4; lia|]. exact E4.
        -- apply (Ag m4 A4).
        -- discriminate.
  - (* application against a metavariable of the query: locked until the matching End *)
    set (m1 := mkMach (mc_q m) (mc_count m + 1) (mc_count m) false false (mc_post m) (mc_subst m) (mc_terms m) (mc_meta m) (mc_tot m) (mc_cnt m)).
    assert (K1 : lockd m1).
    { unfold lockd, m1; cbn. split; [lia|]. apply nth_error_Some. unfold at_ in Hat. congruence. }
    assert (HC : exec (Check p) m1 = Ok m1) by (cbn; rewrite (lockd_unl _ K1); reflexivity).
    assert (Fin : forall (b : bool) m', Step mt mt m m' -> (Sem -> forall A w, solves A w (mc_meta m') -> w (m_index y) = tev A w (Fun p tys l)) ->
      Step mt (mt ++ flat_map meta_list l) m m' /\ Agree (mt ++ flat_map meta_list l) m' (Fun p tys l) (Meta y)).
    { intros b m' (S1 & _ & S3 & S4 & S5 & S6) V. split.
      - split; [|split; [eauto|split; [exact S3|split; [exact S4|split; [exact S5|exact S6]]]]].
        destruct S1 as (J1 & J2 & J3 & J4 & J5 & J6 & J7 & J8).
        split; [exact J1|]. split; [exact J2|]. split; [exact J3|]. split; [exact J4|]. split; [exact J5|].
        split; [intros i u Hu; destruct (J6 i u Hu); split; [rewrite app_length; lia|assumption]|]. split; [exact J7|].
        intros HS i j a0 b0 x z H1 H2 H3 H4 H5. apply (J8 HS i j a0 b0 x z H1 H2); auto.
        + rewrite nth_error_app1 in H3; [exact H3|apply (J6 i a0 H1)].
        + rewrite nth_error_app1 in H4; [exact H4|apply (J6 j b0 H2)].
      - intros HS A w Hw _. symmetry. apply (V HS A w Hw). }
    destruct l as [|a r].
    + cbn [parse_term fst Unif_Model.exec_all]. rewrite (begin_meta mt m y I Hat). cbn [bind]. fold m1. rewrite HC. cbn [bind].
      eapply safe_bind; [apply (unlock_ok mt m false y (Fun p tys []) right I Hat Wc Wt L)|]. cbn beta. intros m2 _ (S2 & V2 & T2 & Q2).
      cbn [andb] in Q2. destruct (Fin false m2 S2 V2) as [G1 G2]. cbn [meta_list].
      destruct right.
      * cbn [Unif_Model.exec_all Unif_Model.exec].
        destruct (right_ok _ m2 (proj1 G1)) as (m3 & E3 & S3 & T3 & Q3 & _); [rewrite T2, Q2; exact L|].
        rewrite E3. cbn [bind safe]. split; [eapply Step_trans; eauto|]. split; [eapply Agree_later; [apply G1|exact S3|exact G2]|].
        intros _. rewrite T3, Q3, T2, Q2. auto.
      * cbn [Unif_Model.exec_all safe]. split; [exact G1|]. split; [exact G2|]. discriminate.
    + set (args := a :: r) in *. rewrite parse_fun by discriminate.
      destruct (parse_list args mt _) as [is mt'] eqn:Epl. cbn [fst].
      assert (LL : forall m, lockd m -> exists b, exec_all is m = Ok (flags b m)).
      { intros m0 K0. destruct (locked_list args mt (if right then S (List.length (mc_post m)) else List.length (mc_post m)) m0 K0) as (b & E).
        rewrite Epl in E. exists b. exact E. }
      cbn [Unif_Model.exec_all]. rewrite (begin_meta mt m y I Hat). cbn [bind]. fold m1. rewrite HC. cbn [bind]. cbn [meta_list].
      destruct right.
      * cbn [app Unif_Model.exec_all].
        set (m2 := mkMach (mc_q m) (mc_count m + 1) (mc_count m) true false (mc_post m) (mc_subst m) (mc_terms m) (mc_meta m) (mc_tot m) (mc_cnt m)).
        assert (EP : exec (Push (List.length (mc_post m))) m1 = Ok m2) by (cbn; rewrite (lockd_unl _ K1); reflexivity).
        rewrite EP. cbn [bind].
        assert (K2 : lockd m2) by exact K1.
        assert (ED : exec Down m2 = Ok m2) by (cbn; rewrite (lockd_unl _ K2); reflexivity). rewrite ED. cbn [bind].
        destruct (LL m2 K2) as (b & E2). rewrite exec_all_app, E2. cbn [bind Unif_Model.exec_all].
        assert (EO : exec (Pop (List.length (mc_post m))) (flags b m2) = Ok (mkMach (mc_q m) (mc_count m + 1) (mc_count m) true true (mc_post m) (mc_subst m) (mc_terms m) (mc_meta m) (mc_tot m) (mc_cnt m))).
        { cbn. match goal with |- (if ?u then _ else _) = _ => replace u with false by (symmetry; exact (lockd_unl _ K1)) end. reflexivity. }
        rewrite EO. cbn [bind].
        eapply safe_bind; [apply (unlock_ok mt m true y (Fun p tys args) true I Hat Wc Wt L)|]. cbn beta. intros m3 _ (S3 & V3 & T3 & Q3).
        cbn [andb] in Q3. destruct (Fin false m3 S3 V3) as [G1 G2]. cbn [safe]. split; [exact G1|]. split; [exact G2|]. intros _. auto.
      * cbn [app Unif_Model.exec_all].
        assert (ED : exec Down m1 = Ok m1) by (cbn; rewrite (lockd_unl _ K1); reflexivity). rewrite ED. cbn [bind].
        destruct (LL m1 K1) as (b & E2). rewrite exec_all_app, E2. cbn [bind Unif_Model.exec_all].
        change (flags b m1) with (mkMach (mc_q m) (mc_count m + 1) (mc_count m) b b (mc_post m) (mc_subst m) (mc_terms m) (mc_meta m) (mc_tot m) (mc_cnt m)).
        eapply safe_bind; [apply (unlock_ok mt m b y (Fun p tys args) false I Hat Wc Wt L)|]. cbn beta. intros m3 _ (S3 & V3 & T3 & Q3).
        destruct (Fin false m3 S3 V3) as [G1 G2]. cbn [safe]. split; [exact G1|]. split; [exact G2|]. discriminate.
Qed.
End Run.
