(** RenameVariables: meaning preservation and freshness. *)
From Coq Require Import ZArith List Bool String Lia.
From Verif Require Import Ast_Model Sem_Spec Occ_Spec Ast_Proofs Sem_Proofs.
Import ListNotations.
Open Scope Z_scope.

(** a variable name already known to the generator *)
Definition reg (g : gen) (s : string) : Prop := lookup s (idVar g) <> None.

Lemma append_nonempty s t : t <> EmptyString -> append s t <> s.
Proof. intros N. induction s; simpl; auto. intros E; injection E; auto. Qed.
Lemma dec_nonempty k : dec k <> EmptyString.
Proof.
  unfold dec. destruct (Z.to_int k) as [[]|[]]; simpl; discriminate.
Qed.

Section Rename.
Variables (g0 : gen) (N : list string) (F : list Z).
Hypothesis NC1 : forall s k, In s N -> cpt_term g0 <= k -> ~ reg g0 (append s (dec k)).
Hypothesis NC2 : forall s s' k k', In s N -> In s' N -> cpt_term g0 <= k -> cpt_term g0 <= k' ->
  append s (dec k) = append s' (dec k') -> k = k'.
Hypothesis NR : forall s, In s N -> reg g0 s.

Definition Inv (g : gen) : Prop :=
  cpt_term g0 <= cpt_term g /\ (forall s, reg g0 s -> reg g s) /\
  forall s, reg g s -> reg g0 s \/
    exists s' k, In s' N /\ cpt_term g0 <= k < cpt_term g /\ s = append s' (dec k).
Definition step (g g' : gen) : Prop := cpt_term g <= cpt_term g' /\ forall s, reg g s -> reg g' s.
Lemma step_refl g : step g g.
Proof. split; auto; lia. Qed.
Lemma step_trans a b c : step a b -> step b c -> step a c.
Proof. intros [A B] [C E]; split; auto; lia. Qed.

(** what the two Maker calls of an iteration do *)
Lemma draw s g : Inv g -> In s N ->
  let k := cpt_term g in
  let nn := append s (dec k) in
  exists g1 g2, maker_new_var s g = (k, g1) /\ maker_var nn g1 = (k + 1, g2) /\
    Inv g2 /\ step g g2 /\ cpt_term g2 = k + 2 /\ ~ reg g nn /\ reg g2 nn /\ ~ reg g0 nn.
Proof.
  intros (I1 & I2 & I3) HN k nn.
  assert (NN : ~ reg g nn).
  { intros H. apply I3 in H as [H|(s' & k' & HS & HK & E)].
    - apply (NC1 s k) in H; auto.
    - unfold nn in E. apply NC2 in E; auto; unfold k in *; lia. }
  unfold maker_new_var. eexists; eexists. split; [reflexivity|].
  unfold maker_var. cbn [idVar lookup].
  destruct (String.eqb nn s) eqn:E.
  { apply String.eqb_eq in E. exfalso. apply (append_nonempty s (dec k)); auto. apply dec_nonempty. }
  assert (L : lookup nn (idVar g) = None).
  { unfold reg in NN. destruct (lookup nn (idVar g)); auto. exfalso; apply NN; discriminate. }
  rewrite L. unfold maker_new_var. cbn [cpt_term idVar cpt_formula count_meta idTable occMeta]. fold k.
  split; [reflexivity|].
  assert (RG : forall z, reg (mkGen (k + 1 + 1) (cpt_formula g) (count_meta g) (idTable g) 
       ((nn, k + 1) :: (s, k) :: idVar g) (occMeta g)) z <-> z = nn \/ z = s \/ reg g z).
  { intros z. unfold reg. cbn [idVar lookup]. destruct (String.eqb z nn) eqn:E1.
    - apply String.eqb_eq in E1; subst. split; auto. intros; discriminate.
    - apply String.eqb_neq in E1. destruct (String.eqb z s) eqn:E2.
      + apply String.eqb_eq in E2; subst. split; auto. intros; discriminate.
      + apply String.eqb_neq in E2. split; auto. intros [?|[?|?]]; auto; contradiction. }
  split; [|split; [|split; [|split; [|split]]]].
  - split; [cbn; unfold k; lia|split].
    + intros z Hz. apply RG; auto.
    + intros z Hz. apply RG in Hz as [->|[->|Hz]].
      * right. exists s, k. cbn; unfold k; repeat split; auto; lia.
      * left; auto.
      * apply I3 in Hz as [?|(s' & k' & ? & ? & ?)]; auto. right; exists s', k'; cbn; unfold k; repeat split; auto; lia.
  - split; [cbn; unfold k; lia|]. intros z Hz; apply RG; auto.
  - cbn; lia.
  - auto.
  - apply RG; auto.
  - intros H; apply NN; auto.
Qed.

(** *** loop *)
Definition okst (h fc : form) (gc : gen) : Prop :=
  Inv gc /\
  (forall x, In x (f_vars fc) -> (In x (f_vars h) /\ x < cpt_term g0) \/ cpt_term g0 <= x < cpt_term gc) /\
  (forall s, In s (f_tyvars fc) -> (In s (f_tyvars h) /\ reg g0 s) \/ (~ reg g0 s /\ reg gc s)) /\
  incl (f_funs fc) F /\ f_noid fc /\
  (forall x, In x (f_binders fc) -> cpt_term g0 <= tv_index x < cpt_term gc /\ ~ reg g0 (tv_name x) /\ reg gc (tv_name x)).

Definition tybs (p : ty * ty) : Prop := exists a b c d, p = (TyBound a b, TyBound c d).

(** one iteration, seen semantically *)
Definition semstep (x x' : tvar) (fc f1 : form) : Prop :=
  is_ttype (tv_ty x') = is_ttype (tv_ty x) /\
  if is_ttype (tv_ty x)
  then forall I (v : val I), holds f1 v <-> holds fc (set_tbv v (tv_name x) (tbv v (tv_name x')))
  else forall I (v : val I), holds f1 v <-> holds fc (set_bv v (tv_index x) (bv v (tv_index x'))).

Lemma step_ok h fc gc x nvs tys : okst h fc gc ->
  tv_index x < cpt_term g0 -> ~ In (tv_index x) F -> In (tv_name x) N ->
  (if is_ttype (tv_ty x) then ~ In (tv_index x) (f_vars h) else ~ In (tv_name x) (f_tyvars h)) ->
  exists x' tys2 f1 g1, rename_step x (nvs, tys, fc) gc = Some ((nvs ++ [x'], tys ++ tys2, f1), g1) /\
    okst h f1 g1 /\ step gc g1 /\
    (forall y, In y (f_vars f1) -> In y (f_vars fc) \/ y = tv_index x') /\
    (forall y, In y (f_tyvars f1) -> In y (f_tyvars fc) \/ y = tv_name x') /\
    map tv_index (f_binders f1) = map tv_index (f_binders fc) /\
    map tv_name (f_binders f1) = map tv_name (f_binders fc) /\
    cpt_term gc <= tv_index x' < cpt_term g1 /\ ~ reg gc (tv_name x') /\ reg g1 (tv_name x') /\
    ~ reg g0 (tv_name x') /\
    tv_ty x' = tv_ty x /\ Forall tybs tys2 /\ semstep x x' fc f1.
Proof.
  intros (IV & KV & KT & KF & KN & KB) Hi HF HN HS.
  destruct (draw (tv_name x) gc IV HN) as (g1 & g2 & E1 & E2 & IV2 & ST & C2 & N1 & N2 & N3).
  set (k := cpt_term gc) in *. set (nn := append (tv_name x) (dec k)) in *.
  destruct IV as (IA & IB & IC).
  assert (HU : term_eqb (Var (tv_index x) (tv_name x)) (Var (k + 1) nn) = false).
  { simpl. apply Z.eqb_neq. unfold k; lia. }
  destruct (replace_term_total (tv_index x) (tv_name x) (Var (k+1) nn) HU fc KN) as (f' & b & ER).
  assert (OK : rf_ok (tv_index x) (Var (k+1) nn) fc f' b).
  { apply (replace_term_ok _ (tv_name x)); auto. }
  destruct OK as (A1 & A2 & A3 & A4 & A5 & A6 & A7 & A8 & A9 & A10).
  assert (HB : forall y, In y (f_binders fc) -> tv_index y <> tv_index x /\
     ~ In (tv_index y) (t_vars (Var (k + 1) nn)) /\ ~ In (tv_name y) (t_tyvars (Var (k + 1) nn))).
  { intros y Iy. destruct (KB y Iy) as (B1 & B2 & B3). simpl. fold k in B1.
    split; [lia|]. split; [intros [?|[]]; lia|tauto]. }
  specialize (A10 HB).
  assert (ST1 : cpt_term gc <= cpt_term g2) by (unfold k in C2; lia).
  destruct ST as [_ ST2].
  unfold rename_step. rewrite E1. fold nn. rewrite E2, ER.
  destruct b.
  - (* a term variable that occurs *)
    assert (TT : is_ttype (tv_ty x) = false).
    { destruct (is_ttype (tv_ty x)); auto. exfalso. apply HS.
      destruct (KV (tv_index x)) as [[? ?]|?]; [apply A1; auto|auto|lia]. }
    rewrite TT in HS.
    exists (mkTV nn (k + 1) (tv_ty x)), [], f', g2. rewrite app_nil_r.
    split; [reflexivity|]. split; [|split; [split; auto|]].
    { split; [auto|split; [|split; [|split; [|split]]]].
      - intros y Hy. apply A3 in Hy as [[Hy ?]|[_ [<-|[]]]].
        + destruct (KV y Hy) as [?|?]; auto. right. fold k in H0. lia.
        + right; unfold k; lia.
      - intros y Hy. apply A5 in Hy as [Hy|[_ []]]. destruct (KT y Hy) as [?|[? ?]]; auto.
      - intros y Hy. apply A4 in Hy as [Hy|[_ []]]. auto.
      - apply A9; auto.
      - rewrite A8. intros y Hy. destruct (KB y Hy) as (B1 & B2 & B3). fold k in B1. repeat split; auto; lia. }
    simpl. split; [|split; [|split; [|split; [|split; [|split; [|split; [|split; [|split; [|split]]]]]]]]]; auto.
    + intros y Hy. apply A3 in Hy as [[? _]|[_ [<-|[]]]]; auto.
    + intros y Hy. apply A5 in Hy as [?|[_ []]]; auto.
    + rewrite A8; auto.
    + rewrite A8; auto.
    + unfold k; lia.
    + split; auto. rewrite TT. simpl. intros I v. apply (A10 I v).
  - rewrite (A2 eq_refl) in *. clear A2 A3 A4 A5 A6 A7 A8 A9 ER f'.
    set (o := TyBound (tv_name x) (tv_index x)). set (u := TyBound nn (k + 1)).
    destruct (form_subst_ty_occ o u fc) as (O1 & O2 & O3 & O4 & O5 & O6).
    assert (HO : is_tyvar o) by exact I.
    assert (FT : forall y, In y (f_tyvars (form_subst_ty o u fc)) -> In y (f_tyvars fc) \/ y = nn).
    { intros y Hy. apply form_subst_ty_tyvars in Hy; auto. simpl in Hy. intuition. }
    assert (NI : ~ In (tv_index x) (f_vars fc)).
    { intros H. apply A1 in H. discriminate. }
    assert (SEM : forall I (v : val I), holds (form_subst_ty o u fc) v <-> holds fc (set_tbv v (tv_name x) (tbv v nn))).
    { intros I0 v. apply (form_subst_ty_ok o u HO eq_refl). intros y Iy _. destruct (KB y Iy) as (B1 & B2 & B3).
      simpl. split; intros [E|[]].
      - apply B2. rewrite <- E. auto.
      - apply N1. rewrite E. auto. }
    exists (mkTV nn (k + 1) (tv_ty x)), [(o, u)], (form_subst_ty o u fc), g2.
    split; [reflexivity|]. split; [|split; [split; auto|]].
    { split; [auto|split; [|split; [|split; [|split]]]].
      - rewrite O1. intros y Hy. destruct (KV y Hy) as [?|?]; auto. right. fold k in H. lia.
      - intros y Hy. apply FT in Hy as [Hy| ->]; auto. destruct (KT y Hy) as [?|[? ?]]; auto.
      - rewrite O2; auto.
      - apply O5; auto.
      - rewrite O6. intros y Hy. apply in_map_iff in Hy as (z & <- & Hz). simpl.
        destruct (KB z Hz) as (B1 & B2 & B3). fold k in B1. repeat split; auto; lia. }
    simpl. split; [|split; [|split; [|split; [|split; [|split; [|split; [|split; [|split; [|split]]]]]]]]]; auto.
    + rewrite O1. auto.
    + rewrite O6, map_map. auto.
    + rewrite O6, map_map. auto.
    + unfold k; lia.
    + constructor; auto. unfold tybs, o, u; eauto 10.
    + split; auto. simpl. destruct (is_ttype (tv_ty x)); auto.
      intros I0 v. rewrite SEM. apply holds_agree. constructor; simpl; auto.
      * intros y Hy. unfold upd. destruct (y =? tv_index x) eqn:E; auto. apply Z.eqb_eq in E; subst; contradiction.
      * intros s Hs. unfold upds. destruct (String.eqb s (tv_name x)) eqn:E; auto.
        apply String.eqb_eq in E; subst. destruct (KT _ Hs) as [[? ?]|[? ?]]; [contradiction|].
        exfalso; auto.
Qed.

(** prefix lemma: renaming the first variable of a prefix *)
Lemma prefix_step (x x' : tvar) r fc f1 : semstep x x' fc f1 ->
  ~ In (tv_index x') (f_vars fc) -> ~ In (tv_name x') (f_tyvars fc) ->
  ~ In (tv_index x) (map tv_index r) -> ~ In (tv_name x) (map tv_name r) ->
  ~ In (tv_index x') (map tv_index r) -> ~ In (tv_name x') (map tv_name r) ->
  forall I (v : val I),
   (forall_vars (x' :: r) (holds f1) v <-> forall_vars (x :: r) (holds fc) v) /\
   (exists_vars (x' :: r) (holds f1) v <-> exists_vars (x :: r) (holds fc) v).
Proof.
  intros [ET S] J1 J2 M1 M2 M3 M4 I v. cbn [forall_vars exists_vars]. rewrite ET.
  destruct (is_ttype (tv_ty x)) eqn:TT.
  - assert (K : forall t, 
      (forall_vars r (holds f1) (set_tbv v (tv_name x') t) <-> forall_vars r (holds fc) (set_tbv v (tv_name x) t)) /\
      (exists_vars r (holds f1) (set_tbv v (tv_name x') t) <-> exists_vars r (holds fc) (set_tbv v (tv_name x) t))).
    { intros t.
      set (R := fun v w : val I => (forall i, bv v i = bv w i) /\ (forall i, mv v i = mv w i) /\
         (forall s i, tmv v s i = tmv w s i) /\
         (forall s, s <> tv_name x -> s <> tv_name x' -> tbv v s = tbv w s) /\
         tbv v (tv_name x') = t /\ tbv w (tv_name x) = t).
      assert (R0 : R (set_tbv v (tv_name x') t) (set_tbv v (tv_name x) t)).
      { unfold R; simpl; unfold upds. rewrite !String.eqb_refl. repeat split; auto.
        intros s A B. apply String.eqb_neq in A, B. rewrite A, B; auto. }
      assert (RT : forall y, In y r -> is_ttype (tv_ty y) = true ->
         forall v w t, R v w -> R (set_tbv v (tv_name y) t) (set_tbv w (tv_name y) t)).
      { intros y Iy _ v1 w1 t1 (A & B & C & E & G & H). unfold R; simpl; unfold upds. repeat split; auto.
        - intros s X Y. destruct (String.eqb s (tv_name y)); auto.
        - destruct (String.eqb (tv_name x') (tv_name y)) eqn:EE; auto. apply String.eqb_eq in EE.
          exfalso; apply M4. rewrite EE. apply in_map; auto.
        - destruct (String.eqb (tv_name x) (tv_name y)) eqn:EE; auto. apply String.eqb_eq in EE.
          exfalso; apply M2. rewrite EE. apply in_map; auto. }
      assert (RD : forall y, In y r -> is_ttype (tv_ty y) = false ->
         forall v w t, R v w -> R (set_bv v (tv_index y) t) (set_bv w (tv_index y) t)).
      { intros y Iy _ v1 w1 t1 (A & B & C & E & G & H). unfold R; simpl; unfold upd. repeat split; auto.
        intros j; destruct (j =? tv_index y); auto. }
      assert (RK : forall v w, R v w -> (holds f1 v <-> holds fc w)).
      { intros v1 w1 (A & B & C & E & G & H). rewrite S. apply holds_agree. constructor; simpl; auto.
        intros s Hs. unfold upds. destruct (String.eqb s (tv_name x)) eqn:EE.
        - apply String.eqb_eq in EE; subst s. congruence.
        - apply String.eqb_neq in EE. apply E; auto. intros ->; auto. }
      split; [eapply forall_vars_rel with (R := R)|eapply exists_vars_rel with (R := R)]; eauto. }
    split.
    + split; intros H t; apply K; auto.
    + split; intros [t H]; exists t; apply K; auto.
  - assert (K : forall t, 
      (forall_vars r (holds f1) (set_bv v (tv_index x') t) <-> forall_vars r (holds fc) (set_bv v (tv_index x) t)) /\
      (exists_vars r (holds f1) (set_bv v (tv_index x') t) <-> exists_vars r (holds fc) (set_bv v (tv_index x) t))).
    { intros t.
      set (R := fun v w : val I => (forall i, tbv v i = tbv w i) /\ (forall i, mv v i = mv w i) /\
         (forall s i, tmv v s i = tmv w s i) /\
         (forall s, s <> tv_index x -> s <> tv_index x' -> bv v s = bv w s) /\
         bv v (tv_index x') = t /\ bv w (tv_index x) = t).
      assert (R0 : R (set_bv v (tv_index x') t) (set_bv v (tv_index x) t)).
      { unfold R; simpl; unfold upd. rewrite !Z.eqb_refl. repeat split; auto.
        intros s A B. apply Z.eqb_neq in A, B. rewrite A, B; auto. }
      assert (RT : forall y, In y r -> is_ttype (tv_ty y) = true ->
         forall v w t, R v w -> R (set_tbv v (tv_name y) t) (set_tbv w (tv_name y) t)).
      { intros y Iy _ v1 w1 t1 (A & B & C & E & G & H). unfold R; simpl; unfold upds. repeat split; auto.
        intros j; destruct (String.eqb j (tv_name y)); auto. }
      assert (RD : forall y, In y r -> is_ttype (tv_ty y) = false ->
         forall v w t, R v w -> R (set_bv v (tv_index y) t) (set_bv w (tv_index y) t)).
      { intros y Iy _ v1 w1 t1 (A & B & C & E & G & H). unfold R; simpl; unfold upd. repeat split; auto.
        - intros s X Y. destruct (s =? tv_index y); auto.
        - destruct (tv_index x' =? tv_index y) eqn:EE; auto. apply Z.eqb_eq in EE.
          exfalso; apply M3. rewrite EE. apply in_map; auto.
        - destruct (tv_index x =? tv_index y) eqn:EE; auto. apply Z.eqb_eq in EE.
          exfalso; apply M1. rewrite EE. apply in_map; auto. }
      assert (RK : forall v w, R v w -> (holds f1 v <-> holds fc w)).
      { intros v1 w1 (A & B & C & E & G & H). rewrite S. apply holds_agree. constructor; simpl; auto.
        intros s Hs. unfold upd. destruct (s =? tv_index x) eqn:EE.
        - apply Z.eqb_eq in EE; subst s. congruence.
        - apply Z.eqb_neq in EE. apply E; auto. intros ->; auto. }
      split; [eapply forall_vars_rel with (R := R)|eapply exists_vars_rel with (R := R)]; eauto. }
    split.
    + split; intros H t; apply K; auto.
    + split; intros [t H]; exists t; apply K; auto.
Qed.

Definition vsok (h : form) (vs : list tvar) : Prop :=
  (forall x, In x vs -> tv_index x < cpt_term g0 /\ ~ In (tv_index x) F /\ In (tv_name x) N) /\
  NoDup (map tv_index vs) /\ NoDup (map tv_name vs) /\
  (forall x, In x vs -> if is_ttype (tv_ty x) then ~ In (tv_index x) (f_vars h)
                        else ~ In (tv_name x) (f_tyvars h)).

Lemma forall_cons_iff {I} x r (k k' : val I -> Prop) v :
  (forall v, (forall_vars r k v <-> k' v)) -> 
  (forall_vars (x :: r) k v <-> forall_vars [x] k' v).
Proof. intros H. cbn. destruct (is_ttype (tv_ty x)); split; intros A t; apply H; auto. Qed.
Lemma exists_cons_iff {I} x r (k k' : val I -> Prop) v :
  (forall v, (exists_vars r k v <-> k' v)) -> 
  (exists_vars (x :: r) k v <-> exists_vars [x] k' v).
Proof. intros H. cbn. destruct (is_ttype (tv_ty x)); split; intros [t A]; exists t; apply H; auto. Qed.

Lemma loop_ok h vs : vsok h vs -> forall nvs tys fc gc, okst h fc gc ->
  exists new tys2 f2 g2, rename_loop vs (nvs, tys, fc) gc = Some ((nvs ++ new, tys ++ tys2, f2), g2) /\
    okst h f2 g2 /\ step gc g2 /\
    (forall y, In y (f_vars f2) -> In y (f_vars fc) \/ cpt_term gc <= y < cpt_term g2) /\
    (forall y, In y (f_tyvars f2) -> In y (f_tyvars fc) \/ (~ reg gc y /\ reg g2 y)) /\
    map tv_index (f_binders f2) = map tv_index (f_binders fc) /\
    map tv_name (f_binders f2) = map tv_name (f_binders fc) /\
    (forall x, In x new -> cpt_term gc <= tv_index x < cpt_term g2 /\ ~ reg gc (tv_name x) /\ reg g2 (tv_name x)) /\
    NoDup (map tv_index new) /\ NoDup (map tv_name new) /\ Forall tybs tys2 /\
    (forall I (v : val I), (forall_vars new (holds f2) v <-> forall_vars vs (holds fc) v) /\
                           (exists_vars new (holds f2) v <-> exists_vars vs (holds fc) v)).
Proof.
  induction vs as [|x r IH]; intros (V1 & V2 & V3 & V4) nvs tys fc gc OK.
  - exists [], [], fc, gc. rewrite !app_nil_r. split; [reflexivity|].
    split; [auto|]. split; [apply step_refl|]. do 5 (split; [auto; simpl; try tauto|]).
    split; [constructor|]. split; [constructor|]. split; [constructor|]. intros; simpl; tauto.
  - destruct (V1 x (or_introl eq_refl)) as (X1 & X2 & X3). pose proof (V4 x (or_introl eq_refl)) as X4.
    destruct (step_ok h fc gc x nvs tys OK X1 X2 X3 X4)
      as (x' & t1 & f1 & g1 & E & OK1 & ST1 & S1 & S2 & S3 & S4 & S5 & S6 & S7 & S8 & S9 & S10 & S11).
    inversion V2 as [|? ? V2a V2b]; subst. inversion V3 as [|? ? V3a V3b]; subst.
    assert (VR : vsok h r).
    { split; [intros; apply V1; right; auto|]. split; auto. split; auto. intros; apply V4; right; auto. }
    destruct (IH VR (nvs ++ [x']) (tys ++ t1) f1 g1 OK1)
      as (new & t2 & f2 & g2 & E2 & OK2 & ST2 & R1 & R2 & R3 & R4 & R5 & R6 & R7 & R8 & R9).
    exists (x' :: new), (t1 ++ t2), f2, g2.
    cbn [rename_loop]. rewrite E, E2. rewrite <- !app_assoc. 
    split; [reflexivity|]. split; [auto|]. split; [eapply step_trans; eauto|].
    destruct ST1 as [ST1a ST1b]. destruct ST2 as [ST2a ST2b].
    split; [|split; [|split; [|split; [|split; [|split; [|split; [|split]]]]]]].
    + intros y Hy. apply R1 in Hy as [Hy|Hy]; [|right; lia]. apply S1 in Hy as [?| ->]; auto. right; lia.
    + intros y Hy. apply R2 in Hy as [Hy|[Hy1 Hy2]]; [|right; auto]. apply S2 in Hy as [?| ->]; auto.
    + congruence.
    + congruence.
    + intros y [<-|Hy]; [split; [lia|]; auto|]. destruct (R5 y Hy) as (? & ? & ?). split; [lia|]. split; auto.
    + cbn. constructor; auto. intros H. apply in_map_iff in H as (y & Ey & Iy). destruct (R5 y Iy) as (? & ? & ?). lia.
    + cbn. constructor; auto. intros H. apply in_map_iff in H as (y & Ey & Iy). destruct (R5 y Iy) as (? & ? & ?). 
      rewrite Ey in H0. auto.
    + apply Forall_app; auto.
    + intros I v.
      assert (PS : (forall_vars (x' :: r) (holds f1) v <-> forall_vars (x :: r) (holds fc) v) /\
                   (exists_vars (x' :: r) (holds f1) v <-> exists_vars (x :: r) (holds fc) v)).
      { destruct OK as (K1 & K2 & K3 & _). destruct K1 as (KA & KB & KC).
        apply prefix_step; auto.
        - intros H. apply K2 in H as [[? ?]|?]; lia.
        - intros H. apply K3 in H as [[? ?]|[? ?]]; auto.
        - intros H. apply in_map_iff in H as (y & Ey & Iy). destruct (V1 y (or_intror Iy)). lia.
        - intros H. apply in_map_iff in H as (y & Ey & Iy). destruct (V1 y (or_intror Iy)) as (_ & _ & H).
          rewrite Ey in H. apply S8; auto. }
      destruct PS as [PS1 PS2]. split.
      * rewrite <- PS1. rewrite (forall_cons_iff x' new (holds f2) (forall_vars r (holds f1)) v), 
          (forall_cons_iff x' r (holds f1) (forall_vars r (holds f1)) v); [tauto|tauto|].
        intros w; apply R9.
      * rewrite <- PS2. rewrite (exists_cons_iff x' new (holds f2) (exists_vars r (holds f1)) v), 
          (exists_cons_iff x' r (holds f1) (exists_vars r (holds f1)) v); [tauto|tauto|].
        intros w; apply R9.
Qed.

(** *** formulas *)
Definition wfin (f : form) : Prop :=
  (forall i, In i (f_vars f) -> i < cpt_term g0) /\
  (forall s, In s (f_tyvars f) -> reg g0 s) /\
  (forall x, In x (f_binders f) -> tv_index x < cpt_term g0 /\ ~ In (tv_index x) F /\ In (tv_name x) N) /\
  incl (f_funs f) F /\ f_noid f /\ sorted_use f.

Definition out (f : form) (g : gen) (f' : form) (g' : gen) : Prop :=
  Inv g' /\ step g g' /\ equiv f f' /\ incl (f_funs f') F /\ f_noid f' /\
  (forall x, In x (f_vars f') -> In x (f_vars f) \/ cpt_term g <= x < cpt_term g') /\
  (forall s, In s (f_tyvars f') -> In s (f_tyvars f) \/ (~ reg g s /\ reg g' s)) /\
  (forall x, In x (f_binders f') -> cpt_term g <= tv_index x < cpt_term g' /\ ~ reg g (tv_name x) /\ reg g' (tv_name x)) /\
  NoDup (map tv_index (f_binders f')) /\ NoDup (map tv_name (f_binders f')).

Definition outs (f : list form) (g : gen) (f' : list form) (g' : gen) : Prop :=
  Inv g' /\ step g g' /\ Forall2 equiv f f' /\ incl (flat_map f_funs f') F /\ Forall f_noid f' /\
  (forall x, In x (flat_map f_vars f') -> In x (flat_map f_vars f) \/ cpt_term g <= x < cpt_term g') /\
  (forall s, In s (flat_map f_tyvars f') -> In s (flat_map f_tyvars f) \/ (~ reg g s /\ reg g' s)) /\
  (forall x, In x (flat_map f_binders f') -> cpt_term g <= tv_index x < cpt_term g' /\ ~ reg g (tv_name x) /\ reg g' (tv_name x)) /\
  NoDup (map tv_index (flat_map f_binders f')) /\ NoDup (map tv_name (flat_map f_binders f')).

Lemma NoDup_app_disj {A} (l1 l2 : list A) : NoDup l1 -> NoDup l2 -> (forall x, In x l1 -> In x l2 -> False) -> NoDup (l1 ++ l2).
Proof.
  induction 1 as [|a l1 Ha H1 IH]; simpl; intros H2 HD; auto.
  constructor; [rewrite in_app_iff; intros [?|?]; eauto|]. apply IH; auto. eauto.
Qed.

Lemma outs_cons a l g a' g1 l' g2 : out a g a' g1 -> outs l g1 l' g2 -> outs (a :: l) g (a' :: l') g2.
Proof.
  intros (A1 & [A2a A2b] & A3 & A4 & A5 & A6 & A7 & A8 & A9 & A10) (B1 & [B2a B2b] & B3 & B4 & B5 & B6 & B7 & B8 & B9 & B10).
  split; [auto|]. split; [split; auto; lia|]. split; [constructor; auto|]. split; [simpl; apply incl_app; auto|].
  split; [constructor; auto|]. simpl.
  split; [|split; [|split; [|split]]].
  - intros x. rewrite !in_app_iff. intros [H|H]; [apply A6 in H|apply B6 in H]; intuition lia.
  - intros x. rewrite !in_app_iff. intros [H|H]; [apply A7 in H|apply B7 in H]; intuition.
  - intros x. rewrite in_app_iff. intros [H|H]; [apply A8 in H|apply B8 in H]; destruct H as (? & ? & ?); split; auto; try lia.
  - rewrite map_app. apply NoDup_app_disj; auto. intros i Hi Hj.
    apply in_map_iff in Hi as (x & <- & Hx). apply in_map_iff in Hj as (y & E & Hy).
    apply A8 in Hx. apply B8 in Hy. lia.
  - rewrite map_app. apply NoDup_app_disj; auto. intros i Hi Hj.
    apply in_map_iff in Hi as (x & <- & Hx). apply in_map_iff in Hj as (y & E & Hy).
    apply A8 in Hx. apply B8 in Hy. rewrite E in Hy. tauto.
Qed.
Lemma outs_nil g : Inv g -> outs [] g [] g.
Proof.
  intros H. split; [auto|]. split; [apply step_refl|]. split; [constructor|]. split; [intros ? []|].
  split; [constructor|]. simpl. repeat split; try tauto; try constructor.
Qed.

Definition rn_list : list form -> gen -> option (list form * gen) :=
  fix go (l : list form) (g : gen) : option (list form * gen) :=
    match l with
    | [] => Some ([], g)
    | a :: r =>
      match rename_variables a g with
      | None => None
      | Some (a', g1) =>
        match go r g1 with
        | Some (r', g2) => Some (a' :: r', g2)
        | None => None
        end
      end
    end.

Lemma rn_list_ok fs : Forall (fun f => wfin f -> forall g, Inv g -> exists f' g', rename_variables f g = Some (f', g') /\ out f g f' g') fs ->
  Forall wfin fs -> forall g, Inv g -> exists l g', rn_list fs g = Some (l, g') /\ outs fs g l g'.
Proof.
  induction 1 as [|a l Ha _ IH]; intros W g Hg.
  - exists [], g. split; auto. apply outs_nil; auto.
  - inversion W; subst. destruct (Ha H1 g Hg) as (a' & g1 & E & O). cbn [rn_list]. rewrite E.
    destruct (IH H2 g1) as (l' & g2 & E2 & O2); [apply O|]. fold rn_list. rewrite E2.
    eexists; eexists; split; [reflexivity|]. eapply outs_cons; eauto.
Qed.

Lemma wfin_list (h : Z -> list form -> form) i fs : (h = And \/ h = Or) -> wfin (h i fs) -> Forall wfin fs.
Proof.
  intros HH (W1 & W2 & W3 & W4 & W5 & W6). apply Forall_forall. intros g Ig.
  destruct HH; subst h; (split; [|split; [|split; [|split; [|split]]]]).
  all: try (intros j Hj; first [apply W1|apply W2|apply W3|apply W4|apply W5]; simpl; apply in_flat_map; eauto; fail).
  - simpl in W6. apply (proj1 (fold_and_forall sorted_use fs) W6); auto.
  - simpl in W6. apply (proj1 (fold_and_forall sorted_use fs) W6); auto.
Qed.
Lemma wfin_two (h : Z -> form -> form -> form) i a b : (h = Equ \/ h = Imp) -> wfin (h i a b) -> wfin a /\ wfin b.
Proof.
  intros HH (W1 & W2 & W3 & W4 & W5 & W6).
  destruct HH; subst h; simpl in *; (split; (split; [|split; [|split; [|split; [|split]]]])); try tauto.
  all: try (intros j Hj; first [apply W1|apply W2|apply W3|apply W4|apply W5]; simpl; apply in_or_app; auto; fail).
Qed.

Lemma tvar_subst_pairs_ok tys v : Forall tybs tys -> 
  is_ttype (tv_ty (tvar_subst_pairs tys v)) = is_ttype (tv_ty v) /\
  tv_name (tvar_subst_pairs tys v) = tv_name v /\ tv_index (tvar_subst_pairs tys v) = tv_index v.
Proof.
  unfold tvar_subst_pairs. intros H. revert v. induction H as [|p l Hp _ IH]; simpl; intros v; auto.
  destruct (IH (tvar_subst_ty (fst p) (snd p) v)) as (-> & -> & ->). simpl. 
  destruct Hp as (a & b & c & d & ->). simpl. rewrite is_ttype_subst; simpl; auto.
Qed.

Lemma equiv_refl f : equiv f f.
Proof. intros I v; tauto. Qed.

Lemma quant_case (isall : bool) i vs h g :
  let q := if isall then All else Ex in
  wfin (q i vs h) -> (wfin h -> forall g, Inv g -> exists f' g', rename_variables h g = Some (f', g') /\ out h g f' g') ->
  Inv g -> exists f' g', rename_variables (q i vs h) g = Some (f', g') /\ out (q i vs h) g f' g'.
Proof.
  intros q W IH Hg.
  assert (Wh : wfin h /\ vsok h vs).
  { destruct W as (W1 & W2 & W3 & W4 & W5 & W6).
    assert (SU : NoDup (map tv_index vs) /\ NoDup (map tv_name vs) /\
      (forall x, In x vs -> if is_ttype (tv_ty x) then ~ In (tv_index x) (f_vars h)
                          else ~ In (tv_name x) (f_tyvars h)) /\ sorted_use h) by (destruct isall; exact W6).
    assert (BB : f_binders (q i vs h) = vs ++ f_binders h) by (destruct isall; reflexivity). rewrite BB in W3.
    destruct SU as (S1 & S2 & S3 & S4).
    split; [split; [|split; [|split; [|split; [|split]]]]|].
    - intros j Hj; apply W1; destruct isall; auto.
    - intros j Hj; apply W2; destruct isall; auto.
    - intros j Hj; apply W3, in_or_app; auto.
    - intros j Hj; apply W4; destruct isall; auto.
    - intros j Hj; apply W5; destruct isall; auto.
    - auto.
    - split; [intros; apply W3, in_or_app; auto|]. auto. }
  destruct Wh as [Wh VO]. destruct (IH Wh g Hg) as (h1 & g1 & E1 & O1).
  destruct O1 as (A1 & [A2a A2b] & A3 & A4 & A5 & A6 & A7 & A8 & A9 & A10).
  assert (OK : okst h h1 g1).
  { destruct Wh as (W1 & W2 & W3 & W4 & W5 & W6). destruct Hg as (G1 & G2 & G3). split; [auto|]. split; [|split; [|split; [|split]]]; auto.
    - intros x Hx. apply A6 in Hx as [?|?]; [left; auto|right; lia].
    - intros x Hx. apply A7 in Hx as [?|[? ?]]; [left; auto|right; auto].
    - intros x Hx. apply A8 in Hx as (? & ? & ?). split; [lia|]. auto. }
  destruct (loop_ok h vs VO [] [] h1 g1 OK) as (new & t2 & f2 & g2 & E2 & OK2 & [ST2a ST2b] & R1 & R2 & R3 & R4 & R5 & R6 & R7 & R8 & R9).
  exists (q i (map (tvar_subst_pairs t2) new) f2), g2.
  split. { unfold q. destruct isall; cbn [rename_variables]; rewrite E1, E2; reflexivity. }
  assert (MI : map tv_index (map (tvar_subst_pairs t2) new) = map tv_index new).
  { rewrite map_map. apply map_ext. intros; apply tvar_subst_pairs_ok; auto. }
  assert (MN : map tv_name (map (tvar_subst_pairs t2) new) = map tv_name new).
  { rewrite map_map. apply map_ext. intros; apply tvar_subst_pairs_ok; auto. }
  assert (BB : f_binders (q i (map (tvar_subst_pairs t2) new) f2) = map (tvar_subst_pairs t2) new ++ f_binders f2) by (destruct isall; reflexivity).
  destruct OK2 as (K1 & K2 & K3 & K4 & K5 & K6).
  assert (BF : forall x, In x (f_binders f2) -> cpt_term g <= tv_index x < cpt_term g1 /\ ~ reg g (tv_name x) /\ reg g1 (tv_name x)).
  { intros x Hx. 
    assert (I1 : In (tv_index x) (map tv_index (f_binders h1))) by (rewrite <- R3; apply in_map; auto).
    assert (I2 : In (tv_name x) (map tv_name (f_binders h1))) by (rewrite <- R4; apply in_map; auto).
    apply in_map_iff in I1 as (y & Ey & Hy). apply in_map_iff in I2 as (z & Ez & Hz).
    apply A8 in Hy, Hz. rewrite Ey in Hy. rewrite Ez in Hz. tauto. }
  assert (NF : forall x, In x (map (tvar_subst_pairs t2) new) -> cpt_term g1 <= tv_index x < cpt_term g2 /\ ~ reg g1 (tv_name x) /\ reg g2 (tv_name x)).
  { intros x Hx. apply in_map_iff in Hx as (y & <- & Hy). destruct (tvar_subst_pairs_ok t2 y R8) as (_ & -> & ->). auto. }
  unfold out. split; [auto|]. split; [split; auto; lia|]. rewrite BB, !map_app, MI, MN.
  split; [|split; [|split; [|split; [|split; [|split; [|split]]]]]].
  - intros I v. 
    assert (H1 : forall v : val I, (forall_vars vs (holds h) v <-> forall_vars vs (holds h1) v) /\ 
        (exists_vars vs (holds h) v <-> exists_vars vs (holds h1) v)).
    { intros w. split; [apply (forall_vars_rel eq)|apply (exists_vars_rel eq)]; auto; try (intros; subst; auto; fail);
      intros ? ? ->; apply A3. }
    assert (H2 : (forall_vars (map (tvar_subst_pairs t2) new) (holds f2) v <-> forall_vars new (holds f2) v) /\
                 (exists_vars (map (tvar_subst_pairs t2) new) (holds f2) v <-> exists_vars new (holds f2) v)).
    { apply (forall_vars_rel2 eq); auto; try (intros; subst; auto; fail).
      - intros; apply tvar_subst_pairs_ok; auto.
      - intros ? ? ->; tauto. }
    destruct isall; cbn [q holds].
    + rewrite (proj1 (H1 v)), (proj1 H2), (proj1 (R9 I v)). tauto.
    + rewrite (proj2 (H1 v)), (proj2 H2), (proj2 (R9 I v)). tauto.
  - unfold q; destruct isall; auto.
  - unfold q; destruct isall; auto.
  - intros x Hx. assert (Hx' : In x (f_vars f2)) by (unfold q in Hx; destruct isall; exact Hx).
    assert (GOAL : In x (f_vars h) \/ cpt_term g <= x < cpt_term g2).
    { apply R1 in Hx' as [H|H]; [|right; lia]. apply A6 in H as [?|?]; auto. right; lia. }
    unfold q; destruct isall; exact GOAL.
  - intros x Hx. assert (Hx' : In x (f_tyvars f2)) by (unfold q in Hx; destruct isall; exact Hx).
    assert (GOAL : In x (f_tyvars h) \/ (~ reg g x /\ reg g2 x)).
    { apply R2 in Hx' as [H|[H ?]]; [|right; auto]. apply A7 in H as [?|[? ?]]; auto. }
    unfold q; destruct isall; exact GOAL.
  - intros x Hx. apply in_app_iff in Hx as [Hx|Hx].
    + apply NF in Hx as (? & ? & ?). split; [lia|]. auto.
    + apply BF in Hx as (? & ? & ?). split; [lia|]. auto.
  - apply NoDup_app_disj; auto; [rewrite R3; auto|]. intros j Hj Hk.
    apply in_map_iff in Hj as (x & <- & Hx). apply in_map_iff in Hk as (y & E & Hy). apply R5 in Hx. apply BF in Hy. lia.
  - apply NoDup_app_disj; auto; [rewrite R4; auto|]. intros j Hj Hk.
    apply in_map_iff in Hj as (x & <- & Hx). apply in_map_iff in Hk as (y & E & Hy). apply R5 in Hx. apply BF in Hy.
    rewrite E in Hy. tauto.
Qed.

Lemma fold_or_F2 {A B} (P : A -> Prop) (Q : B -> Prop) l l' : Forall2 (fun a b => P a <-> Q b) l l' ->
  (fold_right (fun g X => P g \/ X) False l <-> fold_right (fun g X => Q g \/ X) False l').
Proof. induction 1; simpl; tauto. Qed.
Lemma fold_and_F2 {A B} (P : A -> Prop) (Q : B -> Prop) l l' : Forall2 (fun a b => P a <-> Q b) l l' ->
  (fold_right (fun g X => P g /\ X) True l <-> fold_right (fun g X => Q g /\ X) True l').
Proof. induction 1; simpl; tauto. Qed.

Lemma Forall2_imp {A B} (P Q : A -> B -> Prop) l l' : (forall a b, P a b -> Q a b) -> Forall2 P l l' -> Forall2 Q l l'.
Proof. intros H; induction 1; constructor; auto. Qed.

Lemma outs_form (h : Z -> list form -> form) i fs g l g' : (h = And \/ h = Or) -> outs fs g l g' -> out (h i fs) g (h i l) g'.
Proof.
  intros HH (A1 & A2 & A3 & A4 & A5 & A6 & A7 & A8 & A9 & A10).
  split; [auto|]. split; [auto|].
  destruct HH; subst h; (split; [|split; [auto|split; [intros b Hb; apply (f_noid_list _ A5); auto|auto]]]).
  - intros I v. cbn [holds]. apply fold_and_F2. eapply Forall2_imp; [|exact A3]. intros a b H; apply H.
  - intros I v. cbn [holds]. apply fold_or_F2. eapply Forall2_imp; [|exact A3]. intros a b H; apply H.
Qed.

Lemma two_case (h : Z -> form -> form -> form) i a b g a' g1 b' g2 : (h = Equ \/ h = Imp) -> Inv g ->
  out a g a' g1 -> out b g1 b' g2 -> out (h i a b) g (h i a' b') g2.
Proof.
  intros HH HI OA OB.
  assert (OS : outs [a; b] g [a'; b'] g2).
  { eapply outs_cons; eauto. eapply outs_cons; eauto. apply outs_nil. apply OB. }
  destruct OS as (A1 & A2 & A3 & A4 & A5 & A6 & A7 & A8 & A9 & A10). cbn [flat_map] in *. rewrite !app_nil_r in *.
  destruct OA as (_ & _ & EA & _). destruct OB as (_ & _ & EB & _).
  split; [auto|]. split; [auto|].
  destruct HH; subst h; (split; [|split; [auto|split; [intros x Hx; apply (f_noid_list _ A5); cbn [flat_map]; rewrite app_nil_r; auto|auto]]]).
  - intros I v. cbn [holds]. rewrite (EA I v), (EB I v). tauto.
  - intros I v. cbn [holds]. rewrite (EA I v), (EB I v). tauto.
Qed.

Lemma rename_ok f : wfin f -> forall g, Inv g -> exists f' g', rename_variables f g = Some (f', g') /\ out f g f' g'.
Proof.
  induction f using form_ind'; intros W g Hg.
  - apply (quant_case true); auto.
  - apply (quant_case false); auto.
  - destruct (rn_list_ok fs H (wfin_list Or i fs (or_intror eq_refl) W) g Hg) as (l & g' & E & O).
    cbn [rename_variables]. fold rn_list. rewrite E. eexists; eexists; split; [reflexivity|]. apply outs_form; auto.
  - destruct (rn_list_ok fs H (wfin_list And i fs (or_introl eq_refl) W) g Hg) as (l & g' & E & O).
    cbn [rename_variables]. fold rn_list. rewrite E. eexists; eexists; split; [reflexivity|]. apply outs_form; auto.
  - destruct (wfin_two Equ i f1 f2 (or_introl eq_refl) W) as [W1 W2].
    destruct (IHf1 W1 g Hg) as (a' & g1 & E1 & O1). destruct (IHf2 W2 g1 (proj1 O1)) as (b' & g2 & E2 & O2).
    cbn [rename_variables]. rewrite E1, E2. eexists; eexists; split; [reflexivity|]. eapply two_case; eauto.
  - destruct (wfin_two Imp i f1 f2 (or_intror eq_refl) W) as [W1 W2].
    destruct (IHf1 W1 g Hg) as (a' & g1 & E1 & O1). destruct (IHf2 W2 g1 (proj1 O1)) as (b' & g2 & E2 & O2).
    cbn [rename_variables]. rewrite E1, E2. eexists; eexists; split; [reflexivity|]. eapply two_case; eauto.
  - assert (W' : wfin f) by exact W.
    destruct (IHf W' g Hg) as (a' & g1 & E1 & O1). cbn [rename_variables]. rewrite E1.
    eexists; eexists; split; [reflexivity|]. destruct O1 as (A1 & A2 & A3 & A4).
    split; [auto|]. split; [auto|]. split; [|exact A4]. intros I v; cbn [holds]; rewrite (A3 I v); tauto.
  - cbn [rename_variables]. eexists; eexists; split; [reflexivity|].
    destruct W as (W1 & W2 & W3 & W4 & W5 & W6).
    split; [auto|]. split; [apply step_refl|]. split; [apply equiv_refl|]. split; auto. split; auto.
    split; auto. split; auto. split; [intros ? []|]. simpl. split; constructor.
  - cbn [rename_variables]. eexists; eexists; split; [reflexivity|].
    destruct W as (W1 & W2 & W3 & W4 & W5 & W6).
    split; [auto|]. split; [apply step_refl|]. split; [apply equiv_refl|]. split; auto. split; auto.
    split; auto. split; auto. split; [intros ? []|]. simpl. split; constructor.
  - cbn [rename_variables]. eexists; eexists; split; [reflexivity|].
    destruct W as (W1 & W2 & W3 & W4 & W5 & W6).
    split; [auto|]. split; [apply step_refl|]. split; [apply equiv_refl|]. split; auto. split; auto.
    split; auto. split; auto. split; [intros ? []|]. simpl. split; constructor.
Qed.
End Rename.
