(** The equalities read from the index are those of the branch. *)
From Coq Require Import ZArith List Bool String Lia PeanoNat.
From Verif Require Import Ast_Model Ast_Proofs Occ_Spec Sem_Spec Unif_Model Unif_Spec Elim_Proofs UnifRun_Proofs UnifLoss_Model UnifLoss_Proofs
  Unif_Final UnifMgu_Proofs UnifTree_Model UnifTree_Spec UnifTree_Proofs UnifTree_Final UnifItem_Proofs Closure_Model Lpo_Model Bse_Model EqBuild_Model EqBuild_Spec.
Import ListNotations.
Open Scope list_scope.
Open Scope Z_scope.

(** ** Terms and their metavariables *)
Lemma tev_agree A v w t : (forall i, In i (t_metas t) -> v i = w i) -> tev A v t = tev A w t.
Proof.
  induction t as [i|p tys l IH|i n|m] using term_ind'; intros H; try reflexivity.
  - cbn. f_equal. apply map_ext_in. intros a Ha. rewrite Forall_forall in IH. apply IH; [exact Ha|]. intros i Hi. apply H. cbn. apply in_flat_map. eauto.
  - cbn. apply H. left. reflexivity.
Qed.
Lemma erase_funs t : t_funs (erase t) = t_funs t.
Proof.
  induction t as [i|p tys l IH|i n|m] using term_ind'; try reflexivity. rewrite erase_fun. cbn. f_equal.
  induction IH as [|a r Ha Hr IHr]; [reflexivity|]. cbn. rewrite Ha, IHr. reflexivity.
Qed.
Lemma erase_metas t : t_metas (erase t) = t_metas t.
Proof.
  induction t as [i|p tys l IH|i n|m] using term_ind'; try reflexivity. rewrite erase_fun. cbn.
  induction IH as [|a r Ha Hr IHr]; [reflexivity|]. cbn. rewrite Ha, IHr. reflexivity.
Qed.
(** a metavariable of the term brings in the symbols of its value *)
Lemma tev_parts (v : Z -> term) t i : In i (t_metas t) -> incl (t_funs (v i)) (t_funs (tev T v t)) /\ incl (t_metas (v i)) (t_metas (tev T v t)).
Proof.
  induction t as [j|p tys l IH|j n|m] using term_ind'; intros H; try destruct H.
  - cbn. rewrite Forall_forall in IH. cbn in H. apply in_flat_map in H. destruct H as (a & Ha & Hi). destruct (IH a Ha Hi) as [H1 H2].
    split; intros x Hx; [right|]; apply in_flat_map; exists (tev T v a); split; auto using in_map.
  - subst. cbn. split; apply incl_refl.
  - destruct H.
Qed.
Lemma well_known ar t i : well ar t -> In i (t_metas t) -> exists m, pmeta ar m /\ m_index m = i.
Proof.
  induction t as [j|p tys l IH|j n|m] using term_ind'; intros W H; try (destruct H; fail).
  - cbn in H. rewrite well_fun in W. destruct W as (_ & _ & _ & W). apply in_flat_map in H. destruct H as (a & Ha & Hi). rewrite Forall_forall in *. apply (IH a Ha); auto.
  - destruct H as [<-|[]]. exists m. split; [exact W|reflexivity].
Qed.
Lemma well_imp (ar ar' : signature) t : (forall p, ar p = ar' p) -> (forall m, pmeta ar m -> In (m_index m) (t_metas t) -> pmeta ar' m) -> (forall p, symbol ar p -> symbol ar' p) -> well ar t -> well ar' t.
Proof.
  intros Ha Hk Hs. induction t as [i|p tys l IH|i n|m] using term_ind'; intros W; try exact W.
  - rewrite well_fun in *. destruct W as (W1 & W2 & W3 & W4). split; [exact W1|]. split; [rewrite <- Ha; exact W2|]. split; [auto|].
    rewrite Forall_forall in *. intros a Hl. apply IH; auto. intros m Hm Hi. apply Hk; [exact Hm|]. cbn. apply in_flat_map. eauto.
  - apply Hk; [exact W|left; reflexivity].
Qed.

(** ** The conversion of the answers, without types in the terms *)
Section Convert.
Variables (ar : signature) (ty_arity : string -> nat).
Hypothesis Hty : forall p, symbol ar p -> ty_arity (id_name p) = 0%nat.
Lemma translate_id t : well ar t -> translate_term ty_arity t = Some t.
Proof.
  induction t as [i|p tys l IH|i n|m] using term_ind'; intros W; try reflexivity. rewrite well_fun in W. destruct W as (-> & _ & Hs & W).
  cbn [translate_term]. rewrite (Hty p Hs). cbn [Nat.ltb Nat.leb firstn map all_some].
  assert (E : (fix go (l : list term) (n : nat) : option (list term) :=
             match l, n with
             | [], _ => Some []
             | _ :: r, S n => go r n
             | a :: r, O => match translate_term ty_arity a, go r O with Some x, Some y => Some (x :: y) | _, _ => None end
             end) l 0%nat = Some l).
  { induction W as [|a r Wa Wr IHr]; [reflexivity|]. inversion IH as [|? ? Ha Hr]; subst. rewrite (Ha Wa), (IHr Hr). reflexivity. }
  rewrite E. reflexivity.
Qed.
Lemma term_part_in s l : okS ar s -> to_mixed ty_arity s = Some l -> incl (term_part l) s /\ NoDup (keys (term_part l)).
Proof.
  unfold to_mixed. intros [N O]. revert l. induction s as [|[k v] s IH]; intros l E; cbn in E.
  - injection E as <-. split; [apply incl_refl|constructor].
  - assert (N' : NoDup (keys s)) by (inversion N; auto). assert (O' : forall k t, In (k, t) s -> pmeta ar k /\ well ar t) by (intros; apply O; right; auto).
    specialize (IH N' O'). destruct (O k v (or_introl eq_refl)) as [_ Wv]. rewrite (translate_id v Wv) in E.
    destruct (is_ttype (m_ty k)).
    + destruct (term_to_ty v); [|discriminate]. cbn in E. destruct (all_some (map (translate ty_arity) s)) as [r|]; [|discriminate]. injection E as <-.
      destruct (IH r eq_refl) as [I1 I2]. cbn. split; [intros x Hx; right; apply I1, Hx|exact I2].
    + cbn in E. destruct (all_some (map (translate ty_arity) s)) as [r|]; [|discriminate]. injection E as <-.
      destruct (IH r eq_refl) as [I1 I2]. cbn. split; [intros x [<-|Hx]; [left; reflexivity|right; apply I1, Hx]|].
      constructor; [|exact I2]. intros Hk. inversion N as [|? ? N1 N2]; subst. apply N1. unfold keys in Hk. apply in_map_iff in Hk. destruct Hk as ([k' v'] & Ek & Hk').
      apply in_map_iff. exists (k', v'). split; [exact Ek|apply I1, Hk'].
Qed.
End Convert.

(** ** Reading one answer *)
Lemma order_loop_ok ar A w m1 m2 : forall s res o, okS ar res -> (forall k t, In (k, t) s -> pmeta ar k /\ well ar t) -> solves A w s -> solves A w res ->
  order_loop m1 m2 s res = Some o -> okS ar o /\ solves A w o.
Proof.
  induction s as [|[k v] s IH]; intros res o O Hs Ss Sr E; cbn in E; [injection E as <-; auto|].
  destruct (Hs k v (or_introl eq_refl)) as [Hk Hv]. assert (Hs' : forall k t, In (k, t) s -> pmeta ar k /\ well ar t) by (intros; apply Hs; right; auto).
  assert (Ss' : solves A w s) by (intros ? ? H; apply Ss; right; exact H). pose proof (Ss k v (or_introl eq_refl)) as Ekv.
  destruct (negb (meta_eqb k m1) && negb (meta_eqb k m2)).
  - destruct v as [| | |x]; try discriminate. apply (IH _ _ (okS_sset ar res x (Meta k) O Hv Hk) Hs' Ss'); [|exact E].
    apply solves_set; [exact Sr|]. symmetry. exact Ekv.
  - apply (IH _ _ (okS_sset ar res k v O Hk Hv) Hs' Ss'); [|exact E]. apply solves_set; assumption.
Qed.

Section Read.
Variables (ar : signature) (ty_arity : string -> nat) (fe : nat).
Hypothesis Hty : forall p, symbol ar p -> ty_arity (id_name p) = 0%nat.
Variables (m1 m2 : meta) (cm : Z).
Hypothesis P1 : 0 <= m_index m1.
Hypothesis P2 : 0 <= m_index m2.
(** an answer whose bindings hold when the two metavariables are [l] and [r] and the type is [t], is read as [l] and [r] *)
Lemma read_ok s a b l r t : okS ar s -> read_answer ty_arity fe m1 m2 s = Ok (a, b) ->
  solves T (fun i => if i =? m_index m1 then erase l else if i =? m_index m2 then erase r else if i =? cm then erase t else Meta (plain_meta i)) s ->
  apart t l -> apart t r -> m_index m1 <> m_index m2 ->
  same_term a l /\ same_term b r /\ well ar a /\ well ar b /\
  (forall i, In i (t_metas a) \/ In i (t_metas b) -> i <> m_index m1 /\ i <> m_index m2 /\ i <> cm).
Proof.
  set (w := fun i => _). intros O E S Al Ar Nm. unfold read_answer in E. destruct (to_mixed ty_arity s) as [lm|] eqn:Em; [|discriminate].
  destruct (term_part_in ar ty_arity Hty s lm O Em) as [I N].
  destruct (order_loop m1 m2 (term_part lm) []) as [o|] eqn:Eo; [|discriminate].
  destruct (order_loop_ok ar T w m1 m2 _ _ _ (okS_nil ar) (fun k t H => proj2 O k t (I _ H)) (fun k t H => S k t (I _ H)) (fun k t H => match H with end) Eo) as [Oo So].
  unfold elim_out in E. destruct (eliminate_both fe o) as [o'|] eqn:Ee; [|discriminate]. cbn [bind] in E.
  destruct (sget o' m1) as [[a' n1]|] eqn:G1; [|discriminate]. destruct (sget o' m2) as [[b' n2]|] eqn:G2; [|discriminate]. injection E as -> ->.
  destruct (sget_in _ _ _ _ G1) as (k1 & H1 & I1 & _). destruct (sget_in _ _ _ _ G2) as (k2 & H2 & I2 & _).
  destruct (elim_both_ok ar _ _ _ Oo Ee) as [F|(O' & Sv & _ & En)].
  { exfalso. destruct (is_failure_inv o' F) as (x & y & Eo' & Hx & Hy). subst o'. cbn in H1. destruct H1 as [H1|[]]. injection H1 as -> _. cbn in *. lia. }
  specialize (En T w So). pose proof (En _ _ H1) as W1. pose proof (En _ _ H2) as W2. rewrite I1 in W1. rewrite I2 in W2.
  assert (Wm1 : w (m_index m1) = erase l) by (unfold w; rewrite Z.eqb_refl; reflexivity).
  assert (Wm2 : w (m_index m2) = erase r).
  { unfold w. replace (m_index m2 =? m_index m1) with false by (symmetry; apply Z.eqb_neq; congruence). rewrite Z.eqb_refl. reflexivity. }
  rewrite Wm1 in W1. rewrite Wm2 in W2.
  assert (K1 : In (m_index m1) (keys o')) by (rewrite <- I1; apply (in_map (fun p => m_index (fst p)) o' (k1, a)), H1).
  assert (K2 : In (m_index m2) (keys o')) by (rewrite <- I2; apply (in_map (fun p => m_index (fst p)) o' (k2, b)), H2).
  assert (Ncm : forall x y u, In (x, y) o' -> erase u = tev T w y -> apart t u -> forall i, In i (t_metas y) -> i <> m_index m1 /\ i <> m_index m2 /\ i <> cm).
  { intros x y u Hin Eu Ap i Hi. assert (Z1 : i <> m_index m1) by (intros ->; apply (proj2 Sv x y _ Hin Hi K1)).
    assert (Z2 : i <> m_index m2) by (intros ->; apply (proj2 Sv x y _ Hin Hi K2)). split; [exact Z1|]. split; [exact Z2|]. intros ->.
    destruct (tev_parts w y cm Hi) as [Q1 Q2]. change (tev T w y : dom T) with (tev T w y : term) in Eu. rewrite <- Eu in Q1, Q2. cbv beta delta [w] in Q1, Q2.
    replace (cm =? m_index m1) with false in Q1, Q2 by (symmetry; apply Z.eqb_neq; exact Z1). replace (cm =? m_index m2) with false in Q1, Q2 by (symmetry; apply Z.eqb_neq; exact Z2).
    rewrite Z.eqb_refl in Q1, Q2. rewrite !erase_funs in Q1. rewrite !erase_metas in Q2. destruct t as [| | |]; cbn in Ap; try contradiction.
    - apply Ap, Q1. left. reflexivity.
    - apply Ap, Q2. left. reflexivity. }
  assert (Same : forall x y u, In (x, y) o' -> erase u = tev T w y -> apart t u -> same_term y u).
  { intros x y u Hin Eu Ap. apply erase_same. rewrite Eu. unfold erase. apply (tev_agree T (fun i => Meta (plain_meta i)) w y). intros i Hi. destruct (Ncm x y u Hin Eu Ap i Hi) as (Z1 & Z2 & Z3). unfold w.
    apply Z.eqb_neq in Z1, Z2, Z3. rewrite Z1, Z2, Z3. reflexivity. }
  split; [exact (Same _ _ _ H1 W1 Al)|]. split; [exact (Same _ _ _ H2 W2 Ar)|].
  split; [apply (proj2 O' _ _ H1)|]. split; [apply (proj2 O' _ _ H2)|].
  intros i [Hi|Hi]; [exact (Ncm _ _ _ H1 W1 Al i Hi)|exact (Ncm _ _ _ H2 W2 Ar i Hi)].
Qed.
End Read.

(** ** The equalities of an index *)
Definition wide (ar : signature) (ct cm : Z) : signature := mkSig ar (fun m => known ar m \/ ct <= m_index m \/ m_index m = cm) (symbol ar).
Lemma wide_well ar ct cm t : well ar t -> well (wide ar ct cm) t.
Proof. apply well_imp; [reflexivity| |auto]. intros m [H1 H2] _. split; [exact H1|left; exact H2]. Qed.
Lemma fun_arg_well name_id ar t : well ar t -> fun_arg name_id t = Some [t].
Proof.
  induction t as [i|p tys l IH|i n|m] using term_ind'; intros W; try (destruct W; fail); [|reflexivity].
  rewrite well_fun in W. destruct W as (-> & _ & _ & W). cbn.
  assert (E : forall r, Forall (well ar) r -> Forall (fun t => well ar t -> fun_arg name_id t = Some [t]) r -> exists z, all_some (map (fun_arg name_id) r) = Some z /\ List.concat z = r).
  { induction 1 as [|a r Wa Wr IHr]; intros F; [exists []; auto|]. inversion F as [|? ? Fa Fr]; subst. destruct (IHr Fr) as (z & E1 & E2). cbn. rewrite (Fa Wa), E1.
    exists ([a] :: z). cbn. rewrite E2. auto. }
  destruct (E l W IH) as (z & -> & <-). reflexivity.
Qed.
Lemma fun_args_well name_id ar l : Forall (well ar) l -> exists z, all_some (map (fun_arg name_id) l) = Some z /\ List.concat z = l.
Proof.
  induction 1 as [|a r Wa Wr IH]; [exists []; auto|]. destruct IH as (z & E1 & E2). cbn. rewrite (fun_arg_well name_id ar a Wa), E1. exists ([a] :: z). cbn. rewrite E2. auto.
Qed.
(** the term of an atom *)
Definition item_ok (e : Z) (ar : signature) (name_id : string -> ident) (f : item) : Prop :=
  match f with IPred _ p tys args => atom_ok e ar name_id p tys args | ITerm _ _ => False end.
Lemma item_fit e ar name_id f : item_ok e ar name_id f -> fit ar name_id f.
Proof.
  destruct f as [ix p tys args|]; [|intros []]. intros (W & Sy & L & H). destruct (fun_args_well name_id ar args W) as (z & E1 & E2).
  unfold fit. cbn [query_term functional_args]. unfold functional_args. rewrite E1. destruct (id_index p =? e).
  - destruct H as (ty & t & a & b & -> & -> & Et & Wt & _). cbn [map all_some]. rewrite Et. cbn [option_map]. eexists. split; [reflexivity|]. rewrite E2.
    rewrite well_fun. split; [reflexivity|]. split; [exact L|]. split; [exact Sy|]. constructor; assumption.
  - subst tys. cbn [map all_some option_map]. eexists. split; [reflexivity|]. rewrite E2. rewrite well_fun. split; [reflexivity|]. split; [exact L|]. split; [exact Sy|exact W].
Qed.
Lemma same_metas t u : same_term t u -> t_metas t = t_metas u.
Proof.
  revert u. induction t as [i|p tys l IH|i n|m] using term_ind'; intros u H; inversion H as [|? ? ? ? ? ? Hp Ht F| |? ? Hm]; subst; try reflexivity.
  - cbn. clear -IH F. revert IH. induction F as [|a b r q Hab F IHF]; intros IH; [reflexivity|]. inversion IH; subst. cbn. f_equal; auto.
  - cbn. rewrite Hm. reflexivity.
Qed.
Section Retrieve.
Variables (id_eq : ident) (ar : signature) (name_id : string -> ident) (ty_arity : string -> nat) (n fe : nat).
Local Notation e := (id_index id_eq).
Hypothesis Hty : forall p, symbol ar p -> ty_arity (id_name p) = 0%nat.
Hypothesis Heq : symbol ar id_eq /\ ar e = 3%nat.
Variables (L : list item) (k : node).
Hypothesis HL : Forall (item_ok e ar name_id) L.
Hypothesis Tree : make_tree name_id L = Some k.
Lemma retrieve_ok tyn n1 n2 ct cm E : 0 <= cm -> cm < ct -> (forall m, known ar m -> m_index m < ct /\ m_index m <> cm) ->
  retrieve id_eq ty_arity (unify_real name_id n fe) fe tyn n1 n2 k ct cm = Ok E ->
  forall a b, In (a, b) E -> well ar a /\ well ar b /\ exists ix p ty l r, In (IPred ix p [ty] [l; r]) L /\ id_index p = e /\ same_term a l /\ same_term b r.
Proof.
  intros C0 C1 Fr ER a b Hab. unfold retrieve, eq_pattern in ER. cbv beta iota zeta in ER.
  set (tm := TyMeta tyn cm (-1)) in *. set (m1 := mkMeta ct 0 n1 (-1) tm) in *. set (m2 := mkMeta (ct + 1) 0 n2 (-1) tm) in *.
  apply bind_ok in ER. destruct ER as (l0 & El & ER).
  set (q := IPred 0 id_eq [tm] [Meta m1; Meta m2]) in *. set (t := Fun id_eq [] [Meta (term_meta tyn cm (-1)); Meta m1; Meta m2]).
  assert (Qt : query_term name_id q = Some t) by reflexivity.
  assert (Wt : well (wide ar ct cm) t).
  { unfold t. rewrite well_fun. split; [reflexivity|]. split; [cbn; symmetry; apply Heq|]. split; [apply Heq|].
    constructor; [split; cbn; [lia|right; right; lia]|]. constructor; [split; cbn; [lia|right; left; lia]|].
    constructor; [split; cbn; [lia|right; left; lia]|]. constructor. }
  assert (Fw : Forall (fit (wide ar ct cm) name_id) L).
  { eapply Forall_impl; [|exact HL]. intros f Hf. destruct (item_fit e ar name_id f Hf) as (u & Q & W). exists u. split; [exact Q|apply wide_well, W]. }
  pose proof (answer_general (wide ar ct cm) name_id n fe L k q t l0 Fw Tree Qt Wt eq_refl El) as AG.
  pose proof (answer_head name_id _ _ L k q id_eq [] _ l0 Tree Qt El) as AH.
  assert (R : exists f s, In (f, s) l0 /\ read_answer ty_arity fe m1 m2 s = Ok (a, b)).
  { clear -ER Hab. revert E ER Hab. induction l0 as [|[f s] l0 IH]; intros E ER Hab; cbn in ER; [injection ER as <-; destruct Hab|].
    apply bind_ok in ER. destruct ER as (x & Ex & ER). apply bind_ok in ER. destruct ER as (y & Ey & ER). injection ER as <-.
    destruct Hab as [->|Hab]; [exists f, s; split; [left; reflexivity|exact Ex]|]. destruct (IH y Ey Hab) as (f' & s' & H1 & H2). exists f', s'. split; [right; exact H1|exact H2]. }
  destruct R as (f & s & Hin & ER'). destruct (AG f s Hin) as (HfL & Os & _ & u & Qu & Wu & Gen).
  rewrite Forall_forall in HL. pose proof (HL f HfL) as Hf. destruct f as [ix p tys args|]; [|destruct Hf].
  pose proof (AH ix p tys args s Hin) as Ep. destruct Hf as (Wa & Sp & Lp & Hp). rewrite <- Ep, Z.eqb_refl in Hp.
  destruct Hp as (ty & tt & l & r & -> & -> & Ett & Wtt & Al & Ar).
  assert (Wl : well ar l) by (inversion Wa; auto). assert (Wr : well ar r) by (inversion Wa as [|? ? ? Wa']; inversion Wa'; auto).
  assert (Eu : u = Fun p [] [tt; l; r]).
  { cbn [query_term] in Qu. unfold functional_args in Qu. cbn [map all_some] in Qu. rewrite Ett, (fun_arg_well name_id ar l Wl), (fun_arg_well name_id ar r Wr) in Qu. cbn in Qu. congruence. }
  subst u.
  assert (Hsol : solves T (fun i => if i =? m_index m1 then erase l else if i =? m_index m2 then erase r else if i =? cm then erase tt else Meta (plain_meta i)) s).
  { apply Gen; [apply T_injective|]. set (w := fun i : Z => _).
    assert (Old : forall x, well ar x -> tev T w x = erase x).
    { intros x Wx. apply (tev_agree T w (fun i => Meta (plain_meta i)) x). intros i Hi. destruct (well_known ar x i Wx Hi) as (m & [_ Km] & <-). destruct (Fr m Km) as [F1 F2]. unfold w, m1, m2. cbn.
      rewrite (proj2 (Z.eqb_neq _ _)) by lia. rewrite (proj2 (Z.eqb_neq _ _)) by lia. rewrite (proj2 (Z.eqb_neq _ _) F2). reflexivity. }
    cbn [tev map t]. rewrite !Old by assumption. unfold w. cbn [m_index term_meta m1 m2]. rewrite !Z.eqb_refl.
    rewrite (proj2 (Z.eqb_neq cm ct)) by lia. rewrite (proj2 (Z.eqb_neq cm (ct + 1))) by lia. rewrite (proj2 (Z.eqb_neq (ct + 1) ct)) by lia. rewrite Ep. reflexivity. }
  assert (Hty' : forall p, symbol (wide ar ct cm) p -> ty_arity (id_name p) = 0%nat) by (intros p0; apply Hty).
  destruct (read_ok (wide ar ct cm) ty_arity fe Hty' m1 m2 cm ltac:(cbn; lia) ltac:(cbn; lia) s a b l r tt Os ER' Hsol Al Ar ltac:(cbn; lia)) as (S1 & S2 & W1 & W2 & Nn).
  assert (Back : forall x y, well (wide ar ct cm) x -> same_term x y -> well ar y -> well ar x).
  { intros x y Wx Sxy Wy. apply (well_imp (wide ar ct cm) ar x); [reflexivity| |auto|exact Wx]. intros m [Pm Km] Hi. split; [exact Pm|]. rewrite (same_metas x y Sxy) in Hi.
    destruct (well_known ar y _ Wy Hi) as (m' & [_ Km'] & Em'). destruct (Fr m' Km') as [F1 F2]. cbn in Km. destruct Km as [Km|[Km|Km]]; [exact Km|lia|lia]. }
  split; [exact (Back a l W1 S1 Wl)|]. split; [exact (Back b r W2 S2 Wr)|]. exists ix, p, ty, l, r. auto.
Qed.
End Retrieve.
