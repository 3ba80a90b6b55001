(** The answers of the index add nothing: what equates the query and a stored formula satisfies the bindings of the answer, whether or not
    equations are lost. *)
From Coq Require Import ZArith List Bool String Lia PeanoNat.
From Verif Require Import Ast_Model Ast_Proofs Occ_Spec Sem_Spec Unif_Model Unif_Spec Elim_Proofs UnifRun_Proofs UnifLoss_Model UnifLoss_Proofs
  Unif_Final UnifMgu_Proofs UnifTree_Model UnifTree_Spec UnifTree_Proofs UnifTree_Final.
Import ListNotations.
Open Scope list_scope.
Open Scope Z_scope.

Section Item.
Variables (ar : signature) (add : term -> term -> substs -> out substs).
Hypothesis Hadd : add_ok ar False add.
Variable A : alg.
Variable w : Z -> dom A.
Hypothesis Inj : injective A.
Hypothesis Hc : forall a b s s', okS ar s -> well ar a -> well ar b -> add a b s = Ok s' -> is_failure s' = false ->
  solves A w s -> tev A w a = tev A w b -> solves A w s'.
Variable name_id : string -> ident.
Local Notation Inv := (Inv ar False).
Local Notation Good := (Good A w).

Lemma item_c f t is q m' : query_term name_id f = Some t -> parse_item name_id f = Some is -> well ar t -> well ar q -> is_fun q = true ->
  exec_all add is (make_machine [q] []) = Ok m' -> tev A w t = tev A w q -> Good (meta_list t) m'.
Proof.
  intros Q P Wt Wq Fq E Ht. destruct q as [|q' tys' args'| |]; try discriminate Fq. clear Fq.
  set (m := make_machine [Fun q' tys' args'] []) in *.
  assert (I0 : Inv [] m).
  { split; [apply okS_nil|]. split; [reflexivity|]. split; [reflexivity|]. split; [reflexivity|]. split; [cbn; lia|].
    split; [intros i u []|]. split; [constructor|]. intros []. }
  assert (G0 : Good [] m) by (split; [intros k v []|intros i u x []]).
  assert (Hat : at_ m (Fun q' tys' args')) by reflexivity.
  assert (Iup : Inv [] (up m)) by (apply (Inv_goto ar False [] m (mc_q m) (mc_terms m) (mc_count m + 1) (mc_tot m) (mc_cnt m) (mc_post m)); [exact I0|cbn; lia]).
  assert (Ends : forall mt m4 k m5, Inv mt m4 -> Z.of_nat k <= mc_count m4 -> exec_all add (repeat (End None) k) m4 = Ok m5 -> Good mt m4 -> Good mt m5).
  { intros mt m4 k m5 I4 C4 E4 [G1 G2]. pose proof (ends_ok ar False add mt m4 k I4 C4) as S. rewrite E4 in S. cbn in S. destruct S as (_ & S2 & S3).
    split; [rewrite S2; exact G1|]. unfold Binds. rewrite S3. exact G2. }
  destruct f as [ix p tys args|ix u]; cbn in Q, P.
  - destruct (functional_args name_id tys args) as [l|] eqn:Fa; [|discriminate]. injection Q as <-. injection P as <-.
    cbn [meta_list]. rewrite well_fun in Wt. destruct Wt as (_ & Hlen & _ & Wl). rewrite well_fun in Wq. destruct Wq as (Hty' & Hlen' & _ & Wl').
    cbn [exec_all] in E. rewrite (begin_fun ar False add [] m q' tys' args' I0 Hat) in E. cbn [bind] in E.
    apply bind_ok in E. destruct E as (m1 & E1 & E).
    pose proof (check_fun ar False add [] (up m) p q' tys' args' Iup Hat) as CK. rewrite E1 in CK. destruct CK as [-> Ei].
    assert (Hargs : map (tev A w) l = map (tev A w) args') by (cbn [tev] in Ht; rewrite Ei in Ht; apply Inj in Ht; exact Ht).
    destruct (nonempty tys || nonempty args) eqn:Hn.
    + cbn [app exec_all] in E. rewrite (begin_fun ar False add [] (up m) q' tys' args' Iup Hat) in E. cbn [bind] in E.
      set (m3 := goto 0 args' 2 (Z.of_nat (List.length args')) 1 [] m) in *.
      assert (ED : exec add Down (up (up m)) = Ok m3) by reflexivity. rewrite ED in E. cbn [bind] in E.
      assert (I3 : Inv [] m3) by (apply Inv_goto; [exact I0|lia]).
      rewrite <- app_assoc in E. change ([End None] ++ [End None]) with (repeat (End None) 2) in E. rewrite exec_all_app in E.
      destruct l as [|x l].
      * cbn [parse_list fst exec_all bind] in E. apply (Ends [] m3 2%nat m' I3 ltac:(cbn; lia) E). exact G0.
      * apply bind_ok in E. destruct E as (m4 & E4 & E).
        assert (Ll : List.length args' = List.length (x :: l)) by (rewrite Hlen', Ei; symmetry; exact Hlen).
        pose proof (run_list ar False add (x :: l) (proj2 (Forall_forall _ _) (fun y _ => run_term ar False add Hadd y)) ltac:(discriminate) Wl [] m3 [] args' I3 eq_refl eq_refl Ll Wl') as RL.
        cbn [mc_post m3 goto List.length] in RL. rewrite E4 in RL. cbn in RL. destruct RL as ((I4 & _ & _ & _ & C4 & _) & _).
        apply (Ends _ m4 2%nat m' I4 ltac:(rewrite C4; cbn; lia) E).
        apply (list_c ar add Hadd A w (x :: l) (proj2 (Forall_forall _ _) (fun y _ => term_c ar add Hadd A w Inj Hc y)) ltac:(discriminate) Wl [] m3 [] args' m4 I3 eq_refl eq_refl Ll Wl' E4 G0 Hargs).
    + assert (l = []) by (destruct tys, args; cbn in Hn; try discriminate; cbn in Fa; congruence). subst l.
      cbn [app] in E. change [End None] with (repeat (End None) 1) in E. apply (Ends [] (up m) 1%nat m' Iup ltac:(cbn; lia) E). exact G0.
  - injection Q as ->. injection P as <-. unfold parse_term_form, parse_one in E. cbn [exec_all] in E.
    rewrite (begin_fun ar False add [] m q' tys' args' I0 Hat) in E. cbn [bind] in E. change [End None] with (repeat (End None) 1) in E. rewrite exec_all_app in E.
    apply bind_ok in E. destruct E as (m4 & E4 & E).
    pose proof (run_term ar False add Hadd t Wt false [] (up m) (Fun q' tys' args') Iup Hat Wq eq_refl) as R. cbn [mc_post up goto m make_machine List.length] in R. 
    change (mkMach 0 0 (-1) false false [] [] [Fun q' tys' args'] [] 0 0) with m in R. fold (up m) in R. rewrite E4 in R. cbn in R. destruct R as ((I4 & _ & _ & _ & C4 & _) & _).
    apply (Ends _ m4 1%nat m' I4 ltac:(rewrite C4; cbn; lia) E).
    apply (term_c ar add Hadd A w Inj Hc t Wt false [] (up m) (Fun q' tys' args') m4 Iup Hat Wq eq_refl E4 G0 Ht).
Qed.
End Item.

Lemma item_head add name_id ix p tys args is q' tys' args' m : parse_item name_id (IPred ix p tys args) = Some is ->
  exec_all add is (make_machine [Fun q' tys' args'] []) = Ok m -> id_index q' = id_index p.
Proof.
  cbn [parse_item]. destruct (functional_args name_id tys args) as [l|]; [|discriminate]. intros P. injection P as <-. intros E.
  set (m0 := make_machine [Fun q' tys' args'] []) in *.
  assert (I0 : Inv (mkSig (fun _ => 0%nat) (fun _ => True) (fun _ => True)) False [] m0).
  { split; [apply okS_nil|]. split; [reflexivity|]. split; [reflexivity|]. split; [reflexivity|]. split; [cbn; lia|].
    split; [intros i u []|]. split; [constructor|]. intros []. }
  assert (Hat : at_ m0 (Fun q' tys' args')) by reflexivity.
  cbn [exec_all] in E. rewrite (begin_fun _ False add [] m0 q' tys' args' I0 Hat) in E. cbn [bind] in E.
  apply bind_ok in E. destruct E as (m1 & E1 & E).
  assert (Iup : Inv (mkSig (fun _ => 0%nat) (fun _ => True) (fun _ => True)) False [] (up m0))
    by (apply (Inv_goto _ False [] m0 (mc_q m0) (mc_terms m0) (mc_count m0 + 1) (mc_tot m0) (mc_cnt m0) (mc_post m0)); [exact I0|cbn; lia]).
  pose proof (check_fun _ False add [] (up m0) p q' tys' args' Iup Hat) as CK. rewrite E1 in CK. apply CK.
Qed.
(** the predicate of an answer is the one of the query *)
Lemma answer_head name_id add comp fs k q q' tys' args' l : make_tree name_id fs = Some k -> query_term name_id q = Some (Fun q' tys' args') ->
  unify_tree name_id add comp k q = Ok l -> forall ix p tys args s, In (IPred ix p tys args, s) l -> id_index q' = id_index p.
Proof.
  intros T Q E ix p tys args s Hin. destruct (search_direct name_id _ _ fs k q l T E) as [D _].
  destruct (D _ _ Hin) as (_ & t' & is & mt & m & D1 & D2 & D3 & D4 & _). rewrite Q in D1. injection D1 as <-. exact (item_head _ _ _ _ _ _ _ _ _ _ _ D2 D4).
Qed.
Theorem answer_general ar name_id n fe fs k q t l : Forall (fit ar name_id) fs -> make_tree name_id fs = Some k ->
  query_term name_id q = Some t -> well ar t -> is_fun t = true -> unify_real name_id n fe k q = Ok l ->
  forall f s, In (f, s) l -> In f fs /\ okS ar s /\ solved s /\ exists u, query_term name_id f = Some u /\ well ar u /\
    forall A w, injective A -> tev A w u = tev A w t -> solves A w s.
Proof.
  intros Hf T Q W Fq E f s Hin. destruct (search_direct name_id _ _ fs k q l T E) as [D _].
  destruct (D f s Hin) as (Hfs & t' & is & mt & m & D1 & D2 & D3 & D4 & D5 & D6).
  split; [exact Hfs|]. rewrite Forall_forall in Hf. destruct (Hf f Hfs) as (u & Qu & Wu).
  rewrite Q in D1. injection D1 as <-. rewrite (item_metas_list name_id f u Qu) in D3. injection D3 as <-.
  pose proof (run_item ar False (add_unif n fe) (real_ok ar n fe) name_id f u is t Qu D2 Wu W Fq) as R. rewrite D4 in R. cbn in R.
  destruct R as [(J1 & _ & _ & _ & _ & J6 & _) _].
  assert (S : forall A w, injective A -> tev A w u = tev A w t -> okS ar s /\ solves A w s).
  { intros A w Inj H.
    assert (Hc : forall a b s s', okS ar s -> well ar a -> well ar b -> add_unif n fe a b s = Ok s' -> is_failure s' = false ->
      solves A w s -> tev A w a = tev A w b -> solves A w s') by (intros a b s0 s1 O0 Wa Wb E0 F0 H0 Hab; exact (add_general ar n fe a b s0 s1 O0 Wa Wb E0 F0 A w Inj H0 Hab)).
    destruct (item_c ar _ (real_ok ar n fe) A w Inj Hc name_id f u is t m Qu D2 Wu W Fq D4 H) as [G1 G2].
    apply (compute_c ar fe _ (real_ok ar n fe) A w Hc (meta_list u) (mc_subst m) (mc_meta m) s (meta_list_well ar u Wu) (fun i v H => proj2 (J6 i v H)) G2 J1 G1 D5 D6). }
  rewrite <- unify_lax_real in E. destruct (search_direct name_id _ _ fs k q l T E) as [D' _].
  destruct (D' f s Hin) as (_ & t' & is' & mt & m' & D1' & D2' & D3' & D4' & D5' & D6').
  rewrite Q in D1'. injection D1' as <-. rewrite (item_metas_list name_id f u Qu) in D3'. injection D3' as <-.
  pose proof (query_ok ar false n fe name_id f u is' t m' Qu D2' Wu W Fq D4') as R'. rewrite D5' in R'. cbn in R'.
  destruct R' as [R'|(R1 & R2 & _)]; [congruence|]. split; [exact R1|]. split; [exact R2|].
  exists u. split; [exact Qu|]. split; [exact Wu|]. intros A w Inj H. apply (S A w Inj H).
Qed.
