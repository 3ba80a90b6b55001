(** Queries of the index: soundness when no binding is lost, absence of crashes. *)
From Coq Require Import ZArith List Bool String Permutation Lia PeanoNat.
From Verif Require Import Ast_Model Ast_Proofs Occ_Spec Sem_Spec Unif_Model Unif_Spec Elim_Proofs UnifRun_Proofs UnifLoss_Model UnifLoss_Proofs
  Unif_Final UnifTree_Model UnifTree_Spec UnifTree_Proofs.
Import ListNotations.
Open Scope list_scope.
Open Scope Z_scope.

Section Run.
Variables (ar : signature) (Sem : Prop) (add : term -> term -> substs -> out substs).
Hypothesis Hadd : add_ok ar Sem add.
Variable name_id : string -> ident.
Local Notation Inv := (Inv ar Sem).
Local Notation Step := (Step ar Sem).
Local Notation Agree := (Agree Sem).
Lemma item_metas_list f t : query_term name_id f = Some t -> item_metas name_id f = Some (meta_list t).
Proof.
  destruct f as [ix p tys args|ix u]; cbn; intros E.
  - destruct (functional_args name_id tys args); [|discriminate]. injection E as <-. reflexivity.
  - injection E as <-. reflexivity.
Qed.
Lemma ends_ok mt m k : Inv mt m -> Z.of_nat k <= mc_count m ->
  safe (fun m' => Inv mt m' /\ mc_meta m' = mc_meta m /\ mc_subst m' = mc_subst m) (exec_all add (repeat (End None) k) m).
Proof.
  revert m. induction k as [|k IH]; intros m I H; [cbn; auto|]. cbn [repeat exec_all].
  eapply safe_bind; [apply (end_unl ar Sem add mt m None I); lia|]. intros m1 _ ->.
  eapply safe_imp; [|apply IH; [apply Inv_goto; [exact I|lia]|cbn; lia]]. cbn beta. intros m2 (J1 & J2 & J3).
  split; [exact J1|]. split; [exact J2|exact J3].
Qed.
Lemma Agree_same mt m m' t c : mc_meta m' = mc_meta m -> mc_subst m' = mc_subst m -> Agree mt m t c -> Agree mt m' t c.
Proof. intros E1 E2 H HS A w. unfold Binds. rewrite E1, E2. apply (H HS A w). Qed.
Lemma run_item f t is q : query_term name_id f = Some t -> parse_item name_id f = Some is -> well ar t -> well ar q -> is_fun q = true ->
  safe (fun m' => Inv (meta_list t) m' /\ Agree (meta_list t) m' t q) (exec_all add is (make_machine [q] [])).
Proof.
  intros Q P Wt Wq Fq. destruct q as [|q' tys' args'| |]; try discriminate Fq. clear Fq.
  set (m := make_machine [Fun q' tys' args'] []).
  assert (I0 : Inv [] m).
  { split; [apply okS_nil|]. split; [reflexivity|]. split; [reflexivity|]. split; [reflexivity|]. split; [cbn; lia|].
    split; [intros i u []|]. split; [constructor|]. intros _ i j a b x y []. } assert (Hat : at_ m (Fun q' tys' args')) by reflexivity.
  assert (Iup : Inv [] (up m)) by (apply (Inv_goto ar Sem [] m (mc_q m) (mc_terms m) (mc_count m + 1) (mc_tot m) (mc_cnt m) (mc_post m)); [exact I0|cbn; lia]).
  destruct f as [ix p tys args|ix u]; cbn in Q, P.
  - destruct (functional_args name_id tys args) as [l|] eqn:Fa; [|discriminate]. injection Q as <-. injection P as <-.
    assert (Hl : nonempty tys || nonempty args = false -> l = []).
    { destruct tys, args; cbn; try discriminate. intros _. cbn in Fa. congruence. }
    cbn [meta_list]. rewrite well_fun in Wt. destruct Wt as (_ & Hlen & _ & Wl). rewrite well_fun in Wq. destruct Wq as (Hty' & Hlen' & _ & Wl').
    cbn [exec_all]. rewrite (begin_fun ar Sem add [] m q' tys' args' I0 Hat). cbn [bind].
    eapply safe_bind; [apply (check_fun ar Sem add [] (up m) p q' tys' args' Iup Hat)|]. intros m1 _ [-> Ei].
    assert (Ag : forall mt m4, Forall2 (Agree mt m4) l args' -> Agree mt m4 (Fun p [] l) (Fun q' tys' args')).
    { intros mt m4 F HS A w Hw HB. cbn -[map]. rewrite Ei, Hty'. f_equal.
      clear -F HS Hw HB. induction F as [|x y r1 r2 Hxy F IHF]; [reflexivity|]. cbn. f_equal; [apply (Hxy HS A w Hw HB)|exact IHF]. }
    destruct (nonempty tys || nonempty args).
    + cbn [app exec_all]. rewrite (begin_fun ar Sem add [] (up m) q' tys' args' Iup Hat). cbn [bind].
      set (m3 := goto 0 args' 2 (Z.of_nat (List.length args')) 1 [] m).
      assert (ED : exec add Down (up (up m)) = Ok m3) by reflexivity. rewrite ED. cbn [bind].
      assert (I3 : Inv [] m3) by (apply Inv_goto; [exact I0|lia]).
      rewrite <- app_assoc. change ([End None] ++ [End None]) with (repeat (End None) 2). rewrite exec_all_app.
      destruct (list_eq_dec Z.eq_dec (map (fun _ => 0) l) []) as [El|El].
      * assert (l = []) by (destruct l; [reflexivity|discriminate]). subst l. cbn [parse_list fst exec_all bind flat_map].
        eapply safe_imp; [|apply (ends_ok [] m3 2 I3); cbn; lia]. cbn beta. intros m5 (J1 & J2 & J3). split; [exact J1|].
        apply Ag. cbn in Hlen. rewrite Ei, <- Hlen in Hlen'. destruct args'; [constructor|discriminate].
      * assert (Hne : l <> []) by (intros ->; apply El; reflexivity).
        eapply safe_bind.
        -- apply (run_list ar Sem add l (proj2 (Forall_forall _ _) (fun x _ => run_term ar Sem add Hadd x)) Hne Wl [] m3 [] args' I3);
             try reflexivity; [rewrite Hlen', Ei; symmetry; exact Hlen|exact Wl'].
        -- cbn beta. intros m4 _ (S4 & A4). cbn [app] in *. pose proof S4 as (I4 & _ & _ & _ & C4 & _). cbn in C4.
           eapply safe_imp; [|apply (ends_ok _ m4 2 I4); rewrite C4; cbn; lia]. cbn beta. intros m5 (J1 & J2 & J3). split; [exact J1|].
           eapply Agree_same; [exact J2|exact J3|]. apply Ag, A4.
    + specialize (Hl eq_refl). subst l. cbn [app flat_map]. change [End None] with (repeat (End None) 1).
      eapply safe_imp; [|apply (ends_ok [] (up m) 1 Iup); cbn; lia]. cbn beta. intros m5 (J1 & J2 & J3). split; [exact J1|].
      apply Ag. cbn in Hlen. rewrite Ei, <- Hlen in Hlen'. destruct args'; [constructor|discriminate].
  - injection Q as ->. injection P as <-. unfold parse_term_form, parse_one. cbn [exec_all].
    rewrite (begin_fun ar Sem add [] m q' tys' args' I0 Hat). cbn [bind]. change [End None] with (repeat (End None) 1). rewrite exec_all_app.
    eapply safe_bind; [apply (run_term ar Sem add Hadd t Wt false [] (up m) (Fun q' tys' args') Iup Hat Wq); reflexivity|].
    cbn beta. intros m4 _ (S4 & A4 & _). cbn [app] in *. pose proof S4 as (I4 & _ & _ & _ & C4 & _). cbn in C4.
    eapply safe_imp; [|apply (ends_ok _ m4 1 I4); rewrite C4; cbn; lia]. cbn beta. intros m5 (J1 & J2 & J3). split; [exact J1|].
    eapply Agree_same; [exact J2|exact J3|]. exact A4.
Qed.
End Run.

(** computeSubstitutions and AddUnification answer a substitution, [failure] if need be, never [Fail] *)
Lemma nf_bind {A B} (x : out A) (f : A -> out B) : x <> Fail -> (forall a, f a <> Fail) -> bind x f <> Fail.
Proof. destruct x; cbn; auto; discriminate. Qed.
Lemma elim_nf fe s : elim_out fe s <> Fail.
Proof. unfold elim_out. destruct (eliminate_both fe s); discriminate. Qed.
Section NoFail.
Variables (strict : bool) (fe : nat) (add : term -> term -> substs -> out substs).
Hypothesis Ha : forall a b s, add a b s <> Fail.
Lemma loop_nf mt subs : forall metas tree done, compute_loop_s strict add subs mt metas tree done <> Fail.
Proof.
  induction subs as [|[i v] r IH]; intros metas tree done; [discriminate|]. cbn [compute_loop_s]. destruct (nth_error mt i) as [m|]; [|discriminate].
  destruct (term_eqb (Meta m) v); [apply IH|]. destruct (_ && _ && _); [discriminate|]. destruct (has_subst metas m); [|apply IH].
  destruct (sget metas m) as [[w idx]|]; [|apply IH]. destruct (negb _); [|apply IH].
  apply nf_bind; [apply Ha|]. intros u. destruct (is_failure u); [discriminate|apply IH].
Qed.
Lemma merge_nf s1 s2 : merge fe add s1 s2 <> Fail.
Proof.
  unfold merge. destruct s1; [discriminate|]. destruct s2; [discriminate|].
  match goal with |- merge_loop _ _ ?l ?a <> _ => generalize l, a end. induction l as [|[k v] r IH]; intros res; [discriminate|].
  cbn. apply nf_bind; [destruct (has_subst res k); [apply Ha|apply elim_nf]|exact IH].
Qed.
Lemma compute_nf subs mt metas : compute_s strict fe add subs mt metas <> Fail.
Proof.
  unfold compute_s. apply nf_bind; [apply loop_nf|]. intros [[m t]|]; [|discriminate]. apply nf_bind; [apply elim_nf|]. intros m1.
  destruct (is_failure m1); [discriminate|]. apply nf_bind; [apply elim_nf|]. intros t1. destruct (is_failure t1); [discriminate|].
  apply nf_bind; [apply merge_nf|]. intros r. destruct (is_failure r); [discriminate|apply elim_nf].
Qed.
Lemma body_nf a b s : add_body_s strict fe add a b s <> Fail.
Proof.
  unfold add_body_s. cbv beta zeta. match goal with |- (if ?c then _ else _) <> _ => destruct c end.
  - apply nf_bind.
    + unfold try_unification_s. destruct (exec_all add _ _); try discriminate. apply nf_bind; [apply compute_nf|discriminate].
    + intros [r|]; [apply elim_nf|discriminate].
  - destruct a, b; try discriminate; apply elim_nf.
Qed.
End NoFail.
Lemma add_nf strict n fe : forall a b s, add_unif_s strict n fe a b s <> Fail.
Proof. induction n as [|n IH]; intros a b s; [discriminate|]. cbn. apply body_nf, IH. Qed.

Definition comp_s (strict : bool) (n fe : nat) := compute_s strict fe (add_unif_s strict n fe).
Lemma comp_nf strict n fe subs mt metas : comp_s strict n fe subs mt metas <> Fail.
Proof. apply compute_nf, add_nf. Qed.
Section Query.
Variables (ar : signature) (strict : bool) (n fe : nat) (name_id : string -> ident).
Let Sem : Prop := strict = true.
Lemma add_s_add_ok : add_ok ar Sem (add_unif_s strict n fe).
Proof. intros a b s O Wa Wb. eapply safe_imp; [|apply (add_s_ok ar strict n fe a b s O Wa Wb)]. intros s' [F|(G1 & _ & G2)]; auto. Qed.
Lemma query_ok f t is q m : query_term name_id f = Some t -> parse_item name_id f = Some is -> well ar t -> well ar q -> is_fun q = true ->
  exec_all (add_unif_s strict n fe) is (make_machine [q] []) = Ok m ->
  safe (fun r => is_failure r = true \/ (okS ar r /\ solved r /\ (Sem -> same_term (ssubst r t) (ssubst r q))))
    (comp_s strict n fe (mc_subst m) (meta_list t) (mc_meta m)).
Proof.
  intros Q P Wt Wq Fq E. pose proof (run_item ar Sem _ add_s_add_ok name_id f t is q Q P Wt Wq Fq) as R. rewrite E in R. cbn in R.
  destruct R as ((J1 & J2 & J3 & J4 & J5 & J6 & J7 & J8) & A1).
  eapply safe_imp; [|apply (compute_ok ar strict fe _ add_s_add_ok (mc_subst m) (meta_list t) (mc_meta m) (meta_list_well ar t Wt) J6 J1)].
  - cbn beta. intros r [F|(H1 & H2 & H3)]; [auto|]. right. split; [exact H1|]. split; [exact H2|]. intros HS. apply solved_apply; [exact H2|].
    intros A w Hw. destruct (H3 HS A w Hw) as [G1 G2]. apply (A1 HS A w G1). intros i u x. apply G2.
  - intros HS i j a b x y H1 H2 H3 H4 H5 A w Hw. apply (J8 HS i j a b x y H1 H2 H3 H4 H5 A w Hw).
Qed.
(** the formulas that can be indexed: first-order arguments, each symbol with its arity *)
Definition fit (f : item) : Prop := exists t, query_term name_id f = Some t /\ well ar t.
Lemma fit_parse f : fit f -> exists is, parse_item name_id f = Some is.
Proof.
  intros (t & Q & _). destruct f as [ix p tys args|ix u]; cbn in *; [|eauto]. destruct (functional_args name_id tys args); [|discriminate]. cbn. eauto.
Qed.
Lemma fit_tree fs : Forall fit fs -> forall k, exists k', insert_all name_id fs k = Some k'.
Proof.
  induction 1 as [|f r Hf Hr IH]; intros k; [eexists; reflexivity|]. cbn. destruct (fit_parse f Hf) as (is & ->). apply IH.
Qed.
Lemma tree_safe fs k q t : Forall fit fs -> make_tree name_id fs = Some k -> query_term name_id q = Some t -> well ar t -> is_fun t = true ->
  unify_tree name_id (add_unif_s strict n fe) (comp_s strict n fe) k q <> Crash /\ unify_tree name_id (add_unif_s strict n fe) (comp_s strict n fe) k q <> Fail.
Proof.
  intros Hf T Q W Fq. unfold unify_tree. rewrite Q.
  destruct (insert_all_ok name_id fs empty_node k (or_introl eq_refl) T) as ([-> |[G _]] & _ & _ & _); [split; discriminate|].
  destruct (tree_contents name_id fs k T) as [C1 _].
  eapply search_no_crash; [exact G|]. intros p f S. destruct (C1 p f S) as (Hin & is & P & F).
  rewrite Forall_forall in Hf. destruct (Hf f Hin) as (u & Qu & Wu). rewrite <- (same_instr_exec_all _ _ _ F).
  pose proof (run_item ar Sem _ add_s_add_ok name_id f u is t Qu P Wu W Fq) as R. split.
  - intros E. rewrite E in R. exact R.
  - intros m' E. exists (meta_list u). split; [apply item_metas_list, Qu|].
    pose proof (query_ok f u is t m' Qu P Wu W Fq E) as R2.
    split; [|apply comp_nf]. intros E2. rewrite E2 in R2. exact R2.
Qed.
End Query.

(** ** The real functions *)
Lemma comp_refines n fe subs mt metas : refines (comp_s true n fe subs mt metas) (compute fe (add_unif n fe) subs mt metas).
Proof.
  unfold comp_s, compute_s, compute. apply refines_bind; [apply loop_refines, strict_refines|].
  intros [[m t]|]; [|apply refines_refl]. apply refines_bind; [apply refines_refl|]. intros m1.
  destruct (is_failure m1); [apply refines_refl|]. apply refines_bind; [apply refines_refl|]. intros t1.
  destruct (is_failure t1); [apply refines_refl|]. apply refines_bind; [apply merge_refines, strict_refines|intros; apply refines_refl].
Qed.
Lemma anti {A} (x y : out A) : refines x y -> refines y x -> x = y.
Proof. intros [-> | ->] [E|E]; congruence. Qed.
Lemma comp_false n fe subs mt metas : comp_s false n fe subs mt metas = compute fe (add_unif n fe) subs mt metas.
Proof.
  assert (H := lax_is_real n fe).
  assert (R1 : forall a b s, refines (add_unif_s false n fe a b s) (add_unif n fe a b s)) by (intros; right; auto).
  assert (R2 : forall a b s, refines (add_unif n fe a b s) (add_unif_s false n fe a b s)) by (intros; right; auto).
  unfold comp_s, compute_s, compute. rewrite loop_false.
  assert (L : forall subs mt metas tree, compute_loop (add_unif_s false n fe) subs mt metas tree = compute_loop (add_unif n fe) subs mt metas tree).
  { induction subs0 as [|[i v] r IH]; intros mt0 metas0 tree; [reflexivity|]. cbn [compute_loop].
    destruct (nth_error mt0 i) as [m|]; [|reflexivity]. rewrite !IH.
    destruct (if has_subst metas0 m then sget metas0 m else None) as [[w idx]|]; [|reflexivity]. rewrite H.
    destruct (add_unif n fe v w (sset tree m v)) as [u| | |]; cbn; try rewrite IH; reflexivity. }
  rewrite L. destruct (compute_loop (add_unif n fe) _ _ _ []) as [[[m1 t1']|]| | |]; try reflexivity. cbn.
  destruct (elim_out fe m1) as [m2| | |]; try reflexivity. cbn. destruct (is_failure m2); [reflexivity|].
  destruct (elim_out fe t1') as [t3| | |]; try reflexivity. cbn. destruct (is_failure t3); [reflexivity|].
  rewrite (anti _ _ (merge_refines fe _ _ R1 m2 t3) (merge_refines fe _ _ R2 m2 t3)). reflexivity.
Qed.
Section SearchRef.
Variable name_id : string -> ident.
Variables add1 add2 : term -> term -> substs -> out substs.
Variables comp1 comp2 : list (nat * term) -> list meta -> substs -> out substs.
Hypothesis Ha : forall a b s, refines (add1 a b s) (add2 a b s).
Hypothesis Hc : forall a b s, refines (comp1 a b s) (comp2 a b s).
Lemma leaf_refines m fs : refines (leaf_results name_id comp1 m fs) (leaf_results name_id comp2 m fs).
Proof.
  induction fs as [|f r IH]; [apply refines_refl|]. cbn. destruct (item_metas name_id f) as [mt|]; [|apply refines_refl].
  apply refines_bind; [apply Hc|]. intros s. apply refines_bind; [exact IH|]. intros l. apply refines_refl.
Qed.
Lemma search_refines k : forall m, refines (search name_id add1 comp1 k m) (search name_id add2 comp2 k m).
Proof.
  induction k as [v cs fs IH] using node_ind'. intros m. rewrite !search_node.
  destruct (exec_all_refines add1 add2 Ha v m) as [-> | ->]; [left; reflexivity|].
  destruct (exec_all add2 v m) as [m'| | |]; try apply refines_refl. apply refines_bind; [apply leaf_refines|]. intros l1.
  apply refines_bind; [|intros; apply refines_refl]. induction IH as [|c r Hc' Hr IHr]; [apply refines_refl|]. cbn.
  apply refines_bind; [apply Hc'|]. intros x. apply refines_bind; [exact IHr|]. intros; apply refines_refl.
Qed.
Lemma unify_refines k q : refines (unify_tree name_id add1 comp1 k q) (unify_tree name_id add2 comp2 k q).
Proof. unfold unify_tree. destruct (query_term name_id q); [apply search_refines|apply refines_refl]. Qed.
End SearchRef.
(** the index of the prover, and the one that stops when a binding is lost *)
Definition unify_real (name_id : string -> ident) (n fe : nat) : node -> item -> out (list (item * substs)) :=
  unify_tree name_id (add_unif n fe) (compute fe (add_unif n fe)).
Definition unify_strict (name_id : string -> ident) (n fe : nat) : node -> item -> out (list (item * substs)) :=
  unify_tree name_id (add_unif_s true n fe) (comp_s true n fe).
Theorem unify_strict_real name_id n fe k q : unify_strict name_id n fe k q <> Out -> unify_real name_id n fe k q = unify_strict name_id n fe k q.
Proof.
  intros H. destruct (unify_refines name_id _ _ _ _ (strict_refines n fe) (comp_refines n fe) k q) as [E|E]; [contradiction|symmetry; exact E].
Qed.
Lemma unify_lax_real name_id n fe k q : unify_tree name_id (add_unif_s false n fe) (comp_s false n fe) k q = unify_real name_id n fe k q.
Proof.
  apply anti; apply unify_refines; intros; right; first [apply lax_is_real|symmetry; apply lax_is_real|apply comp_false|symmetry; apply comp_false].
Qed.
Theorem tree_no_crash ar name_id n fe fs k q t : Forall (fit ar name_id) fs -> make_tree name_id fs = Some k ->
  query_term name_id q = Some t -> well ar t -> is_fun t = true -> unify_real name_id n fe k q <> Crash.
Proof. intros H1 H2 H3 H4 H5. rewrite <- unify_lax_real. eapply tree_safe; eauto. Qed.
Theorem tree_sound ar name_id n fe fs k q t l : Forall (fit ar name_id) fs -> make_tree name_id fs = Some k ->
  query_term name_id q = Some t -> well ar t -> is_fun t = true ->
  unify_strict name_id n fe k q <> Out -> unify_real name_id n fe k q = Ok l ->
  forall f s, In (f, s) l -> In f fs /\ okS ar s /\ solved s /\ exists u, query_term name_id f = Some u /\ same_term (ssubst s u) (ssubst s t).
Proof.
  intros Hf T Q W Fq NL E f s Hin. rewrite (unify_strict_real name_id n fe k q NL) in E.
  destruct (search_direct name_id _ _ fs k q l T E) as [D _]. destruct (D f s Hin) as (Hfs & t' & is & mt & m & D1 & D2 & D3 & D4 & D5 & D6).
  split; [exact Hfs|]. rewrite Forall_forall in Hf. destruct (Hf f Hfs) as (u & Qu & Wu).
  rewrite Q in D1. injection D1 as <-. rewrite (item_metas_list name_id f u Qu) in D3. injection D3 as <-.
  pose proof (query_ok ar true n fe name_id f u is t m Qu D2 Wu W Fq D4) as R. rewrite D5 in R. cbn in R.
  destruct R as [R|(R0 & R1 & R2)]; [congruence|]. split; [exact R0|]. split; [exact R1|]. exists u. split; [exact Qu|]. apply R2, eq_refl.
Qed.
Theorem insertion_keeps name_id fs1 fs2 n1 n2 : make_tree name_id fs1 = Some n1 -> insert_all name_id fs2 n1 = Some n2 ->
  (forall p g, stored n1 p g -> stored n2 p g) /\
  (forall p g, stored n2 p g -> stored n1 p g \/ In g fs2) /\
  (forall f, In f fs2 -> exists p g, stored n2 p g /\ same_item f g).
Proof.
  intros T1 T2. destruct (insert_all_ok name_id fs1 empty_node n1 (or_introl eq_refl) T1) as (R & _).
  destruct (insert_all_ok name_id fs2 n1 n2 R T2) as (_ & _ & _ & H1 & H2 & H3). split; [exact H2|]. split.
  - intros p g S. destruct (H1 p g S) as [S'|[S' _]]; auto.
  - intros f Hf. destruct (H3 f Hf) as (p & is & g & A & B & _). eauto.
Qed.
