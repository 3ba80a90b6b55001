(** Soundness of the incremental search (C84): what is closed by one substitution has no model. *)
From Coq Require Import ZArith List Bool String Lia.
From Verif Require Import LibSet_Model Ast_Model Problem_Model Rules_Model Sem_Spec Occ_Spec Free_Spec Rules_Spec Skolem_Spec
  Tableau_Spec LibSet_Proofs Ast_Proofs Sem_Proofs Subst_Proofs Free_Proofs Rules_Proofs Inst_Proofs Skolem_Proofs Skolem_Final
  Tableau_Proofs Unif_Model UnifTree_Model Closure_Model Incr_Model Incr_Spec IncrSub_Proofs Incr_Proofs IncrTree_Proofs.
Import ListNotations.
Open Scope list_scope.
Open Scope Z_scope.

(** ** One rule *)
Notation fine b0 g := (fgood b0 Inner g Leaf Leaf).
Lemma skolemize_elements s f m m' g : elements m = elements m' -> skolemize s f m g = skolemize s f m' g.
Proof.
  intros E. assert (R : forall h vs neg, real_skolemize s f h vs m neg g = real_skolemize s f h vs m' neg g).
  { intros h [|x vs] neg; cbn; auto. unfold sko_skolemize, sko_args. rewrite E. reflexivity. }
  destruct f; cbn; auto. destruct f; cbn; auto.
Qed.
Lemma copy_same {A} (t : LibSet_Model.tree A) : elements (nodeCpy t) = elements t.
Proof. induction t as [|h l IHl v r IHr]; simpl; [reflexivity|]. rewrite IHl, IHr. reflexivity. Qed.
Lemma delta_of_form s x g mm : form_metas (ft_form x) = Some mm ->
  exists ts, apply_delta s x mm Leaf g = match skolemize s (ft_form x) mm g with
    | Some (f, s1, g1) => Some (mkFat f ts, s1, g1) | None => None end.
Proof.
  intros _. unfold apply_delta. change (mset_union (nodeCpy mm) Leaf) with (Some (nodeCpy mm)). cbv iota.
  rewrite (skolemize_elements s (ft_form x) (nodeCpy mm) mm g (copy_same mm)). exists (map Meta (elements (nodeCpy mm))). reflexivity.
Qed.
Lemma refn_same I : refn I (fn I) = I.
Proof. destruct I; reflexivity. Qed.

Lemma rule_step b0 I x s g news metas s' g' : b0 <= cpt_term g -> fine b0 g (ft_form x) -> rule_form (ft_form x) -> sko_ok b0 I g s ->
  apply_rule x s g = Some (news, metas, s', g') ->
  cpt_term g <= cpt_term g' /\ (forall ys y, In ys news -> In y ys -> fine b0 g' (ft_form y)) /\
  exists F, (forall i, i < cpt_term g -> forall ts ds, F i ts ds = fn I i ts ds) /\ sko_ok b0 (refn I F) g' s' /\
    forall v : val (refn I F), holds (ft_form x) v -> exists ys, In ys news /\ all_hold ys v.
Proof.
  intros B0 FG RF SK E. pose proof FG as [W OLD TYM NTY _].
  assert (SIMPLE : simple_rule (ft_form x) -> cpt_term g <= cpt_term g' /\ (forall ys y, In ys news -> In y ys -> fine b0 g' (ft_form y)) /\
    exists F, (forall i, i < cpt_term g -> forall ts ds, F i ts ds = fn I i ts ds) /\ sko_ok b0 (refn I F) g' s' /\
    forall v : val (refn I F), holds (ft_form x) v -> exists ys, In ys news /\ all_hold ys v).
  { intros SR. destruct (apply_simple x s g news metas s' g' SR E) as (-> & _ & EG & D). split; [lia|]. split.
    - intros ys y H1 H2. apply (fgood_mono _ _ g _ Leaf Leaf); [lia|auto|]. destruct (D ys y H1 H2) as [D1 _].
      eapply fgood_smaller; [apply derived_smaller; exact D1|auto].
    - exists (fn I). split; auto. rewrite refn_same. split; [eapply sko_ok_mono; [|exact SK]; lia|].
      intros v H. apply (apply_holds x s g news metas s g' I v SR E). auto. }
  destruct RF as [RF|[RF|[RF|RF]]]; [apply SIMPLE; left; auto|apply SIMPLE; right; auto| |]; clear SIMPLE.
  - (* gamma *)
    assert (AP : exists y m, apply_gamma x 42 g = Some (y, m, g') /\ s' = s /\ exists ts, news = [[mkFat (ft_form y) ts]]).
    { destruct x as [f ts]. cbn [ft_form] in RF. destruct RF; cbn [apply_rule ft_form] in E;
        (destruct (apply_gamma _ _ _) as [[[y m] g1]|]; [|discriminate]); injection E as <- _ <- <-; eauto 8. }
    destruct AP as (y & m & EY & -> & ts & ->). clear E.
    destruct (universal_head _ RF NTY) as [(z & HV & TT)|HV].
    2: { exfalso. destruct x as [f tx]. cbn in *. destruct RF as [i [|? ?] f|i j [|? ?] f]; try discriminate. }
    destruct (gamma_term x 42 g z RF W HV TT) as (y0 & m0 & g0 & E0 & M1 & M2 & M3 & W0 & M4 & M5 & M6 & M7).
    rewrite EY in E0. inversion E0; subst y0 m g0. clear E0. split; [lia|]. split.
    + intros ys h [<-|[]] [<-|[]]. cbn [ft_form]. constructor; auto; try discriminate.
      * eapply incl_nil_l; eauto.
      * intros q Hq. apply NTY; auto.
    + exists (fn I). split; auto. rewrite refn_same. split; [eapply sko_ok_mono; [|exact SK]; lia|].
      intros v H. eexists. split; [left; reflexivity|]. intros h [<-|[]]. cbn [ft_form].
      apply (set_mv_self I _ v (m_index m0)). apply M7. auto.
  - (* delta *)
    destruct (form_metas_ok (ft_form x)) as (mm & MM & OMM & HMM).
    destruct (delta_of_form s x g mm MM) as (ts & ED).
    assert (AP : exists f, skolemize s (ft_form x) mm g = Some (f, s', g') /\ exists ts, news = [[mkFat f ts]]).
    { clear ED. destruct x as [f tx]. cbn [ft_form] in *. destruct RF; cbn [apply_rule ft_form] in E; rewrite MM in E;
        (destruct (skolemize _ _ _ _) as [[[h s1] g1]|]; [|discriminate]); injection E as <- _ <- <-; eauto. }
    destruct AP as (f & EF & ts' & ->). clear E. rewrite EF in ED.
    destruct (existential_tail _ RF NTY) as [DV|[_ ET]].
    2: { exfalso. destruct x as [h tx]. cbn [ft_form] in *. destruct RF as [i [|? ?] f0|i j [|? ?] f0]; discriminate. }
    assert (HAS : forall m, has mm m <-> In (m_index m) (f_metas (ft_form x))) by (intros m; rewrite HMM; apply focc_in).
    assert (DOK : delta_ok b0 (sk_kind s) g mm Leaf (ft_form x)).
    { constructor; auto.
      - split; auto. apply mleaf_ok.
      - intros m [Hm|(q & [] & _)]. apply HAS in Hm. apply (wf_lt _ _ W). auto.
      - intros _ m Hm. left. apply HAS. auto. }
    destruct (delta_step b0 I s x mm Leaf g B0 DOK SK) as (y0 & s0 & g0 & E0 & G & KD & WY & TY & BY & MY & F & FA & FB & FC).
    rewrite ED in E0. inversion E0; subst y0 s0 g0. clear E0. cbn [ft_form] in *. split; [lia|]. split.
    + intros ys h [<-|[]] [<-|[]]. cbn [ft_form]. constructor; auto; try discriminate. intros q Hq. apply NTY; auto.
    + exists F. split; auto. split; auto. intros v H. eexists. split; [left; reflexivity|]. intros h [<-|[]]. cbn [ft_form]. apply FB. auto.
Qed.

(** ** What a closure rule answers *)
Lemma matches_length ty_arity ms l : matches ty_arity ms = Ok l -> List.length l = List.length ms.
Proof.
  unfold matches. destruct (all_some _) as [r|] eqn:E; [|discriminate]. intros K. injection K as <-. rewrite map_length.
  revert r E. induction ms as [|x ms IH]; intros r E; cbn in E; [injection E as <-; reflexivity|].
  destruct (to_mixed _ _); [|discriminate]. destruct (all_some _) as [r'|]; [|discriminate]. injection E as <-. cbn. f_equal. auto.
Qed.
Section Any.
Variable name_id : string -> ident.
Variable ty_arity : string -> nat.
Variable add : term -> term -> substs -> out substs.
Variable comp : list (nat * term) -> list meta -> substs -> out substs.
Notation tc := (try_closure name_id ty_arity add comp).
Notation stepf := (step name_id ty_arity add comp).
Notation runf := (run name_id ty_arity add comp).
Lemma loop_ne tneg l : forall app subs r, (app <> None -> subs <> []) -> closure_loop name_id ty_arity add comp tneg l app subs = Ok r ->
  fst r <> None -> snd r <> [].
Proof.
  induction l as [|x l IH]; intros app subs r H K; cbn [closure_loop] in K; [injection K as <-; auto|].
  apply bind_ok in K as (ms & K1 & K). apply bind_ok in K as (new & K2 & K). eapply IH; [|exact K].
  apply matches_length in K2. destruct ms as [|a ms]; [intros A; apply H in A; destruct subs; [contradiction|discriminate]|].
  destruct new; [discriminate|]. intros _ Q. apply app_eq_nil in Q as [_ Q]. discriminate.
Qed.
Lemma closure_ne m x subs : tc m = Ok (Some (x, subs)) -> subs <> [].
Proof.
  unfold try_closure. destruct (trivial_closure m); [intros K; injection K as _ <-; discriminate|].
  destruct (complementary_closure m); [intros K; injection K as _ <-; discriminate|]. intros K.
  apply bind_ok in K as ([app l] & K1 & K). cbn [fst snd] in K. destruct app as [y|]; [|discriminate]. injection K as _ <-.
  unfold substitution_closure in K1. destruct (make_tree _ _); [|discriminate]. apply loop_ne in K1; auto; discriminate.
Qed.

(** ** The steps, without what they do to substitutions *)
Notation any := (fun _ : mgr => True).
Notation inv0 := (winv False False).
Lemma closure0 m x subs : any m -> sorted m -> tc m = Ok (Some (x, subs)) -> subs <> [] /\ forall s, In s subs -> okc False False m s.
Proof. intros _ _ K. split; [eapply closure_ne; eauto|]. intros s _. split; tauto. Qed.
Inductive change (w w' : world) : Prop :=
| cg_quiet : map skel (w_nodes w') = map skel (w_nodes w) -> w_gen w' = w_gen w -> w_sko w' = w_sko w -> change w w'
| cg_empty i n a : node_at w i n -> n_children n = [] -> app_of (n_mgr n) (w_sko w) (w_gen w) a -> ap_new a = [] ->
    map skel (w_nodes w') = map skel (w_nodes w) -> w_gen w' = ap_gen a -> w_sko w' = ap_sko a -> change w w'
| cg_grow w1 i n nf a : map skel (w_nodes w1) = map skel (w_nodes w) -> w_gen w1 = w_gen w -> w_sko w1 = w_sko w -> tree w1 ->
    node_at w1 i n -> n_children n = [] -> app_of (n_mgr n) (w_sko w1) (w_gen w1) a -> ap_new a <> [] -> w' = grown i n nf a w1 -> change w w'.
Lemma step_change k w w' : inv0 w -> stepf k w = Ok w' -> inv0 w' /\ change w w'.
Proof.
  intros W K.
  destruct (step_cases any False False name_id ty_arity add comp closure0 k w w' W (fun _ _ _ => Logic.I) K) as (t & i & n & Et & Ei & R & O).
  split; [eapply (outcome_inv any); eauto using closure0|].
  pose proof (re_node _ _ _ _ _ R) as H. pose proof (re_leaf _ _ _ _ _ R) as L.
  destruct O as [SK|x subs w' NS TI KC AN|n1 s g NS SN ST|n1 nf a NS SN Hf AP NE].
  - apply cg_quiet; reflexivity.
  - destruct (an_quiet _ _ _ _ AN) as (Q & QG & QS & _). apply cg_quiet; [|rewrite QG; reflexivity|rewrite QS; reflexivity].
    rewrite Q. apply (put_skel (without k w) i n); auto.
  - assert (S1 : skel n1 = skel n) by (destruct SN; reflexivity). 
    assert (Q : map skel (w_nodes (finished i n1 g s (put (without k w) i n1))) = map skel (w_nodes w)).
    { transitivity (map skel (w_nodes (put (without k w) i n1))); [|apply (put_skel (without k w) i n); auto].
      apply (put_skel (put (without k w) i n1) i n1); [|reflexivity]. apply (put_at (without k w) i n n1); auto. }
    apply stuck_or_app in ST as [(_ & -> & ->)|(a & AO & NE & -> & ->)]; [apply cg_quiet; auto|].
    eapply cg_empty; eauto.
  - destruct (seen_ready any False False name_id ty_arity add comp closure0 t (without k w) i n n1 R Logic.I SN) as (R1 & M1 & F1).
    eapply (cg_grow w _ (put (without k w) i n1)).
    + apply (put_skel (without k w) i n); auto. destruct SN; reflexivity.
    + reflexivity.
    + reflexivity.
    + apply R1.
    + apply R1.
    + apply R1.
    + rewrite M1. apply app_some. exact AP.
    + auto.
    + reflexivity.
Qed.

(** ** Models *)
Record sinv (b0 : Z) (w : world) : Prop := {
  si_b0 : b0 <= cpt_term (w_gen w);
  si_forms : forall j n x, node_at w j n -> In x (forms_of (n_mgr n)) -> fine b0 (w_gen w) (ft_form x) }.
Definition some_leaf (w : world) {I} (v : val I) : Prop := exists j n, leaf_of w 0 j n /\ all_hold (forms_of (n_mgr n)) v.
Definition smodel (b0 : Z) (w : world) : Prop :=
  exists I, inhabited (val I) /\ sko_ok b0 I (w_gen w) (w_sko w) /\ forall v : val I, some_leaf w v.
Lemma leaf_skel w w' i j n : map skel (w_nodes w') = map skel (w_nodes w) -> leaf_of w i j n ->
  exists n', leaf_of w' i j n' /\ n_mgr n' = n_mgr n.
Proof.
  intros Q (B & H & L). destruct (skel_at _ _ _ _ Q H) as (n' & H' & S). apply skel_children in S as (S1 & _ & _ & S4).
  exists n'. split; auto. split; [eapply skel_below; eauto|]. split; auto. congruence.
Qed.
Lemma some_leaf_skel w w' I (v : val I) : map skel (w_nodes w') = map skel (w_nodes w) -> some_leaf w v -> some_leaf w' v.
Proof.
  intros Q (j & n & L & A). destruct (leaf_skel w w' 0 j n Q L) as (n' & L' & M). exists j, n'. split; auto. rewrite M. auto.
Qed.
Lemma sinv_skel b0 w w' : map skel (w_nodes w') = map skel (w_nodes w) -> cpt_term (w_gen w) <= cpt_term (w_gen w') -> sinv b0 w -> sinv b0 w'.
Proof.
  intros Q G [B0 FG]. constructor; [lia|]. intros j n' x H' Hx. symmetry in Q. destruct (skel_at _ _ _ _ Q H') as (n & H & S).
  apply skel_children in S as (_ & _ & _ & S4). apply (fgood_mono _ _ (w_gen w) _ Leaf Leaf); auto. eapply FG; eauto. congruence.
Qed.
(** the application of a rule of a leaf, with or without branches *)
Lemma grow_model b0 w i n a : sinv b0 w -> smodel b0 w -> node_at w i n -> sorted (n_mgr n) -> app_of (n_mgr n) (w_sko w) (w_gen w) a ->
  cpt_term (w_gen w) <= cpt_term (ap_gen a) /\
  (forall mg x, In mg (ap_new a) -> In x (forms_of mg) -> fine b0 (ap_gen a) (ft_form x)) /\
  exists I, inhabited (val I) /\ sko_ok b0 I (ap_gen a) (ap_sko a) /\ forall v : val I, exists j m, leaf_of w 0 j m /\
    all_hold (forms_of (n_mgr m)) v /\ (j = i -> exists mg, In mg (ap_new a) /\ all_hold (forms_of mg) v).
Proof.
  intros [B0 FG] (I & [v0] & SK & M) H SO AO. destruct (ao_apply _ _ _ _ AO) as (news & EA & EN).
  pose proof (ao_rule _ _ _ _ AO) as RU. pose proof (sorted_rules _ _ SO RU) as RF.
  assert (RI : In (ap_rule a) (forms_of (n_mgr n))) by (unfold forms_of; rewrite !app_assoc; rewrite <- !app_assoc; apply in_or_app; right; apply in_or_app; right; exact RU).
  destruct (rule_step b0 I (ap_rule a) _ _ news _ _ _ B0 (FG i n _ H RI) RF SK EA) as (G & FN & F & FA & FC & FH).
  split; [auto|]. split.
  { intros mg x Hm Hx. rewrite EN in Hm. apply in_map_iff in Hm as (new & <- & Hn). apply branch_in in Hx as [Hx|Hx]; [eapply FN; eauto|].
    apply (fgood_mono _ _ (w_gen w) _ Leaf Leaf); auto. eapply FG; eauto. }
  exists (refn I F). split; [constructor; exact (revalF F v0)|]. split; auto. intros v.
  destruct (M (@down I F v)) as (j & m & LF & A). exists j, m. split; auto.
  assert (A' : all_hold (forms_of (n_mgr m)) v).
  { intros x Hx. pose proof (fg_wff _ _ _ _ _ _ (FG j m x (proj1 (proj2 LF)) Hx)) as W'.
    apply (holds_down I F _ v); [apply W'| |apply A; auto]. intros s1 Hs. apply FA. apply (wf_lt _ _ W'). auto. }
  split; auto. intros ->. pose proof (node_fun _ _ _ _ H (proj1 (proj2 LF))). subst m.
  destruct (FH v (A' _ RI)) as (ys & Hy & AY). exists (branch_mgr (n_mgr n) (ap_rule a) (ap_metas a) ys). split; [rewrite EN; apply in_map; auto|].
  intros x Hx. apply branch_in in Hx as [Hx|Hx]; auto.
Qed.
Lemma change_model b0 w w' : tree w -> change w w' -> sinv b0 w -> smodel b0 w -> sinv b0 w' /\ smodel b0 w'.
Proof.
  intros T C SI SM. destruct C as [Q QG QS|i n a H L AO NE Q QG QS|w1 i n nf a Q QG QS T1 H L AO NE ->].
  - split; [eapply sinv_skel; eauto; rewrite QG; lia|]. destruct SM as (I & IN & SK & M). exists I. split; auto. rewrite QG, QS. split; auto.
    intros v. eapply some_leaf_skel; eauto.
  - destruct (grow_model b0 w i n a SI SM H (tr_sorted w T i n H) AO) as (G & _ & I & IN & SK & M).
    split; [eapply sinv_skel; eauto; rewrite QG; lia|]. exists I. split; auto. rewrite QG, QS. split; auto.
    intros v. eapply some_leaf_skel; eauto. destruct (M v) as (j & m & LF & A & _). exists j, m. auto.
  - assert (SI1 : sinv b0 w1) by (eapply sinv_skel; eauto; rewrite QG; lia).
    assert (SM1 : smodel b0 w1).
    { destruct SM as (I & IN & SK & M). exists I. split; auto. rewrite QG, QS. split; auto. intros v. eapply some_leaf_skel; eauto. }
    clear SI SM. destruct (grow_model b0 w1 i n a SI1 SM1 H (tr_sorted w1 T1 i n H) AO) as (G & FN & I & IN & SK & M).
    set (w' := grown i n nf a w1). set (n2 := grow_node n nf a (List.length (w_nodes w1))).
    assert (AT : forall j m, node_at w' j m <-> (j = i /\ m = n2) \/ (j <> i /\ node_at w1 j m) \/
      (exists k mg, j = (List.length (w_nodes w1) + k)%nat /\ nth_error (ap_new a) k = Some mg /\ m = new_node i k mg (n_done n2)))
      by (intros j m; apply grown_at; auto).
    assert (MG2 : n_mgr n2 = n_mgr n) by (unfold n2, grow_node; destruct (is_beta _); auto).
    split.
    + destruct SI1 as [B0 FG]. constructor; [cbn; lia|]. intros j m x Hj Hx. change (w_gen w') with (ap_gen a).
      apply AT in Hj as [[-> ->]|[[NJ Hj]|(k & mg & -> & Ek & ->)]].
      * apply (fgood_mono _ _ (w_gen w1) _ Leaf Leaf); auto. rewrite MG2 in Hx. eapply FG; eauto.
      * apply (fgood_mono _ _ (w_gen w1) _ Leaf Leaf); auto. eapply FG; eauto.
      * apply (FN mg); auto. eapply nth_error_In; eauto.
    + exists I. split; auto. split; auto. intros v. destruct (M v) as (j & m & (BJ & HJ & LJ) & A & N).
      pose proof (grow_old_below i n nf a w1 0 j H L BJ) as BJ'. fold w' in BJ'.
      destruct (Nat.eq_dec j i) as [->|NJ].
      * destruct (N eq_refl) as (mg & Hm & Am). apply In_nth_error in Hm as (k & Ek).
        exists (List.length (w_nodes w1) + k)%nat, (new_node i k mg (n_done n2)). split; auto.
        split; [|split; [apply AT; right; right; eauto|reflexivity]].
        eapply below_trans; [exact BJ'|]. eapply be_child; [apply AT; left; eauto| |constructor].
        change (n_children n2) with (seq (List.length (w_nodes w1)) (List.length (ap_new a))). apply in_seq.
        apply nth_in_range in Ek. lia.
      * exists j, m. split; auto. split; auto. split; auto. apply AT. auto.
Qed.
Lemma run_model b0 sched : forall w w', inv0 w -> sinv b0 w -> smodel b0 w -> runf sched w = Ok w' -> inv0 w' /\ sinv b0 w' /\ smodel b0 w'.
Proof.
  induction sched as [|k r IH]; intros w w' W SI SM K; cbn [run] in K; [injection K as <-; auto|].
  apply bind_ok in K as (w1 & K1 & K). destruct (step_change k w w1 W K1) as [W1 C].
  destruct (change_model b0 w w1 (wi_tree _ _ _ W) C SI SM) as [SI1 SM1]. eapply IH; eauto.
Qed.
Lemma run_inv0 sched : forall w w', inv0 w -> runf sched w = Ok w' -> inv0 w'.
Proof.
  induction sched as [|k r IH]; intros w w' W K; cbn [run] in K; [injection K as <-; auto|].
  apply bind_ok in K as (w1 & K1 & K). eapply IH; [|exact K]. eapply step_change; eauto.
Qed.
Lemma first_forms g k f j n x : node_at (first_world g k f) j n -> In x (forms_of (n_mgr n)) -> j = 0%nat /\ x = mkFat f [].
Proof.
  unfold node_at, first_world. cbn [w_nodes]. destruct j as [|[|]]; cbn; try discriminate. intros E Hx. injection E as <-. cbn [n_mgr] in Hx.
  apply insert_in in Hx as [->|[]]. auto.
Qed.
Lemma first_model g k f I (v : val I) : wf_start g f -> holds f v ->
  sinv (cpt_term g) (first_world g k f) /\ smodel (cpt_term g) (first_world g k f).
Proof.
  intros (W & M & T & N) H. split.
  - constructor; cbn [first_world w_gen]; [lia|]. intros j n x Hj Hx. destruct (first_forms g k f j n x Hj Hx) as [_ ->]. cbn [ft_form].
    constructor; auto; try discriminate. intros x Hx'. apply (wf_lt _ _ W). right; right. apply in_map; auto.
  - exists I. split; [constructor; exact v|]. split; [intros ? ? []|]. intros u. exists 0%nat. eexists. split.
    + split; [constructor|]. split; reflexivity.
    + intros x Hx. apply (first_forms g k f 0 _ x eq_refl) in Hx as [_ ->]. cbn [ft_form]. apply (holds_free I f v u); auto.
      * apply W.
      * rewrite (wf_fv _ _ W). intros i [].
      * rewrite (wf_ftv _ _ W). intros i [].
      * rewrite M. intros i [].
      * rewrite T. intros s i [].
Qed.
Lemma clash_false I s l (v : val I) : clash s l ->
  ~ all_hold l (mkVal (bv v) (fun i => match assoc i s with Some u => ev v u | None => mv v i end) (tbv v) (tmv v)).
Proof.
  intros C A. set (w := mkVal _ _ _ _) in A.
  assert (SE : forall a a', same_term (ssubst s a) (ssubst s a') -> ev w a = ev w a').
  { intros a a' H. unfold w. rewrite <- !ssubst_ev. apply same_term_ev; auto. }
  destruct C as [i ts H|i j ts H|i p tys args ts i' j' p' tys' args' ts' H H' EP ET EA].
  - apply (A _ H).
  - apply (A _ H). exact Logic.I.
  - apply (A _ H'). pose proof (A _ H) as K. cbn in *. rewrite <- EP, <- (same_tys_ev w _ _ ET).
    replace (map (ev w) args') with (map (ev w) args); auto.
    clear -EA SE. induction EA; cbn; auto. f_equal; auto.
Qed.
(** C84: one substitution that closes all the leaves *)
Lemma closed_unsat g k f sched w t : wf_start g f -> runf sched (first_world g k f) = Ok w -> closed_below t w 0 -> unsat f.
Proof.
  intros W K C I v H. destruct (first_model g k f I v W H) as [SI SM].
  destruct (run_model (cpt_term g) sched _ w (first_winv _ _ g k f) SI SM K) as (_ & _ & J & [u] & _ & M).
  destruct (M (mkVal (bv u) (fun i => match assoc i t with Some x => ev u x | None => mv u i end) (tbv u) (tmv u))) as (j & n & L & A).
  apply (clash_false J t _ u (C j n L) A).
Qed.
End Any.
