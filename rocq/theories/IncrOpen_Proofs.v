(** What an open leaf of the incremental search says, for formulas without quantifiers (C88). *)
From Coq Require Import ZArith List Bool String Lia.
From Verif Require Import LibSet_Model Ast_Model Problem_Model Rules_Model Sem_Spec Occ_Spec Free_Spec Rules_Spec Tableau_Spec
  Ast_Proofs Tableau_Proofs Unif_Model Unif_Spec UnifRun_Proofs UnifLoss_Model UnifLoss_Proofs UnifTree_Model UnifTree_Final Closure_Model Closure_Spec Closure_Proofs
  Incr_Model Incr_Spec IncrSub_Proofs Incr_Proofs IncrTree_Proofs IncrSound_Proofs IncrClose_Proofs.
Import ListNotations.
Open Scope list_scope.
Open Scope nat_scope.

(** ** Formulas without quantifiers *)
Section Ground.
Variable ar : Unif_Spec.signature.
Lemma prop_list fs : (fix go (l : list form) : Prop := match l with [] => True | a :: r => propositional ar a /\ go r end) fs <->
  forall f, In f fs -> propositional ar f.
Proof.
  induction fs as [|f r IH]; [split; [intros _ f []|auto]|]. rewrite IH. split; [intros [A B] g [<-|H]; auto|intros H; split; [|intros g Hg]; apply H; cbn; auto].
Qed.
Lemma part_prop f h : part f h -> propositional ar f -> propositional ar h.
Proof.
  induction 1; cbn [propositional]; intros P; try tauto.
  - destruct P as [_ P]. exact (proj1 (prop_list fs) P f H).
  - destruct P as [_ P]. exact (proj1 (prop_list fs) P f H).
Qed.
Lemma derived_prop f h : derived f h -> propositional ar f -> propositional ar h.
Proof. intros (k & P & [->|[i ->]]) H; cbn [propositional]; eapply part_prop; eauto. Qed.
Definition prop_m (m : mgr) : Prop := forall x, In x (forms_of m) -> propositional ar (ft_form x).
Lemma prop_fo m : sorted m -> prop_m m -> lits_fo ar m.
Proof.
  intros SO PM x Hx. assert (P : propositional ar (ft_form x)) by (apply PM; unfold forms_of; rewrite !in_app_iff in *; tauto).
  destruct x as [f ts]. cbn [ft_form] in *. destruct f as [| | | | | |i f|i p tys args| |]; cbn; auto. destruct f; auto.
Qed.
Lemma prop_simple f : rule_form f -> propositional ar f -> simple_rule f.
Proof.
  intros [H|[H|[H|H]]] P; [left; auto|right; auto| |]; exfalso; destruct H; cbn in P; tauto.
Qed.
Lemma prop_branches x s g news metas s' g' : simple_rule (ft_form x) -> propositional ar (ft_form x) ->
  apply_rule x s g = Some (news, metas, s', g') -> news <> [].
Proof.
  destruct x as [f ts]. cbn [ft_form]. intros [K|K] P E; inversion K; subst; cbn [apply_rule ft_form ft_terms] in E; cbn [propositional] in P.
  all: try (unfold maker_not, maker_index_formula in E; cbv beta iota zeta in E).
  all: try (injection E as <- _ _ _; discriminate).
  - destruct (negs fs ts g) as [l g1]. injection E as <- _ _ _. discriminate.
  - injection E as <- _ _ _. destruct fs; [tauto|discriminate].
  - destruct (negs fs ts g) as [l g1] eqn:EN. apply negs_spec in EN as [F _]. injection E as <- _ _ _.
    destruct F as [|h y fs l Hh F]; [tauto|discriminate].
Qed.
Lemma app_prop m s g a : sorted m -> prop_m m -> app_of m s g a ->
  ap_new a <> [] /\ (forall mg, In mg (ap_new a) -> prop_m mg) /\
  forall I (v : val I) mg, In mg (ap_new a) -> all_hold (forms_of mg) v -> all_hold (forms_of m) v.
Proof.
  intros SO PM [RU (news & EA & EN) _].
  assert (PR : propositional ar (ft_form (ap_rule a))).
  { apply PM. unfold forms_of. unfold rules_of in RU. rewrite !in_app_iff in *. tauto. }
  pose proof (prop_simple _ (sorted_rules m _ SO RU) PR) as SR.
  split; [|split].
  - intros X. rewrite EN in X. apply map_eq_nil in X. revert X. eapply prop_branches; eauto.
  - intros mg Hm x Hx. rewrite EN in Hm. apply in_map_iff in Hm as (new & <- & Hn). apply branch_in in Hx as [Hx|Hx]; [|auto].
    destruct (apply_simple _ _ _ _ _ _ _ SR EA) as (_ & _ & _ & D). eapply derived_prop; [apply (D new x Hn Hx)|auto].
  - intros I v mg Hm H. rewrite EN in Hm. apply in_map_iff in Hm as (new & <- & Hn). eapply branch_hold; [exact H|].
    apply (apply_holds _ _ _ _ _ _ _ I v SR EA). exists new. split; auto. eapply branch_new; eauto.
Qed.

(** ** The model of the literals of a leaf *)
Fixpoint bare (t : term) : term :=
  match t with Fun p _ l => Fun (mkId (id_index p) "") [] (map bare l) | _ => t end.
Definition term_model (m : mgr) : interp :=
  mkInterp term unit (fun i _ args => Fun (mkId i "") [] args)
    (fun i _ args => exists j p l ts, In (mkFat (Pred j p [] l) ts) (mg_pos m) /\ id_index p = i /\ args = map bare l)
    (fun _ _ => tt) (fun _ => tt) (fun _ => tt) (fun _ _ => tt) (fun _ _ => tt).
Definition term_val (m : mgr) : val (term_model m) := @mkVal (term_model m) (fun i => Var i "") (fun i => Var i "") (fun _ => tt) (fun _ _ => tt).
Hypothesis NM : nometa ar.
Lemma ev_bare m t : well ar t -> ev (term_val m) t = bare t.
Proof.
  induction t using term_ind'; intros W; try contradiction.
  - apply well_fun in W as (-> & _ & _ & W). cbn. f_equal. rewrite Forall_forall in *. apply map_ext_in. intros a Ha. apply H; auto.
  - destruct W as [_ K]. destruct (NM _ K).
Qed.
Lemma bare_same t : well ar t -> forall u, well ar u -> bare t = bare u -> same_term t u.
Proof.
  induction t using term_ind'; intros W u Wu E; try contradiction.
  - apply well_fun in W as (-> & _ & _ & W). destruct u as [i'|p' tys' l'|i' n'|m']; try discriminate E.
    apply well_fun in Wu as (-> & _ & _ & Wu). cbn in E. injection E as E1 E2. apply same_fun; [exact E1|constructor|].
    clear E1. revert l' Wu E2. induction H as [|a l Ha H IH]; intros [|b l'] Wu E2; try discriminate E2; [constructor|].
    injection E2 as E2 E3. inversion W; subst. inversion Wu; subst. constructor; auto.
  - destruct W as [_ K]. destruct (NM _ K).
Qed.
Lemma bares_same l l' : Forall (well ar) l -> Forall (well ar) l' -> map bare l = map bare l' -> Forall2 same_term l l'.
Proof.
  intros W. revert l'. induction W as [|a l Wa W IH]; intros [|b l'] W' E; try discriminate E; [constructor|].
  injection E as E1 E2. inversion W'; subst. constructor; auto. apply bare_same; auto.
Qed.
Lemma leaf_model m : sorted m -> prop_m m -> rules_of m = [] -> trivial_closure m = None -> complementary_closure m = None ->
  all_hold (forms_of m) (term_val m).
Proof.
  intros SO PM NR TR CO x Hx. assert (P : propositional ar (ft_form x)) by auto.
  assert (HX : In x (mg_pos m) \/ In x (mg_neg m)).
  { unfold forms_of in Hx. unfold rules_of in NR. rewrite NR, app_nil_r in Hx. apply in_app_iff in Hx. exact Hx. }
  assert (EV : forall l, Forall (well ar) l -> map (ev (term_val m)) l = map bare l).
  { intros l W. rewrite Forall_forall in W. apply map_ext_in. intros a Ha. apply ev_bare; auto. }
  destruct x as [f ts]. cbn [ft_form] in *. destruct HX as [HX|HX].
  - pose proof (so_pos m SO _ HX) as A. cbn [ft_form] in A. destruct A as [i p tys args|i|i].
    + cbn [propositional] in P. destruct P as [-> W]. apply well_fun in W as (_ & _ & _ & W). cbn [holds]. rewrite (EV _ W). exists i, p, args, ts. auto.
    + exact Logic.I.
    + exfalso. unfold trivial_closure in TR. destruct (List.find _ (mg_pos m)) as [y|] eqn:E; [discriminate|].
      apply (List.find_none _ _ E) in HX. discriminate HX.
  - destruct (so_neg m SO _ HX) as (i & h & E & A). cbn [ft_form] in E. subst f. destruct A as [j q tys args|j|j].
    + cbn [propositional] in P. destruct P as [-> W]. apply well_fun in W as (_ & _ & _ & W). cbn [holds]. rewrite (EV _ W).
      intros (j' & p & l & us & HP & EI & EL).
      assert (P' : propositional ar (Pred j' p [] l)) by (apply (PM (mkFat (Pred j' p [] l) us)); apply in_pos; auto).
      cbn [propositional] in P'. destruct P' as [_ W']. apply well_fun in W' as (_ & _ & _ & W').
      apply (List.find_none _ _ CO) in HP. assert (X : existsb (complementary (mkFat (Pred j' p [] l) us)) (mg_neg m) = true); [|congruence].
      apply existsb_exists. exists (mkFat (Not i (Pred j q [] args)) ts). split; auto. unfold complementary. cbn [ft_form].
      apply pred_eqb. split; auto. split; [constructor|]. apply bares_same; auto.
    + exfalso. unfold trivial_closure in TR. destruct (List.find _ (mg_pos m)) as [y|]; [discriminate|].
      apply (List.find_none _ _ TR) in HX. discriminate HX.
    + cbn. auto.
Qed.
End Ground.

(** ** Runs *)
Section Run.
Variables (ar : Unif_Spec.signature) (name_id : string -> ident) (ty_arity : string -> nat) (n fe : nat).
Hypothesis HM : monomorphic ar ty_arity.
Hypothesis NM : nometa ar.
Notation add := (add_unif_s true n fe).
Notation comp := (comp_s true n fe).
Notation tc := (try_closure name_id ty_arity add comp).
Notation stepf := (step name_id ty_arity add comp).
Notation inv1 := (winv True (nometa ar)).
Record ginv (f : form) (v : world) : Prop := {
  gi_inv : inv1 v;
  gi_prop : forall j m, node_at v j m -> prop_m ar (n_mgr m);
  gi_tasks : forall t, In t (w_tasks v) -> exists i, t = DoSearch i;
  gi_fin : forall j m, node_at v j m -> n_children m = [] -> n_finished m = true ->
    rules_of (n_mgr m) = [] /\ trivial_closure (n_mgr m) = None /\ complementary_closure (n_mgr m) = None;
  gi_imp : w_impossible v = true -> exists j m, node_at v j m /\ n_children m = [] /\ n_finished m = true;
  gi_open : forall j m, node_at v j m -> n_children m = [] -> n_closed m = false -> n_finished m = false -> In j (pending v) \/ w_impossible v = true;
  gi_up : forall j m I (u : val I), node_at v j m -> all_hold (forms_of (n_mgr m)) u -> holds f u }.
Lemma prop_all v : tree v -> (forall j m, node_at v j m -> prop_m ar (n_mgr m)) -> all_nodes (lits_fo ar) v.
Proof. intros T P j m H. apply prop_fo; [eapply tr_sorted; eauto|eauto]. Qed.
Lemma closure_none m : tc m = Ok None -> trivial_closure m = None /\ complementary_closure m = None.
Proof. unfold try_closure. destruct (trivial_closure m); [discriminate|]. destruct (complementary_closure m); [discriminate|auto]. Qed.
Lemma back_skel v v' j m : map skel (w_nodes v') = map skel (w_nodes v) -> node_at v' j m -> exists m0, node_at v j m0 /\ n_children m0 = n_children m /\ n_mgr m0 = n_mgr m.
Proof. intros Q H. symmetry in Q. destruct (skel_at _ _ _ _ Q H) as (m0 & H0 & S). apply skel_children in S as (A & _ & _ & B). eauto. Qed.
Lemma step_ginv f k v v' : ginv f v -> stepf k v = Ok v' -> ginv f v'.
Proof.
  intros [WI PA TA FI IM OP UP] ES. pose proof (prop_all v (wi_tree _ _ _ WI) PA) as FO.
  destruct (step_cases (lits_fo ar) True (nometa ar) name_id ty_arity add comp (closure1 ar name_id ty_arity n fe HM) k v v' WI FO ES) as (t & i & m & Et & Ei & R & O).
  pose proof (re_node _ _ _ _ _ R) as H. pose proof (re_leaf _ _ _ _ _ R) as L.
  assert (FM : lits_fo ar (n_mgr m)) by (eapply FO; exact H).
  assert (WI' : inv1 v') by (eapply (outcome_inv (lits_fo ar) True (nometa ar) name_id ty_arity add comp (closure1 ar name_id ty_arity n fe HM)); eauto).
  assert (TI : t = DoSearch i).
  { destruct (TA t (nth_error_In _ _ Et)) as (i' & ->). cbn in Ei. congruence. }
  assert (TW : forall t, In t (w_tasks (without k v)) -> In t (w_tasks v)).
  { intros t' Ht. apply split_nth in Et as (l1 & l2 & E1 & E2). unfold without in Ht. cbn [w_tasks] in Ht. rewrite E2 in Ht. rewrite E1. apply without_in. auto. }
  assert (PW : forall j, In j (pending v) -> j <> i -> In j (pending (without k v))).
  { intros j Hj N. unfold pending in *. apply in_map_iff in Hj as (t' & <- & Ht). apply in_map. apply split_nth in Et as (l1 & l2 & E1 & E2).
    unfold without. cbn [w_tasks]. rewrite E2. rewrite E1 in Ht. apply without_in in Ht as [Ht| ->]; auto. congruence. }
  assert (PAQ : forall u, map skel (w_nodes u) = map skel (w_nodes v) -> forall j m, node_at u j m -> prop_m ar (n_mgr m)).
  { intros u Q j m' Hj. destruct (back_skel v u j m' Q Hj) as (m0 & H0 & _ & <-). eauto. }
  assert (UPQ : forall u, map skel (w_nodes u) = map skel (w_nodes v) -> forall j m I (x : val I), node_at u j m -> all_hold (forms_of (n_mgr m)) x -> holds f x).
  { intros u Q j m' I x Hj A. destruct (back_skel v u j m' Q Hj) as (m0 & H0 & _ & E). rewrite <- E in A. eauto. }
  assert (NOSKIP : ~ skipped t m (without k v) -> w_impossible v = false /\ n_closed m = false /\ n_finished m = false).
  { intros NS. subst t. cbn [skipped] in NS. unfold should_search in NS. change (w_impossible (without k v)) with (w_impossible v) in NS.
    destruct (n_closed m), (n_finished m), (w_impossible v); cbn in NS; tauto. }
  assert (SEEN : forall n1, seen name_id ty_arity add comp t m n1 -> n1 = m /\ tc (n_mgr m) = Ok None).
  { intros n1 SN. destruct SN as [j E1 E2|j E1|j x subs E1 E2 E3]; [auto|congruence|]. exfalso.
    assert (D : n_done m = []).
    { apply (re_fresh _ _ _ _ _ R NM i m H). exists i. split; [constructor|right; auto]. }
    rewrite D in E3. cbn in E3. discriminate. }
  destruct O as [SK|x subs v' NS _ KC AN|n1 s g NS SN ST|n1 nf a NS SN Hf AP NE].
  - constructor; auto.
    + intros j m' Hj Lf Cl Fn. destruct (Nat.eq_dec j i) as [->|N].
      * right. rewrite (node_fun _ _ _ _ Hj H) in *. subst t. cbn [skipped] in SK. unfold should_search in SK. rewrite Cl, Fn in SK. cbn in SK.
        apply negb_false_iff in SK. exact SK.
      * destruct (OP j m' Hj Lf Cl Fn); auto.
  - destruct (NOSKIP NS) as (I0 & C0 & F0). pose proof (an_quiet _ _ _ _ AN) as (Q & _ & _ & QI).
    pose proof (put_skel (without k v) i m (marked m subs) H eq_refl) as QP. rewrite QP in Q. change (w_nodes (without k v)) with (w_nodes v) in Q.
    change (w_impossible (put (without k v) i (marked m subs))) with (w_impossible v) in QI.
    pose proof (an_none _ _ _ _ AN NM) as TE. change (w_tasks (put (without k v) i (marked m subs))) with (w_tasks (without k v)) in TE.
    assert (LS : forall j m', node_at v' j m' -> n_children m' = [] -> (j = i /\ n_closed m' = true /\ n_finished m' = false) \/
      (j <> i /\ exists m0, node_at v j m0 /\ n_children m0 = [] /\ n_closed m' = n_closed m0 /\ n_finished m' = n_finished m0 /\ n_mgr m' = n_mgr m0)).
    { intros j m' Hj Lf. destruct (an_leaf _ _ _ _ AN j m' Hj Lf) as (m0 & H0 & A & B & _).
      apply (put_at (without k v) i m (marked m subs) j m0 H) in H0 as [[-> ->]|[N H0]].
      - left. rewrite A, B. auto.
      - right. split; auto. exists m0. destruct (back_skel v v' j m' Q Hj) as (m1 & H1 & A1 & B1).
        assert (EQ : m1 = m0) by (apply (node_fun v j m1 m0 H1 H0)). rewrite EQ in *. split; [exact H0|]. split; [congruence|]. auto. }
    constructor; auto.
    + exact (PAQ v' Q).
    + intros t' Ht. rewrite TE in Ht. auto.
    + intros j m' Hj Lf Fn. destruct (LS j m' Hj Lf) as [(_ & _ & X)|(_ & m0 & H0 & L0 & _ & X & Y)]; [congruence|]. rewrite Y. rewrite X in Fn. apply (FI j m0 H0 L0 Fn).
    + rewrite QI, I0. discriminate.
    + intros j m' Hj Lf Cl Fn. left. destruct (LS j m' Hj Lf) as [(_ & X & _)|(N & m0 & H0 & L0 & X & Y & _)]; [congruence|].
      rewrite X in Cl. rewrite Y in Fn. destruct (OP j m0 H0 L0 Cl Fn) as [P|P]; [|congruence]. unfold pending. rewrite TE. apply PW; auto.
    + exact (UPQ v' Q).
  - destruct (NOSKIP NS) as (I0 & C0 & F0). destruct (SEEN n1 SN) as [-> TC]. rewrite (put_same (without k v) i m H) in *.
    destruct (closure_none _ TC) as [TR CO].
    assert (Q : map skel (w_nodes (finished i m g s (without k v))) = map skel (w_nodes v)) by (apply (put_skel (without k v) i m); auto).
    assert (AT : forall j m', node_at (finished i m g s (without k v)) j m' <-> (j = i /\ m' = with_closure m false true (n_subs m)) \/ (j <> i /\ node_at v j m'))
      by (intros j m'; exact (put_at (without k v) i m (with_closure m false true (n_subs m)) j m' H)).
    constructor; auto.
    + exact (PAQ _ Q).
    + intros j m' Hj Lf Fn. apply AT in Hj as [[-> ->]|[N Hj]]; [|eauto]. cbn [with_closure n_mgr]. split; auto.
      inversion ST as [EA E1 E2|a EA NA E1 E2].
      * apply (app_none _ _ _ EA).
      * exfalso. revert NA. apply (app_prop ar (n_mgr m) (w_sko (without k v)) (w_gen (without k v)) a); [eapply tr_sorted; apply R|eapply PA; exact H|apply app_some; exact EA].
    + intros _. exists i, (with_closure m false true (n_subs m)). split; [apply AT; auto|]. auto.
    + exact (UPQ _ Q).
  - destruct (NOSKIP NS) as (I0 & C0 & F0). destruct (SEEN n1 SN) as [-> TC]. rewrite (put_same (without k v) i m H) in *.
    assert (SO : sorted (n_mgr m)) by (eapply tr_sorted; apply R).
    destruct (app_prop ar (n_mgr m) (w_sko (without k v)) (w_gen (without k v)) a SO (PA i m H) (app_some _ _ _ _ AP)) as (_ & AP1 & AP2).
    set (b := List.length (w_nodes (without k v))).
    assert (MG : n_mgr (grow_node m nf a b) = n_mgr m) by (unfold grow_node; destruct (is_beta _); reflexivity).
    assert (CH : n_children (grow_node m nf a b) <> []).
    { unfold grow_node. cbn [n_children with_children]. destruct (ap_new a); [congruence|discriminate]. }
    constructor; auto.
    + intros j m' Hj. apply (grown_at i m nf a (without k v) j m' H) in Hj as [[-> ->]|[[N Hj]|(k' & mg & -> & Ek & ->)]].
      * fold b. rewrite MG. apply (PA i m H).
      * apply (PA j m' Hj).
      * apply AP1. eapply nth_error_In; eauto.
    + intros t' Ht. unfold grown in Ht. cbn [w_tasks] in Ht. apply in_app_iff in Ht as [Ht|Ht]; [auto|]. apply in_map_iff in Ht as (j & <- & _). eauto.
    + intros j m' Hj Lf Fn. apply (grown_at i m nf a (without k v) j m' H) in Hj as [[-> ->]|[[N Hj]|(k' & mg & -> & Ek & ->)]].
      * contradiction.
      * apply (FI j m' Hj Lf Fn).
      * discriminate.
    + change (w_impossible (grown i m nf a (without k v))) with (w_impossible v). rewrite I0. discriminate.
    + intros j m' Hj Lf Cl Fn. left. unfold pending, grown. cbn [w_tasks]. rewrite map_app. apply in_app_iff.
      apply (grown_at i m nf a (without k v) j m' H) in Hj as [[-> ->]|[[N Hj]|(k' & mg & -> & Ek & ->)]].
      * contradiction.
      * left. destruct (OP j m' Hj Lf Cl Fn) as [P|P]; [|congruence]. apply PW; auto.
      * right. rewrite map_map. cbn [tnode]. rewrite map_id. apply in_seq. apply nth_in_range in Ek. lia.
    + intros j m' I x Hj A. apply (grown_at i m nf a (without k v) j m' H) in Hj as [[-> ->]|[[N Hj]|(k' & mg & -> & Ek & ->)]].
      * fold b in A. rewrite MG in A. eapply UP; eauto.
      * eapply UP; eauto.
      * eapply UP; [exact H|]. eapply AP2; [eapply nth_error_In; eauto|exact A].
Qed.
Lemma run_ginv f sched : forall v v', ginv f v -> run name_id ty_arity add comp sched v = Ok v' -> ginv f v'.
Proof.
  induction sched as [|k r IH]; intros v v' GI E; cbn [run] in E; [injection E as <-; auto|].
  apply bind_ok in E as (v1 & E1 & E). eapply IH; [eapply step_ginv; eauto|exact E].
Qed.
Lemma first_ginv g k f : propositional ar f -> ginv f (first_world g k f).
Proof.
  intros P. assert (FF : forall j m x, node_at (first_world g k f) j m -> In x (forms_of (n_mgr m)) -> j = 0%nat /\ x = mkFat f []) by (intros; eapply first_forms; eauto).
  assert (N0 : forall j m, node_at (first_world g k f) j m -> j = 0 /\ m = new_node 0 0 (insert_rule empty_mgr (mkFat f [])) []).
  { intros j m H. unfold node_at, first_world in H. cbn [w_nodes] in H. destruct j as [|[|]]; cbn in H; try discriminate. injection H as <-. auto. }
  constructor.
  - apply first_winv.
  - intros j m H x Hx. destruct (FF j m x H Hx) as [_ ->]. exact P.
  - intros t [<-|[]]. eauto.
  - intros j m H _ F. destruct (N0 j m H) as [_ ->]. discriminate.
  - discriminate.
  - intros j m H _ _ _. destruct (N0 j m H) as [-> _]. left. left. reflexivity.
  - intros j m I u H A. destruct (N0 j m H) as [_ ->]. cbn [new_node n_mgr] in A. apply insert_hold in A as [A _]. exact A.
Qed.
Lemma open_leaf fuel v : forall i, tree_closed fuel v i = Ok false -> exists j m, leaf_of v i j m /\ n_closed m = false.
Proof.
  induction fuel as [|fuel IH]; intros i E; [discriminate|]. cbn [tree_closed] in E. apply bind_ok in E as (m & Hm & E). apply get_at in Hm.
  destruct (n_children m) as [|c0 cs] eqn:C.
  - injection E as E. exists i, m. split; [split; [constructor|auto]|auto].
  - assert (Q : forall l b, fold_left (fun b c => do b <- b; do x <- tree_closed fuel v c; Ok (b && x)) l (Ok b) = Ok false ->
      b = false \/ exists c, In c l /\ tree_closed fuel v c = Ok false).
    { induction l as [|c l IHl]; intros b F; cbn [fold_left bind] in F; [injection F as ->; auto|].
      destruct (tree_closed fuel v c) as [x| | |] eqn:X; cbn [bind] in F.
      - destruct (IHl _ F) as [Y|(c' & Hc & Y)]; [|right; exists c'; cbn; auto]. destruct b; auto. cbn in Y. subst x. right. exists c. cbn; auto.
      - exfalso. clear -F. induction l; cbn in F; [discriminate|auto].
      - exfalso. clear -F. induction l; cbn in F; [discriminate|auto].
      - exfalso. clear -F. induction l; cbn in F; [discriminate|auto]. }
    destruct (Q _ _ E) as [X|(c & Hc & X)]; [discriminate|]. destruct (IH c X) as (j & m' & (B & H & L) & O).
    exists j, m'. split; auto. split; auto. eapply be_child; [exact Hm|rewrite C; exact Hc|exact B].
Qed.
Lemma open_model g k f sched v : propositional ar f -> run name_id ty_arity add comp sched (first_world g k f) = Ok v ->
  w_tasks v = [] -> answer v = Ok false -> satisfiable f.
Proof.
  intros P E NT AN. pose proof (run_ginv f sched _ v (first_ginv g k f P) E) as [WI PA TA FI IM OP UP].
  assert (X : exists j m, node_at v j m /\ n_children m = [] /\ n_finished m = true).
  { destruct (w_impossible v) eqn:IP; [auto|]. apply open_leaf in AN as (j & m & (_ & H & L) & C). exists j, m.
    split; auto. split; auto. destruct (n_finished m) eqn:F; auto. destruct (OP j m H L C F) as [Q|Q]; [|discriminate]. unfold pending in Q. rewrite NT in Q. destruct Q. }
  destruct X as (j & m & H & L & F). destruct (FI j m H L F) as (A & B & C).
  exists (term_model (n_mgr m)), (term_val (n_mgr m)). eapply UP; [exact H|].
  apply (leaf_model ar NM); auto; [eapply tr_sorted; [apply WI|exact H]|eapply PA; eauto].
Qed.
End Run.
(** with the unification of the prover, when it loses no binding *)
Lemma open_satisfiable ar name_id ty_arity n fe g k f sched v : monomorphic ar ty_arity -> nometa ar -> propositional ar f ->
  run_strict name_id ty_arity n fe sched (first_world g k f) <> Out -> run_real name_id ty_arity n fe sched (first_world g k f) = Ok v ->
  w_tasks v = [] -> answer v = Ok false -> satisfiable f.
Proof.
  intros HM NM P NO E. apply (run_same name_id ty_arity n fe) in E; auto. eapply open_model; eauto.
Qed.

(** ** Closed trees without metavariables (C84) *)
Lemma closed_leaves fuel v : tree v -> forall i, tree_closed fuel v i = Ok true -> forall j m, leaf_of v i j m -> n_closed m = true.
Proof.
  intros T. induction fuel as [|fuel IH]; intros i E j m' (B & H & L); [discriminate|]. cbn [tree_closed] in E.
  apply bind_ok in E as (m & Hm & E). apply get_at in Hm. destruct (below_child v i m j Hm B) as [->|(c & Hc & Bc)].
  - pose proof (node_fun _ _ _ _ H Hm). subst m'. rewrite L in E. injection E as E. exact E.
  - assert (Q : forall l b, fold_left (fun b c => do b <- b; do x <- tree_closed fuel v c; Ok (b && x)) l (Ok b) = Ok true ->
      b = true /\ forall c, In c l -> tree_closed fuel v c = Ok true).
    { induction l as [|c1 l IHl]; intros b F; cbn [fold_left bind] in F; [injection F as ->; split; auto; intros c1 []|].
      destruct (tree_closed fuel v c1) as [x| | |] eqn:X; cbn [bind] in F.
      - destruct (IHl _ F) as [Y Z]. apply andb_prop in Y as [-> ->]. split; auto. intros c2 [<-|Hc2]; auto.
      - exfalso. clear -F. induction l; cbn in F; [discriminate|auto].
      - exfalso. clear -F. induction l; cbn in F; [discriminate|auto].
      - exfalso. clear -F. induction l; cbn in F; [discriminate|auto]. }
    destruct (n_children m) as [|c0 cs] eqn:C; [destruct Hc|]. destruct (Q _ _ E) as [_ Z].
    eapply IH; [apply (Z c Hc)|]. split; [exact Bc|]. auto.
Qed.
Lemma ground_unsat ar name_id ty_arity n fe g k f sched v : monomorphic ar ty_arity -> nometa ar -> wf_start g f ->
  run_strict name_id ty_arity n fe sched (first_world g k f) <> Out -> run_real name_id ty_arity n fe sched (first_world g k f) = Ok v ->
  world_fo ar v -> answer v = Ok true -> unsat f.
Proof.
  intros HM NM W NO E FO AN. pose proof (strict_inv name_id ty_arity n fe ar g k f sched v HM (run_same _ _ _ _ _ _ _ NO E) FO) as WI.
  apply (leaves_unsat name_id ty_arity n fe ar g k f sched v [] HM W NO E FO). intros j m LF.
  pose proof (closed_leaves _ v (wi_tree _ _ _ WI) 0 AN j m LF) as C. split; auto.
  destruct (fo_closed _ _ _ _ _ (wi_fields _ _ _ WI j m (proj1 (proj2 LF))) C) as [NE A].
  destruct (n_subs m) as [|s r]; [congruence|]. exists s. split; [left; auto|]. destruct (A s (or_introl eq_refl)) as [_ G]. specialize (G NM).
  intros x u Hx. rewrite G in Hx. destruct Hx.
Qed.
Lemma prop_unsat ar name_id ty_arity n fe g k f sched v : monomorphic ar ty_arity -> nometa ar -> wf_start g f -> propositional ar f ->
  run_strict name_id ty_arity n fe sched (first_world g k f) <> Out -> run_real name_id ty_arity n fe sched (first_world g k f) = Ok v ->
  answer v = Ok true -> unsat f.
Proof.
  intros HM NM W P NO E AN. eapply ground_unsat; eauto.
  destruct (run_ginv ar name_id ty_arity n fe HM NM f sched _ v (first_ginv ar g k f P) (run_same _ _ _ _ _ _ _ NO E)) as [WI PA _ _ _ _ _].
  eapply prop_all; eauto. apply WI.
Qed.
