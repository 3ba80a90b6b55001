(** The incremental search ends (C89). *)
From Coq Require Import ZArith List Bool String Lia.
From Verif Require Import LibSet_Model Ast_Model Problem_Model Rules_Model Sem_Spec Occ_Spec Free_Spec Rules_Spec
  Ast_Proofs Tableau_Proofs Expand_Spec Expand_Proofs Unif_Model UnifTree_Model Closure_Model
  Incr_Model Incr_Spec IncrSub_Proofs Incr_Proofs IncrTree_Proofs IncrSound_Proofs.
Import ListNotations.
Open Scope list_scope.
Open Scope nat_scope.

(** ** The rules make smaller formulas *)
Lemma negs_ws fs : forall ts g, ws (fst (negs fs ts g)) = list_sum (map (fun f => S (w f)) fs).
Proof.
  induction fs as [|f r IH]; intros ts g; cbn [negs]; [reflexivity|]. unfold maker_not, maker_index_formula. cbv beta iota zeta.
  match goal with |- context [negs r ts ?g1] => specialize (IH ts g1); destruct (negs r ts g1) as [l g2] end.
  cbn [fst] in *. rewrite ws_cons, IH. reflexivity.
Qed.
Lemma negs_len fs : forall ts g, List.length (fst (negs fs ts g)) = List.length fs.
Proof.
  induction fs as [|f r IH]; intros ts g; cbn [negs]; [reflexivity|]. unfold maker_not, maker_index_formula. cbv beta iota zeta.
  match goal with |- context [negs r ts ?g1] => specialize (IH ts g1); destruct (negs r ts g1) as [l g2] end.
  cbn [fst] in *. cbn. congruence.
Qed.
Lemma map_ws fs ts : ws (map (fun f => mkFat f ts) fs) <= list_sum (map (fun f => S (w f)) fs).
Proof. induction fs as [|f r IH]; cbn [map]; [rewrite ws_nil; lia|]. rewrite ws_cons, lsum_cons. cbn [ft_form]. lia. Qed.
Lemma in_sum {A} (h : A -> nat) l a : In a l -> h a <= list_sum (map h l).
Proof. induction l as [|b l IH]; intros []; subst; cbn [map]; rewrite lsum_cons; [lia|]. apply IH in H. lia. Qed.
Lemma len_sum {A} (h : A -> nat) l : (forall a, In a l -> 1 <= h a) -> List.length l <= list_sum (map h l).
Proof.
  induction l as [|b l IH]; intros H; cbn [map List.length]; [lia|]. rewrite lsum_cons. pose proof (H b (or_introl eq_refl)).
  specialize (IH (fun a Ha => H a (or_intror Ha))). lia.
Qed.
Lemma ws_in l x : In x l -> w (ft_form x) <= ws l.
Proof. apply (in_sum (fun x => w (ft_form x))). Qed.
Lemma apply_ws x s g news metas s' g' : rule_form (ft_form x) -> apply_rule x s g = Some (news, metas, s', g') ->
  (forall ys, In ys news -> ws ys < w (ft_form x)) /\ List.length news <= w (ft_form x).
Proof.
  destruct x as [f ts]. cbn [ft_form]. intros RF E. unfold rule_form in RF.
  destruct RF as [RF|[RF|[RF|RF]]]; inversion RF; subst; cbn [apply_rule ft_form ft_terms] in E.
  all: try (unfold maker_not, maker_index_formula in E; cbv beta iota zeta in E).
  - injection E as <- _ _ _. split; [|cbn; lia]. intros ys [<-|[]]. pose proof (map_ws fs ts). cbn [w]. lia.
  - pose proof (negs_ws fs ts g) as N. destruct (negs fs ts g) as [l g1]. cbn [fst] in N. injection E as <- _ _ _. split; [|cbn; lia].
    intros ys [<-|[]]. cbn [w]. lia.
  - injection E as <- _ _ _. split; [|cbn; lia]. intros ys [<-|[]]. rewrite !ws_cons, ws_nil. cbn [ft_form w]. lia.
  - injection E as <- _ _ _. split; [|cbn; lia]. intros ys [<-|[]]. rewrite !ws_cons, ws_nil. cbn [ft_form w]. lia.
  - injection E as <- _ _ _. split.
    + intros ys Hy. apply in_map_iff in Hy as (f & <- & Hf). rewrite ws_cons, ws_nil. cbn [ft_form w].
      pose proof (in_sum (fun g => S (w g)) fs f Hf) as Q. cbn beta in Q. lia.
    + rewrite map_length. cbn [w]. pose proof (len_sum (fun g => S (w g)) fs (fun a _ => le_n_S _ _ (Nat.le_0_l _))). lia.
  - pose proof (negs_ws fs ts g) as N. pose proof (negs_len fs ts g) as L. destruct (negs fs ts g) as [l g1]. cbn [fst] in *. injection E as <- _ _ _. split.
    + intros ys Hy. apply in_map_iff in Hy as (y & <- & Hy). rewrite ws_cons, ws_nil. apply ws_in in Hy. cbn [w]. lia.
    + rewrite map_length, L. cbn [w]. pose proof (len_sum (fun g => S (w g)) fs (fun a _ => le_n_S _ _ (Nat.le_0_l _))). lia.
  - injection E as <- _ _ _. split; [|cbn; lia]. intros ys [<-|[<-|[]]]; rewrite !ws_cons, ws_nil; cbn [ft_form w]; lia.
  - injection E as <- _ _ _. split; [|cbn; lia]. intros ys [<-|[<-|[]]]; rewrite !ws_cons, ws_nil; cbn [ft_form w]; lia.
  - injection E as <- _ _ _. split; [|cbn; lia]. intros ys [<-|[<-|[]]]; rewrite !ws_cons, ws_nil; cbn [ft_form w]; lia.
  - destruct (apply_gamma _ _ _) as [[[y m] g1]|] eqn:EG; [|discriminate]. apply gamma_ws in EG. cbn [ft_form] in EG. injection E as <- _ _ _.
    split; [|cbn; lia]. intros ys [<-|[]]. rewrite ws_cons, ws_nil. cbn [ft_form]. lia.
  - destruct (apply_gamma _ _ _) as [[[y m] g1]|] eqn:EG; [|discriminate]. apply gamma_ws in EG. cbn [ft_form] in EG. injection E as <- _ _ _.
    split; [|cbn; lia]. intros ys [<-|[]]. rewrite ws_cons, ws_nil. cbn [ft_form]. lia.
  - destruct (form_metas _) as [mm|] eqn:EM; [|discriminate]. destruct (delta_of_form s (mkFat (Ex i vs f0) ts) g mm EM) as (us & ED). cbn [ft_form] in ED.
    destruct (skolemize _ _ _ _) as [[[h s1] g1]|]; [|discriminate]. apply delta_ws in ED. cbn [ft_form] in ED. injection E as <- _ _ _.
    split; [|cbn; lia]. intros ys [<-|[]]. rewrite ws_cons, ws_nil. cbn [ft_form]. lia.
  - destruct (form_metas _) as [mm|] eqn:EM; [|discriminate]. destruct (delta_of_form s (mkFat (Not i (All j vs f0)) ts) g mm EM) as (us & ED). cbn [ft_form] in ED.
    destruct (skolemize _ _ _ _) as [[[h s1] g1]|]; [|discriminate]. apply delta_ws in ED. cbn [ft_form] in ED. injection E as <- _ _ _.
    split; [|cbn; lia]. intros ys [<-|[]]. rewrite ws_cons, ws_nil. cbn [ft_form]. lia.
Qed.
Lemma app_ws m s g a : sorted m -> app_of m s g a ->
  (forall mg, In mg (ap_new a) -> ws (forms_of mg) < ws (forms_of m)) /\ List.length (ap_new a) <= ws (forms_of m).
Proof.
  intros SO [RU (news & EA & EN) _]. destruct (apply_ws _ _ _ _ _ _ _ (sorted_rules m _ SO RU) EA) as [A B].
  assert (X : w (ft_form (ap_rule a)) <= ws (forms_of m)).
  { apply ws_in. unfold forms_of. unfold rules_of in RU. rewrite !in_app_iff in *. tauto. }
  split; [|rewrite EN, map_length; lia]. intros mg Hm. rewrite EN in Hm. apply in_map_iff in Hm as (new & <- & Hn).
  pose proof (branch_ws m (ap_rule a) (ap_metas a) new RU). specialize (A new Hn). lia.
Qed.

(** ** A weight of the leaves *)
Definition leafp (K : nat) (n : snode) : nat := match n_children n with [] => K ^ ws (forms_of (n_mgr n)) | _ => 0 end.
Definition phi (K : nat) (v : world) : nat := list_sum (map (leafp K) (w_nodes v)).
Lemma leafp_skel K n n' : skel n' = skel n -> leafp K n' = leafp K n.
Proof. intros S. apply skel_children in S as (S1 & _ & _ & S4). unfold leafp. rewrite S1, S4. reflexivity. Qed.
Lemma phi_skel K v v' : map skel (w_nodes v') = map skel (w_nodes v) -> phi K v' = phi K v.
Proof.
  unfold phi. generalize (w_nodes v') (w_nodes v). intros l' l. revert l'. induction l as [|a l IH]; intros [|a' l'] Q; cbn in Q; try discriminate; auto.
  injection Q as Q1 Q2 Q3 Q4 Q. cbn [map]. rewrite !lsum_cons. rewrite (IH l' Q). f_equal. apply leafp_skel. unfold skel. congruence.
Qed.
Lemma sum_set (h : snode -> nat) l i a b : nth_error l i = Some a ->
  list_sum (map h (set_node l i b)) + h a = list_sum (map h l) + h b.
Proof.
  revert i. unfold set_node. induction l as [|x l IH]; intros [|i] H; cbn in H; try discriminate.
  - injection H as ->. cbn [firstn skipn app map]. rewrite !lsum_cons. lia.
  - specialize (IH i H). change (firstn (S i) (x :: l) ++ b :: skipn (S (S i)) (x :: l)) with (x :: (firstn i l ++ b :: skipn (S i) l)).
    cbn [map]. rewrite !lsum_cons. lia.
Qed.
Lemma sum_le {A} (h : A -> nat) b l : (forall a, In a l -> h a <= b) -> list_sum (map h l) <= List.length l * b.
Proof.
  induction l as [|a l IH]; intros H; cbn [map List.length]; [rewrite lsum_nil; lia|]. rewrite lsum_cons.
  pose proof (H a (or_introl eq_refl)). specialize (IH (fun x Hx => H x (or_intror Hx))). lia.
Qed.
Lemma phi_grow K i n nf a v s g : node_at v i n -> n_children n = [] -> sorted (n_mgr n) -> app_of (n_mgr n) s g a -> ap_new a <> [] ->
  ws (forms_of (n_mgr n)) < K -> phi K (grown i n nf a v) < phi K v.
Proof.
  intros H L SO AO NE LK. destruct (app_ws _ _ _ _ SO AO) as [A B].
  unfold phi, grown. cbn [w_nodes]. set (n2 := grow_node n nf a (List.length (w_nodes v))). rewrite map_app, list_sum_app.
  pose proof (sum_set (leafp K) (w_nodes v) i n n2 H) as Q.
  assert (Z : leafp K n2 = 0).
  { unfold leafp, n2, grow_node. cbn [n_children with_children]. destruct (ap_new a); [contradiction|reflexivity]. }
  assert (LN : leafp K n = K ^ ws (forms_of (n_mgr n))) by (unfold leafp; rewrite L; reflexivity).
  rewrite Z, LN in Q.
  assert (P : 1 <= ws (forms_of (n_mgr n))).
  { destruct (ap_new a) as [|mg r]; [contradiction|]. specialize (A mg (or_introl eq_refl)). lia. }
  set (W := ws (forms_of (n_mgr n))) in *.
  assert (S : list_sum (map (leafp K) (map (fun x => new_node i (fst x) (snd x) (n_done n2)) (combine (seq 0 (List.length (ap_new a))) (ap_new a))))
     <= List.length (ap_new a) * K ^ (W - 1)).
  { rewrite map_map. etransitivity; [apply (sum_le _ (K ^ (W - 1)))|].
    - intros [k mg] Hx. apply in_combine_r in Hx. cbn [snd]. unfold leafp. cbn [new_node n_children n_mgr].
      apply Nat.pow_le_mono_r; [lia|]. specialize (A mg Hx). lia.
    - rewrite combine_length, seq_length, Nat.min_id. lia. }
  assert (X : K ^ W = K * K ^ (W - 1)) by (rewrite <- Nat.pow_succ_r'; f_equal; lia).
  assert (Y : 1 <= K ^ (W - 1)) by (apply Nat.neq_0_lt_0, Nat.pow_nonzero; lia).
  assert (List.length (ap_new a) * K ^ (W - 1) < K ^ W) by (rewrite X; apply Nat.mul_lt_mono_pos_r; lia).
  lia.
Qed.
Lemma indices_le (h : snode -> nat) (l : list snode) (q : list nat) : NoDup q ->
  (forall j, In j q -> exists n, nth_error l j = Some n /\ 1 <= h n) -> List.length q <= list_sum (map h l).
Proof.
  revert q. induction l as [|a l IH] using rev_ind; intros q ND H.
  - destruct q as [|j q]; [cbn; lia|]. destruct (H j (or_introl eq_refl)) as (n & E & _). destruct j; discriminate.
  - rewrite map_app, list_sum_app. cbn [map]. rewrite lsum_cons, lsum_nil.
    assert (HI : forall q', NoDup q' -> (forall j, In j q' -> In j q /\ j <> List.length l) -> List.length q' <= list_sum (map h l)).
    { intros q' N' I'. apply IH; auto. intros j Hj. destruct (I' j Hj) as [I1 I2]. destruct (H j I1) as (n & E & P). exists n. split; auto.
      pose proof (nth_in_range _ _ _ E) as LJ. rewrite app_length in LJ. cbn in LJ. rewrite nth_error_app1 in E by lia. exact E. }
    destruct (in_dec Nat.eq_dec (List.length l) q) as [I|I].
    + destruct (H _ I) as (n & E & P). rewrite nth_error_app2, Nat.sub_diag in E by lia. injection E as ->.
      apply in_split in I as (q1 & q2 & ->). pose proof (HI (q1 ++ q2) (NoDup_remove_1 _ _ _ ND)) as X. rewrite app_length in *. cbn [List.length].
      assert (List.length q1 + List.length q2 <= list_sum (map h l)); [|lia]. apply X. intros j Hj. split.
      * rewrite in_app_iff in *. cbn. tauto.
      * intros ->. apply NoDup_remove_2 in ND. contradiction.
    + pose proof (HI q ND) as X. assert (List.length q <= list_sum (map h l)); [|lia]. apply X. intros j Hj. split; auto. intros ->. contradiction.
Qed.
Lemma tasks_phi K v : 1 <= K -> tasks_ok v -> List.length (w_tasks v) <= phi K v.
Proof.
  intros LK [ND LF]. unfold phi. rewrite <- (map_length tnode). change (map tnode (w_tasks v)) with (pending v). apply indices_le; auto.
  intros j Hj. destruct (LF j Hj) as (n & H & L & _). exists n. split; auto. unfold leafp. rewrite L. apply Nat.neq_0_lt_0, Nat.pow_nonzero. lia.
Qed.

Definition is_search (t : task) : bool := match t with DoSearch _ => true | DoKeepGoing _ => false end.
Definition searches (v : world) : nat := List.length (filter is_search (w_tasks v)).
Lemma searches_le v : searches v <= List.length (w_tasks v).
Proof. unfold searches. induction (w_tasks v) as [|t l IH]; cbn; [lia|]. destruct (is_search t); cbn; lia. Qed.
Definition mu (K B : nat) (v : world) : nat := phi K v * (S B * S B) + searches v * S B + List.length (w_tasks v).
Lemma without_counts k v t : nth_error (w_tasks v) k = Some t ->
  List.length (w_tasks v) = S (List.length (w_tasks (without k v))) /\
  searches v = searches (without k v) + (if is_search t then 1 else 0).
Proof.
  intros H. apply split_nth in H as (l1 & l2 & E1 & E2). unfold searches, without. cbn [w_tasks]. rewrite E2, E1, !app_length, !filter_app, !app_length.
  cbn [filter List.length]. destruct (is_search t); cbn [List.length]; lia.
Qed.
Section Bound.
Variable name_id : string -> ident.
Variable ty_arity : string -> nat.
Variable add : term -> term -> substs -> out substs.
Variable comp : list (nat * term) -> list meta -> substs -> out substs.
Notation stepf := (step name_id ty_arity add comp).
Notation runf := (run name_id ty_arity add comp).
Notation inv0 := (winv False False).
Definition light (W : nat) (v : world) : Prop := forall j n, node_at v j n -> ws (forms_of (n_mgr n)) <= W.
Lemma light_skel W v v' : map skel (w_nodes v') = map skel (w_nodes v) -> light W v -> light W v'.
Proof.
  intros Q L j n' H'. symmetry in Q. destruct (skel_at _ _ _ _ Q H') as (n & H & S). apply skel_children in S as (_ & _ & _ & <-). eauto.
Qed.
Lemma step_mu K B W k v v' : inv0 v -> light W v -> W < K -> phi K v <= B -> stepf k v = Ok v' ->
  inv0 v' /\ light W v' /\ phi K v' <= B /\ mu K B v' < mu K B v.
Proof.
  intros WI LI LK LB KS. destruct (step_change name_id ty_arity add comp k v v' WI KS) as [WI' _].
  destruct (step_cases (fun _ => True) False False name_id ty_arity add comp (closure0 _ _ _ _) k v v' WI (fun _ _ _ => Logic.I) KS) as (t & i & n & Et & Ei & R & O).
  destruct (without_counts k v t Et) as [C1 C2].
  pose proof (re_node _ _ _ _ _ R) as H. pose proof (re_leaf _ _ _ _ _ R) as L.
  assert (PW : phi K (without k v) = phi K v) by reflexivity.
  pose proof (tasks_phi K v' ltac:(lia) (wi_tasks _ _ _ WI')) as T'. pose proof (searches_le v') as S'.
  split; auto.
  destruct O as [SK|x subs v' NS TI KC AN|n1 s g NS SN ST|n1 nf a NS SN Hf AP NE].
  - split; [exact LI|]. split; [exact LB|]. unfold mu. rewrite PW. destruct (is_search t); nia.
  - destruct (an_quiet _ _ _ _ AN) as (Q & _). rewrite (put_skel (without k v) i n (marked n subs) H eq_refl) in Q. change (w_nodes (without k v)) with (w_nodes v) in Q.
    pose proof (phi_skel K v v' Q) as PV. split; [eapply light_skel; eauto|]. split; [lia|]. subst t. cbn [is_search] in C2.
    destruct (an_spawned _ _ _ _ AN) as (Sp & TS). assert (SV : searches v' = searches (without k v)).
    { unfold searches. rewrite TS, filter_app, app_length. cbn [put w_tasks].
      assert (Z : filter is_search (map DoKeepGoing Sp) = []) by (clear; induction Sp; auto). rewrite Z. cbn. lia. }
    unfold mu. rewrite PV, SV, C2. nia.
  - assert (S1 : skel n1 = skel n) by (destruct SN; reflexivity). pose proof (put_skel (without k v) i n n1 H S1) as Q1.
    assert (Q : map skel (w_nodes (finished i n1 g s (put (without k v) i n1))) = map skel (w_nodes v)).
    { transitivity (map skel (w_nodes (put (without k v) i n1))); [|exact Q1].
      apply (put_skel (put (without k v) i n1) i n1); [|reflexivity]. apply (put_at (without k v) i n n1); auto. }
    split; [eapply light_skel; eauto|]. pose proof (phi_skel K v _ Q) as PV. split; [lia|]. unfold mu. rewrite PV.
    change (searches (finished i n1 g s (put (without k v) i n1))) with (searches (without k v)).
    change (w_tasks (finished i n1 g s (put (without k v) i n1))) with (w_tasks (without k v)). destruct (is_search t); nia.
  - destruct (seen_ready (fun _ => True) False False name_id ty_arity add comp (closure0 _ _ _ _) t (without k v) i n n1 R Logic.I SN) as (R1 & M1 & F1).
    set (v1 := put (without k v) i n1) in *. assert (S1 : skel n1 = skel n) by (destruct SN; reflexivity).
    assert (Q1 : map skel (w_nodes v1) = map skel (w_nodes v)) by (apply (put_skel (without k v) i n); auto).
    pose proof (re_node _ _ _ _ _ R1) as H1. pose proof (re_leaf _ _ _ _ _ R1) as L1.
    pose proof (tr_sorted _ (re_tree _ _ _ _ _ R1) i n1 H1) as SO.
    assert (AO : app_of (n_mgr n1) (w_sko v) (w_gen v) a) by (rewrite M1; apply app_some; exact AP).
    pose proof (light_skel W v v1 Q1 LI) as LI1.
    assert (PG : phi K (grown i n1 nf a v1) < phi K v1) by (eapply phi_grow; eauto; pose proof (LI1 i n1 H1); lia).
    rewrite (phi_skel K v v1 Q1) in PG. split; [|split; [lia|]].
    + intros j m Hj. apply (grown_at i n1 nf a v1 j m H1) in Hj as [[-> ->]|[[NJ Hj]|(k' & mg & -> & Ek & ->)]].
      * assert (MG : n_mgr (grow_node n1 nf a (List.length (w_nodes v1))) = n_mgr n1) by (unfold grow_node; destruct (is_beta _); reflexivity).
        rewrite MG. apply (LI1 i n1 H1).
      * apply (LI1 j m Hj).
      * cbn [new_node n_mgr]. destruct (app_ws _ _ _ _ SO AO) as [A _]. specialize (A mg (nth_error_In _ _ Ek)). pose proof (LI1 i n1 H1). lia.
    + unfold mu. set (p := phi K v) in *. set (p' := phi K (grown i n1 nf a v1)) in *. nia.
Qed.
Lemma run_mu K B W sched : forall v v', inv0 v -> light W v -> W < K -> phi K v <= B -> runf sched v = Ok v' ->
  List.length sched + mu K B v' <= mu K B v.
Proof.
  induction sched as [|k r IH]; intros v v' WI LI LK LB E; cbn [run] in E; [injection E as <-; cbn; lia|].
  apply bind_ok in E as (v1 & E1 & E). destruct (step_mu K B W k v v1 WI LI LK LB E1) as (W1 & L1 & B1 & M1).
  specialize (IH v1 v' W1 L1 LK B1 E). cbn [List.length]. lia.
Qed.
(** the number of goroutines run *)
Definition bound (f : form) : nat :=
  let B := S (w f) ^ w f in B * (S B * S B) + S B + 1.
Lemma run_bound g k f sched v : runf sched (first_world g k f) = Ok v -> List.length sched <= bound f.
Proof.
  intros E. set (B := S (w f) ^ w f).
  assert (WF : ws (forms_of (insert_rule empty_mgr (mkFat f []))) <= w f).
  { pose proof (insert_ws empty_mgr (mkFat f [])) as Q. cbn [ft_form] in Q. change (ws (forms_of empty_mgr)) with 0 in Q. lia. }
  assert (LI : light (w f) (first_world g k f)).
  { intros j n H. unfold node_at, first_world in H. cbn [w_nodes] in H. destruct j as [|[|]]; cbn in H; try discriminate. injection H as <-. exact WF. }
  assert (PH : phi (S (w f)) (first_world g k f) <= B).
  { unfold phi, first_world. cbn [w_nodes map]. rewrite lsum_cons, lsum_nil. unfold leafp. cbn [new_node n_children n_mgr].
    rewrite Nat.add_0_r. apply Nat.pow_le_mono_r; [lia|exact WF]. }
  pose proof (run_mu (S (w f)) B (w f) sched _ v (first_winv _ _ g k f) LI ltac:(lia) PH E) as M.
  unfold bound. fold B. etransitivity; [|etransitivity; [exact M|]]; [lia|]. unfold mu.
  change (searches (first_world g k f)) with 1. change (List.length (w_tasks (first_world g k f))) with 1. nia.
Qed.
End Bound.

(** ** No goroutine fails *)
Definition plain_m (m : mgr) : Prop := forall x, In x (forms_of m) -> plain (ft_form x) = true.
Lemma negs_plain fs : forall ts g l g', negs fs ts g = (l, g') -> forallb plain fs = true -> forall y, In y l -> plain (ft_form y) = true.
Proof.
  induction fs as [|f r IH]; intros ts g l g' E P y Hy; cbn [negs] in E; [injection E as <- _; contradiction|].
  unfold maker_not, maker_index_formula in E. cbv beta iota zeta in E. cbn [forallb] in P. apply andb_prop in P as [P1 P2].
  match goal with H : context [negs r ts ?g1] |- _ => destruct (negs r ts g1) as [l2 g2] eqn:EN end. injection E as <- _.
  destruct Hy as [<-|Hy]; [exact P1|]. eapply IH; eauto.
Qed.
Lemma rule_total x s g : rule_form (ft_form x) -> plain (ft_form x) = true ->
  exists news metas s' g', apply_rule x s g = Some (news, metas, s', g') /\ forall ys y, In ys news -> In y ys -> plain (ft_form y) = true.
Proof.
  destruct x as [f ts]. cbn [ft_form]. intros RF PL. unfold rule_form in RF.
  pose proof PL as PL0.
  destruct RF as [RF|[RF|[RF|RF]]]; inversion RF; subst; cbn [apply_rule ft_form ft_terms]; try (cbn [plain] in PL).
  all: try (unfold maker_not, maker_index_formula; cbv beta iota zeta).
  all: try (apply andb_prop in PL as [PL1 PL2]).
  - do 4 eexists. split; [reflexivity|]. intros ys y [<-|[]] Hy. apply in_map_iff in Hy as (h & <- & Hh). rewrite forallb_forall in PL. apply PL; auto.
  - destruct (negs fs ts g) as [l g1] eqn:EN. do 4 eexists. split; [reflexivity|]. intros ys y [<-|[]] Hy. eapply negs_plain; eauto.
  - do 4 eexists. split; [reflexivity|]. intros ys y [<-|[]] [<-|[<-|[]]]; cbn [ft_form plain]; auto.
  - do 4 eexists. split; [reflexivity|]. intros ys y [<-|[]] [<-|[]]; cbn [ft_form plain]; auto.
  - do 4 eexists. split; [reflexivity|]. intros ys y Hs Hy. apply in_map_iff in Hs as (h & <- & Hh). destruct Hy as [<-|[]]. rewrite forallb_forall in PL. apply PL; auto.
  - destruct (negs fs ts g) as [l g1] eqn:EN. do 4 eexists. split; [reflexivity|]. intros ys y Hs Hy. apply in_map_iff in Hs as (h & <- & Hh).
    destruct Hy as [<-|[]]. eapply negs_plain; eauto.
  - do 4 eexists. split; [reflexivity|]. intros ys y [<-|[<-|[]]] [<-|[]]; cbn [ft_form plain]; auto.
  - do 4 eexists. split; [reflexivity|]. intros ys y [<-|[<-|[]]] [<-|[<-|[]]]; cbn [ft_form plain]; auto.
  - do 4 eexists. split; [reflexivity|]. intros ys y [<-|[<-|[]]] [<-|[<-|[]]]; cbn [ft_form plain]; auto.
  - destruct (gamma_total (mkFat (All i vs f0) ts) 42 g RF PL0) as (y & m & g1 & -> & P). do 4 eexists. split; [reflexivity|]. intros ys z [<-|[]] [<-|[]]. exact P.
  - destruct (gamma_total (mkFat (Not i (Ex j vs f0)) ts) 42 g RF PL0) as (y & m & g1 & -> & P). do 4 eexists. split; [reflexivity|]. intros ys z [<-|[]] [<-|[]]. exact P.
  - destruct (form_metas_ok (Ex i vs f0)) as (mm & MM & OM & _). rewrite MM.
    destruct (delta_of_form s (mkFat (Ex i vs f0) ts) g mm MM) as (us & ED). cbn [ft_form] in ED.
    destruct (delta_total s (mkFat (Ex i vs f0) ts) mm Leaf g RF PL0 OM mleaf_ok) as (y & s' & g' & EY & PY). rewrite ED in EY.
    destruct (skolemize _ _ _ _) as [[[h s1] g1]|]; [|discriminate]. injection EY as <- _ _. do 4 eexists. split; [reflexivity|]. intros ys z [<-|[]] [<-|[]]. exact PY.
  - destruct (form_metas_ok (Not i (All j vs f0))) as (mm & MM & OM & _). rewrite MM.
    destruct (delta_of_form s (mkFat (Not i (All j vs f0)) ts) g mm MM) as (us & ED). cbn [ft_form] in ED.
    destruct (delta_total s (mkFat (Not i (All j vs f0)) ts) mm Leaf g RF PL0 OM mleaf_ok) as (y & s' & g' & EY & PY). rewrite ED in EY.
    destruct (skolemize _ _ _ _) as [[[h s1] g1]|]; [|discriminate]. injection EY as <- _ _. do 4 eexists. split; [reflexivity|]. intros ys z [<-|[]] [<-|[]]. exact PY.
Qed.
Lemma non_closure_total m s g : sorted m -> plain_m m -> exists a, apply_non_closure m s g = Ok a.
Proof.
  intros SO PM. assert (Q : forall x, In x (rules_of m) -> exists r, apply_rule x s g = Some r).
  { intros x Hx. destruct (rule_total x s g (sorted_rules m x SO Hx)) as (a & b & c & d & E & _); [|eauto].
    apply PM. unfold forms_of. unfold rules_of in Hx. rewrite !in_app_iff in *. tauto. }
  assert (T : forall cat, incl cat (rules_of m) -> exists a, try_to_apply m cat s g = Ok a).
  { intros [|x r] IN; [cbn; eauto|]. unfold try_to_apply. destruct (Q x (IN x (or_introl eq_refl))) as ([[[a b] c] d] & ->). eauto. }
  apply T. unfold rules_of. intros x Hx. rewrite !in_app_iff. destruct (mg_alpha m); [|auto]. destruct (mg_delta m); [|auto]. destruct (mg_beta m); auto.
Qed.
Lemma app_plain m s g a : sorted m -> plain_m m -> app_of m s g a -> forall mg, In mg (ap_new a) -> plain_m mg.
Proof.
  intros SO PM [RU (news & EA & EN) _] mg Hm x Hx. rewrite EN in Hm. apply in_map_iff in Hm as (new & <- & Hn).
  assert (PR : plain (ft_form (ap_rule a)) = true).
  { apply PM. unfold forms_of. unfold rules_of in RU. rewrite !in_app_iff in *. tauto. }
  apply branch_in in Hx as [Hx|Hx]; [|auto]. destruct (rule_total (ap_rule a) s g (sorted_rules m _ SO RU) PR) as (n2 & b & c & d & E & P).
  rewrite EA in E. injection E as <- _ _ _. eapply P; eauto.
Qed.

(** the lists of substitutions of a node have one place for each child *)
Definition lens (v : world) : Prop := forall i n, node_at v i n ->
  List.length (n_closing n) = Nat.max 1 (List.length (n_children n)) /\ n_amount n = Nat.max 1 (List.length (n_children n)).
Lemma put_lens v i n n' : node_at v i n -> lens v -> List.length (n_closing n') = List.length (n_closing n) -> n_amount n' = n_amount n ->
  n_children n' = n_children n -> lens (put v i n').
Proof.
  intros H L A B C j m Hj. apply (put_at v i n n' j m H) in Hj as [[-> ->]|[_ Hj]]; [|exact (L j m Hj)]. rewrite A, B, C. exact (L i n H).
Qed.
Definition kept_well (v v' : world) : Prop := map skel (w_nodes v') = map skel (w_nodes v) /\ lens v'.
Lemma fold_total (kg : nat -> world -> out world) (Q : nat -> world -> Prop) :
  (forall c v v', Q c v -> kept_well v v' -> Q c v') ->
  (forall c v, tree v -> lens v -> Q c v -> exists v', kg c v = Ok v' /\ kept_well v v') ->
  forall cs v, tree v -> lens v -> (forall c, In c cs -> Q c v) ->
  exists v', fold_left (fun v c => do v <- v; kg c v) cs (Ok v) = Ok v' /\ kept_well v v'.
Proof.
  intros QK KG cs. induction cs as [|c cs IH]; intros v T L HQ; cbn [fold_left].
  - exists v. split; auto. split; auto.
  - destruct (KG c v T L (HQ c (or_introl eq_refl))) as (v1 & E1 & K1). cbn [bind]. rewrite E1. pose proof K1 as [S1 L1].
    destruct (IH v1) as (v2 & E2 & S2 & L2); auto.
    + eapply skel_tree; eauto.
    + intros c' Hc. eapply QK; [apply HQ; right; exact Hc|exact K1].
    + exists v2. split; auto. split; auto. congruence.
Qed.
Lemma node_skel v v' i n : map skel (w_nodes v') = map skel (w_nodes v) -> node_at v i n -> exists n', node_at v' i n'.
Proof. intros Q H. destruct (skel_at _ _ _ _ Q H) as (n' & H' & _). eauto. Qed.
Lemma keep_total fuel : forall i v, tree v -> lens v -> (exists n, node_at v i n) /\ List.length (w_nodes v) <= fuel + i ->
  exists v', keep_going fuel i v = Ok v' /\ kept_well v v'.
Proof.
  induction fuel as [|fuel IH]; intros i v T L ((n & H) & B).
  - apply nth_in_range in H. lia.
  - cbn [keep_going]. rewrite (proj2 (get_at v i n) H). cbn [bind]. destruct (n_children n) as [|c0 cs] eqn:C.
    + eexists. split; [reflexivity|]. split; [reflexivity|]. exact L.
    + match goal with |- context [put v i ?x] => set (n1 := x) end.
      assert (S1 : skel n1 = skel n) by reflexivity. pose proof (put_skel v i n n1 H S1) as Q1.
      assert (L1 : lens (put v i n1)).
      { apply (put_lens v i n); auto. unfold n1. cbn [with_closure with_closing with_manager n_closing]. rewrite repeat_length. destruct (L i n H). lia. }
      assert (CH : n_children n1 = c0 :: cs) by exact C. rewrite CH.
      destruct (fold_total (keep_going fuel) (fun c v => (exists n, node_at v c n) /\ List.length (w_nodes v) <= fuel + c)) with (cs := c0 :: cs) (v := put v i n1)
        as (v2 & E2 & S2 & L2); auto.
      * intros c u u' [(m & Hm) B'] [S' _]. split; [eapply node_skel; eauto|]. rewrite (skel_len u u' S'). exact B'.
      * eapply skel_tree; eauto.
      * intros c Hc. assert (CI : In c (n_children n)) by (rewrite C; exact Hc). destruct (tr_child v i n c T H CI) as (LT & nc & Hn & _).
        split; [eapply node_skel; eauto|]. rewrite (skel_len _ _ Q1). lia.
      * exists v2. split; [exact E2|]. split; auto. congruence.
Qed.
Lemma keeps_total cs v : tree v -> lens v -> (forall c, In c cs -> exists n, node_at v c n) ->
  exists v', fold_left (fun v c => do v <- v; keep_going (List.length (w_nodes v)) c v) cs (Ok v) = Ok v' /\ kept_well v v'.
Proof.
  intros T L H. apply (fold_total (fun c v => keep_going (List.length (w_nodes v)) c v) (fun c v => exists n, node_at v c n)); auto.
  - intros c u u' (n & Hn) [S _]. eapply node_skel; eauto.
  - intros c u Tu Lu Hu. apply keep_total; auto. split; auto. lia.
Qed.
Lemma compat_total n : n_closing n <> [] -> exists c, compat_of n = Ok c.
Proof. unfold compat_of, compat_all. destruct (n_closing n); [contradiction|eauto]. Qed.
Lemma aff_total fuel : forall i subs v, tree v -> lens v -> (exists n, node_at v i n) -> i < fuel ->
  exists v', add_for_father fuel i subs v = Ok v' /\ kept_well v v'.
Proof.
  induction fuel as [|fuel IH]; intros i subs v T L (n & H) B; [lia|]. cbn [add_for_father]. rewrite (proj2 (get_at v i n) H). cbn [bind].
  set (n1 := with_done n (sl_append (n_done n) subs)). set (v1 := put v i n1). set (f := n_father n).
  pose proof (put_skel v i n n1 H eq_refl) as Q1. fold v1 in Q1. assert (T1 : tree v1) by (eapply skel_tree; eauto).
  assert (L1 : lens v1) by (apply (put_lens v i n); auto). assert (H1 : node_at v1 i n1) by (apply (put_at v i n n1); auto).
  assert (NF : exists nf, node_at v1 f nf /\ (i = 0 -> f = 0) /\ (i <> 0 -> f < i) /\ n_nb n < List.length (n_closing nf)).
  { destruct (Nat.eq_dec i 0) as [->|NI].
    - destruct (tr_root _ T1) as (m & Hm & F0 & N0). rewrite (node_fun _ _ _ _ Hm H1) in *.
      exists n1. change (n_father n1) with f in F0. rewrite F0. repeat split; auto; [lia|]. change (n_nb n1) with (n_nb n) in N0. rewrite N0.
      destruct (L1 0 n1 H1). lia.
    - destruct (tr_up _ T1 i n1 H1 NI) as (LT & nf & Hf & NN). exists nf. split; [exact Hf|]. split; [contradiction|]. split; [intros; exact LT|].
      apply nth_in_range in NN. destruct (L1 _ nf Hf). change (n_nb n1) with (n_nb n) in NN. lia. }
  destruct NF as (nf & Hf & F0 & FI & NB). rewrite (proj2 (get_at v1 f nf) Hf). cbn [bind]. unfold add_at.
  destruct (nth_error (n_closing nf) (n_nb n)) as [old|] eqn:EO; [|apply nth_error_None in EO; lia]. cbn [bind].
  set (cl := firstn (n_nb n) (n_closing nf) ++ sl_append old subs :: skipn (S (n_nb n)) (n_closing nf)).
  assert (LC : List.length cl = List.length (n_closing nf)) by (apply len_set; auto).
  assert (NC : n_closing nf <> []) by (destruct (n_closing nf); [cbn in NB; lia|congruence]).
  assert (CN : cl <> []) by (intros X; rewrite X in LC; destruct (n_closing nf); [congruence|discriminate]).
  assert (PUT : forall k, kept_well v (put v1 f (with_closing nf k cl))).
  { intros k. split; [transitivity (map skel (w_nodes v1)); auto; apply (put_skel v1 f nf); auto|]. apply (put_lens v1 f nf); auto. }
  assert (REC : forall k c, is_root f (with_closing nf k cl) = false -> exists v', add_for_father fuel f c (put v1 f (with_closing nf k cl)) = Ok v' /\ kept_well v v').
  { intros k c NR. destruct (PUT k) as [S2 L2]. unfold is_root in NR. change (n_father (with_closing nf k cl)) with (n_father nf) in NR. apply Nat.eqb_neq in NR.
    assert (i <> 0).
    { intros ->. specialize (F0 eq_refl). rewrite F0 in *. destruct (tr_root _ T1) as (m & Hm & Fm & _). rewrite (node_fun _ _ _ _ Hf Hm) in NR. lia. }
    destruct (IH f c (put v1 f (with_closing nf k cl))) as (v' & E' & S' & L'); auto.
    - eapply skel_tree; eauto.
    - exists (with_closing nf k cl). apply (put_at v1 f nf); auto.
    - specialize (FI H0). lia.
    - exists v'. split; auto. split; auto. congruence. }
  destruct (n_kind nf) as [|k] eqn:EK.
  - destruct (is_root f _) eqn:IR; [eexists; split; [reflexivity|apply PUT]|].
    destruct (compat_total (with_closing nf Simple cl)) as (c & ->); [exact CN|]. cbn [bind].
    destruct c; [eexists; split; [reflexivity|apply PUT]|]. apply REC. exact IR.
  - destruct (k - 1 =? 0)%Z; [|eexists; split; [reflexivity|apply PUT]].
    destruct (compat_total (with_closing nf (Branching (k - 1)) cl)) as (c & ->); [exact CN|]. cbn [bind].
    destruct c as [|c0 cs].
    + set (v2 := put v1 f (with_closing nf (Branching (k - 1)) cl)).
      match goal with |- context [put v2 f ?x] => set (n3 := x) end.
      assert (H2 : node_at v2 f (with_closing nf (Branching (k - 1)) cl)) by (apply (put_at v1 f nf); auto).
      destruct (PUT (Branching (k - 1))) as [S2 L2]. fold v2 in S2, L2.
      pose proof (put_skel v2 f (with_closing nf (Branching (k - 1)) cl) n3 H2 eq_refl) as Q3.
      assert (T3 : tree (put v2 f n3)) by (eapply skel_tree; [exact Q3|]; eapply skel_tree; eauto).
      assert (L3 : lens (put v2 f n3)) by (apply (put_lens v2 f (with_closing nf (Branching (k - 1)) cl)); auto).
      assert (H3 : node_at (put v2 f n3) f n3) by (apply (put_at v2 f (with_closing nf (Branching (k - 1)) cl)); auto).
      destruct (keeps_total (n_children n3) (put v2 f n3) T3 L3) as (v4 & E4 & S4 & L4).
      { intros c Hc. destruct (tr_child _ f n3 c T3 H3 Hc) as (_ & nc & Hn & _). eauto. }
      exists v4. split; [exact E4|]. split; auto. congruence.
    + destruct (is_root f _) eqn:IR; [eexists; split; [reflexivity|apply PUT]|]. apply REC. exact IR.
Qed.
Lemma lens_fields E G v : fields E G v -> lens v.
Proof.
  intros F i n H. destruct (n_children n) as [|c cs] eqn:C.
  - destruct (fo_leaf _ _ _ _ _ (F i n H) C) as (_ & A & B). cbn. lia.
  - destruct (fo_inner _ _ _ _ _ (F i n H)) as (A & B & _); [congruence|]. rewrite C in *. cbn [List.length] in *. lia.
Qed.

Section Total.
Variable name_id : string -> ident.
Variable ty_arity : string -> nat.
Variable add : term -> term -> substs -> out substs.
Variable comp : list (nat * term) -> list meta -> substs -> out substs.
Notation stepf := (step name_id ty_arity add comp).
Notation runf := (run name_id ty_arity add comp).
Notation tc := (try_closure name_id ty_arity add comp).
Notation inv0 := (winv False False).
Lemma nc_total v i n : ready False False v i n -> plain_m (n_mgr n) -> exists v', non_closure i v = Ok v'.
Proof.
  intros R PM. pose proof (re_node _ _ _ _ _ R) as H. pose proof (re_tree _ _ _ _ _ R) as T.
  unfold non_closure. rewrite (proj2 (get_at v i n) H). cbn [bind].
  destruct (non_closure_total (n_mgr n) (w_sko v) (w_gen v) (tr_sorted _ T i n H) PM) as (a & EA). rewrite EA. cbn [bind].
  assert (NO : forall u, node_at u i n -> exists v', set_nothing i u = Ok v').
  { intros u Hu. unfold set_nothing. rewrite (proj2 (get_at u i n) Hu). cbn [bind]. eauto. }
  destruct a as [a|].
  - pose proof (app_some _ _ _ _ EA) as AO. rewrite (ao_self _ _ _ _ AO), with_mgr_same, (put_same v i n H).
    set (u := set_counters v (ap_sko a) (ap_gen a)). assert (Hu : node_at u i n) by exact H.
    destruct (ap_new a) as [|m0 ms] eqn:NA.
    + rewrite (proj2 (get_at u i n) Hu). cbn [bind]. rewrite (rules_not_reintro (n_mgr n) (ap_rule a)) by apply AO. apply NO. exact Hu.
    + unfold expand_node. rewrite (proj2 (get_at u i n) Hu). cbn [bind].
      assert (NF : exists nf, node_at u (n_father n) nf).
      { destruct (Nat.eq_dec i 0) as [->|NI].
        - destruct (tr_root _ T) as (m & Hm & F0 & _). pose proof (node_fun _ _ _ _ Hm H). subst m. rewrite F0. exists n. exact H.
        - destruct (tr_up _ T i n H NI) as (_ & nf & Hf & _). exists nf. exact Hf. }
      destruct NF as (nf & Hf). rewrite (proj2 (get_at u (n_father n) nf) Hf). cbn [bind]. eauto.
  - destruct (app_none _ _ _ EA) as [_ OR]. rewrite OR.
    unfold apply_reintro. destruct (tr_rest v T i n H) as [-> _]. cbn [bind]. apply NO. exact H.
Qed.
Lemma step_total k v : inv0 v -> (forall j n, node_at v j n -> plain_m (n_mgr n)) -> k < List.length (w_tasks v) ->
  (exists v', stepf k v = Ok v') \/ exists i n, node_at v i n /\ n_children n = [] /\ forall r, tc (n_mgr n) <> Ok r.
Proof.
  intros WI PA LK. unfold step. destruct (nth_error (w_tasks v) k) as [t|] eqn:Et; [|apply nth_error_None in Et; lia].
  destruct (step_ready False False v k t WI Et) as (n & R). change (mkWorld _ _ _ _ _) with (without k v).
  remember (tnode t) as i eqn:Ei. pose proof (re_node _ _ _ _ _ R) as H. pose proof (re_leaf _ _ _ _ _ R) as L.
  assert (PM : plain_m (n_mgr n)) by (apply (PA i); exact H).
  assert (DO : forall n1, skel n1 = skel n -> ready False False (put (without k v) i n1) i n1 -> exists v', non_closure i (put (without k v) i n1) = Ok v').
  { intros n1 S1 R1. apply (nc_total _ i n1 R1). apply skel_children in S1 as (_ & _ & _ & ->). exact PM. }
  assert (NC0 : exists v', non_closure i (without k v) = Ok v') by (apply (nc_total _ i n R PM)).
  destruct t as [j|j]; cbn [tnode] in Ei; subst j; cbn [run_task]; rewrite (proj2 (get_at (without k v) i n) H); cbn [bind].
  - destruct (should_search (without k v) n); [|left; rewrite (send_eq False False _ i n R); eauto].
    unfold search_node. rewrite (proj2 (get_at (without k v) i n) H). cbn [bind].
    destruct (tc (n_mgr n)) as [[[x subs]|]| | |] eqn:TC; cbn [bind].
    + left. match goal with |- context [put (without k v) i ?m] => set (n1 := m) end.
      destruct (has_new (n_done n1) subs).
      * destruct (aff_total (S i) i subs (put (without k v) i n1)) as (v' & E' & _); eauto.
        -- eapply skel_tree; [apply (put_skel (without k v) i n); auto; reflexivity|apply R].
        -- apply (put_lens (without k v) i n); auto. eapply lens_fields. apply R.
        -- exists n1. apply (put_at (without k v) i n); auto.
      * apply DO; [reflexivity|]. apply (ready_put False False (without k v) i n); auto.
        intros _. eapply (closure0 name_id ty_arity add comp); [exact Logic.I|eapply tr_sorted; apply R|exact TC].
    + left. exact NC0.
    + right. exists i, n. split; [exact H|]. split; auto. intros r X. congruence.
    + right. exists i, n. split; [exact H|]. split; auto. intros r X. congruence.
    + right. exists i, n. split; [exact H|]. split; auto. intros r X. congruence.
  - left. destruct (should_keep (without k v) n); [exact NC0|rewrite (send_eq False False _ i n R); eauto].
Qed.
Lemma step_plain k v v' : inv0 v -> (forall j n, node_at v j n -> plain_m (n_mgr n)) -> stepf k v = Ok v' -> forall j n, node_at v' j n -> plain_m (n_mgr n).
Proof.
  intros WI PA ES. destruct (step_change name_id ty_arity add comp k v v' WI ES) as [_ CG].
  assert (SK : forall u, map skel (w_nodes u) = map skel (w_nodes v) -> forall j n, node_at u j n -> plain_m (n_mgr n)).
  { intros u Q j n H. symmetry in Q. destruct (skel_at _ _ _ _ Q H) as (m & Hm & S). apply skel_children in S as (_ & _ & _ & <-). eauto. }
  destruct CG as [Q _ _|i n a _ _ _ _ Q _ _|v1 i n nf a Q _ _ T1 H1 L1 AO NE ->]; [exact (SK v' Q)|exact (SK v' Q)|].
  intros j m Hj. apply (grown_at i n nf a v1 j m H1) in Hj as [[-> ->]|[[NJ Hj]|(k' & mg & -> & Ek & ->)]].
  - assert (MG : n_mgr (grow_node n nf a (List.length (w_nodes v1))) = n_mgr n) by (unfold grow_node; destruct (is_beta _); reflexivity).
    rewrite MG. apply (SK v1 Q i n H1).
  - apply (SK v1 Q j m Hj).
  - cbn [new_node n_mgr]. eapply app_plain; [exact (tr_sorted _ T1 i n H1)|exact (SK v1 Q i n H1)|exact AO|eapply nth_error_In; eauto].
Qed.
Lemma run_plain sched : forall v v', inv0 v -> (forall j n, node_at v j n -> plain_m (n_mgr n)) -> runf sched v = Ok v' ->
  inv0 v' /\ forall j n, node_at v' j n -> plain_m (n_mgr n).
Proof.
  induction sched as [|k r IH]; intros v v' WI PA E; cbn [run] in E; [injection E as <-; auto|].
  apply bind_ok in E as (v1 & E1 & E). apply (IH v1 v'); auto.
  - apply (step_change name_id ty_arity add comp k v v1); auto.
  - eapply step_plain; eauto.
Qed.
Lemma run_total g k f sched v i : f_noid f -> binds f -> runf sched (first_world g k f) = Ok v -> i < List.length (w_tasks v) ->
  (exists v', stepf i v = Ok v') \/ exists j n, node_at v j n /\ n_children n = [] /\ forall r, tc (n_mgr n) <> Ok r.
Proof.
  intros NO BI E LI. destruct (run_plain sched (first_world g k f) v (first_winv _ _ g k f)) as [WI PA]; auto.
  - intros j n H x Hx. destruct (first_forms g k f j n x H Hx) as [_ ->]. apply plain_of; auto.
  - apply step_total; auto.
Qed.
(** with a unification that answers, the first pending goroutine can be run until none is left *)
Lemma run_ends g k f : f_noid f -> binds f -> 
  (forall sched v j n, runf sched (first_world g k f) = Ok v -> node_at v j n -> exists r, tc (n_mgr n) = Ok r) ->
  exists sched v, runf sched (first_world g k f) = Ok v /\ w_tasks v = [].
Proof.
  intros NO BI TC. assert (Q : forall d sched v, runf sched (first_world g k f) = Ok v -> bound f <= List.length sched + d ->
    exists sched v, runf sched (first_world g k f) = Ok v /\ w_tasks v = []).
  { induction d as [|d IH]; intros sched v E B.
    - destruct (w_tasks v) eqn:ET; [eauto|]. destruct (run_total g k f sched v 0 NO BI E) as [(v' & E')|(j & n & Hj & _ & X)]; [rewrite ET; cbn; lia| |].
      + assert (EX : runf (sched ++ [0]) (first_world g k f) = Ok v') by (rewrite run_app, E; cbn [bind run]; rewrite E'; reflexivity).
        apply run_bound in EX. rewrite app_length in EX. cbn in EX. lia.
      + destruct (TC sched v j n E Hj) as (r & Er). destruct (X r Er).
    - destruct (w_tasks v) eqn:ET; [eauto|]. destruct (run_total g k f sched v 0 NO BI E) as [(v' & E')|(j & n & Hj & _ & X)]; [rewrite ET; cbn; lia| |].
      + apply (IH (sched ++ [0]) v'); [rewrite run_app, E; cbn [bind run]; rewrite E'; reflexivity|]. rewrite app_length. cbn. lia.
      + destruct (TC sched v j n E Hj) as (r & Er). destruct (X r Er). }
  apply (Q (bound f) [] (first_world g k f)); [reflexivity|lia].
Qed.
End Total.
