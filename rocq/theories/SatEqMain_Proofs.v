(** The properties of the SAT-based equality reasoning from the lemmas on its parts. *)
From Coq Require Import ZArith List Bool Arith Lia.
From Verif Require Import Ast_Model Ast_Proofs Unif_Model Unif_Spec Bse_Spec UnifRun_Proofs Elim_Proofs SatEq_Model SatEq_Spec SatEqUf_Proofs SatEqClose_Proofs
  SatEqLoad_Proofs SatEqSat_Proofs SatEqSub_Proofs.
Import ListNotations.
Open Scope list_scope.
Open Scope nat_scope.

(** ** C90 *)
Theorem classes_linked l : valid_ops 0 l -> exists h, run_ops l [] = Ok h /\
  forall a b, a < length h -> b < length h -> (root h a = root h b <-> linked (merges l) a b).
Proof.
  intros V. destruct (run_classes l [] [] wf_nil V) as (h & E & _ & H); [intros a b []|intros a b L; inversion L|]. exists h. auto.
Qed.
Lemma earlier_wf h : earlier h -> wf h.
Proof.
  intros (l & V & E). destruct (run_classes l [] [] wf_nil V) as (h' & E' & W & _); [intros a b []|intros a b L; inversion L|].
  rewrite E in E'. injection E' as ->. auto.
Qed.
Theorem find_reads h x : earlier h -> x < length h -> exists h', find (S (length h)) h x = Ok (root h x, h') /\ length h' = length h /\
  forall y, y < length h -> root h' y = root h y.
Proof. intros W L. destruct (find_root h x (earlier_wf h W) L) as (h' & E & A & _ & B). eauto. Qed.
(** the sizes are not changed by a search, so that [union] links as merge does *)
Lemma size_set h x c y : x < length h -> size (set_cell h x c) y = if Nat.eqb y x then snd c else size h y.
Proof.
  intros L. unfold size, set_cell. destruct (Nat.eqb_spec y x) as [->|N].
  - rewrite nth_error_app2 by (rewrite firstn_length; lia). rewrite firstn_length, Nat.min_l by lia. rewrite Nat.sub_diag. reflexivity.
  - destruct (lt_dec y x) as [Y|Y].
    + rewrite nth_error_app1 by (rewrite firstn_length; lia). rewrite <- (firstn_skipn x h) at 2. rewrite nth_error_app1 by (rewrite firstn_length; lia). reflexivity.
    + rewrite nth_error_app2 by (rewrite firstn_length; lia). rewrite firstn_length, Nat.min_l by lia.
      rewrite <- (firstn_skipn (S x) h) at 2. rewrite nth_error_app2 by (rewrite firstn_length; lia). rewrite firstn_length, Nat.min_l by lia.
      replace (y - x) with (S (y - S x)) by lia. reflexivity.
Qed.
Lemma parent_out h x : length h <= x -> parent h x = x.
Proof. intros L. unfold parent. apply nth_error_None in L. rewrite L. reflexivity. Qed.
Lemma find_size f : forall h x r h', x < length h -> wf h -> find f h x = Ok (r, h') -> forall y, size h' y = size h y.
Proof.
  induction f as [|f IH]; intros h x r h' L W E y; [discriminate|]. cbn [find] in E. destruct (Nat.eqb_spec (parent h x) x) as [P|P]; [injection E as _ <-; auto|].
  destruct (split_same h x (size h x) W L P) as (LE & W' & _). assert (LP : parent h x < length h) by (apply W; auto).
  rewrite <- LE in LP. rewrite (IH _ _ _ _ LP W' E). rewrite size_set by auto.
  destruct (Nat.eqb_spec y x) as [->|]; reflexivity.
Qed.
Theorem union_agrees h a b : earlier h -> a < length h -> b < length h -> exists h', union_full h a b = Ok h' /\ length h' = length (union h a b) /\
  forall z, z < length h -> root h' z = root (union h a b) z.
Proof.
  intros EH La Lb. pose proof (earlier_wf h EH) as W. unfold union_full, union.
  destruct (find_root h a W La) as (h1 & F1 & (L1 & W1 & R1)). rewrite F1. cbn [bind].
  destruct (find_root h1 b W1 ltac:(lia)) as (h2 & F2 & (L2 & W2 & R2)). rewrite F2. cbn [bind]. rewrite R1 by auto.
  pose proof (find_size _ _ _ _ _ La W F1) as Z1. assert (Lb1 : b < length h1) by lia. pose proof (find_size _ _ _ _ _ Lb1 W1 F2) as Z2.
  assert (R : forall x, x < length h -> root h2 x = root h x) by (intros; rewrite R2, R1; auto; lia).
  destruct (Nat.eqb_spec (root h a) (root h b)) as [E|N]; [exists h2; split; auto; split; [lia|auto]|].
  assert (Pa : parent h2 (root h a) = root h a) by (rewrite <- R by auto; apply root_parent; auto; lia).
  assert (Pb : parent h2 (root h b) = root h b) by (rewrite <- R by auto; apply root_parent; auto; lia).
  assert (La2 : root h a < length h) by (apply root_lt; auto). assert (Lb2 : root h b < length h) by (apply root_lt; auto).
  rewrite !Z2, !Z1. assert (LL : length h2 = length h) by lia.
  destruct (size h (root h a) <? size h (root h b)); eexists; (split; [reflexivity|]).
  - match goal with |- length (set_cell _ _ (_, ?t)) = length (set_cell _ _ (_, ?u)) /\ _ =>
      destruct (link_roots h2 (root h b) (root h a) (size h2 (root h a)) t W2 ltac:(lia) ltac:(lia) Pb Pa ltac:(auto)) as (A & _ & C);
      destruct (link_roots h (root h b) (root h a) (size h (root h a)) u W ltac:(lia) ltac:(lia) (root_parent h b W Lb) (root_parent h a W La) ltac:(auto)) as (A' & _ & C') end.
    split; [exact (eq_trans A (eq_trans LL (eq_sym A')))|]. intros z Lz. etransitivity; [apply C; lia|]. rewrite R by auto. symmetry. apply C'. auto.
  - match goal with |- length (set_cell _ _ (_, ?t)) = length (set_cell _ _ (_, ?u)) /\ _ =>
      destruct (link_roots h2 (root h a) (root h b) (size h2 (root h b)) t W2 ltac:(lia) ltac:(lia) Pa Pb ltac:(auto)) as (A & _ & C);
      destruct (link_roots h (root h a) (root h b) (size h (root h b)) u W ltac:(lia) ltac:(lia) (root_parent h a W La) (root_parent h b W Lb) ltac:(auto)) as (A' & _ & C') end.
    split; [exact (eq_trans A (eq_trans LL (eq_sym A')))|]. intros z Lz. etransitivity; [apply C; lia|]. rewrite R by auto. symmetry. apply C'. auto.
Qed.

(** ** C91 *)
Theorem trivial_right ar es gs h : earlier h -> well_problem ar es gs ->
  exists h' pb cs, load es gs h new_problem = Ok (h', pb) /\ all_clauses h' pb false = Ok cs /\ (has_trivial h' pb = true -> some_solved es [] gs).
Proof.
  intros EH W. destruct (load_ok ar es gs h (earlier_wf h EH) W) as (h0 & p0 & h' & pb & _ & L & _ & S & G & _).
  destruct (all_clauses_ok ar h' pb (st_inv _ _ _ _ S) false) as (cs & C). exists h', pb, cs. repeat (split; auto). intros T.
  exact (trivial_solved ar es gs h' pb (proj2 W) S G T).
Qed.

(** ** C92 *)
Lemma no_metas ar h pb : (forall m, ~ known ar m) -> inv ar h pb -> is_ground pb = true.
Proof.
  intros K I. unfold is_ground. destruct (pb_metas pb) as [|[i t] l] eqn:E; auto. exfalso.
  assert (J : In (i, t) (pb_metas pb)) by (rewrite E; left; auto). apply (i_metas _ _ _ I) in J. destruct J as (R & M & _).
  pose proof (i_shape _ _ _ I t R) as SH. unfold shape in SH. destruct (is_meta_some _ M) as (m & EM). rewrite EM in SH. destruct SH as ((_ & SH) & _). exact (K m SH).
Qed.
Theorem ground_found ar sat choice es gs h h0 p0 h' pb' : (forall m, ~ known ar m) -> earlier h -> well_problem ar es gs ->
  load es [] h new_problem = Ok (h0, p0) -> closed_classes h0 p0 ->
  reason sat choice es gs h new_problem = Ok (None, h', pb') -> forall g, In g gs -> ~ goal_solved es [] g.
Proof.
  intros K EH W L0 C E g J GS. destruct (load_ok ar es gs h (earlier_wf h EH) W) as (h1 & p1 & h2 & p2 & L1 & L2 & S1 & S2 & G & CC & _).
  rewrite L0 in L1. injection L1 as <- <-. apply (closed_spec ar h0 p0 (st_inv _ _ _ _ S1)) in C.
  unfold reason in E. rewrite L2 in E. cbn [bind] in E. unfold solve in E.
  rewrite (solved_trivial ar h2 p2 (st_inv _ _ _ _ S2) es gs g S2 G (CC C) J GS) in E. discriminate.
Qed.
Theorem ground_decided ar sat choice es gs h : (forall m, ~ known ar m) -> earlier h -> well_problem ar es gs -> Forall (fun e => atom (fst e) /\ atom (snd e)) es ->
  exists r h' pb', reason sat choice es gs h new_problem = Ok (r, h', pb') /\
    (r = Some [[]] /\ some_solved es [] gs \/ r = None /\ forall g, In g gs -> ~ goal_solved es [] g).
Proof.
  intros K EH W AT. destruct (load_ok ar es gs h (earlier_wf h EH) W) as (h1 & p1 & h2 & p2 & L1 & L2 & S1 & S2 & G & CC & CA).
  unfold reason. rewrite L2. cbn [bind]. unfold solve. destruct (has_trivial h2 p2) eqn:T.
  - exists (Some [[]]), h2, p2. split; auto. left. split; auto. exact (trivial_solved ar es gs h2 p2 (proj2 W) S2 G T).
  - rewrite (no_metas ar h2 p2 K (st_inv _ _ _ _ S2)). exists None, h2, p2. split; auto. right. split; auto. intros g J GS.
    rewrite (solved_trivial ar h2 p2 (st_inv _ _ _ _ S2) es gs g S2 G (CC (CA AT)) J GS) in T. discriminate.
Qed.

(** ** C93 *)
Lemma targets_only ar h pb : inv ar h pb -> targets h pb true.
Proof.
  intros I a b ps t u P E J. destruct (in_upairs _ _ _ P) as (Ca & Cb). destruct (psi_pairs_ok ar h pb I true a b Ca) as (ps' & E' & H).
  rewrite E in E'. injection E' as <-. destruct (H t u J) as (_ & _ & _ & _ & _ & _ & _ & _ & R). rewrite (R eq_refl). apply (class_root ar h pb I b Cb).
Qed.
Lemma targets_single ar h pb : inv ar h pb -> single_classes h pb -> targets h pb false.
Proof.
  intros I SC a b ps t u P E J. destruct (in_upairs _ _ _ P) as (Ca & Cb). destruct (psi_pairs_ok ar h pb I false a b Ca) as (ps' & E' & H).
  rewrite E in E'. injection E' as <-. destruct (H t u J) as (R1 & R2 & M1 & M2 & IX & _ & NA & N & _). exfalso. apply N.
  destruct (proj2 (i_funs _ _ _ I (tr_index t) t) ltac:(auto)) as (l & K & T).
  destruct (proj2 (i_funs _ _ _ I (tr_index t) u) ltac:(auto)) as (l' & K' & U).
  pose proof (in_zget _ _ _ (i_fkeys _ _ _ I) K) as Z. rewrite (in_zget _ _ _ (i_fkeys _ _ _ I) K') in Z. injection Z as ->.
  apply Nat.eqb_eq. exact (SC _ l t u K T U NA).
Qed.
Theorem read_solves ar only truth choice es gs h h' pb cs sg : chooses choice -> earlier h -> well_problem ar es gs -> gs <> [] ->
  load es gs h new_problem = Ok (h', pb) -> only = true \/ single_classes h' pb ->
  all_clauses h' pb only = Ok cs -> sat_all truth cs -> gather h' pb truth choice = Ok sg -> some_solved es sg gs.
Proof.
  intros CH EH W NE L O EC SA EG. destruct (load_ok ar es gs h (earlier_wf h EH) W) as (h1 & p1 & h2 & p2 & _ & L2 & _ & S & G & _).
  rewrite L in L2. injection L2 as <- <-. pose proof (st_inv _ _ _ _ S) as I.
  assert (TG : targets h' pb only). { destruct only; [exact (targets_only ar h' pb I)|]. destruct O as [O|O]; [discriminate|]. exact (targets_single ar h' pb I O). }
  exact (gather_solves ar h' pb I truth choice CH only (parts ar h' pb I truth only cs EC SA) es gs sg (proj2 W) NE S G TG EG).
Qed.

(** ** C94 *)
Theorem read_satisfiable ar truth choice es gs h h' pb cs : chooses choice -> earlier h -> well_problem ar es gs ->
  load es gs h new_problem = Ok (h', pb) -> all_clauses h' pb false = Ok cs -> sat_all truth cs ->
  (forall c, In c (classes pb) -> exists t, translate h' pb truth choice (S (length (classes pb))) c = Ok t) /\
  exists sg, gather h' pb truth choice = Ok sg /\ exists u, unifies u sg.
Proof.
  intros CH EH W L EC SA. destruct (load_ok ar es gs h (earlier_wf h EH) W) as (h1 & p1 & h2 & p2 & _ & L2 & _ & S & _).
  rewrite L in L2. injection L2 as <- <-. pose proof (st_inv _ _ _ _ S) as I. pose proof (parts ar h' pb I truth false cs EC SA) as SP. split.
  - intros c C. apply (translate_ok ar h' pb I truth choice CH false SP); auto. pose proof (below_le pb truth c). lia.
  - exact (gather_unifies ar h' pb I truth choice CH false SP).
Qed.

(** ** C95 *)
Inductive made (h : heap) : heap -> Prop :=
| md_none : made h h
| md_make h' : made h h' -> made h (snd (make_class h')).
Lemma made_trans a b c : made a b -> made b c -> made a c.
Proof. intros A B. induction B; auto. constructor; auto. Qed.
Lemma made_roots h h' : wf h -> made h h' -> wf h' /\ forall x, root h' x = root h x.
Proof.
  intros W M. induction M as [|h' M IH]; [auto|]. destruct IH as (W' & R). destruct (make_ok h' W') as (L & W2 & R1 & R2). split; auto. intros x. rewrite <- R.
  destruct (lt_eq_lt_dec x (length h')) as [[X|EX]|X]; [auto|subst x|].
  - rewrite R1. unfold root. symmetry. destruct (length h') as [|n] eqn:E; [reflexivity|]. cbn [root_from]. rewrite parent_out by lia. rewrite Nat.eqb_refl. reflexivity.
  - assert (Q : forall k : heap, length k <= x -> root k x = x).
    { intros k K. unfold root. destruct (length k) as [|n] eqn:E; [reflexivity|]. cbn [root_from]. rewrite parent_out by lia. rewrite Nat.eqb_refl. reflexivity. }
    rewrite !Q; auto; lia.
Qed.
Lemma get_class_made t : forall h pb c h' pb', get_class t h pb = Ok (c, h', pb') -> made h h'.
Proof.
  induction t as [i|p tys l IH|i n|m] using term_ind'; intros h pb c h' pb' E; try discriminate.
  - rewrite get_class_fun in E. destruct (get_classes l h pb) as [[[cs h1] p1]| | |] eqn:G; try discriminate. cbn [bind] in E.
    assert (M : made h h1).
    { clear E. revert h pb cs h1 p1 G. induction IH as [|a l Ha Hl IHl]; intros h pb cs h1 p1 G; cbn [get_classes] in G; [injection G as _ <- _; constructor|].
      destruct (get_class a h pb) as [[[d h2] p2]| | |] eqn:G2; try discriminate. cbn [bind] in G.
      destruct (get_classes l h2 p2) as [[[ds h3] p3]| | |] eqn:G3; try discriminate. cbn [bind] in G. injection G as _ <- _.
      eapply made_trans; [eapply Ha; eauto|eapply IHl; eauto]. }
    cbn [make_class] in E. destruct (first_congruent _ _ _) as [[u|]| | |]; try discriminate; cbn [bind add_record] in E; injection E as _ <- _;
      exact (md_make h h1 M).
  - cbn [get_class] in E. destruct (zget _ _); [injection E as _ <- _; constructor|]. cbn in E. injection E as _ <- _. exact (md_make h h (md_none h)).
Qed.
Lemma goal_pairs_made g : forall acc h pb l h' pb', goal_pairs g acc h pb = Ok (l, h', pb') -> made h h'.
Proof.
  induction g as [|e g IH]; intros acc h pb l h' pb' E; cbn [goal_pairs] in E; [injection E as _ <- _; constructor|].
  destruct (get_class (fst e) h pb) as [[[c1 h1] p1]| | |] eqn:G1; try discriminate. cbn [bind] in E.
  destruct (get_class (snd e) h1 p1) as [[[c2 h2] p2]| | |] eqn:G2; try discriminate. cbn [bind] in E.
  eapply made_trans; [eapply get_class_made; eauto|]. eapply made_trans; [eapply get_class_made; eauto|]. eauto.
Qed.
Lemma add_goals_made gs : forall h pb h' pb', add_goals gs h pb = Ok (h', pb') -> made h h'.
Proof.
  induction gs as [|g gs IH]; intros h pb h' pb' E; cbn [add_goals] in E; [injection E as <- _; constructor|]. unfold add_goal in E.
  destruct (goal_pairs g [] h pb) as [[[l h1] p1]| | |] eqn:G; try discriminate. cbn [bind] in E.
  eapply made_trans; [eapply goal_pairs_made; eauto|eauto].
Qed.

(** the answer only depends on the representatives *)
Section Ext.
Variables h k : heap.
Hypothesis R : forall x, root k x = root h x.
Variable pb : problem.
Lemma congruent_ext a b : congruent k a b = congruent h a b.
Proof. unfold congruent. rewrite !R. reflexivity. Qed.
Lemma in_class_ext c : in_class k pb c = in_class h pb c.
Proof. unfold in_class. rewrite R. reflexivity. Qed.
Lemma s_ext t c : s_var k t c = s_var h t c.
Proof. unfold s_var. rewrite R. reflexivity. Qed.
Lemma e_ext i a b : e_var k i a b = e_var h i a b.
Proof. unfold e_var. rewrite !R. reflexivity. Qed.
Lemma r_ext c t : r_var k c t = r_var h c t.
Proof. unfold r_var. rewrite R. reflexivity. Qed.
Lemma o_ext a b : o_var k a b = o_var h a b.
Proof. unfold o_var. rewrite !R. reflexivity. Qed.
Lemma phi_ext i a b : phi_var k i a b = phi_var h i a b.
Proof. unfold phi_var. rewrite !R. reflexivity. Qed.
Lemma psi_ext i a b : psi_var k i a b = psi_var h i a b.
Proof. unfold psi_var. rewrite !R. reflexivity. Qed.
Lemma t_ext i a b c : t_var k i a b c = t_var h i a b c.
Proof. unfold t_var. rewrite !R. reflexivity. Qed.
Lemma concat_ext {A B} (f g : A -> out (list B)) l : (forall a, f a = g a) -> concat_out f l = concat_out g l.
Proof. intros H. induction l as [|a l IH]; [reflexivity|]. cbn [concat_out]. rewrite H, IH. reflexivity. Qed.
Lemma args_ext i f l1 : forall l2, args_clauses k i f l1 l2 = args_clauses h i f l1 l2.
Proof. induction l1 as [|a l1 IH]; intros [|b l2]; cbn [args_clauses]; auto. rewrite IH, e_ext. reflexivity. Qed.
Lemma has_trivial_ext : has_trivial k pb = has_trivial h pb.
Proof.
  unfold has_trivial. induction (pb_goals pb) as [|g l IH]; [reflexivity|]. cbn [existsb]. rewrite IH. f_equal. unfold trivial_goal.
  induction g as [|p g IHg]; [reflexivity|]. cbn [forallb]. rewrite IHg, congruent_ext. reflexivity.
Qed.
Lemma all_clauses_ext only : all_clauses k pb only = all_clauses h pb only.
Proof.
  assert (A : subs_clauses k pb = subs_clauses h pb).
  { apply concat_ext. intros [a b]. unfold subs_clause. cbn [fst snd]. rewrite !in_class_ext. destruct (in_class h pb a); auto. cbn [bind]. destruct (in_class h pb b); auto.
    cbn [bind]. rewrite e_ext, (map_ext _ _ (fun t => f_equal pos (s_ext t b))), (map_ext _ _ (fun t => f_equal pos (s_ext t a))). reflexivity. }
  assert (B : e_clauses k pb only = e_clauses h pb only).
  { apply concat_ext. intros i. apply concat_ext. intros [a b]. rewrite congruent_ext. destruct (congruent h a b); auto.
    assert (P : psi_clauses k pb only i a b = psi_clauses h pb only i a b).
    { unfold psi_clauses. assert (PP : psi_pairs k pb only a b = psi_pairs h pb only a b).
      { unfold psi_pairs. rewrite in_class_ext. destruct (in_class h pb a); auto. cbn [bind]. apply concat_ext. intros t. destruct (tr_is_meta t); auto. destruct (tr_args t); auto.
        destruct (with_symbol pb (tr_index t)); auto. cbn [bind]. f_equal. f_equal. apply filter_ext. intros u. rewrite !congruent_ext. reflexivity. }
      rewrite PP. destruct (psi_pairs h pb only a b) as [ps| | |]; auto. cbn [bind].
      rewrite (concat_ext _ (fun p => args_clauses h i (neg (f_var i (fst p) (snd p))) (tr_args (fst p)) (tr_args (snd p)))) by (intros; apply args_ext).
      rewrite psi_ext. reflexivity. }
    rewrite P. rewrite !e_ext, phi_ext, psi_ext. assert (Q : phi_clauses k pb i a b = phi_clauses h pb i a b).
    { unfold phi_clauses. rewrite (filter_ext _ (fun c => negb (congruent h c a) && negb (congruent h c b))) by (intros; rewrite !congruent_ext; reflexivity).
      rewrite phi_ext. f_equal; [apply flat_map_ext; intros c; rewrite t_ext, !e_ext; reflexivity|]. f_equal. f_equal. apply map_ext. intros c. rewrite t_ext. reflexivity. }
    rewrite Q. reflexivity. }
  assert (C : represented_clauses k pb = represented_clauses h pb).
  { apply concat_ext. intros c. rewrite in_class_ext. destruct (in_class h pb c); auto. cbn [bind]. f_equal. f_equal. apply map_ext. intros t. rewrite r_ext. reflexivity. }
  assert (D : subterm_clauses k pb = subterm_clauses h pb).
  { apply concat_ext. intros c. rewrite in_class_ext. destruct (in_class h pb c); auto. cbn [bind]. f_equal. apply flat_map_ext. intros t. destruct (tr_is_meta t); auto.
    apply flat_map_ext. intros b. rewrite r_ext, o_ext. reflexivity. }
  unfold all_clauses. rewrite A, B, C, D. destruct (subs_clauses h pb); auto. cbn [bind]. destruct (e_clauses h pb only); auto. cbn [bind].
  destruct (represented_clauses h pb); auto. cbn [bind]. destruct (subterm_clauses h pb); auto. cbn [bind]. f_equal.
  assert (E : mapping_clauses k pb = mapping_clauses h pb). { apply flat_map_ext. intros x. apply flat_map_ext. intros p. rewrite !s_ext. reflexivity. }
  assert (G : goal_clauses k pb = goal_clauses h pb).
  { unfold goal_clauses. f_equal. apply flat_map_ext. intros g. apply flat_map_ext. intros p. rewrite e_ext. reflexivity. }
  assert (T : transitivity_clauses k pb = transitivity_clauses h pb).
  { apply flat_map_ext. intros i. apply flat_map_ext. intros j. rewrite congruent_ext. destruct (congruent h i j); auto.
    apply flat_map_ext. intros l. rewrite congruent_ext, !o_ext. reflexivity. }
  assert (U : substitution_clauses k pb = substitution_clauses h pb).
  { apply flat_map_ext. intros x. apply flat_map_ext. intros i. rewrite congruent_ext. destruct (congruent h i (tr_class x)); auto.
    apply flat_map_ext. intros l. cbv zeta. rewrite !s_ext, !r_ext, !o_ext. reflexivity. }
  assert (V : acyclicity_clauses k pb = acyclicity_clauses h pb). { apply flat_map_ext. intros c. rewrite o_ext. reflexivity. }
  rewrite E, G, T, U, V. reflexivity.
Qed.
Lemma gather_ext truth choice : gather k pb truth choice = gather h pb truth choice.
Proof.
  assert (B : bindings k pb truth = bindings h pb truth).
  { unfold bindings. destruct (classes pb) as [|? [|? ?]]; auto. apply filter_ext. intros b. rewrite s_ext. reflexivity. }
  assert (TR : forall c, translation k pb truth choice c = translation h pb truth choice c).
  { intros c. unfold translation. rewrite in_class_ext. destruct (in_class h pb c); auto. cbn [bind].
    rewrite (filter_ext _ (fun t => truth (r_var h c t))) by (intros; rewrite r_ext; reflexivity). reflexivity. }
  assert (T : forall f c, translate k pb truth choice f c = translate h pb truth choice f c).
  { induction f as [|f IH]; intros c; [reflexivity|]. rewrite !translate_S, TR. destruct (translation h pb truth choice c) as [t| | |]; auto. cbn [bind].
    destruct (tr_meta t); auto. f_equal. induction (tr_args t) as [|a r IHr]; [reflexivity|]. cbn [translates]. rewrite IH, IHr. reflexivity. }
  unfold gather. rewrite B. generalize (@nil (meta * term)) (bindings h pb truth). intros s l. revert s.
  induction l as [|[x c] l IH]; intros s; [reflexivity|]. cbn [translate_sub]. rewrite T. destruct (translate h pb truth choice (S (length (classes pb))) c); auto. cbn [bind].
  destruct (tr_meta x); auto.
Qed.
Lemma solve_ext sat choice : solve sat choice k pb = solve sat choice h pb.
Proof.
  unfold solve. rewrite has_trivial_ext, all_clauses_ext. destruct (has_trivial h pb); auto. destruct (is_ground pb); auto. destruct (all_clauses h pb false); auto. cbn [bind].
  destruct (sat _); auto. rewrite gather_ext. reflexivity.
Qed.
End Ext.
Theorem goals_apart ar sat choice es gs gs' h hf pf h1 p1 : earlier h -> well_problem ar es gs -> load es gs h new_problem = Ok (hf, pf) ->
  load [] gs' hf pf = Ok (h1, p1) -> solve sat choice h1 pf = solve sat choice hf pf.
Proof.
  intros EH W L E. destruct (load_ok ar es gs h (earlier_wf h EH) W) as (h0 & p0 & h2 & p2 & _ & L2 & _ & S & _). rewrite L in L2. injection L2 as <- <-.
  unfold load in E. cbn [add_assumptions bind] in E. apply add_goals_made in E. destruct (made_roots hf h1 (i_wf _ _ _ (st_inv _ _ _ _ S)) E) as (_ & R).
  apply solve_ext. exact R.
Qed.

(** ** The whole call *)
Theorem reason_answers ar sat choice es gs h : sound_solver sat -> chooses choice -> earlier h -> well_problem ar es gs ->
  exists r h' pb, reason sat choice es gs h new_problem = Ok (r, h', pb) /\ forall l sg, r = Some l -> In sg l -> exists u, unifies u sg.
Proof.
  intros SS CH EH W. destruct (load_ok ar es gs h (earlier_wf h EH) W) as (h1 & p1 & h' & pb & _ & L & _ & S & _). pose proof (st_inv _ _ _ _ S) as I.
  unfold reason. rewrite L. cbn [bind]. unfold solve. destruct (has_trivial h' pb).
  - exists (Some [[]]), h', pb. split; auto. intros l sg E J. injection E as <-. destruct J as [<-|[]]. exists (fun _ => top). intros k t [].
  - destruct (is_ground pb); [exists None, h', pb; split; [auto|discriminate]|]. destruct (all_clauses_ok ar h' pb I false) as (cs & C). rewrite C. cbn [bind].
    destruct (sat cs) as [truth|] eqn:E; [|exists None, h', pb; split; [auto|discriminate]].
    destruct (read_satisfiable ar truth choice es gs h h' pb cs CH EH W L C (SS _ _ E)) as (_ & sg & G & U). rewrite G. cbn [bind].
    exists (Some [sg]), h', pb. split; auto. intros l s' Q J. injection Q as <-. destruct J as [<-|[]]. exact U.
Qed.
