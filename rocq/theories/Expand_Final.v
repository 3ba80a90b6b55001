(** Theorems about whole runs of the expansion. *)
From Coq Require Import ZArith List Bool String Lia Wellfounded.
From Verif Require Import LibSet_Model Ast_Model Problem_Model Rules_Model Sem_Spec Occ_Spec Free_Spec Rules_Spec Skolem_Spec
  Tableau_Spec LibSet_Proofs Ast_Proofs Sem_Proofs Rules_Proofs Free_Proofs Inst_Proofs Tableau_Proofs Expand_Model ExpandSets_Proofs
  Expand_Spec Expand_Proofs.
Import ListNotations.
Open Scope list_scope.
Open Scope Z_scope.

Section Same.
Variable same : list term -> list term -> bool.

Definition fed (st : state) (q : queues) : state := mkSt (st_n st) q (st_mg st) (st_mm st) (st_mc st).
Lemma fed_good st q : receive same (q_lf (st_q st)) (st_q st) = Some q -> good st -> good (fed st q).
Proof.
  intros R [S U M C]. destruct (receive_ok _ _ _ _ R) as [_ _ RS _ _]. constructor; cbn; auto.
Qed.
Lemma fed_forms st q : receive same (q_lf (st_q st)) (st_q st) = Some q -> incl (forms_of (fed st q)) (forms_of st).
Proof.
  intros R. destruct (receive_ok _ _ _ _ R) as [_ RI _ _ _]. intros y. rewrite !in_forms. cbn [fed st_q st_mg].
  intros [H|H]; [|auto]. left. apply RI in H as [H|H]; [left; auto|]. unfold in_queues in *. cbn in H. tauto.
Qed.
Lemma expand_inv st s g l s' g' : expand same st s g = Some (Expand l s' g') ->
  exists q, receive same (q_lf (st_q st)) (st_q st) = Some q /\ apply_rules same (fed st q) s g = Some (Children l s' g').
Proof.
  unfold expand. destruct (receive same _ _) as [q|] eqn:R; [|discriminate]. fold (fed st q).
  destruct (apply_rules same (fed st q) s g) as [[l' s1 g1|]|] eqn:E; try discriminate. intros H; injection H as <- <- <-. eauto.
Qed.

Lemma steps_trans may t1 t2 t3 : tab_steps same may t1 t2 -> tab_steps same may t2 t3 -> tab_steps same may t1 t3.
Proof. induction 1; auto. intros K. eapply tss_step; eauto. Qed.
Lemma expand_steps may st s g l s' g' l1 l2 : good st -> expand same st s g = Some (Expand l s' g') ->
  tab_steps same may (mkTab g s (l1 ++ branch_of st :: l2)) (mkTab g' s' (l1 ++ map branch_of l ++ l2)) /\ Forall good l.
Proof.
  intros G E. apply expand_inv in E as (q & R & E). pose proof (fed_good _ _ R G) as G'.
  destruct (rules_step same may _ _ _ _ _ _ l1 l2 G' E) as [S F]. split; [|exact F].
  eapply tss_step; [apply (ts_keep same may g s l1 (branch_of st) l2 (forms_of (fed st q))); apply fed_forms; auto|].
  eapply tss_step; [exact S|]. apply tss_refl.
Qed.
Definition tab_of (F : forest) : tab := mkTab (fo_gen F) (fo_sko F) (map branch_of (fo_leaves F)).
Lemma grows_steps may F F' : grows same F F' -> Forall good (fo_leaves F) ->
  tab_steps same may (tab_of F) (tab_of F') /\ Forall good (fo_leaves F').
Proof.
  induction 1 as [F|F F1 F2 S _ IH]; intros G; [split; auto; apply tss_refl|].
  assert (K : tab_steps same may (tab_of F) (tab_of F1) /\ Forall good (fo_leaves F1)).
  { destruct S as [g s l1 st l2 l s' g' E]. cbn in *. apply Forall_app in G as [G1 G2]. inversion G2; subst.
    destruct (expand_steps may st s g l s' g' (map branch_of l1) (map branch_of l2) H1 E) as [S FG]. split.
    - unfold tab_of. cbn. rewrite !map_app. exact S.
    - rewrite !Forall_app. auto. }
  destruct K as [K1 K2]. destruct (IH K2) as [K3 K4]. split; auto. eapply steps_trans; eauto.
Qed.
Lemma first_good n f : good (first_state n f).
Proof. constructor; cbn; try apply mleaf_ok; [repeat split; cbn; contradiction|intros x []]. Qed.

(** C53 *)
Lemma grown_unsat n g k f F s eqi : wf_start g f -> grows same (plant n g k f) F ->
  (forall st, In st (fo_leaves F) -> closes eqi s (branch_of st)) ->
  forall I (v : val I), eq_refl_in eqi I -> ~ holds f v.
Proof.
  intros W R C. destruct (grows_steps linear_in _ _ R) as [S _]; [constructor; [apply first_good|constructor]|].
  eapply closed_tableau_unsat; [exact W|exact S|].
  intros b Hb. cbn in Hb. apply in_map_iff in Hb as (st & <- & Hst). auto.
Qed.

(** ** no crash *)
Definition plain_st (st : state) : Prop := forall y, In y (forms_of st) -> plain (ft_form y) = true.
Lemma choose_loop_bound l : forall i s c, choose_loop l i s c = s \/ (i <= choose_loop l i s c < i + List.length l)%nat.
Proof.
  induction l as [|v r IH]; intros i s c; cbn [choose_loop List.length]; auto.
  destruct ((v <? c) || (c =? -1)); [destruct (IH (S i) i v)|destruct (IH (S i) s c)]; auto; right; lia.
Qed.
Lemma reintroduce_total l : l <> [] -> exists f l', mg_reintroduce l = Some (f, l').
Proof.
  intros N. unfold mg_reintroduce. destruct (mg_incr l (choose_less (map snd l))) as [[f l']|] eqn:E; [eauto|].
  exfalso. revert E. apply mg_incr_total. unfold choose_less. destruct (choose_loop_bound (map snd l) 0 0 (-1)) as [->|H].
  - destruct l; [congruence|cbn; lia].
  - rewrite map_length in H. lia.
Qed.
Lemma rules_total st s g : good st -> plain_st st ->
  exists r, apply_rules same st s g = Some r /\ forall l s' g', r = Children l s' g' -> Forall plain_st l.
Proof.
  intros [SQ UM OM OC] P. destruct SQ as (S1 & S2 & S3 & S4 & S5).
  assert (PQ : forall y, in_queues y (st_q st) -> plain (ft_form y) = true) by (intros y Hy; apply P, in_forms; auto).
  assert (PM : forall y, In y (map fst (st_mg st)) -> plain (ft_form y) = true) by (intros y Hy; apply P, in_forms; auto).
  unfold in_queues in PQ. unfold apply_rules.
  destruct (q_alpha (st_q st)) as [|x alpha] eqn:EA.
  2:{ pose proof (S2 x (or_introl eq_refl)) as KX. destruct (alpha_derived same x g KX) as [D _].
      destruct (apply_alpha same x g) as [ys g1] eqn:E. eexists. split; [reflexivity|]. intros l s' g' H; injection H as <- <- <-.
      constructor; [|constructor]. intros y Hy. rewrite in_forms in Hy. unfold in_queues in Hy. cbn in Hy.
      destruct Hy as [[Hy|Hy]|Hy]; [|apply PQ; cbn; tauto|apply PM; auto].
      eapply derived_plain; [apply D; exact Hy|]. apply PQ. cbn. tauto. }
  destruct (q_delta (st_q st)) as [|x delta] eqn:ED.
  2:{ pose proof (S4 x (or_introl eq_refl)) as KX.
      destruct (delta_total s x (st_mm st) (st_mc st) g KX) as (y & s1 & g1 & E & PY); auto; [apply PQ; cbn; tauto|].
      rewrite E. eexists. split; [reflexivity|]. intros l s' g' H; injection H as <- <- <-.
      constructor; [|constructor]. intros z Hy. rewrite in_forms in Hy. unfold in_queues in Hy. cbn in Hy.
      destruct Hy as [[[<-|[]]|Hy]|Hy]; [exact PY|apply PQ; cbn; tauto|apply PM; auto]. }
  destruct (q_beta (st_q st)) as [|x beta] eqn:EB.
  2:{ pose proof (S3 x (or_introl eq_refl)) as KX. destruct (beta_derived x g KX) as [D _].
      destruct (apply_beta x g) as [yss g1] eqn:E. destruct (cpy_union_ok _ _ OM OC) as (mm & -> & _).
      eexists. split; [reflexivity|]. intros l s' g' H; injection H as <- <- <-.
      apply Forall_forall. intros c Hc. apply in_map_iff in Hc as (ys & <- & Hys).
      intros y Hy. rewrite in_forms in Hy. unfold in_queues in Hy. cbn in Hy.
      destruct Hy as [[Hy|Hy]|Hy]; [|apply PQ; cbn; tauto|apply PM; auto].
      eapply derived_plain; [eapply D; eauto|]. apply PQ. cbn. tauto. }
  destruct (q_gamma (st_q st)) as [|x gamma] eqn:EG.
  2:{ pose proof (S5 x (or_introl eq_refl)) as KX. destruct (mg_index same x (st_mg st)) as [index mg] eqn:EI.
      destruct (mg_index_ok same x _ _ _ KX UM EI) as [_ IM].
      destruct (gamma_total x (Z.of_nat index) g KX) as (y & m & g1 & -> & PY); [apply PQ; cbn; tauto|].
      destruct (mcpy_ok _ OC) as [OC' _]. destruct (add_meta_ok _ m OC') as (mc & -> & _).
      eexists. split; [reflexivity|]. intros l s' g' H; injection H as <- <- <-.
      constructor; [|constructor]. intros z Hy. rewrite in_forms in Hy. unfold in_queues in Hy. cbn in Hy.
      destruct Hy as [[[<-|[]]|Hy]|Hy]; [exact PY|apply PQ; cbn; tauto|]. apply IM in Hy as [->|Hy]; [apply PQ; cbn; tauto|apply PM; auto]. }
  destruct (st_mg st) as [|e mg0] eqn:EMG; [eexists; split; [reflexivity|discriminate]|].
  destruct (0 <? st_n st); [|eexists; split; [reflexivity|discriminate]].
  destruct (reintroduce_total (e :: mg0)) as (f & mg & ER); [discriminate|]. rewrite ER. eexists. split; [reflexivity|].
  intros l s' g' H; injection H as <- <- <-. apply mg_incr_ok in ER as [EF EM].
  constructor; [|constructor]. intros z Hy. rewrite in_forms in Hy. unfold in_queues in Hy.
  cbn [st_q st_mg with_lf q_lf q_atomic q_alpha q_beta q_delta q_gamma] in Hy. rewrite EM in Hy.
  destruct Hy as [[[<-|[]]|Hy]|Hy]; [apply PM; exact EF|apply PQ; rewrite EA, ED, EB, EG in Hy; tauto|apply PM; exact Hy].
Qed.
Lemma expand_total st s g : good st -> plain_st st ->
  exists r, expand same st s g = Some r /\ forall l s' g', r = Expand l s' g' -> Forall plain_st l.
Proof.
  intros G P. unfold expand. destruct (receive same _ _) as [q|] eqn:R; [|eexists; split; [reflexivity|discriminate]].
  fold (fed st q). destruct (rules_total (fed st q) s g) as (r & E & K).
  - apply fed_good; auto.
  - intros y Hy. apply P. eapply fed_forms; eauto.
  - rewrite E. destruct r as [l s' g'|]; eexists; (split; [reflexivity|]); try discriminate.
    intros l0 s0 g0 H; injection H as <- <- <-. eauto.
Qed.
Lemma grows_plain F F' : grows same F F' -> Forall good (fo_leaves F) -> Forall plain_st (fo_leaves F) -> Forall plain_st (fo_leaves F').
Proof.
  induction 1 as [F|F F1 F2 S _ IH]; intros G P; auto.
  assert (GS : grows same F F1) by (eapply grows_step; [exact S|apply grows_refl]).
  apply IH; [eapply (grows_steps linear_in); eauto|].
  destruct S as [g s l1 st l2 l s' g' E]. cbn in *. apply Forall_app in G as [G1 G2]. inversion G2; subst.
  apply Forall_app in P as [P1 P2]. inversion P2; subst.
  destruct (expand_total st s g) as (r & E' & K); auto. rewrite E in E'. injection E' as <-. rewrite !Forall_app. eauto.
Qed.
Lemma grown_no_crash n g k f F : f_noid f -> binds f -> grows same (plant n g k f) F ->
  forall st s g', In st (fo_leaves F) -> expand same st s g' <> None.
Proof.
  intros N B R st s g' H. assert (G0 : Forall good (fo_leaves (plant n g k f))) by (constructor; [apply first_good|constructor]).
  pose proof (proj2 (grows_steps linear_in _ _ R G0)) as G.
  assert (P : Forall plain_st (fo_leaves F)).
  { eapply grows_plain; eauto. constructor; [|constructor]. intros y [<-|[]]. apply plain_of; auto. }
  rewrite Forall_forall in G, P. destruct (expand_total st s g' (G _ H) (P _ H)) as (r & E & _). congruence.
Qed.

(** ** when a branch is declared saturated *)
Lemma pend_zero q : pend q = 0%nat <-> q_alpha q = [] /\ q_beta q = [] /\ q_delta q = [] /\ q_gamma q = [].
Proof.
  assert (E : forall l, ws l = 0%nat <-> l = []).
  { intros [|x l]; split; auto; try discriminate. rewrite ws_cons. pose proof (w_pos (ft_form x)). lia. }
  unfold pend. rewrite <- !E. lia.
Qed.
Lemma append_grows l x : (ws l <= ws (fl_append same l x))%nat.
Proof. unfold fl_append. destruct (fl_contains same l x); [lia|]. rewrite ws_app. lia. Qed.
Lemma dispatch_grows x q : (pend q <= pend (dispatch same x q))%nat.
Proof.
  unfold dispatch, pend. destruct (kind_of_rule (ft_form x)); cbn [q_alpha q_beta q_delta q_gamma];
  pose proof (append_grows (q_alpha q) x); pose proof (append_grows (q_beta q) x);
  pose proof (append_grows (q_delta q) x); pose proof (append_grows (q_gamma q) x); lia.
Qed.
Lemma dispatch_pos x q : kind_of_rule (ft_form x) <> KAtomic -> pend (dispatch same x q) <> 0%nat.
Proof.
  intros K. rewrite pend_zero. unfold dispatch. destruct (kind_of_rule (ft_form x)); cbn; try congruence;
  intros (A & B & C & D); eapply append_nonempty; eauto.
Qed.
Lemma receive_loop_grows l : forall q atoms q' atoms', receive_loop same l q atoms = Some (q', atoms') -> (pend q <= pend q')%nat.
Proof.
  induction l as [|f r IH]; intros q atoms q' atoms' E; cbn in E; [injection E as <- <-; auto|].
  assert (S : receive_loop same r (dispatch same f q) atoms = Some (q', atoms') -> (pend q <= pend q')%nat).
  { intros H. apply IH in H. pose proof (dispatch_grows f q). lia. }
  destruct (kind_of_rule (ft_form f)); auto. destruct (obvious_closure (ft_form f)); [discriminate|eauto].
Qed.
Lemma obvious_iff f : obvious_closure f = true <-> (exists i, f = Bot i) \/ exists i j, f = Not i (Top j).
Proof.
  split.
  - unfold obvious_closure. destruct f; try discriminate; [destruct f; try discriminate; eauto|eauto].
  - intros [[i ->]|(i & j & ->)]; reflexivity.
Qed.
Lemma quiet_iff x : quiet x <-> kind_of_rule (ft_form x) = KAtomic /\ obvious_closure (ft_form x) = false.
Proof.
  destruct (kind_families (ft_form x)) as (F & _). rewrite F. unfold quiet.
  split; intros (A & B).
  - split; auto. destruct (obvious_closure (ft_form x)) eqn:E; auto. apply obvious_iff in E as [[i E]|(i & j & E)]; exfalso; [eapply (proj1 B)|eapply (proj2 B)]; eauto.
  - split; auto. split; intros; intros K; rewrite K in B; discriminate.
Qed.
Lemma receive_loop_lits l : forall q atoms q' atoms', receive_loop same l q atoms = Some (q', atoms') -> pend q' = 0%nat ->
  Forall quiet l.
Proof.
  induction l as [|f r IH]; intros q atoms q' atoms' E Z; cbn in E; [constructor|].
  destruct (kind_of_rule (ft_form f)) eqn:K;
  try (exfalso; apply receive_loop_grows in E; assert (pend (dispatch same f q) <> 0%nat) by (apply dispatch_pos; congruence); lia).
  destruct (obvious_closure (ft_form f)) eqn:O; [discriminate|]. constructor; [apply quiet_iff; auto|eauto].
Qed.
Lemma receive_loop_quiet l : forall q atoms, Forall quiet l -> receive_loop same l q atoms = Some (q, atoms ++ l).
Proof.
  induction l as [|f r IH]; intros q atoms Q; cbn; [rewrite app_nil_r; auto|]. inversion Q; subst.
  apply quiet_iff in H1 as [-> ->]. rewrite IH; auto. rewrite <- app_assoc. reflexivity.
Qed.
Lemma dispatch_all_grows l : forall q, (pend q <= pend (fold_left (fun q x => dispatch same x q) l q))%nat.
Proof. induction l as [|f r IH]; intros q; cbn; auto. specialize (IH (dispatch same f q)). pose proof (dispatch_grows f q). lia. Qed.
Lemma dispatch_quiet l : forall q, Forall quiet l -> pend (fold_left (fun q x => dispatch same x q) l q) = pend q.
Proof.
  induction l as [|f r IH]; intros q Q; cbn; auto. inversion Q; subst. rewrite IH; auto.
  apply quiet_iff in H1 as [H _]. unfold dispatch. rewrite H. reflexivity.
Qed.
Lemma saturated_iff st s g : expand same st s g = Some Saturated <->
  Forall quiet (q_lf (st_q st)) /\ q_alpha (st_q st) = [] /\ q_beta (st_q st) = [] /\ q_delta (st_q st) = [] /\ q_gamma (st_q st) = [] /\
  (st_mg st = [] \/ st_n st <= 0).
Proof.
  assert (A : forall st, apply_rules same st s g = Some Sat <-> pend (st_q st) = 0%nat /\ (st_mg st = [] \/ st_n st <= 0)).
  { intros [n q mg mm mc]. rewrite pend_zero. unfold apply_rules. cbn [st_q st_n st_mg st_mm st_mc]. split.
    - destruct (q_alpha q) as [|x xs]; [|destruct (apply_alpha same x g); discriminate].
      destruct (q_delta q) as [|x xs]; [|destruct (apply_delta s x mm mc g) as [[[? ?] ?]|]; discriminate].
      destruct (q_beta q) as [|x xs]; [|destruct (apply_beta x g), (mset_union (nodeCpy mm) (nodeCpy mc)); discriminate].
      destruct (q_gamma q) as [|x xs].
      2:{ destruct (mg_index same x mg) as [i mg']. destruct (apply_gamma x (Z.of_nat i) g) as [[[? ?] ?]|]; [|discriminate].
          destruct (add_meta _ _); discriminate. }
      intros H. split; [auto|]. destruct mg as [|e mg]; auto. right. destruct (0 <? n) eqn:E; [|apply Z.ltb_ge; auto].
      destruct (mg_reintroduce (e :: mg)) as [[? ?]|]; discriminate.
    - intros ((-> & -> & -> & ->) & [->|H]); auto. destruct mg; auto. apply Z.ltb_ge in H. rewrite H. reflexivity. }
  assert (P : q_alpha (st_q st) = [] /\ q_beta (st_q st) = [] /\ q_delta (st_q st) = [] /\ q_gamma (st_q st) = [] <-> pend (st_q st) = 0%nat)
    by (symmetry; apply pend_zero).
  unfold expand, receive. split.
  - destruct (receive_loop same _ _ []) as [[q1 atoms]|] eqn:E; [|discriminate].
    destruct (apply_rules same _ s g) as [[|]|] eqn:EA; try discriminate. intros _. apply A in EA as [Z1 Z2]. cbn [st_q st_n st_mg] in *.
    pose proof (dispatch_all_grows atoms q1) as G1. pose proof (receive_loop_grows _ _ _ _ _ E) as G2.
    assert (Z : pend (st_q st) = 0%nat) by (unfold pend in *; cbn in G2; lia). apply P in Z. split; [|tauto].
    eapply receive_loop_lits; eauto. lia.
  - intros (Q & H1 & H2 & H3 & H4 & M). rewrite receive_loop_quiet; auto. cbn [app].
    match goal with |- context [apply_rules same ?X s g] => replace (apply_rules same X s g) with (Some Sat); auto; symmetry; apply A end.
    cbn [st_q st_n st_mg]. split; auto. rewrite dispatch_quiet; auto. apply pend_zero. cbn. auto.
Qed.

(** ** termination *)
Definition universal_pending (st : state) : bool :=
  existsb (fun x => match kind_of_rule (ft_form x) with KGamma => true | _ => false end) (q_lf (st_q st)) ||
  match q_gamma (st_q st) with [] => false | _ => true end.
Definition rounds (st : state) : nat :=
  if 0 <? st_n st then (2 * Z.to_nat (st_n st) + if universal_pending st then 0 else 1)%nat else 0%nat.
Definition weight (st : state) : nat := (ws (q_lf (st_q st)) + pend (st_q st))%nat.
Lemma pending_gamma st q : receive same (q_lf (st_q st)) (st_q st) = Some q -> universal_pending st = true -> q_gamma q <> [].
Proof.
  intros R H. destruct (receive_ok _ _ _ _ R) as [_ _ _ _ K]. apply K. unfold universal_pending in H. apply orb_prop in H as [H|H].
  - right. apply existsb_exists in H as (x & Hx & H). exists x. split; auto. apply kind_families.
    destruct (kind_of_rule (ft_form x)); try discriminate; auto.
  - left. destruct (q_gamma (st_q st)); congruence.
Qed.
Lemma gamma_pending st : q_gamma (st_q st) <> [] -> universal_pending st = true.
Proof. unfold universal_pending. destruct (q_gamma (st_q st)); [congruence|]. rewrite orb_true_r. auto. Qed.
Lemma rounds_le st q st' : receive same (q_lf (st_q st)) (st_q st) = Some q -> st_n st' = st_n st ->
  q_gamma (st_q st') = q_gamma q -> (rounds st' <= rounds st)%nat.
Proof.
  intros R EN EG. unfold rounds. rewrite EN. destruct (0 <? st_n st); auto.
  destruct (universal_pending st) eqn:U; [|destruct (universal_pending st'); lia].
  rewrite (gamma_pending st'); auto. rewrite EG. eapply pending_gamma; eauto.
Qed.
Lemma child_decreases st' st : good st -> child same st' st ->
  good st' /\ ((rounds st' < rounds st)%nat \/ (rounds st' <= rounds st)%nat /\ (weight st' < weight st)%nat).
Proof.
  intros G (s & g & l & s' & g' & E & Hin). split.
  { destruct (expand_steps linear_in _ _ _ _ _ _ [] [] G E) as [_ F]. rewrite Forall_forall in F. auto. }
  apply expand_inv in E as (q & R & E). pose proof (fed_good _ _ R G) as G'.
  destruct (receive_ok _ _ _ _ R) as [_ _ _ PQ _].
  destruct G' as [SQ UM _ _]. destruct SQ as (_ & S2 & S3 & S4 & S5). revert E. unfold apply_rules. cbn [fed st_q st_n st_mg st_mm st_mc] in *.
  destruct (q_alpha q) as [|x alpha] eqn:EA.
  2:{ destruct (apply_alpha same x g) as [ys g1] eqn:E. intros H; injection H as <- <- <-. destruct Hin as [<-|[]].
      right. split; [eapply rounds_le; eauto|]. apply alpha_ws in E; [|apply S2; left; auto]. unfold weight, pend in *. rewrite EA in PQ. wsl. }
  destruct (q_delta q) as [|x delta] eqn:ED.
  2:{ destruct (apply_delta s x (st_mm st) (st_mc st) g) as [[[y s1] g1]|] eqn:E; [|discriminate].
      intros H; injection H as <- <- <-. destruct Hin as [<-|[]].
      right. split; [eapply rounds_le; eauto|]. apply delta_ws in E. unfold weight, pend in *. rewrite ED in PQ. wsl. }
  destruct (q_beta q) as [|x beta] eqn:EB.
  2:{ destruct (apply_beta x g) as [yss g1] eqn:E. destruct (mset_union _ _) as [mm|]; [|discriminate].
      intros H; injection H as <- <- <-. apply in_map_iff in Hin as (ys & <- & Hys).
      right. split; [eapply rounds_le; eauto|]. eapply beta_ws in E; eauto; [|apply S3; left; auto]. unfold weight, pend in *. rewrite EB in PQ. wsl. }
  destruct (q_gamma q) as [|x gamma] eqn:EG.
  2:{ destruct (mg_index same x (st_mg st)) as [i mg]. destruct (apply_gamma x (Z.of_nat i) g) as [[[y m] g1]|] eqn:E; [|discriminate].
      destruct (add_meta _ m) as [mc|]; [|discriminate]. intros H; injection H as <- <- <-. destruct Hin as [<-|[]].
      destruct (Z.leb_spec (st_n st) 0) as [L|L].
      - right. split.
        + unfold rounds. cbn [st_n]. replace (0 <? st_n st - 1) with false by (symmetry; apply Z.ltb_ge; lia). lia.
        + apply gamma_ws in E. unfold weight, pend in *. rewrite EG in PQ. wsl.
      - left. unfold rounds. cbn [st_n]. replace (0 <? st_n st) with true by (symmetry; apply Z.ltb_lt; lia).
        destruct (0 <? st_n st - 1); [|lia]. destruct (universal_pending _), (universal_pending st); lia. }
  destruct (st_mg st) as [|e mg0] eqn:EM; [discriminate|]. destruct (0 <? st_n st) eqn:EN; [|discriminate].
  destruct (mg_reintroduce (e :: mg0)) as [[f mg]|] eqn:ER; [|discriminate]. intros H; injection H as <- <- <-. destruct Hin as [<-|[]].
  left. unfold rounds. cbn [st_n]. rewrite EN.
  destruct (universal_pending st) eqn:U; [exfalso; eapply pending_gamma; eauto|].
  match goal with |- context [universal_pending ?X] => replace (universal_pending X) with true; [lia|] end.
  unfold universal_pending. cbn. apply mg_incr_ok in ER as [EF _]. apply UM in EF. apply kind_families in EF. rewrite EF. reflexivity.
Qed.
Lemma good_acc : forall a b st, good st -> rounds st = a -> weight st = b -> Acc (child same) st.
Proof.
  intros a. induction a as [a IHa] using (well_founded_induction Nat.lt_wf_0).
  intros b. induction b as [b IHb] using (well_founded_induction Nat.lt_wf_0).
  intros st G A B. constructor. intros st' C. destruct (child_decreases _ _ G C) as [G' [D|[D1 D2]]].
  - eapply IHa; eauto. lia.
  - destruct (Nat.eq_dec (rounds st') a) as [E|N]; [eapply IHb; eauto; lia|eapply IHa; eauto; lia].
Qed.
Lemma first_acc n f : Acc (child same) (first_state n f).
Proof. eapply good_acc; eauto. apply first_good. Qed.

(** a forest does not grow for ever *)
Definition lgrow (l' l : list state) : Prop :=
  exists l1 st l2 lc, l = l1 ++ st :: l2 /\ l' = l1 ++ lc ++ l2 /\ forall st', In st' lc -> child same st' st.
Lemma lgrow_app l1 : Acc lgrow l1 -> forall l2, Acc lgrow l2 -> Acc lgrow (l1 ++ l2).
Proof.
  induction 1 as [l1 _ IH1]. intros l2 A2. induction A2 as [l2 A2 IH2]. constructor.
  intros l' (a & st & b & lc & E & -> & C).
  assert (K : (exists b1, l1 = a ++ st :: b1 /\ b = b1 ++ l2) \/ exists a2, a = l1 ++ a2 /\ l2 = a2 ++ st :: b).
  { clear -E. revert a E. induction l1 as [|x l1 IH]; intros a E; cbn in *.
    - right. exists a. auto.
    - destruct a as [|y a]; cbn in E; injection E as -> E; [left; exists l1; auto|].
      apply IH in E as [(b1 & -> & ->)|(a2 & -> & ->)]; [left; exists b1; auto|right; exists a2; auto]. }
  destruct K as [(b1 & -> & ->)|(a2 & -> & ->)].
  - replace (a ++ lc ++ b1 ++ l2) with ((a ++ lc ++ b1) ++ l2) by (rewrite <- !app_assoc; auto). apply IH1.
    + exists a, st, b1, lc. auto.
    + constructor. exact A2.
  - rewrite <- app_assoc. apply IH2. exists a2, st, b, lc. auto.
Qed.
Lemma lgrow_one st : Acc (child same) st -> Acc lgrow [st].
Proof.
  induction 1 as [st _ IH]. constructor. intros l' (a & x & b & lc & E & -> & C).
  destruct a as [|y a]; [|destruct a; discriminate]. injection E as <- <-. cbn. rewrite app_nil_r.
  induction lc as [|c lc IHl]; [constructor; intros l' (a & x & b & lc & E & _); destruct a; discriminate|].
  apply (lgrow_app [c]); [apply IH, C; left; auto|apply IHl; intros; apply C; right; auto].
Qed.
Lemma grow_acc l : Acc lgrow l -> forall g s, Acc (fun F' F => grow same F F') (mkForest g s l).
Proof.
  induction 1 as [l _ IH]. intros g s. constructor. intros F' H. inversion H; subst. apply IH.
  exists l1, st, l2, l0. split; auto. split; auto. intros st' Hin. exists s, g, l0, s', g'. auto.
Qed.
Lemma plant_acc n g k f : Acc (fun F' F => grow same F F') (plant n g k f).
Proof. apply grow_acc, lgrow_one, first_acc. Qed.
Lemma grows_trans F1 F2 F3 : grows same F1 F2 -> grows same F2 F3 -> grows same F1 F3.
Proof. induction 1; auto. intros. eapply grows_step; eauto. Qed.
Lemma stop_or_grow g s l : Forall good l -> Forall plain_st l ->
  (exists F', grow same (mkForest g s l) F') \/ forall st, In st l -> expand same st s g = Some Obvious \/ expand same st s g = Some Saturated.
Proof.
  intros G P.
  assert (K : (exists l1 st l2 l3 s' g', l = l1 ++ st :: l2 /\ expand same st s g = Some (Expand l3 s' g')) \/
    forall st, In st l -> expand same st s g = Some Obvious \/ expand same st s g = Some Saturated).
  { induction l as [|st l IH]; [right; intros st []|]. inversion G; subst. inversion P; subst.
    destruct (expand_total st s g) as ([|l3 s' g'|] & E & _); auto.
    - destruct IH as [(l1 & x & l2 & l3 & s' & g' & -> & K)|K]; auto; [|right; intros x [<-|Hx]; auto].
      left. exists (st :: l1), x, l2, l3, s', g'. auto.
    - left. exists [], st, l, l3, s', g'. auto.
    - destruct IH as [(l1 & x & l2 & l3 & s' & g' & -> & K)|K]; auto; [|right; intros x [<-|Hx]; auto].
      left. exists (st :: l1), x, l2, l3, s', g'. auto. }
  destruct K as [(l1 & x & l2 & l3 & s' & g' & -> & K)|K]; auto. left. eexists. eapply grow_expand. eauto.
Qed.
Lemma run_ends F : Acc (fun F' F => grow same F F') F -> Forall good (fo_leaves F) -> Forall plain_st (fo_leaves F) ->
  exists F', grows same F F' /\ forall st, In st (fo_leaves F') ->
    expand same st (fo_sko F') (fo_gen F') = Some Obvious \/ expand same st (fo_sko F') (fo_gen F') = Some Saturated.
Proof.
  induction 1 as [F _ IH]. intros G P. destruct F as [g s l]. destruct (stop_or_grow g s l G P) as [[F1 S]|K].
  - assert (R : grows same (mkForest g s l) F1) by (eapply grows_step; [exact S|apply grows_refl]).
    destruct (IH F1 S) as (F2 & R2 & K2); [eapply (grows_steps linear_in); eauto|eapply grows_plain; eauto|].
    exists F2. split; auto. eapply grows_trans; eauto.
  - exists (mkForest g s l). split; [apply grows_refl|exact K].
Qed.
Lemma plant_ends n g k f : f_noid f -> binds f -> exists F, grows same (plant n g k f) F /\
  forall st, In st (fo_leaves F) -> expand same st (fo_sko F) (fo_gen F) = Some Obvious \/ expand same st (fo_sko F) (fo_gen F) = Some Saturated.
Proof.
  intros N B. apply run_ends; [apply plant_acc|constructor; [apply first_good|constructor]|constructor; [|constructor]].
  intros y [<-|[]]. apply plain_of; auto.
Qed.
End Same.
