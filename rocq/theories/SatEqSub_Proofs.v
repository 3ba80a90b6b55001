(** The substitution read from an assignment. *)
From Coq Require Import ZArith List Bool Arith Lia.
From Verif Require Import Ast_Model Ast_Proofs Unif_Model Unif_Spec Bse_Spec UnifRun_Proofs Elim_Proofs SatEq_Model SatEq_Spec SatEqUf_Proofs SatEqClose_Proofs
  SatEqLoad_Proofs SatEqSat_Proofs.
Import ListNotations.
Open Scope list_scope.
Open Scope nat_scope.

Lemma filter_lt {T} (P Q : T -> bool) l : (forall k, In k l -> P k = true -> Q k = true) -> (exists a, In a l /\ Q a = true /\ P a = false) ->
  length (filter P l) < length (filter Q l).
Proof.
  assert (LE : forall l, (forall k, In k l -> P k = true -> Q k = true) -> length (filter P l) <= length (filter Q l)).
  { clear. induction l as [|a l IH]; intros H; [auto|]. cbn. assert (IHl := IH (fun k J => H k (or_intror J))).
    destruct (P a) eqn:E; [rewrite (H a (or_introl eq_refl) E); cbn; lia|]. destruct (Q a); cbn; lia. }
  induction l as [|x l IH]; intros H (a & J & A & B); [destruct J|]. cbn. assert (H' : forall k, In k l -> P k = true -> Q k = true) by (intros; apply H; [right|]; auto).
  destruct J as [->|J].
  - rewrite A, B. cbn. pose proof (LE l H'). lia.
  - pose proof (IH H' (ex_intro _ a (conj J (conj A B)))). destruct (P x) eqn:E; [rewrite (H x (or_introl eq_refl) E); cbn; lia|]. destruct (Q x); cbn; lia.
Qed.
Lemma filter_le {T} (P Q : T -> bool) l : (forall k, In k l -> P k = true -> Q k = true) -> length (filter P l) <= length (filter Q l).
Proof.
  induction l as [|a l IH]; intros H; [auto|]. cbn. assert (IHl := IH (fun k J => H k (or_intror J))).
  destruct (P a) eqn:E; [rewrite (H a (or_introl eq_refl) E); cbn; lia|]. destruct (Q a); cbn; lia.
Qed.
Lemma filter_full {T} (P : T -> bool) l : length (filter P l) <= length l.
Proof. induction l as [|a l IH]; cbn; [auto|]. destruct (P a); cbn; lia. Qed.

Lemma map_nodup {T U} (f : T -> U) l : (forall a b, In a l -> In b l -> f a = f b -> a = b) -> NoDup l -> NoDup (map f l).
Proof.
  intros H N. induction N as [|a l NA N IH]; [constructor|]. cbn. constructor.
  - intros J. apply in_map_iff in J. destruct J as (b & E & J). apply NA. rewrite (H a b); auto; [left|right]; auto.
  - apply IH. intros; apply H; auto; right; auto.
Qed.

Section Sub.
Variable ar : signature.
Notation inv := (inv ar).
Notation state := (state ar).
Variable h : heap.
Variable pb : problem.
Hypothesis I : inv h pb.
Variable truth : var -> bool.
Variable choice : list trec -> option trec.
Hypothesis CH : chooses choice.
Variable only : bool.
Hypothesis SP : sat_parts h pb truth only.

Lemma meta_in x : In x (meta_recs pb) <-> rec_in pb x /\ tr_is_meta x = true.
Proof.
  unfold meta_recs. rewrite in_map_iff. split.
  - intros ([i t] & <- & J). apply (i_metas _ _ _ I) in J. tauto.
  - intros (A & B). exists (tr_index x, x). split; auto. apply (i_metas _ _ _ I). auto.
Qed.
(** ** One binding for each metavariable *)
Lemma one_class {T} (P : nat -> bool) (f : nat -> T) l : (forall a b, In (a, b) (upairs l) -> ~ (P a = true /\ P b = true)) -> length (filter P l) <= 1.
Proof.
  induction l as [|a l IH]; intros H; [cbn; lia|]. cbn. destruct (P a) eqn:E.
  - assert (Z : filter P l = []).
    { clear IH. destruct (filter P l) as [|b r] eqn:F; auto. exfalso. assert (B : In b (filter P l)) by (rewrite F; left; auto). apply filter_In in B.
      apply (H a b); [|tauto]. cbn. apply in_or_app. left. apply in_map. tauto. }
    rewrite Z. cbn. lia.
  - apply IH. intros x y J. apply H. cbn. apply in_or_app. auto.
Qed.
Definition key (b : trec * nat) : Z := tr_index (fst b).
Lemma bindings_in x c : In (x, c) (bindings h pb truth) -> rec_in pb x /\ tr_is_meta x = true /\ In c (classes pb) /\ truth (s_var h x c) = true.
Proof.
  unfold bindings. intros J.
  assert (K : In (x, c) (filter (fun b => truth (s_var h (fst b) (snd b))) (flat_map (fun x => map (pair x) (classes pb)) (meta_recs pb)))).
  { destruct (classes pb) as [|? [|? ?]]; try destruct J; auto. }
  apply filter_In in K. destruct K as (K & T). apply in_flat_map in K. destruct K as (y & Y & K). apply in_map_iff in K. destruct K as (d & E & K).
  injection E as -> ->. apply meta_in in Y. destruct Y. auto.
Qed.
Lemma in_bindings x c d : rec_in pb x -> tr_is_meta x = true -> In c (classes pb) -> In d (classes pb) -> c <> d -> truth (s_var h x c) = true -> In (x, c) (bindings h pb truth).
Proof.
  intros R M C D N T. unfold bindings.
  assert (K : In (x, c) (filter (fun b => truth (s_var h (fst b) (snd b))) (flat_map (fun x => map (pair x) (classes pb)) (meta_recs pb)))).
  { apply filter_In. split; auto. apply in_flat_map. exists x. split; [apply meta_in; auto|]. apply in_map; auto. }
  destruct (classes pb) as [|a [|b l]]; [destruct C| |exact K]. destruct C as [->|[]], D as [->|[]]. congruence.
Qed.
Lemma bindings_keys : NoDup (map key (bindings h pb truth)).
Proof.
  assert (G : NoDup (map key (filter (fun b => truth (s_var h (fst b) (snd b))) (flat_map (fun x => map (pair x) (classes pb)) (meta_recs pb))))).
  { assert (ML : forall x, In x (meta_recs pb) -> length (filter (fun c => truth (s_var h x c)) (classes pb)) <= 1).
    { intros x X. apply (one_class _ (fun n => n)). intros a b P. apply (sp_map _ _ _ _ SP); auto. }
    assert (NK : NoDup (map tr_index (meta_recs pb))).
    { unfold meta_recs. rewrite map_map. replace (map (fun x => tr_index (snd x)) (pb_metas pb)) with (map fst (pb_metas pb)); [apply (i_mkeys _ _ _ I)|].
      apply map_ext_in. intros [i t] J. apply (i_metas _ _ _ I) in J. cbn. symmetry. tauto. }
    revert ML NK. generalize (meta_recs pb). induction l as [|x l IH]; intros ML NK; [constructor|]. cbn [flat_map]. rewrite filter_app, map_app.
    cbn [map] in NK. inversion NK as [|? ? NX ND]; subst. specialize (IH (fun y J => ML y (or_intror J)) ND).
    assert (E : map key (filter (fun b => truth (s_var h (fst b) (snd b))) (map (pair x) (classes pb))) =
                map (fun _ => tr_index x) (filter (fun c => truth (s_var h x c)) (classes pb))).
    { generalize (classes pb). induction l0 as [|c r IHr]; [reflexivity|]. cbn. destruct (truth (s_var h x c)); cbn; rewrite IHr; reflexivity. }
    rewrite E. pose proof (ML x (or_introl eq_refl)) as L. destruct (filter (fun c => truth (s_var h x c)) (classes pb)) as [|c [|d r]]; cbn in L |- *; auto; [|lia].
    constructor; auto. intros J. apply NX. apply in_map_iff in J. destruct J as ([y e] & EY & J). apply filter_In in J. destruct J as (J & _).
    apply in_flat_map in J. destruct J as (z & Z & J). apply in_map_iff in J. destruct J as (q & EQ & _). injection EQ as -> ->. rewrite <- EY. exact (in_map tr_index l y Z). }
  unfold bindings. destruct (classes pb) as [|a [|b l]]; [constructor|constructor|exact G].
Qed.

(** ** The translation of a class *)
Definition chosen (c : nat) : option trec :=
  match nget (pb_part pb) c with Some l => choice (filter (fun t => truth (r_var h c t)) l) | None => None end.
Lemma chosen_ok c : In c (classes pb) -> exists t, chosen c = Some t /\ translation h pb truth choice c = Ok t /\ rec_in pb t /\ root h (tr_class t) = c /\ truth (r_var h c t) = true /\
  (tr_is_meta t = false -> forall a, In a (tr_args t) -> truth (VO (root h a) c) = true).
Proof.
  intros C. destruct (in_class_ok h pb c) as (l & E & J). { apply (class_in ar); auto. } destruct (class_root ar h pb I c C) as (R & _). rewrite R in J.
  unfold chosen, translation. rewrite E. rewrite (in_nget _ _ _ (i_nodup _ _ _ I) J). cbn [bind].
  destruct (sp_rep _ _ _ _ SP c l J) as (t0 & K0 & T0). destruct CH as [CH1 CH2].
  assert (NE : filter (fun t => truth (r_var h c t)) l <> []). { intros Z. assert (Q : In t0 []) by (rewrite <- Z; apply filter_In; auto). destruct Q. }
  destruct (choice (filter (fun t => truth (r_var h c t)) l)) as [t|] eqn:EC; [|exfalso; exact (CH2 _ NE EC)].
  apply CH1 in EC. apply filter_In in EC. destruct EC as (K & T). destruct (class_recs ar h pb I c l t J K). exists t. repeat split; auto.
  intros M a A. pose proof (sp_sub _ _ _ _ SP c l t a J K M T A) as O. unfold o_var in O. rewrite R in O. exact O.
Qed.
Definition below (c : nat) : nat := length (filter (fun k => truth (VO k c)) (classes pb)).
Lemma below_le c : below c <= length (classes pb).
Proof. apply filter_full. Qed.
Lemma below_lt a c : In a (classes pb) -> In c (classes pb) -> truth (VO a c) = true -> below a < below c.
Proof.
  intros A C T. apply filter_lt.
  - intros k K TK. apply (sp_trans _ _ _ _ SP c a k); auto; intros ->; [rewrite (sp_acyclic _ _ _ _ SP a A) in T|rewrite (sp_acyclic _ _ _ _ SP k A) in TK]; discriminate.
  - exists a. split; auto. split; auto. apply (sp_acyclic _ _ _ _ SP); auto.
Qed.
Fixpoint translates (f : nat) (l : list nat) : out (list term) :=
  match l with
  | [] => Ok []
  | a :: r => do x <- translate h pb truth choice f a; do y <- translates f r; Ok (x :: y)
  end.
Lemma translate_S f c : translate h pb truth choice (S f) c =
  (do t <- translation h pb truth choice c;
   match tr_meta t with
   | Some m => Ok (Meta m)
   | None => do args <- translates f (tr_args t); Ok (Fun (tr_sym t) [] args)
   end).
Proof.
  cbn [translate]. destruct (translation h pb truth choice c) as [t| | |]; auto. cbn [bind]. destruct (tr_meta t); auto.
  f_equal. induction (tr_args t) as [|a r IH]; [reflexivity|]. cbn [translates]. rewrite <- IH. reflexivity.
Qed.
Lemma translation_root c : c < length h -> translation h pb truth choice c = translation h pb truth choice (root h c).
Proof.
  intros L. assert (RR : root h (root h c) = root h c) by (apply root_root; [apply I|auto]).
  unfold translation, in_class. rewrite RR. unfold r_var. rewrite RR. reflexivity.
Qed.
Lemma translate_root f c : c < length h -> translate h pb truth choice f c = translate h pb truth choice f (root h c).
Proof. intros L. destruct f; auto. rewrite !translate_S, <- (translation_root c L). reflexivity. Qed.
Lemma arg_class t a : rec_in pb t -> In a (tr_args t) -> a < length h /\ In (root h a) (classes pb).
Proof. intros R A. exact (i_args _ _ _ I t a R A). Qed.
Lemma translate_ok f : forall c, In c (classes pb) -> below c < f -> exists t, translate h pb truth choice f c = Ok t.
Proof.
  induction f as [|f IH]; intros c C L; [lia|]. destruct (chosen_ok c C) as (t & _ & E & R & RC & T & O). rewrite translate_S, E. cbn [bind].
  destruct (tr_meta t) as [m|] eqn:M; [eauto|]. assert (MF : tr_is_meta t = false) by (unfold tr_is_meta; rewrite M; auto).
  assert (G : exists args, translates f (tr_args t) = Ok args).
  { assert (A : forall a, In a (tr_args t) -> exists x, translate h pb truth choice f a = Ok x).
    { intros a A. destruct (arg_class t a R A) as (La & Ca). rewrite translate_root by auto. apply IH; auto. pose proof (below_lt _ _ Ca C (O MF a A)). lia. }
    revert A. generalize (tr_args t). induction l as [|a l IHl]; intros A; [exists []; auto|]. cbn [translates]. destruct (A a (or_introl eq_refl)) as (x & ->). cbn [bind].
    destruct IHl as (y & ->). { intros; apply A; right; auto. } cbn [bind]. eauto. }
  destruct G as (args & ->). cbn [bind]. eauto.
Qed.
(** the value of a translation is the one of the class *)
Lemma translate_val A v val : sem A v val h pb -> forall f c t, In c (classes pb) -> translate h pb truth choice f c = Ok t -> tev A v t = val c.
Proof.
  intros [S1 S2]. induction f as [|f IH]; intros c t C E; [discriminate|]. destruct (chosen_ok c C) as (r & _ & ET & R & RC & T & O). rewrite translate_S, ET in E. cbn [bind] in E.
  destruct (rec_class _ _ _ _ I R) as (LR & _). rewrite <- RC, S1, S2 by auto. unfold tr_val. pose proof (i_shape _ _ _ I r R) as SH. unfold shape in SH.
  destruct (tr_meta r) as [m|] eqn:M.
  - injection E as <-. cbn. f_equal. symmetry. apply SH.
  - destruct (translates f (tr_args r)) as [args| | |] eqn:EA; try discriminate. cbn [bind] in E. injection E as <-. cbn [tev].
    destruct SH as (_ & -> & _). f_equal. assert (AR : forall a, In a (tr_args r) -> a < length h /\ In (root h a) (classes pb)) by (intros a; apply arg_class; auto).
    revert args EA AR. generalize (tr_args r). induction l as [|a l IHl]; intros args EA AR; cbn [translates] in EA; [injection EA as <-; reflexivity|].
    destruct (translate h pb truth choice f a) as [x| | |] eqn:EX; try discriminate. cbn [bind] in EA.
    destruct (translates f l) as [y| | |] eqn:EY; try discriminate. cbn [bind] in EA. injection EA as <-. cbn [map]. destruct (AR a (or_introl eq_refl)) as (La & Ca).
    rewrite translate_root in EX by auto. rewrite (IH _ _ Ca EX), S1 by auto. f_equal. apply IHl; auto. intros; apply AR; right; auto.
Qed.

(** ** The bindings *)
Lemma translate_sub_ok l : forall s, (forall x c, In (x, c) l -> rec_in pb x /\ tr_is_meta x = true /\ In c (classes pb)) -> NoDup (map key l) ->
  (forall b, In b l -> ~ In (key b) (keys s)) ->
  exists sg, translate_sub h pb truth choice l s = Ok sg /\ incl s sg /\
    (forall x c, In (x, c) l -> exists m t, m_index m = tr_index x /\ translate h pb truth choice (S (length (classes pb))) c = Ok t /\ In (m, t) sg) /\
    (forall k t, In (k, t) sg -> In (k, t) s \/ exists x c, In (x, c) l /\ tr_meta x = Some k /\ translate h pb truth choice (S (length (classes pb))) c = Ok t).
Proof.
  induction l as [|[x c] l IH]; intros s H N D.
  - exists s. split; auto. split; [apply incl_refl|]. split; [intros x c []|auto].
  - destruct (H x c (or_introl eq_refl)) as (R & M & C). cbn [translate_sub].
    destruct (translate_ok (S (length (classes pb))) c C) as (t & E). { pose proof (below_le c). lia. } rewrite E. cbn [bind].
    destruct (is_meta_some _ M) as (m & EM). rewrite EM. pose proof (i_shape _ _ _ I x R) as SH. unfold shape in SH. rewrite EM in SH. destruct SH as (_ & IX & _).
    pose proof (D (x, c) (or_introl eq_refl)) as DX. unfold key in DX. cbn [fst] in DX. rewrite IX in DX.
    cbn [map] in N. inversion N as [|? ? NX ND]; subst.
    destruct (IH (sset s m t)) as (sg & ES & IN & HA & HB); auto.
    { intros y d J. apply H. right. auto. }
    { intros b J K. apply sset_keys in K. destruct K as [K|K]; [exact (D b (or_intror J) K)|]. apply NX. apply in_map_iff. exists b. split; auto. unfold key in *. cbn. congruence. }
    rewrite sset_new in * by auto.
    exists sg. split; auto. split; [intros z Z; apply IN, in_or_app; auto|]. split.
    + intros y d [J|J]; [|auto]. injection J as <- <-. exists m, t. split; auto. split; auto. apply IN, in_or_app. right. left. auto.
    + intros k w J. destruct (HB k w J) as [K|(y & d & K & P)].
      * apply in_app_or in K. destruct K as [K|[K|[]]]; auto. injection K as <- <-. right. exists x, c. split; [left|]; auto.
      * right. exists y, d. split; [right|]; auto.
Qed.
Lemma gather_ok : exists sg, gather h pb truth choice = Ok sg /\
  (forall x c, In (x, c) (bindings h pb truth) -> exists m t, m_index m = tr_index x /\ translate h pb truth choice (S (length (classes pb))) c = Ok t /\ In (m, t) sg) /\
  (forall k t, In (k, t) sg -> exists x c, In (x, c) (bindings h pb truth) /\ tr_meta x = Some k /\ translate h pb truth choice (S (length (classes pb))) c = Ok t).
Proof.
  destruct (translate_sub_ok (bindings h pb truth) []) as (sg & E & _ & A & B).
  - intros x c J. apply bindings_in in J. tauto.
  - apply bindings_keys.
  - intros b _ [].
  - exists sg. split; auto. split; auto. intros k t J. destruct (B k t J) as [[]|K]. exact K.
Qed.

(** ** C93 *)
Lemma unordered_comm a b : unordered a b = unordered b a.
Proof.
  unfold unordered. destruct (Nat.ltb_spec a b), (Nat.ltb_spec b a); try reflexivity; try lia. assert (a = b) by lia. subst. reflexivity.
Qed.
Lemma e_comm i a b : e_var h i a b = e_var h i b a.
Proof. unfold e_var. rewrite unordered_comm. reflexivity. Qed.
Lemma e_root i a b : reg h pb a -> reg h pb b -> e_var h i a b = e_var h i (root h a) (root h b).
Proof. intros [A _] [B _]. unfold e_var. rewrite !root_root by (auto; apply I). reflexivity. Qed.
Lemma class_reg c : In c (classes pb) -> reg h pb c.
Proof. intros C. destruct (class_root ar h pb I c C) as (R & L). split; auto. rewrite R. auto. Qed.
(** the second record of a comparison is in the second class *)
Definition targets : Prop := forall a b ps t u, In (a, b) (upairs (classes pb)) -> psi_pairs h pb only a b = Ok ps -> In (t, u) ps -> root h (tr_class u) = b.
Lemma e_sound A v val sg : targets -> gather h pb truth choice = Ok sg -> sem A v val h pb -> solves A v sg ->
  forall i, i <= number_of_pairs pb -> forall a b, reg h pb a -> reg h pb b -> truth (e_var h i a b) = true -> val a = val b.
Proof.
  intros TG EG SV SL. destruct gather_ok as (sg' & EG' & GA & _). rewrite EG in EG'. injection EG' as <-. pose proof SV as [S1 S2].
  assert (BIND : forall t c d, rec_in pb t -> tr_is_meta t = true -> root h (tr_class t) = d -> In c (classes pb) -> In d (classes pb) -> c <> d -> truth (s_var h t c) = true -> val d = val c).
  { intros t c d R M RD C D N T. pose proof (in_bindings t c d R M C D N T) as J. destruct (GA t c J) as (m & w & EM & ET & IS).
    rewrite <- (translate_val A v val SV _ _ _ C ET). rewrite <- (SL m w IS). rewrite EM. destruct (rec_class _ _ _ _ I R) as (L & _).
    rewrite <- RD, S1, S2 by auto. unfold tr_val. destruct (is_meta_some _ M) as (m' & ->). reflexivity. }
  (* enough for the pairs of classes *)
  assert (RED : forall i, (forall a b, In (a, b) (upairs (classes pb)) -> truth (e_var h i a b) = true -> val a = val b) ->
    forall a b, reg h pb a -> reg h pb b -> truth (e_var h i a b) = true -> val a = val b).
  { intros i H a b Ra Rb T. rewrite e_root in T by auto. rewrite <- (S1 a), <- (S1 b) by (apply Ra || apply Rb).
    destruct (Nat.eq_dec (root h a) (root h b)) as [E|N]; [rewrite E; auto|]. destruct (upairs_in _ _ _ (proj2 Ra) (proj2 Rb) N) as [P|P]; [auto|].
    symmetry. apply H; auto. rewrite e_comm. auto. }
  induction i as [|i IH]; intros L; apply RED; intros a b P T; destruct (in_upairs _ _ _ P) as (Ca & Cb); pose proof (upairs_neq _ _ _ (i_nodup _ _ _ I) P) as N.
  - destruct (sp_subs _ _ _ _ SP a b P T) as [(t & R & M & RT & TS)|(t & R & M & RT & TS)].
    + apply (BIND t b a); auto.
    + symmetry. apply (BIND t a b); auto.
  - destruct (sp_e _ _ _ _ SP i a b L P T) as [T1|[(c & C & T1 & T2)|(ps & t & u & EP & IP & TA)]].
    + apply IH; auto using class_reg. lia.
    + rewrite (IH ltac:(lia) a c) by (auto using class_reg). apply IH; auto using class_reg. lia.
    + pose proof (TG a b ps t u P EP IP) as RU. destruct (psi_pairs_ok ar h pb I only a b Ca) as (ps' & EP' & HP). rewrite EP in EP'. injection EP' as <-.
      destruct (HP t u IP) as (R1 & R2 & M1 & M2 & IX & RT & _). destruct (rec_class _ _ _ _ I R1) as (L1 & _), (rec_class _ _ _ _ I R2) as (L2 & _).
      rewrite <- RT, <- RU, !S1, !S2 by auto. unfold tr_val. rewrite (is_meta_none _ M1), (is_meta_none _ M2), IX. f_equal.
      pose proof (same_arity ar h pb I t u R1 R2 M1 M2 IX) as LN.
      assert (A1 : forall x, In x (tr_args t) -> reg h pb x) by (intros x; apply (i_args _ _ _ I t x R1)).
      assert (A2 : forall x, In x (tr_args u) -> reg h pb x) by (intros x; apply (i_args _ _ _ I u x R2)).
      assert (IH' := IH ltac:(lia)). clear -TA LN A1 A2 IH'. revert LN TA A1 A2. generalize (tr_args t) (tr_args u).
      induction l as [|x l IHl]; intros [|y l'] LN TA A1 A2; try discriminate; auto. cbn [map]. f_equal.
      * apply IH'; [apply A1; left; auto|apply A2; left; auto|]. apply (TA 0); reflexivity.
      * apply IHl; [cbn in LN; lia| | |]; intros.
        -- apply (TA (S k)); auto.
        -- apply A1; right; auto.
        -- apply A2; right; auto.
Qed.
Lemma gather_solves es gs sg : Forall (Forall (well_pair ar)) gs -> gs <> [] -> state es h pb -> goals_for gs h pb -> targets ->
  gather h pb truth choice = Ok sg -> some_solved es sg gs.
Proof.
  intros Wg NE [_ R S] [GA GB] TG EG. assert (NG : pb_goals pb <> []).
  { destruct gs as [|g0 gs']; [congruence|]. destruct (GA g0 (or_introl eq_refl)) as (l & J & _). intros Z. rewrite Z in J. destruct J. }
  destruct (sp_goal _ _ _ _ SP NG) as (l & J & T). destruct (GB l J) as (g & Hg & [MA MB]). exists g. split; auto.
  intros s t K A v SL EQ. destruct (MA s t K) as (a & b & P & Q1 & Q2). destruct (S A v EQ) as (val & SV).
  rewrite Forall_forall in Wg. specialize (Wg g Hg). rewrite Forall_forall in Wg. destruct (Wg _ K) as (Ws & Wt). cbn in Ws, Wt.
  rewrite (rep_val ar A v val h pb s I SV Ws _ Q1), (rep_val ar A v val h pb t I SV Wt _ Q2). destruct (i_goals _ _ _ I l _ J P) as (Ra & Rb). cbn [fst snd] in Ra, Rb.
  pose proof SV as [S1 _]. rewrite (S1 a), (S1 b) by (apply Ra || apply Rb). apply (e_sound A v val sg TG EG SV SL (number_of_pairs pb)); auto.
Qed.

(** ** C94: the bindings can be satisfied *)
Definition top : term := Fun no_id [] [].
Definition bound (x : trec) : option nat := match filter (fun i => truth (s_var h x i)) (classes pb) with i :: _ => Some i | [] => None end.
Definition jump (c : nat) : option nat :=
  match chosen c with
  | Some x => if tr_is_meta x then match bound x with Some i => if Nat.eqb i c then None else Some i | None => None end else None
  | None => None
  end.
Lemma bound_in x i : bound x = Some i -> In i (classes pb) /\ truth (s_var h x i) = true.
Proof.
  unfold bound. destruct (filter (fun i => truth (s_var h x i)) (classes pb)) as [|j r] eqn:F; [discriminate|]. intros E. injection E as ->.
  assert (J : In i (filter (fun i => truth (s_var h x i)) (classes pb))) by (rewrite F; left; auto). apply filter_In in J. exact J.
Qed.
Lemma jump_ok c i : In c (classes pb) -> jump c = Some i -> In i (classes pb) /\ below i <= below c.
Proof.
  intros C J. unfold jump in J. destruct (chosen_ok c C) as (x & EC & _ & R & RC & T & _). rewrite EC in J. destruct (tr_is_meta x) eqn:M; [|discriminate].
  destruct (bound x) as [j|] eqn:B; [|discriminate]. destruct (Nat.eqb_spec j c); [discriminate|]. injection J as ->. apply bound_in in B. destruct B as (B1 & B2). split; auto.
  apply filter_le. intros k K TK. pose proof (sp_subst _ _ _ _ SP x i k) as SS. rewrite RC in SS. apply SS; auto; [apply meta_in; auto|].
  unfold r_var in *. rewrite RC. destruct (class_root ar h pb I c C) as (Rc & _). rewrite Rc in T. exact T.
Qed.
Fixpoint follow (n : nat) (c : nat) : nat :=
  match n with O => c | S n => match jump c with Some i => follow n i | None => c end end.
Lemma follow_S n : forall c, follow (S n) c = match jump (follow n c) with Some i => i | None => follow n c end.
Proof.
  induction n as [|n IH]; intros c; [reflexivity|]. change (follow (S (S n)) c) with (match jump c with Some i => follow (S n) i | None => c end).
  cbn [follow]. destruct (jump c) as [i|] eqn:J; [apply IH|]. rewrite J. reflexivity.
Qed.
Lemma follow_ok n : forall c, In c (classes pb) -> In (follow n c) (classes pb) /\ below (follow n c) <= below c.
Proof.
  induction n as [|n IH]; intros c C; [cbn; auto|]. cbn [follow]. destruct (jump c) as [i|] eqn:J; [|auto]. destruct (jump_ok c i C J) as (A & B).
  destruct (IH i A). split; auto. lia.
Qed.
Lemma follow_add m : forall n c, follow (m + n) c = follow m (follow n c).
Proof.
  intros n. revert m. induction n as [|n IH]; intros m c; [rewrite Nat.add_0_r; reflexivity|].
  rewrite Nat.add_succ_r. cbn [follow]. destruct (jump c) as [i|] eqn:J; [apply IH|].
  clear -J. induction m; [reflexivity|]. cbn [follow]. rewrite J. reflexivity.
Qed.
Lemma follow_stop n m c : jump (follow n c) = None -> n <= m -> follow m c = follow n c.
Proof.
  intros J L. replace m with ((m - n) + n) by lia. rewrite follow_add. generalize (m - n). intros [|k]; [reflexivity|]. cbn [follow]. rewrite J. reflexivity.
Qed.
(** the jumps end among the classes, or never *)
Lemma follow_ends c : In c (classes pb) -> jump (follow (length (classes pb)) c) <> None -> forall n, jump (follow n c) <> None.
Proof.
  intros C J n Z. set (N := length (classes pb)) in *.
  (* the first end *)
  assert (F : exists e, jump (follow e c) = None /\ forall k, k < e -> jump (follow k c) <> None).
  { clear J. induction n as [n IH] using lt_wf_ind. assert (D : (exists k, k < n /\ jump (follow k c) = None) \/ forall k, k < n -> jump (follow k c) <> None).
    { clear. induction n as [|n [(k & L & E)|IH]]; [right; lia|left; exists k; split; [lia|auto]|]. destruct (jump (follow n c)) eqn:E.
      - right. intros k L. destruct (Nat.eq_dec k n) as [->|]; [congruence|]. apply IH. lia.
      - left. exists n. split; [lia|auto]. }
    destruct D as [(k & L & E)|D]; [exact (IH k L E)|]. exists n. auto. }
  destruct F as (e & E & F). assert (L : N < e). { destruct (le_lt_dec e N) as [L|L]; auto. exfalso. apply J. rewrite (follow_stop e N c E L). exact E. }
  assert (INJ : forall a b, a < b -> b <= e -> follow a c <> follow b c).
  { intros a b AB BE Q. apply (F (e - b + a)); [lia|]. rewrite follow_add, Q, <- follow_add. replace (e - b + b) with e by lia. exact E. }
  assert (ND : NoDup (map (fun k => follow k c) (seq 0 (S N)))).
  { apply map_nodup; [|apply seq_NoDup]. intros a b A B Q. apply in_seq in A. apply in_seq in B.
    destruct (lt_eq_lt_dec a b) as [[H|H]|H]; auto; exfalso; [apply (INJ a b); auto; lia|apply (INJ b a); auto; lia]. }
  assert (LE : length (map (fun k => follow k c) (seq 0 (S N))) <= length (classes pb)).
  { apply NoDup_incl_length; auto. intros y Y. apply in_map_iff in Y. destruct Y as (k & <- & _). apply follow_ok; auto. }
  rewrite map_length, seq_length in LE. unfold N in LE. lia.
Qed.
Fixpoint value (f : nat) (c : nat) : term :=
  match f with
  | O => top
  | S f =>
    let e := follow (length (classes pb)) c in
    match jump e with
    | Some _ => top
    | None =>
      match chosen e with
      | Some t => match tr_meta t with
                  | Some m => Meta m
                  | None => Fun (tr_sym t) [] (map (fun a => value f (root h a)) (tr_args t))
                  end
      | None => top
      end
    end
  end.
Lemma value_stable f : forall f' c, In c (classes pb) -> below c < f -> below c < f' -> value f c = value f' c.
Proof.
  induction f as [|f IH]; intros f' c C L L'; [lia|]. destruct f' as [|f']; [lia|]. cbn [value]. destruct (follow_ok (length (classes pb)) c C) as (E & B).
  destruct (jump _); auto. destruct (chosen_ok _ E) as (t & -> & _ & R & RC & T & O). destruct (tr_meta t) as [m|] eqn:M; auto. f_equal.
  assert (MF : tr_is_meta t = false) by (unfold tr_is_meta; rewrite M; auto).
  apply map_ext_in. intros a A. destruct (arg_class t a R A) as (La & Ca). pose proof (below_lt _ _ Ca E (O MF a A)). apply IH; auto; lia.
Qed.
Definition V (c : nat) : term := value (S (length (classes pb))) c.
Lemma V_jump c i : In c (classes pb) -> jump c = Some i -> V c = V i.
Proof.
  intros C J. set (N := length (classes pb)). destruct (jump_ok c i C J) as (Ci & _).
  assert (FS : follow N i = follow (S N) c) by (cbn [follow]; rewrite J; reflexivity).
  unfold V. fold N. cbn [value]. fold N. rewrite FS. destruct (jump (follow N c)) as [y|] eqn:E.
  - pose proof (follow_ends c C) as FE. fold N in FE. rewrite E in FE. specialize (FE ltac:(discriminate) (S N)). destruct (jump (follow (S N) c)); [auto|congruence].
  - rewrite (follow_stop N (S N) c E) by lia. rewrite E. reflexivity.
Qed.
Lemma value_V f c : In c (classes pb) -> below c < f -> value f c = V c.
Proof. intros C L. pose proof (below_le c). apply value_stable; auto. lia. Qed.
Lemma value_S f c : value (S f) c =
  match jump (follow (length (classes pb)) c) with
  | Some _ => top
  | None =>
    match chosen (follow (length (classes pb)) c) with
    | Some t => match tr_meta t with
                | Some m => Meta m
                | None => Fun (tr_sym t) [] (map (fun a => value f (root h a)) (tr_args t))
                end
    | None => top
    end
  end.
Proof. reflexivity. Qed.
Lemma V_fun c t : In c (classes pb) -> chosen c = Some t -> tr_meta t = None -> V c = Fun (tr_sym t) [] (map (fun a => V (root h a)) (tr_args t)).
Proof.
  intros C E M. assert (J : jump c = None) by (unfold jump, tr_is_meta; rewrite E, M; auto).
  assert (F : follow (length (classes pb)) c = c) by (rewrite (follow_stop 0); auto; lia).
  unfold V at 1. rewrite value_S, F, J, E, M. f_equal. destruct (chosen_ok c C) as (t' & E' & _ & R & RC & T & O). rewrite E in E'. injection E' as <-.
  assert (MF : tr_is_meta t = false) by (unfold tr_is_meta; rewrite M; auto).
  apply map_ext_in. intros a A. destruct (arg_class t a R A) as (La & Ca). pose proof (below_lt _ _ Ca C (O MF a A)). pose proof (below_le c).
  apply value_V; auto; lia.
Qed.
Definition w (i : Z) : term :=
  match zget (pb_metas pb) i with
  | Some x => match bound x with Some c => V c | None => V (root h (tr_class x)) end
  | None => top
  end.
Lemma w_meta x : rec_in pb x -> tr_is_meta x = true -> w (tr_index x) = match bound x with Some c => V c | None => V (root h (tr_class x)) end.
Proof. intros R M. unfold w. rewrite (in_zget _ _ x (i_mkeys _ _ _ I)); auto. apply (i_metas _ _ _ I). auto. Qed.
Lemma translate_V f : forall c t, In c (classes pb) -> translate h pb truth choice f c = Ok t -> tsub w t = V c.
Proof.
  induction f as [|f IH]; intros c t C E; [discriminate|]. destruct (chosen_ok c C) as (r & EC & ET & R & RC & T & O). rewrite translate_S, ET in E. cbn [bind] in E.
  pose proof (i_shape _ _ _ I r R) as SH. unfold shape in SH. destruct (tr_meta r) as [m|] eqn:M.
  - injection E as <-. assert (MT : tr_is_meta r = true) by (unfold tr_is_meta; rewrite M; auto). cbn [tsub]. destruct SH as (_ & <- & _). rewrite (w_meta r R MT).
    destruct (bound r) as [i|] eqn:B; [|rewrite RC; auto]. destruct (Nat.eq_dec i c) as [->|N]; auto. symmetry. apply V_jump; auto.
    unfold jump. rewrite EC, MT, B. apply Nat.eqb_neq in N. rewrite N. reflexivity.
  - destruct (translates f (tr_args r)) as [args| | |] eqn:EA; try discriminate. cbn [bind] in E. injection E as <-. cbn [tsub].
    rewrite (V_fun c r C EC M). f_equal. assert (AR : forall a, In a (tr_args r) -> a < length h /\ In (root h a) (classes pb)) by (intros a; apply arg_class; auto).
    revert args EA AR. generalize (tr_args r). induction l as [|a l IHl]; intros args EA AR; cbn [translates] in EA; [injection EA as <-; reflexivity|].
    destruct (translate h pb truth choice f a) as [x| | |] eqn:EX; try discriminate. cbn [bind] in EA.
    destruct (translates f l) as [y| | |] eqn:EY; try discriminate. cbn [bind] in EA. injection EA as <-. cbn [map]. destruct (AR a (or_introl eq_refl)) as (La & Ca).
    rewrite translate_root in EX by auto. rewrite (IH _ _ Ca EX). f_equal. apply IHl; auto. intros; apply AR; right; auto.
Qed.
Lemma gather_unifies : exists sg, gather h pb truth choice = Ok sg /\ exists u, unifies u sg.
Proof.
  destruct gather_ok as (sg & E & _ & GB). exists sg. split; auto. exists w. intros k t J. destruct (GB k t J) as (x & c & B & EM & ET).
  apply bindings_in in B. destruct B as (R & M & C & T). rewrite (translate_V _ c t C ET).
  pose proof (i_shape _ _ _ I x R) as SH. unfold shape in SH. rewrite EM in SH. destruct SH as (_ & <- & _). rewrite (w_meta x R M).
  destruct (bound x) as [d|] eqn:BX.
  - apply bound_in in BX. destruct BX as (D1 & D2). destruct (Nat.eq_dec c d) as [->|N]; [apply same_term_refl|]. exfalso.
    assert (X : In x (meta_recs pb)) by (apply meta_in; auto). destruct (upairs_in _ _ _ C D1 N) as [P|P]; apply (sp_map _ _ _ _ SP x _ _ X P); auto.
  - exfalso. unfold bound in BX. assert (Q : In c (filter (fun i => truth (s_var h x i)) (classes pb))) by (apply filter_In; auto).
    destruct (filter (fun i => truth (s_var h x i)) (classes pb)); [destruct Q|discriminate].
Qed.
End Sub.
