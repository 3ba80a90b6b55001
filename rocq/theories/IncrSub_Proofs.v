(** Substitutions of the incremental search: what merging two of them gives. *)
From Coq Require Import ZArith List Bool String Lia.
From Verif Require Import LibSet_Model Ast_Model Problem_Model Rules_Model Sem_Spec Rules_Spec Ast_Proofs
  Unif_Model UnifTree_Model Closure_Proofs Incr_Model Incr_Spec.
Import ListNotations.
Open Scope list_scope.
Open Scope Z_scope.

Lemma nodup_app {A} (l l' : list A) : NoDup l -> NoDup l' -> (forall z, In z l -> In z l' -> False) -> NoDup (l ++ l').
Proof.
  induction l as [|a l IH]; intros N1 N2 D; cbn; auto. inversion N1; subst. constructor.
  - rewrite in_app_iff. intros [H|H]; [auto|]. apply (D a); [left; auto|auto].
  - apply IH; auto. intros z B. apply D. right; auto.
Qed.
Lemma forallb_false {A} (p : A -> bool) l : forallb p l = false -> exists a, In a l /\ p a = false.
Proof.
  induction l as [|a l IH]; cbn; [discriminate|]. intros E. apply andb_false_iff in E as [E|E]; [eauto|].
  destruct (IH E) as (b & H & K). eauto.
Qed.
Definition keys (l : list single) : list Z := map (fun b => m_index (fst b)) l.
Lemma contains_some s k c : contains_meta s k = Some c -> In c (every s) /\ m_index (fst c) = m_index k.
Proof. unfold contains_meta. intros E. apply find_some in E as [H K]. unfold meta_eqb in K. apply Z.eqb_eq in K. auto. Qed.
Lemma contains_none s k c : contains_meta s k = None -> In c (every s) -> m_index (fst c) <> m_index k.
Proof. unfold contains_meta. intros E H. pose proof (find_none _ _ E c H) as K. cbn in K. unfold meta_eqb in K. apply Z.eqb_neq in K. auto. Qed.
Lemma keys_inj l (a b : single) : NoDup (keys l) -> In a l -> In b l -> m_index (fst a) = m_index (fst b) -> a = b.
Proof.
  induction l as [|c l IH]; intros N A B E; [destruct A|]. cbn in N. inversion N as [|? ? NI N']; subst.
  destruct A as [<-|A], B as [<-|B]; auto.
  - exfalso. apply NI. rewrite E. apply (in_map (fun b : single => m_index (fst b))). auto.
  - exfalso. apply NI. rewrite <- E. apply (in_map (fun b : single => m_index (fst b))). auto.
Qed.
Lemma contains_at s k c : functional s -> In c (every s) -> m_index (fst c) = m_index k -> contains_meta s k = Some c.
Proof.
  intros F H E. destruct (contains_meta s k) as [d|] eqn:C.
  - apply contains_some in C as [D K]. f_equal. eapply keys_inj; eauto. congruence.
  - exfalso. eapply contains_none; eauto.
Qed.
Lemma satisfies_key t s k k' u u' : satisfies t s -> In (k, Some u) (every s) -> m_index k = m_index k' -> same_term u u' ->
  same_term (ssubst t (Meta k')) (ssubst t u').
Proof.
  intros S H K U. eapply same_term_trans; [apply ssubst_same; constructor; symmetry; exact K|].
  eapply same_term_trans; [apply S; exact H|]. apply ssubst_same; auto.
Qed.

(** the general case of buildCompatibleWith *)
Definition merged (s o : sub) : list single :=
  map (fun b => match snd b with
                | Some _ => b
                | None => match contains_meta o (fst b) with Some c => c | None => b end
                end) (every s) ++
  filter (fun c => match contains_meta s (fst c) with Some _ => false | None => true end) (every o).
Lemma build_cases s o x : build s o = Some x -> x = Sub (merged s o) /\ (s = Joker \/ o = Joker \/ compatible s o = true).
Proof.
  assert (F : forall l : list single, filter (fun c => match contains_meta Joker (fst c) with Some _ => false | None => true end) l = l).
  { induction l as [|a l IH]; cbn; auto. exact (f_equal (cons a) IH). }
  assert (M : forall l : list single, map (fun b => match snd b with Some _ => b | None => match contains_meta Joker (fst b) with Some c => c | None => b end end) l = l).
  { induction l as [|[k [u|]] l IH]; cbn; auto; [exact (f_equal (cons (k, Some u)) IH)|exact (f_equal (cons (k, None)) IH)]. }
  unfold build, merged. destruct s as [|s], o as [|o].
  - intros E. injection E as <-. auto.
  - intros E. injection E as <-. split; auto. f_equal. symmetry. apply F.
  - intros E. injection E as <-. split; auto. f_equal. cbn [every filter]. rewrite app_nil_r. symmetry. apply M.
  - destruct (compatible (Sub s) (Sub o)) eqn:C; [|discriminate]. intros E. injection E as <-. auto.
Qed.
Lemma compatible_at s o k u : compatible s o = true -> s <> Joker -> o <> Joker -> In (k, Some u) (every s) ->
  forall c u', contains_meta o k = Some c -> snd c = Some u' -> same_term u' u.
Proof.
  intros C NS NO H c u' K U. destruct s as [|s]; [contradiction|]. destruct o as [|o]; [contradiction|].
  unfold compatible in C. rewrite forallb_forall in C. specialize (C _ H). cbn [fst snd] in C. rewrite K, U in C.
  apply term_eqb_reflect. auto.
Qed.
Lemma merged_keys s o : functional s -> functional o -> NoDup (keys (merged s o)).
Proof.
  intros Fs Fo. unfold merged.
  set (q := fun b : single => match snd b with Some _ => b | None => match contains_meta o (fst b) with Some c => c | None => b end end).
  assert (K : keys (map q (every s)) = keys (every s)).
  { unfold keys. rewrite map_map. apply map_ext_in. intros [k [u|]] _; cbn; auto. destruct (contains_meta o k) eqn:E; auto. apply contains_some in E as [_ E]. auto. }
  unfold functional in *. fold (keys (every s)) in Fs. rewrite <- K in Fs.
  assert (K' : forall a b, keys (a ++ b) = keys a ++ keys b) by (intros; unfold keys; apply map_app).
  rewrite K'. clear K'.
  set (p := fun c : single => match contains_meta s (fst c) with Some _ => false | None => true end).
  assert (N : NoDup (keys (filter p (every o)))).
  { unfold keys. revert Fo. generalize (every o). induction l as [|a l IH]; cbn; auto. intros N. inversion N; subst. destruct (p a); cbn; auto.
    constructor; auto. intros H. apply H1. apply in_map_iff in H as (b & E & H). apply filter_In in H as [H _]. rewrite <- E. apply in_map_iff. eauto. }
  assert (D : forall z, In z (keys (map q (every s))) -> In z (keys (filter p (every o))) -> False).
  { rewrite K. intros z A B. apply in_map_iff in A as (a & Ea & A). apply in_map_iff in B as (b & Eb & B). apply filter_In in B as [_ B].
    unfold p in B. destruct (contains_meta s (fst b)) eqn:C; [discriminate|]. apply (contains_none _ _ a C A). congruence. }
  exact (nodup_app _ _ Fs N D).
Qed.
Lemma build_functional s o x : functional s -> functional o -> build s o = Some x -> functional x.
Proof. intros Fs Fo B. apply build_cases in B as [-> _]. apply merged_keys; auto. Qed.
(** a solution of both is a solution of the merge, and conversely *)
Lemma build_satisfies s o x t : functional s -> functional o -> build s o = Some x ->
  (satisfies t x <-> satisfies t s /\ satisfies t o).
Proof.
  intros Fs Fo B. apply build_cases in B as [-> C]. split.
  - intros S.
    assert (A : satisfies t s).
    { intros k u H. apply S. cbn [every]. unfold merged. apply in_or_app. left. apply in_map_iff. exists (k, Some u). auto. }
    split; auto. intros k u H. destruct (contains_meta s k) as [[k1 [u1|]]|] eqn:E.
    + pose proof (contains_some _ _ _ E) as [H1 K1]. cbn [fst] in K1.
      assert (NS : s <> Joker) by (intros ->; destruct H1). assert (NO : o <> Joker) by (intros ->; destruct H).
      assert (CC : compatible s o = true) by (destruct C as [C|[C|C]]; [contradiction|contradiction|auto]).
      assert (E2 : contains_meta o k1 = Some (k, Some u)) by (apply contains_at; auto).
      pose proof (compatible_at s o k1 u1 CC NS NO H1 _ u E2 eq_refl) as T. eapply satisfies_key; [exact A|exact H1|auto|apply same_term_sym; auto].
    + pose proof (contains_some _ _ _ E) as [H1 K1]. cbn [fst] in K1. apply S. cbn [every]. unfold merged. apply in_or_app. left.
      apply in_map_iff. exists (k1, None). cbn [fst snd]. rewrite (contains_at o k1 (k, Some u)); auto.
    + apply S. cbn [every]. unfold merged. apply in_or_app. right. apply filter_In. split; auto. cbn [fst]. rewrite E. auto.
  - intros [A B] k u H. cbn [every] in H. unfold merged in H. apply in_app_iff in H as [H|H].
    + apply in_map_iff in H as ([k1 [u1|]] & E & H); cbn [fst snd] in E.
      * injection E as <- <-. auto.
      * destruct (contains_meta o k1) as [c|] eqn:K; [|discriminate]. apply contains_some in K as [K _]. subst c. auto.
    + apply filter_In in H as [H _]. auto.
Qed.
(** nothing is merged exactly when some metavariable is bound to two terms *)
Lemma build_none s o : functional o -> (build s o = None <-> disagree s o).
Proof.
  intros Fo. split.
  - intros B. destruct s as [|s]; [discriminate|]. destruct o as [|o]; [discriminate|].
    unfold build in B. destruct (compatible (Sub s) (Sub o)) eqn:C; [discriminate|]. unfold compatible in C.
    apply forallb_false in C as ([k [u|]] & H & X); cbn [fst snd] in X.
    + destruct (contains_meta (Sub o) k) as [[k' [u'|]]|] eqn:K; cbn [snd] in X; try discriminate.
      apply contains_some in K as [K1 K2]. cbn [fst] in K2. exists k, k', u, u'. split; auto. split; auto. split; auto. intros T. apply same_term_sym, term_eqb_reflect in T.
      rewrite T in X. discriminate.
    + destruct (contains_meta (Sub o) k) as [[k' [u'|]]|]; discriminate.
  - intros (k & k' & u & u' & H & H' & K & N). destruct (build s o) as [x|] eqn:B; auto. exfalso. apply build_cases in B as [_ C].
    assert (NS : s <> Joker) by (intros ->; destruct H). assert (NO : o <> Joker) by (intros ->; destruct H').
    destruct C as [C|[C|C]]; [contradiction|contradiction|]. apply N.
    apply same_term_sym. eapply (compatible_at s o k u C NS NO H (k', Some u') u'); auto. apply contains_at; auto.
Qed.

(** ** Lists of substitutions *)
Lemma sl_add_in l o x : In x (sl_add l o) -> In x l \/ x = o.
Proof. unfold sl_add. destruct sl_contains; auto. rewrite in_app_iff. cbn. intuition. Qed.
Lemma sl_add_ne l o : sl_add l o <> [].
Proof.
  unfold sl_add, sl_contains. destruct (existsb _ l) eqn:E; [|intros K; apply app_eq_nil in K as [_ K]; discriminate].
  intros ->. discriminate.
Qed.
Lemma sl_append_in os : forall l x, In x (sl_append l os) -> In x l \/ In x os.
Proof.
  unfold sl_append. induction os as [|o os IH]; cbn; auto. intros l x H. apply IH in H as [H|H]; auto. apply sl_add_in in H as [H|H]; auto.
Qed.
Lemma sl_append_ne os : forall l, l <> [] \/ os <> [] -> sl_append l os <> [].
Proof.
  unfold sl_append. induction os as [|o os IH]; cbn; intros l [H|H]; auto; apply IH; left; apply sl_add_ne.
Qed.
Lemma compat_inner s r : forall acc x, In x (fold_left (fun acc o => match build s o with Some x => sl_add acc x | None => acc end) r acc) ->
  In x acc \/ exists o, In o r /\ build s o = Some x.
Proof.
  induction r as [|o r IH]; cbn; auto. intros acc x H. apply IH in H as [H|(o' & H1 & H2)]; [|right; eauto].
  destruct (build s o) as [y|] eqn:E; auto. apply sl_add_in in H as [H| ->]; auto. right. eauto.
Qed.
Lemma compat_between_in l r x : In x (compat_between l r) -> exists s o, In s l /\ In o r /\ build s o = Some x.
Proof.
  unfold compat_between.
  enough (Z : forall acc, In x (fold_left (fun acc s => fold_left (fun acc o => match build s o with Some x => sl_add acc x | None => acc end) r acc) l acc) ->
    In x acc \/ exists s o, In s l /\ In o r /\ build s o = Some x) by (intros H; apply Z in H as [[]|H]; auto).
  induction l as [|s l IH]; cbn; auto. intros acc H. apply IH in H as [H|(s' & o & H1 & H2 & H3)]; [|right; exists s', o; auto].
  apply compat_inner in H as [H|(o & H1 & H2)]; auto. right. exists s, o. auto.
Qed.
Definition trivial_sub (s : sub) : Prop := every s = [].
Lemma build_trivial s o : trivial_sub s -> trivial_sub o -> exists x, build s o = Some x /\ trivial_sub x.
Proof. unfold trivial_sub. destruct s as [|[|]], o as [|[|]]; cbn; intros A B; try discriminate; eexists; split; eauto. Qed.
Lemma inner_ne s r : forall acc, acc <> [] \/ (exists o, In o r /\ build s o <> None) ->
  fold_left (fun acc o => match build s o with Some x => sl_add acc x | None => acc end) r acc <> [].
Proof.
  induction r as [|o r IH]; cbn; intros acc [H|(o' & H1 & H2)]; auto.
  - apply IH. left. destruct build; [apply sl_add_ne|auto].
  - destruct H1 as [<-|H1]; [|apply IH; eauto]. apply IH. left. destruct build; [apply sl_add_ne|contradiction].
Qed.
Lemma between_ne l r s o : In s l -> In o r -> build s o <> None -> compat_between l r <> [].
Proof.
  unfold compat_between.
  assert (Z : forall l acc, acc <> [] -> fold_left (fun acc s => fold_left (fun acc o => match build s o with Some x => sl_add acc x | None => acc end) r acc) l acc <> []).
  { induction l0 as [|a l0 IH]; cbn; auto. intros acc H. apply IH, inner_ne. auto. }
  enough (Y : forall acc, In s l -> In o r -> build s o <> None ->
    fold_left (fun acc s => fold_left (fun acc o => match build s o with Some x => sl_add acc x | None => acc end) r acc) l acc <> []) by apply Y.
  induction l as [|a l IH]; intros acc A B C; [destruct A|]. cbn [fold_left].
  destruct A as [<-|A]; [|apply IH; auto]. apply Z, inner_ne. right. eauto.
Qed.
Definition sat_all (t : list (meta * term)) (C : list (list sub)) : Prop := Forall (fun l => exists s, In s l /\ satisfies t s) C.
Lemma compat_fold r : forall c x, In x (fold_left compat_between r c) ->
  (forall l s, In l (c :: r) -> In s l -> functional s) ->
  functional x /\ forall t, satisfies t x -> sat_all t (c :: r).
Proof.
  induction r as [|d r IH]; intros c x H F; cbn [fold_left] in H.
  - split; [eapply F; [left; eauto|auto]|]. intros t S. constructor; [eauto|constructor].
  - destruct (IH _ _ H) as [A B].
    { intros l s [<-|Hl] Hs; [|eapply F; [right; right; eauto|auto]]. apply compat_between_in in Hs as (a & b & Ha & Hb & Bd).
      eapply build_functional; [| |exact Bd]; eapply F; eauto; cbn; auto. }
    split; auto. intros t S. specialize (B t S). inversion B as [|? ? (s & Hs & Ss) B']; subst.
    apply compat_between_in in Hs as (a & b & Ha & Hb & Bd).
    assert (Fa : functional a) by (eapply F; eauto; cbn; auto). assert (Fb : functional b) by (eapply F; eauto; cbn; auto).
    apply (build_satisfies a b s t Fa Fb Bd) in Ss as [Sa Sb]. constructor; [eauto|]. constructor; [eauto|auto].
Qed.
Lemma compat_trivial r : forall c, (forall l, In l (c :: r) -> l <> [] /\ forall s, In s l -> trivial_sub s) ->
  fold_left compat_between r c <> [] /\ forall s, In s (fold_left compat_between r c) -> trivial_sub s.
Proof.
  induction r as [|d r IH]; intros c H; cbn [fold_left]; [apply H; left; auto|].
  destruct (H c (or_introl eq_refl)) as [Nc Tc], (H d (or_intror (or_introl eq_refl))) as [Nd Td].
  apply IH. intros l [<-|Hl]; [|apply H; right; right; auto]. split.
  - destruct c as [|s c]; [contradiction|]. destruct d as [|o d]; [contradiction|].
    destruct (build_trivial s o) as (x & E & _); [apply Tc; left; auto|apply Td; left; auto|].
    eapply (between_ne _ _ s o); [left; auto|left; auto|congruence].
  - intros s Hs. apply compat_between_in in Hs as (a & b & Ha & Hb & Bd).
    destruct (build_trivial a b (Tc a Ha) (Td b Hb)) as (x & E & T). congruence.
Qed.
(** compatibility in the other direction: solutions of one substitution of each list are not lost, unless two of them disagree *)
Lemma trivial_weaken r : forall c, (forall l, In l (c :: r) -> forall s, In s l -> trivial_sub s) ->
  forall s, In s (fold_left compat_between r c) -> trivial_sub s.
Proof.
  induction r as [|d r IH]; intros c H s Hs; cbn [fold_left] in Hs; [eapply H; [left; eauto|auto]|].
  apply (IH _) in Hs; auto. intros l [<-|Hl] x Hx; [|eapply H; [right; right; eauto|auto]].
  apply compat_between_in in Hx as (a & b & Ha & Hb & Bd). destruct (build_trivial a b) as (y & E & T); [eapply H; eauto; cbn; auto|eapply H; eauto; cbn; auto|]. congruence.
Qed.
