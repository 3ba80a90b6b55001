(** Lemmas for C118-C122. *)
From Coq Require Import ZArith List Bool Lia Permutation Sorting.Sorted.
From Verif Require Import Ast_Model Occ_Spec Sem_Spec Ast_Proofs Unif_Model Unif_Spec UnifLoss_Model UnifLoss_Proofs UnifMgu_Proofs Elim_Proofs Unif_Final Closure_Model Dmt_Model Select_Model Select_Spec Select_Proofs
  Select_Final GlobUnif_Model GlobUnif_Spec GlobUnif_Final Restrict_Model Restrict_Spec Restrict_Proofs Restrict_Final Leaf_Model Leaf_Spec.
Import ListNotations.
Open Scope list_scope.
Open Scope Z_scope.

(** ** The metavariables of a substitution *)
Lemma metas_ok s i : In i (map m_index (metas_of_subst s)) <-> occurs s i.
Proof.
  unfold metas_of_subst, occurs. rewrite in_map_iff. split.
  - intros (m & E & H). apply in_flat_map in H. destruct H as (b & Hb & Hm). destruct b as [n j f v|k v]; [destruct Hm|]. exists k, v. split; [exact Hb|].
    destruct v as [j|p tys l|j nm|n]; cbn in Hm; (destruct Hm as [<-|Hm]; [left; auto|]); try contradiction.
    + right. rewrite <- (meta_list_idx (Fun p tys l)). apply in_map_iff. exists m. split; [exact E|exact Hm].
    + right. destruct Hm as [<-|[]]. left. exact E.
  - intros (k & t & Hin & [->|Hi]).
    + exists k. split; [reflexivity|]. apply in_flat_map. exists (MTerm k t). split; [exact Hin|]. destruct t; left; reflexivity.
    + rewrite <- meta_list_idx in Hi. apply in_map_iff in Hi. destruct Hi as (m & E & Hm). exists m. split; [exact E|]. apply in_flat_map.
      exists (MTerm k t). split; [exact Hin|]. destruct t as [j|p tys l|j nm|n]; cbn in Hm |- *; auto.
Qed.
Lemma mother_ok s mm : contains_mother s mm = true <->
  (exists n i f v, In (MTy n i f v) s) \/
  exists k t, In (MTerm k t) s /\ (In (m_index k) (map m_index mm) \/ exists n, t = Meta n /\ In (m_index n) (map m_index mm)).
Proof.
  induction s as [|b r IH]; cbn [contains_mother].
  - split; [discriminate|]. intros [(n & i & f & v & [])|(k & t & [] & _)].
  - destruct b as [n i f v|k v]; [split; [intros _; left; do 4 eexists; left; reflexivity|reflexivity]|].
    assert (T : (exists n, v = Meta n /\ In (m_index n) (map m_index mm)) \/ mem k mm = true ->
      (exists n i f v0, In (MTy n i f v0) (MTerm k v :: r)) \/
      exists k0 t, In (MTerm k0 t) (MTerm k v :: r) /\ (In (m_index k0) (map m_index mm) \/ exists n, t = Meta n /\ In (m_index n) (map m_index mm))).
    { intros H. right. exists k, v. split; [left; reflexivity|]. rewrite mem_ok in H. tauto. }
    assert (U : mem k mm = false -> ~ (exists n, v = Meta n /\ In (m_index n) (map m_index mm)) -> (contains_mother r mm = true <->
      (exists n i f v0, In (MTy n i f v0) (MTerm k v :: r)) \/
      exists k0 t, In (MTerm k0 t) (MTerm k v :: r) /\ (In (m_index k0) (map m_index mm) \/ exists n, t = Meta n /\ In (m_index n) (map m_index mm)))).
    { intros E N. rewrite IH. split.
      - intros [(n & i & f & v0 & H)|(k0 & t & H & H2)]; [left; exists n, i, f, v0; right; exact H|right; exists k0, t; split; [right; exact H|exact H2]].
      - intros [(n & i & f & v0 & [H|H])|(k0 & t & [H|H] & H2)]; [discriminate H|left; exists n, i, f, v0; exact H| |right; exists k0, t; auto].
        injection H as <- <-. destruct H2 as [H2|H2]; [|contradiction]. apply mem_ok in H2. congruence. }
    destruct (mem k mm) eqn:E; [split; [intros _; apply T; auto|reflexivity]|].
    destruct v as [j|p tys l|j nm|n]; try (apply U; [reflexivity|intros (x & Q & _); discriminate Q]).
    destruct (mem n mm) eqn:E2.
    + split; [intros _; apply T; left; exists n; split; [reflexivity|apply mem_ok, E2]|reflexivity].
    + apply U; [reflexivity|]. intros (x & Q & H). injection Q as <-. apply mem_ok in H. congruence.
Qed.
Theorem mother_right s mm : contains_mother s mm = true -> ~ apart s mm.
Proof.
  intros H [A1 A2]. apply mother_ok in H. destruct H as [(n & i & f & v & H)|(k & t & H & G)]; [apply (A1 _ _ _ _ H)|].
  destruct G as [G|(n & -> & G)]; apply in_map_iff in G; destruct G as (m & E & Hm); apply (A2 m Hm); rewrite E; exists k.
  - exists t. auto.
  - exists (Meta n). split; [exact H|]. right. left. reflexivity.
Qed.
Theorem mother_misses s mm : contains_mother s mm = false -> (forall k p tys l, In (MTerm k (Fun p tys l)) s -> t_metas (Fun p tys l) = []) -> apart s mm.
Proof.
  intros E G. assert (N : ~ contains_mother s mm = true) by congruence. rewrite mother_ok in N. split.
  - intros n i f v H. apply N. left. exists n, i, f, v. exact H.
  - intros m Hm (k & t & H & O). apply N. right. exists k, t. split; [exact H|]. destruct O as [<-|O]; [left; apply in_map, Hm|].
    destruct t as [j|p tys l|j nm|n]; try (destruct O; fail).
    + rewrite (G _ _ _ _ H) in O. destruct O.
    + right. exists n. split; [reflexivity|]. destruct O as [->|[]]. apply in_map, Hm.
Qed.

(** ** DispatchSubst *)
Lemma same_in s l : existsb (same_subst s) l = true <-> exists t, In t l /\ same_bindings s t.
Proof. rewrite existsb_exists. split; intros (t & H & E); exists t; (split; [exact H|apply subst_eqb, E]). Qed.
Lemma add_new_in l s x : In x (add_new l s) -> In x l \/ x = s.
Proof. unfold add_new. destruct (existsb _ _); [auto|]. rewrite in_app_iff. cbn. intuition. Qed.
Lemma add_new_old l s x : In x l -> In x (add_new l s).
Proof. unfold add_new. destruct (existsb _ _); [auto|]. rewrite in_app_iff. auto. Qed.
Lemma add_new_has l s : exists x, In x (add_new l s) /\ same_bindings s x.
Proof.
  unfold add_new. destruct (existsb (same_subst s) l) eqn:E; [apply same_in, E|]. exists s. rewrite in_app_iff. split; [right; left; reflexivity|apply bindings_refl].
Qed.
Lemma distinct_snoc l s : distinct_substs l -> (forall t, In t l -> ~ same_bindings t s) -> distinct_substs (l ++ [s]).
Proof.
  unfold distinct_substs. induction 1 as [|t l H1 H2 IH]; intros N; cbn; [repeat constructor|]. constructor.
  - apply Forall_app. split; [exact H1|]. constructor; [apply N; left; reflexivity|constructor].
  - apply IH. intros x Hx. apply N. right. exact Hx.
Qed.
Lemma add_new_distinct l s : distinct_substs l -> distinct_substs (add_new l s).
Proof.
  intros D. unfold add_new. destruct (existsb (same_subst s) l) eqn:E; [exact D|]. apply distinct_snoc; [exact D|]. intros t Ht S.
  assert (Q : existsb (same_subst s) l = true) by (apply same_in; exists t; auto using bindings_sym). congruence.
Qed.

Section Dispatch.
Variable rs : subst -> out subst.
Lemma dispatch_inv l : forall p d d', dispatch_substs rs l d = Ok d' -> is_image rs p (d_with d) -> is_kernel rs p (d_without d) ->
  is_image rs (p ++ l) (d_with d') /\ is_kernel rs (p ++ l) (d_without d') /\ forall s, In s l -> exists r, rs s = Ok r.
Proof.
  induction l as [|s l IH]; intros p d d' E Im Ke; cbn in E.
  - injection E as <-. rewrite app_nil_r. split; [exact Im|]. split; [exact Ke|]. intros s [].
  - destruct (rs s) as [x| | |] eqn:Ex; try discriminate. cbn in E.
    assert (Step : forall d0, dispatch_substs rs l d0 = Ok d' -> is_image rs (p ++ [s]) (d_with d0) -> is_kernel rs (p ++ [s]) (d_without d0) ->
      is_image rs (p ++ s :: l) (d_with d') /\ is_kernel rs (p ++ s :: l) (d_without d') /\ forall t, In t (s :: l) -> exists r, rs t = Ok r).
    { intros d0 E0 I0 K0. destruct (IH (p ++ [s]) d0 d' E0 I0 K0) as (I1 & K1 & A1). rewrite <- app_assoc in I1, K1. split; [exact I1|]. split; [exact K1|].
      intros t [<-|Ht]; [exists x; exact Ex|apply A1, Ht]. }
    destruct Im as (D1 & M1 & C1), Ke as (D2 & M2 & C2).
    assert (Sn : forall t, In t (p ++ [s]) <-> In t p \/ t = s) by (intros t; rewrite in_app_iff; cbn; intuition).
    destruct x as [|b x]; apply (Step _ E); cbn [d_with d_without].
    + split; [exact D1|]. split; [intros r Hr; destruct (M1 r Hr) as (Q & t & Ht & Et); split; [exact Q|]; exists t; rewrite Sn; auto|].
      intros t r Ht Et Nr. apply Sn in Ht. destruct Ht as [Ht| ->]; [apply (C1 t r Ht Et Nr)|congruence].
    + split; [apply add_new_distinct, D2|]. split.
      * intros t Ht. apply add_new_in in Ht. rewrite Sn. destruct Ht as [Ht| ->]; [destruct (M2 t Ht); auto|auto].
      * intros t Ht Et. apply Sn in Ht. destruct Ht as [Ht| ->]; [|apply add_new_has]. destruct (C2 t Ht Et) as (t' & H1 & H2). exists t'. split; [apply add_new_old, H1|exact H2].
    + split; [apply add_new_distinct, D1|]. split.
      * intros r Hr. apply add_new_in in Hr. destruct Hr as [Hr| ->].
        -- destruct (M1 r Hr) as (Q & t & Ht & Et). split; [exact Q|]. exists t. rewrite Sn. auto.
        -- split; [discriminate|]. exists s. rewrite Sn. auto.
      * intros t r Ht Et Nr. apply Sn in Ht. destruct Ht as [Ht| ->].
        -- destruct (C1 t r Ht Et Nr) as (r' & H1 & H2). exists r'. split; [apply add_new_old, H1|exact H2].
        -- assert (r = b :: x) as -> by congruence. apply add_new_has.
    + split; [exact D2|]. split; [intros t Ht; rewrite Sn; destruct (M2 t Ht); auto|].
      intros t Ht Et. apply Sn in Ht. destruct Ht as [Ht| ->]; [apply (C2 t Ht Et)|congruence].
Qed.
Theorem dispatch_lists l d : dispatch_substs rs l (mkD [] [] []) = Ok d -> is_image rs l (d_with d) /\ is_kernel rs l (d_without d).
Proof.
  intros E. destruct (dispatch_inv l [] _ _ E) as (I & K & _); [| |split; [exact I|exact K]].
  - split; [constructor|]. split; [intros r []|intros s r []].
  - split; [constructor|]. split; [intros s []|intros s []].
Qed.

(** *** the second list *)
Lemma pair_in {X Y} (R : X -> Y -> Prop) a b x : Forall2 R a b -> In x a -> exists y, In y b /\ R x y.
Proof. induction 1; intros []; [subst; eauto using in_eq|]. destruct (IHForall2 H1) as (z & ? & ?). exists z. auto using in_cons. Qed.
Lemma pair_in_r {X Y} (R : X -> Y -> Prop) a b y : Forall2 R a b -> In y b -> exists x, In x a /\ R x y.
Proof. induction 1; intros []; [subst; eauto using in_eq|]. destruct (IHForall2 H1) as (z & ? & ?). exists z. auto using in_cons. Qed.
Lemma dispatch_paired l0 l : faithful rs l0 -> incl l l0 -> forall d d', dispatch_substs rs l d = Ok d' ->
  Forall2 (fun r s => rs s = Ok r /\ r <> [] /\ In s l0) (d_with d) (d_uncleared d) -> Forall2 (fun r s => rs s = Ok r /\ r <> [] /\ In s l0) (d_with d') (d_uncleared d').
Proof.
  intros F. induction l as [|s l IH]; intros I d d' E P; cbn in E; [injection E as <-; exact P|].
  assert (I' : incl l l0) by (intros x Hx; apply I; right; exact Hx). pose proof (I s (or_introl eq_refl)) as Hs.
  destruct (rs s) as [x| | |] eqn:Ex; try discriminate. cbn in E. destruct x as [|b x]; apply (IH I' _ _ E); cbn [d_with d_uncleared]; [exact P|].
  unfold add_new. destruct (existsb (same_subst (b :: x)) (d_with d)) eqn:E1, (existsb (same_subst s) (d_uncleared d)) eqn:E2; [exact P| | |].
  - exfalso. apply same_in in E1. destruct E1 as (r & Hr & Sr). destruct (pair_in _ _ _ _ P Hr) as (t & Ht & Et & Nr & It).
    assert (Q : existsb (same_subst s) (d_uncleared d) = true); [|congruence].
    apply same_in. exists t. split; [exact Ht|]. apply (F s t (b :: x) r Hs It Ex Et); [discriminate|exact Nr|exact Sr].
  - exfalso. apply same_in in E2. destruct E2 as (t & Ht & St). destruct (pair_in_r _ _ _ _ P Ht) as (r & Hr & Et & Nr & It).
    assert (Q : existsb (same_subst (b :: x)) (d_with d) = true); [|congruence].
    apply same_in. exists r. split; [exact Hr|]. apply (F s t (b :: x) r Hs It Ex Et); [discriminate|exact Nr|exact St].
  - apply Forall2_app; [exact P|]. constructor; [|constructor]. split; [exact Ex|]. split; [discriminate|exact Hs].
Qed.
Lemma forall2_nth {X Y} (R : X -> Y -> Prop) a b : Forall2 R a b -> forall i x y, nth_error a i = Some x -> nth_error b i = Some y -> R x y.
Proof. induction 1; intros [|i] u v; cbn; try discriminate; [congruence|]. apply IHForall2. Qed.
Theorem dispatch_pairs l d : faithful rs l -> dispatch_substs rs l (mkD [] [] []) = Ok d ->
  paired rs (d_with d) (d_uncleared d) /\ List.length (d_with d) = List.length (d_uncleared d) /\ incl (d_uncleared d) l.
Proof.
  intros F E. pose proof (dispatch_paired l l F (incl_refl l) _ _ E (Forall2_nil _)) as P. split; [|split].
  - intros i r s H1 H2. apply (forall2_nth _ _ _ P i r s H1 H2).
  - induction P; cbn; congruence.
  - intros s Hs. destruct (pair_in_r _ _ _ _ P Hs) as (r & _ & _ & _ & H). exact H.
Qed.
Lemma dispatch_long l0 l : congruent rs l0 -> incl l l0 -> forall d d', dispatch_substs rs l d = Ok d' ->
  (List.length (d_with d) <= List.length (d_uncleared d))%nat ->
  (forall s, In s (d_uncleared d) -> In s l0 /\ exists r r', rs s = Ok r /\ In r' (d_with d) /\ same_bindings r r') ->
  (List.length (d_with d') <= List.length (d_uncleared d'))%nat.
Proof.
  intros C. induction l as [|s l IH]; intros I d d' E Le U; cbn in E; [injection E as <-; exact Le|].
  assert (I' : incl l l0) by (intros x Hx; apply I; right; exact Hx). pose proof (I s (or_introl eq_refl)) as Hs.
  destruct (rs s) as [x| | |] eqn:Ex; try discriminate. cbn in E. destruct x as [|b x]; apply (IH I' _ _ E); cbn [d_with d_uncleared]; auto.
  - unfold add_new. destruct (existsb (same_subst (b :: x)) (d_with d)) eqn:E1, (existsb (same_subst s) (d_uncleared d)) eqn:E2; rewrite ?app_length; cbn; try lia.
    exfalso. apply same_in in E2. destruct E2 as (t & Ht & St). destruct (U t Ht) as (It & r & r' & Er & Hr & Sr).
    assert (Q : existsb (same_subst (b :: x)) (d_with d) = true); [|congruence]. apply same_in. exists r'. split; [exact Hr|].
    apply bindings_trans with r; [apply (C s t (b :: x) r Hs It Ex Er St)|exact Sr].
  - intros t Ht. apply add_new_in in Ht. destruct Ht as [Ht| ->].
    + destruct (U t Ht) as (It & r & r' & Er & Hr & Sr). split; [exact It|]. exists r, r'. split; [exact Er|]. split; [apply add_new_old, Hr|exact Sr].
    + split; [exact Hs|]. destruct (add_new_has (d_with d) (b :: x)) as (r' & H1 & H2). exists (b :: x), r'. auto.
Qed.
Theorem dispatch_index l d : congruent rs l -> dispatch_substs rs l (mkD [] [] []) = Ok d -> (List.length (d_with d) <= List.length (d_uncleared d))%nat.
Proof. intros C E. apply (dispatch_long l l C (incl_refl l) _ _ E); [apply le_n|intros s []]. Qed.
End Dispatch.

(** ** The formulas to introduce again *)
Lemma append_int_in l i j : In j (append_int l i) <-> In j l \/ j = i.
Proof.
  unfold append_int. destruct (existsb (Z.eqb i) l) eqn:E; [|rewrite in_app_iff; cbn; intuition].
  split; [auto|]. intros [H| ->]; [exact H|]. apply existsb_exists in E. destruct E as (x & H & Q). apply Z.eqb_eq in Q. subst. exact H.
Qed.
Lemma append_int_nodup l i : NoDup l -> NoDup (append_int l i).
Proof.
  intros N. unfold append_int. destruct (existsb (Z.eqb i) l) eqn:E; [exact N|]. apply (Permutation_NoDup (Permutation_cons_append l i)).
  constructor; [|exact N]. intros H. assert (existsb (Z.eqb i) l = true); [|congruence]. apply existsb_exists. exists i. split; [exact H|apply Z.eqb_refl].
Qed.
Lemma union_int_ok l2 : forall l1, (forall j, In j (union_int l1 l2) <-> In j l1 \/ In j l2) /\ (NoDup l1 -> NoDup (union_int l1 l2)).
Proof.
  unfold union_int. induction l2 as [|i r IH]; intros l1; cbn; [split; [intros j; tauto|auto]|]. destruct (IH (append_int l1 i)) as [H1 H2]. split.
  - intros j. rewrite H1, append_int_in. intuition.
  - intros N. apply H2, append_int_nodup, N.
Qed.
Lemma formulas_of_in s i : In i (formulas_of s) <-> exists k v, In (MTerm k v) s /\ m_formula k = i.
Proof.
  unfold formulas_of. assert (G : forall acc, In i (fold_left (fun res b => match b with MTerm k _ => append_int res (m_formula k) | MTy _ _ _ _ => res end) s acc) <->
    In i acc \/ exists k v, In (MTerm k v) s /\ m_formula k = i).
  { induction s as [|b r IH]; intros acc; cbn; [split; [auto|intros [H|(k & v & [] & _)]; exact H]|]. rewrite IH. destruct b as [n j f v|k v].
    - split; (intros [H|(k & w & H & E)]; [auto|right; exists k, w]); [auto|]. destruct H as [H|H]; [discriminate|auto].
    - rewrite append_int_in. split.
      + intros [[H| ->]|(k' & w & H & E)]; [auto|right; exists k, v; auto|right; exists k', w; auto].
      + intros [H|(k' & w & [H|H] & E)]; [auto| |right; exists k', w; auto]. injection H as <- <-. auto. }
  rewrite G. cbn. tauto.
Qed.
Lemma insert_in i l j : In j (insert_int i l) <-> j = i \/ In j l.
Proof.
  induction l as [|k r IH]; cbn; [intuition|]. destruct (i <=? k); cbn; [intuition|]. rewrite IH. intuition.
Qed.
Lemma sort_in l j : In j (sort_ints l) <-> In j l.
Proof. unfold sort_ints. induction l as [|i r IH]; cbn; [tauto|]. rewrite insert_in, IH. intuition. Qed.
Lemma insert_sorted i l : StronglySorted Z.lt l -> ~ In i l -> StronglySorted Z.lt (insert_int i l).
Proof.
  induction 1 as [|k r Hs IH Hf]; intros N; cbn; [repeat constructor|]. destruct (i <=? k) eqn:E.
  - assert (i < k) by (cbn in N; lia). constructor; [constructor; assumption|]. constructor; [assumption|]. eapply Forall_impl; [|exact Hf]. cbn. lia.
  - constructor; [apply IH; cbn in N; tauto|]. apply Forall_forall. intros x Hx. apply insert_in in Hx. destruct Hx as [->|Hx]; [lia|]. rewrite Forall_forall in Hf. apply Hf, Hx.
Qed.
Lemma sort_sorted l : NoDup l -> StronglySorted Z.lt (sort_ints l).
Proof.
  induction 1 as [|i r N Nd IH]; cbn; [constructor|]. apply insert_sorted; [exact IH|]. rewrite (sort_in r i). exact N.
Qed.
