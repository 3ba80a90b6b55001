(** The unifier of a subtree with the merge of the code: the substitutions are read as systems of equations. *)
From Coq Require Import ZArith List Bool Lia.
From Verif Require Import Ast_Model Sem_Spec Ast_Proofs Unif_Model Unif_Spec UnifLoss_Model UnifLoss_Proofs UnifRun_Proofs Unif_Final Closure_Model Select_Model Select_Spec Select_Proofs Select_Final GlobUnif_Model GlobUnif_Spec GlobUnif_Proofs.
Import ListNotations.
Open Scope list_scope.

(** *** a merge that gives up more often *)
Section Refine.
Variables mg1 mg2 : subst -> subst -> out (option subst).
Hypothesis R : forall s t, refines (mg1 s t) (mg2 s t).
Lemma prune_refines s u : refines (prune mg1 s u) (prune mg2 s u).
Proof. induction u as [|p u IH]; cbn [prune]; [apply refines_refl|]. apply refines_bind; [apply R|]. intros m. apply refines_bind; [exact IH|]. intros; apply refines_refl. Qed.
Lemma merge_row_refines s l : refines (merge_row mg1 s l) (merge_row mg2 s l).
Proof. induction l as [|t l IH]; cbn [merge_row]; [apply refines_refl|]. apply refines_bind; [apply R|]. intros m. apply refines_bind; [exact IH|]. intros; apply refines_refl. Qed.
Lemma merge_actual_refines l1 l2 : refines (merge_actual mg1 l1 l2) (merge_actual mg2 l1 l2).
Proof. induction l1 as [|t l IH]; cbn [merge_actual]; [apply refines_refl|]. apply refines_bind; [apply merge_row_refines|]. intros m. apply refines_bind; [exact IH|]. intros; apply refines_refl. Qed.
Lemma merge_pair_refines p v : forall acc, refines (merge_pair mg1 p v acc) (merge_pair mg2 p v acc).
Proof.
  induction v as [|q v IH]; intros acc; cbn [merge_pair]; [apply refines_refl|]. apply refines_bind; [apply R|]. intros [res|]; [|apply IH].
  apply refines_bind; [apply merge_actual_refines|]. intros new. apply IH.
Qed.
Lemma merge_pairs_refines u v : forall acc, refines (merge_pairs mg1 u v acc) (merge_pairs mg2 u v acc).
Proof. induction u as [|p u IH]; intros acc; cbn [merge_pairs]; [apply refines_refl|]. apply refines_bind; [apply merge_pair_refines|]. intros; apply IH. Qed.
Lemma merge_unif_refines u v : refines (merge_unif mg1 u v) (merge_unif mg2 u v).
Proof. destruct u as [|p u]; [apply refines_refl|]. destruct v as [|q v]; [apply refines_refl|]. apply merge_pairs_refines. Qed.
Lemma merge_rest_refines l : forall u, refines (merge_rest mg1 u l) (merge_rest mg2 u l).
Proof. induction l as [|v l IH]; intros u; cbn [merge_rest]; [apply refines_refl|]. apply refines_bind; [apply merge_unif_refines|]. intros; apply IH. Qed.
Lemma merge_list_refines l : refines (merge_list mg1 l) (merge_list mg2 l).
Proof. destruct l as [|u l]; [apply refines_refl|]. apply merge_rest_refines. Qed.
Lemma tree_refines t : refines (tree_unif mg1 t) (tree_unif mg2 t).
Proof.
  induction t as [l|c a t IH|ap mc l IH] using tree_ind'; [apply refines_refl| |].
  - cbn [tree_unif]. apply refines_bind; [exact IH|]. intros u. unfold choose_unif. apply refines_bind; [apply prune_refines|]. intros; apply refines_refl.
  - rewrite !tree_node. apply refines_bind.
    + induction IH as [|t l Ht _ IHl]; cbn [trees_unif]; [apply refines_refl|]. apply refines_bind; [exact Ht|]. intros u. apply refines_bind; [exact IHl|]. intros; apply refines_refl.
    + intros us. unfold node_unif. apply refines_bind; [apply merge_list_refines|]. intros u. apply refines_bind; [apply merge_unif_refines|]. intros; apply refines_refl.
Qed.
Lemma trees_refines l : refines (trees_unif mg1 l) (trees_unif mg2 l).
Proof. induction l as [|t l IH]; cbn [trees_unif]; [apply refines_refl|]. apply refines_bind; [apply tree_refines|]. intros u. apply refines_bind; [exact IH|]. intros; apply refines_refl. Qed.
Lemma refines_ok {A} (x y : out A) a : refines x y -> x = Ok a -> y = Ok a.
Proof. intros [H|H] E; congruence. Qed.
Lemma alive_refines t : alive mg2 t -> alive mg1 t.
Proof.
  induction t as [l|c a t IH|ap mc l IH] using tree_ind'; [auto| |].
  - intros [A H]. split; [auto|]. intros u E Q. eapply H; [eapply refines_ok; [apply tree_refines|exact E]|eapply refines_ok; [apply prune_refines|exact Q]].
  - intros (A & H1 & H2). split; [|split].
    + clear H1 H2. induction IH as [|t l Ht _ IHl]; [exact I|]. destruct A as [A1 A2]. split; [apply Ht, A1|apply IHl, A2].
    + intros us n E Q. eapply H1; [eapply refines_ok; [apply trees_refines|exact E]|eapply refines_ok; [apply merge_list_refines|exact Q]].
    + intros us u E Q N. eapply H2; [eapply refines_ok; [apply trees_refines|exact E]|eapply refines_ok; [apply merge_list_refines|exact Q]|eapply refines_ok; [apply merge_unif_refines|exact N]].
Qed.
End Refine.

(** *** the merge of the code *)
Lemma mix_ok fe add s t m : mix fe add s t = Ok (Some m) -> merge fe add (binds s) (binds t) = Ok (binds m) /\ is_failure (binds m) = false.
Proof.
  unfold mix. intros H. destruct (to_substs s) as [s0| | |] eqn:Es; cbn in H; try discriminate. destruct (to_substs t) as [t0| | |] eqn:Et; cbn in H; try discriminate.
  apply to_substs_ok in Es, Et. subst s0 t0. destruct (merge fe add (binds s) (binds t)) as [r| | |]; cbn in H; try discriminate.
  destruct (is_failure r) eqn:F; [discriminate|]. injection H as <-. rewrite binds_terms. auto.
Qed.
Lemma mix_refines n fe s t : refines (mix fe (add_unif_s true n fe) s t) (mix fe (add_unif n fe) s t).
Proof.
  unfold mix. apply refines_bind; [apply refines_refl|]. intros s0. apply refines_bind; [apply refines_refl|]. intros t0.
  apply refines_bind; [apply merge_refines, strict_refines|]. intros; apply refines_refl.
Qed.
Lemma mix_merging ar n fe : merging (proper ar) consequence (mix fe (add_unif_s true n fe)).
Proof.
  intros s t m Gs Gt E. pose proof (refines_ok _ _ _ (mix_refines n fe s t) E) as E'. apply mix_ok in E, E'. destruct E as [E F], E' as [E' _].
  assert (S : forall A w, solves A w (binds m) -> solves A w (binds s) /\ solves A w (binds t)) by (apply (merge_sound ar fe n _ _ _ Gs Gt); [congruence|exact E'|exact F]).
  split.
  - pose proof (merge_safe ar fe n _ _ Gs Gt) as Q. rewrite E' in Q. cbn in Q. destruct Q as [Q|Q]; [congruence|exact Q].
  - split; intros A w _ H; apply (S A w H).
Qed.
Theorem tree_closes_real ar n fe t u : all_good (proper ar) t -> alive (mix fe (add_unif n fe)) t ->
  tree_unif (mix fe (add_unif_s true n fe)) t <> Out -> tree_unif (mix fe (add_unif n fe)) t = Ok u ->
  u <> [] /\ forall k s, stored u k s -> closes consequence s t.
Proof.
  intros G A N E. pose proof (alive_refines _ _ (mix_refines n fe) t A) as A'.
  assert (E' : tree_unif (mix fe (add_unif_s true n fe)) t = Ok u) by (destruct (tree_refines _ _ (mix_refines n fe) t) as [Q|Q]; congruence).
  destruct (tree_closes (mix fe (add_unif_s true n fe)) (proper ar) consequence) with (t := t) (u := u) as [H1 H2]; auto.
  - intros s B w _ H. exact H.
  - intros s t0 v H K B w T S. apply K, H; assumption.
  - apply mix_merging.
  - split; [exact H1|]. intros k s S. apply H2. exists k. exact S.
Qed.
Theorem final_closes ar n fe t u : all_good (proper ar) t -> alive (mix fe (add_unif n fe)) t ->
  tree_unif (mix fe (add_unif_s true n fe)) t <> Out -> tree_unif (mix fe (add_unif n fe)) t = Ok u ->
  (forall k, ~ hd_error u = Some (k, [])) -> closes consequence (get_unifier u) t.
Proof.
  intros G A N E H. destruct (tree_closes_real ar n fe t u G A N E) as [Nu C]. destruct u as [|[k [|s l]] u]; [congruence|exfalso; exact (H k eq_refl)|].
  apply (C k). exists (s :: l). split; left; reflexivity.
Qed.

(** *** C79 *)
Lemma filled_append u res new : filled u -> new <> [] -> filled (append_new u res new).
Proof.
  intros F N. induction u as [|p u IH]; cbn [append_new]; intros k l H.
  - destruct H as [H|[]]. injection H as <- <-. exact N.
  - destruct (same_subst (fst p) res).
    + destruct H as [H|H]; [|eapply F; right; exact H]. injection H as <- <-. destruct (snd p); [exact N|discriminate].
    + destruct H as [H|H]; [eapply F; left; exact H|]. eapply IH; [intros k' l' I; eapply F; right; exact I|exact H].
Qed.
Lemma merge_pair_filled mg p v : forall acc r, (forall q m, In q v -> mg (fst q) (fst p) = Ok (Some m) -> exists s1 s2 x, In s1 (snd p) /\ In s2 (snd q) /\ mg s1 s2 = Ok (Some x)) ->
  filled acc -> merge_pair mg p v acc = Ok r -> filled r.
Proof.
  induction v as [|q v IH]; intros acc r H F E; cbn [merge_pair] in E; [injection E as <-; exact F|]. ok_step E res Er. destruct res as [res|].
  - ok_step E new En. apply (IH _ _ (fun q' m I => H q' m (or_intror I))) in E; [exact E|]. apply filled_append; [exact F|].
    destruct (H q res (or_introl eq_refl) Er) as (s1 & s2 & x & I1 & I2 & Ex). intros ->. apply (proj2 (merge_actual_in _ _ _ _ En x)). exists s1, s2. auto.
  - apply (IH _ _ (fun q' m I => H q' m (or_intror I)) F E).
Qed.
Theorem merge_filled mg u v r : filled u -> filled v -> realised mg u v -> merge_unif mg u v = Ok r -> filled r.
Proof.
  intros Fu Fv H E. destruct u as [|p0 u]; [injection E as <-; exact Fv|]. destruct v as [|q0 v]; [injection E as <-; exact Fu|]. cbn [merge_unif] in E.
  clear Fu Fv. revert E. assert (F : filled []) by (intros k l []). revert F. generalize (@nil (subst * list subst)). revert H. generalize (p0 :: u) (q0 :: v). clear.
  intros u v. induction u as [|p u IH]; intros H acc F E; cbn [merge_pairs] in E; [injection E as <-; exact F|]. ok_step E acc' Ea.
  apply IH in E; [exact E| |].
  - intros k1 l1 k2 l2 m I1 I2. eapply H; [right; exact I1|exact I2].
  - eapply merge_pair_filled; [|exact F|exact Ea]. intros [k2 l2] m I Em. destruct p as [k1 l1]. eapply H; [left; reflexivity|exact I|exact Em].
Qed.
Theorem leaf_filled l : filled (leaf_unif l).
Proof.
  unfold leaf_unif. assert (F : filled []) by (intros k x []). revert F. generalize (@nil (subst * list subst)).
  induction l as [|[c a] l IH]; intros u F; cbn; [exact F|]. apply IH. unfold add_substs. destruct (existsb (fun p => same_subst (fst p) c) u).
  - intros k x H. apply in_map_iff in H. destruct H as ([k' l'] & E & I). cbn [fst snd] in E. destruct (same_subst k' c).
    + injection E as <- <-. destruct l'; discriminate.
    + assert (l' = x) by congruence. subst x. eapply F, I.
  - intros k x H. apply in_app_or in H. destruct H as [H|[H|[]]]; [eapply F, H|]. injection H as <- <-. discriminate.
Qed.
Theorem prune_filled mg s u r : filled u -> prune mg s u = Ok r -> filled r.
Proof. intros F E k l H. apply (prune_exact mg s u r E) in H. eapply F, H. Qed.
Theorem prune_metas_filled metas u : filled u -> filled (prune_metas metas u).
Proof.
  intros F. rewrite prune_metas_same. unfold regroup. assert (G : filled []) by (intros k x []). revert G. generalize (@nil (subst * list subst)).
  induction u as [|[k l] u IH]; intros acc G; cbn; [exact G|]. apply IH; [intros k' l' I; eapply F; right; exact I|]. apply filled_append; [exact G|]. eapply F. left. reflexivity.
Qed.
Theorem filled_get u : u <> [] -> filled u -> exists k, stored u k (get_unifier u).
Proof. intros N F. destruct u as [|[k [|s l]] u]; [congruence|destruct (F k [] (or_introl eq_refl) eq_refl)|]. exists k, (s :: l). split; left; reflexivity. Qed.

(** *** C82 *)
Theorem merge_two mg (eqv : subst -> subst -> Prop) u v r r' :
  commutes mg eqv u v -> (forall s, eqv s s) ->
  merge_unif mg u v = Ok r -> merge_unif mg v u = Ok r' -> forall k s, stored r k s -> exists k' s', stored r' k' s' /\ eqv s s'.
Proof.
  intros [C1 C2] Q E E' k s S. destruct u as [|p u].
  - injection E as <-. assert (r' = v) by (destruct v; injection E' as <-; reflexivity). subst r'. exists k, s. auto.
  - destruct v as [|q v]; [injection E as <-; injection E' as <-; exists k, s; auto|].
    assert (K : kept r k s) by (exists k; split; [apply bindings_refl|exact S]).
    apply (merge_exact mg (p :: u) (q :: v) r) in K; [|discriminate|discriminate|exact E]. destruct K as (k1 & s1 & k2 & s2 & m & S1 & S2 & Em & _ & Es).
    
    assert (K1 : key (p :: u) k1) by (destruct S1 as (l & I & _); exists l; exact I). assert (K2 : key (q :: v) k2) by (destruct S2 as (l & I & _); exists l; exact I).
    destruct (C1 _ _ _ K1 K2 Em) as (m' & Em'). destruct (C2 _ _ _ _ _ S1 S2 Es) as (s' & Es' & Qs).
    assert (K : kept r' m' s').
    { apply (merge_exact mg (q :: v) (p :: u) r'); [discriminate|discriminate|exact E'|]. exists k2, s2, k1, s1, m'. repeat split; auto. apply bindings_refl. }
    destruct K as (k' & _ & K). exists k', s'. auto.
Qed.
(** *** C83 *)
Theorem choose_keeps mg chosen applied u r : (exists k m, key u k /\ mg chosen k = Ok (Some m)) -> choose_unif mg chosen applied u = Ok r ->
  forall k s, stored r k s <-> stored u k s /\ exists m, mg chosen k = Ok (Some m).
Proof.
  intros (k0 & m0 & (l0 & I0) & E0) H. unfold choose_unif in H. ok_step H r0 Ep. pose proof (prune_exact mg chosen u r0 Ep) as P.
  assert (N : r0 <> []) by (intros ->; apply (proj2 (P (k0, l0))); split; [exact I0|exists m0; exact E0]). destruct r0 as [|p r0]; [congruence|]. injection H as <-.
  intros k s. split.
  - intros (l & I & J). apply P in I. destruct I as [I E]. split; [exists l; auto|exact E].
  - intros [(l & I & J) E]. exists l. split; [apply P; auto|exact J].
Qed.

(** *** C81: the closure of a leaf *)
Lemma add_kept u c a k s : kept (add_substs u c a) k s <-> kept u k s \/ (same_bindings c k /\ s = a).
Proof.
  unfold add_substs. destruct (existsb (fun p => same_subst (fst p) c) u) eqn:E.
  - split.
    + intros (k' & S & l & I & J). apply in_map_iff in I. destruct I as ([k0 l0] & Q & I). cbn [fst snd] in Q. destruct (same_subst k0 c) eqn:Q0.
      * injection Q as <- <-. apply in_app_or in J. destruct J as [J|[<-|[]]].
        -- left. exists k0. split; [exact S|]. exists l0. auto.
        -- right. split; [|reflexivity]. apply subst_eqb in Q0. eapply bindings_trans; [apply bindings_sym, Q0|exact S].
      * injection Q as <- <-. left. exists k0. split; [exact S|]. exists l0. auto.
    + intros [(k' & S & l & I & J)|[S ->]].
      * exists k'. split; [exact S|]. destruct (same_subst k' c) eqn:Q0; [exists (l ++ [a])|exists l]; (split; [apply in_map_iff; exists (k', l); cbn [fst snd]; rewrite Q0; auto|]).
        -- apply in_or_app. left. exact J.
        -- exact J.
      * apply existsb_exists in E. destruct E as ([k0 l0] & I & Q0). cbn [fst] in Q0. exists k0. split; [apply subst_eqb in Q0; eapply bindings_trans; eauto|].
        exists (l0 ++ [a]). split; [apply in_map_iff; exists (k0, l0); cbn [fst snd]; rewrite Q0; auto|]. apply in_or_app. right. left. reflexivity.
  - split.
    + intros (k' & S & l & I & J). apply in_app_or in I. destruct I as [I|[I|[]]]; [left; exists k'; split; [exact S|]; exists l; auto|].
      injection I as <- <-. destruct J as [<-|[]]. auto.
    + intros [(k' & S & l & I & J)|[S ->]].
      * exists k'. split; [exact S|]. exists l. split; [apply in_or_app; left; exact I|exact J].
      * exists c. split; [exact S|]. exists [a]. split; [apply in_or_app; right; left; reflexivity|left; reflexivity].
Qed.
Theorem leaf_exact l k s : kept (leaf_unif l) k s <-> exists c, In (c, s) l /\ same_bindings c k.
Proof.
  unfold leaf_unif. assert (G : forall u, kept (fold_left (fun u p => add_substs u (fst p) (snd p)) l u) k s <-> kept u k s \/ exists c, In (c, s) l /\ same_bindings c k).
  { induction l as [|[c a] l IH]; intros u; cbn [fold_left fst snd].
    - split; [auto|]. intros [H|(c & [] & _)]. exact H.
    - rewrite IH, add_kept. split.
      + intros [[H|[S ->]]|(c' & I & S)]; [auto|right; exists c; split; [left; reflexivity|exact S]|right; exists c'; split; [right; exact I|exact S]].
      + intros [H|(c' & [Q|I] & S)]; [auto| |right; exists c'; auto]. injection Q as -> ->. auto. }
  rewrite G. split; [|auto]. intros [(k' & _ & l' & [] & _)|H]. exact H.
Qed.
