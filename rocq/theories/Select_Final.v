(** C27 and C28 with the merge of the code: the substitutions are read as systems of equations. *)
From Coq Require Import ZArith List Bool Permutation.
From Verif Require Import Ast_Model Sem_Spec Ast_Proofs Unif_Model Unif_Spec UnifLoss_Model UnifLoss_Proofs Unif_Final Closure_Model Select_Model Select_Spec Select_Proofs Dmt_Model Rules_Proofs.
Import ListNotations.
Open Scope list_scope.

Lemma typeless_same A w t u : typeless A -> same_term t u -> tev A w t = tev A w u.
Proof.
  intros TA. revert u. induction t as [i|p tys l IH|i n|m] using term_ind'; intros u H; inversion H; subst; cbn [tev]; try congruence.
  match goal with K : Forall2 same_term _ _ |- _ => rename K into Hl end.
  assert (E : map (tev A w) l = map (tev A w) l2).
  { clear - IH Hl. revert l2 Hl. induction IH as [|a r Ha Hr IHr]; intros l2 Hl; inversion Hl; subst; cbn; [reflexivity|]. f_equal; auto. }
  rewrite E. match goal with K : id_index _ = id_index _ |- _ => rewrite K end. apply TA.
Qed.
Lemma solves_same A w s t : typeless A -> same_bindings s t -> solves A w (binds s) -> solves A w (binds t).
Proof.
  intros TA H. induction H as [|a b s t Hab H IH]; intros S; [exact S|].
  assert (S' : solves A w (binds s)) by (intros k u Hu; apply S; apply in_flat_map; apply in_flat_map in Hu; destruct Hu as (x & Hx & Hu); exists x; split; [right; exact Hx|exact Hu]).
  specialize (IH S'). destruct a as [n i f v|k v], b as [n' i' f' v'|k' v']; cbn in Hab; try contradiction; [exact IH|].
  intros m u [E|Hu]; [|apply IH, Hu]. injection E as <- <-. destruct Hab as [E1 E2]. rewrite <- E1, <- (typeless_same A w _ _ TA E2). apply S. left. reflexivity.
Qed.
Theorem consequence_entailment : entailment consequence.
Proof.
  split; [|split].
  - intros s t H A w TA. apply solves_same; assumption.
  - intros s t u H K A w TA S. eapply solves_same; eauto.
  - intros s A w _ _ k t [].
Qed.

Lemma to_substs_ok s r : to_substs s = Ok r -> r = binds s.
Proof.
  revert r. induction s as [|[n i f v|k v] s IH]; intros r H; cbn in H; [injection H as <-; reflexivity|discriminate|].
  destruct (to_substs s) as [q| | |]; cbn in H; try discriminate. injection H as <-. cbn. rewrite (IH q eq_refl). reflexivity.
Qed.
Lemma binds_terms m : binds (map (fun b => MTerm (fst b) (snd b)) m) = m.
Proof. induction m as [|[k v] m IH]; cbn; [reflexivity|]. f_equal. exact IH. Qed.
Lemma merge_mixed_ok n fe s t m : merge_mixed n fe s t = Ok m -> merge fe (add_unif n fe) (binds s) (binds t) = Ok (binds m) /\ is_failure (binds m) = false.
Proof.
  unfold merge_mixed. intros H. destruct (to_substs s) as [s0| | |] eqn:Es; cbn in H; try discriminate. destruct (to_substs t) as [t0| | |] eqn:Et; cbn in H; try discriminate.
  apply to_substs_ok in Es, Et. subst s0 t0. destruct (merge fe (add_unif n fe) (binds s) (binds t)) as [r| | |]; cbn in H; try discriminate.
  destruct (is_failure r) eqn:F; [discriminate|]. injection H as <-. rewrite binds_terms. auto.
Qed.
(** proper substitutions whose merges with the one of the node drop no equation (C36) *)
Definition no_drop (ar : signature) (n fe : nat) (current : saf) (l : list answer) : Prop :=
  okS ar (binds (fst current)) /\ forall a s, In a l -> In s (an_substs a) ->
    okS ar (binds (fst s)) /\ merge fe (add_unif_s true n fe) (binds (fst s)) (binds (fst current)) <> Out.
Theorem no_drop_merges ar n fe current l : no_drop ar n fe current l -> merges consequence (merge_mixed n fe) current l.
Proof.
  intros [Oc H] a s m Ha Hs E. destruct (H a s Ha Hs) as [Os N]. apply merge_mixed_ok in E. destruct E as [E F].
  split; intros A w _ S; destruct (merge_sound ar fe n _ _ _ Os Oc N E F A w S); assumption.
Qed.
Theorem node_closes_all ar n fe current l r : no_drop ar n fe current l ->
  at_most (wants current) 2 l -> Forall distinct l ->
  (Forall (fun a => ~ returns_just current a) l \/ at_most (wants current) 1 l \/
   Forall (fun a => wants current a -> Forall (fun t => consequence (fst t) (fst current)) (an_substs a)) l) ->
  select (merge_mixed n fe) current (List.length l) (map Answer l) = Ok (SubstForParent, r) ->
  forall s, In s r -> closes_all consequence l s.
Proof. intros N A2 D C H. exact (parent_closes_all (merge_mixed n fe) current consequence l r consequence_entailment (no_drop_merges _ _ _ _ _ N) A2 D C H). Qed.

(** only bindings on terms *)
Definition on_terms (s : list mixed) : Prop := forall b, In b s -> exists k v, b = MTerm k v.
Definition not_failure (s : list mixed) : Prop := is_failure (binds s) = false.
Lemma to_substs_terms s : on_terms s -> to_substs s = Ok (binds s) /\ map (fun b => MTerm (fst b) (snd b)) (binds s) = s.
Proof.
  induction s as [|b s IH]; intros H; [split; reflexivity|]. destruct (H b (or_introl eq_refl)) as (k & v & ->).
  destruct IH as [I1 I2]; [intros c Hc; apply H; right; exact Hc|]. cbn. rewrite I1. cbn. split; [reflexivity|]. f_equal. exact I2.
Qed.
Lemma merge_mixed_nil n fe s : on_terms s -> not_failure s -> merge_mixed n fe s [] = Ok s.
Proof.
  intros H F. destruct (to_substs_terms s H) as [H1 H2]. unfold merge_mixed. rewrite H1. cbn.
  assert (E : merge fe (add_unif n fe) (binds s) [] = Ok (binds s)) by (destruct (binds s); reflexivity). rewrite E. cbn.
  unfold not_failure in F. rewrite F, H2. reflexivity.
Qed.
Theorem node_any_order n fe current l l' v v' r r' : (forall a s, In a l -> In s (an_substs a) -> on_terms (fst s) /\ not_failure (fst s)) ->
  Permutation l l' -> at_most (wants current) 2 l -> Forall distinct l ->
  select (merge_mixed n fe) current (List.length l) (map Answer l) = Ok (v, r) ->
  select (merge_mixed n fe) current (List.length l') (map Answer l') = Ok (v', r') ->
  v = v' /\ (v <> Opened -> same_set r r').
Proof. intros Z. apply any_order. intros a s Ha Hs. destruct (Z a s Ha Hs). apply merge_mixed_nil; assumption. Qed.

(** the formulas that go with the substitutions *)
Lemma form_add_all l : forall acc, (forall f, In f (fold_left form_add l acc) -> In f acc \/ In f l) /\
  (forall f, In f acc -> In f (fold_left form_add l acc)) /\ (forall f, In f l -> exists f', In f' (fold_left form_add l acc) /\ form_eqb f' f = true).
Proof.
  induction l as [|a l IH]; intros acc; cbn [fold_left]; [split; [auto|split; [auto|intros f []]]|].
  destruct (IH (form_add acc a)) as (H1 & H2 & H3). assert (K : forall f, In f acc -> In f (form_add acc a)).
  { intros f H. unfold form_add. destruct (existsb _ acc); [exact H|]. apply in_or_app. auto. }
  split; [|split; [auto|]].
  - intros f H. apply H1 in H. destruct H as [H|H]; [|right; right; exact H]. unfold form_add in H. destruct (existsb _ acc); [auto|].
    apply in_app_or in H. destruct H as [H|[H|[]]]; [auto|right; left; exact H].
  - intros f [<-|H]; [|exact (H3 f H)]. unfold form_add in H2 |- *. destruct (existsb (fun g => form_eqb g a) acc) eqn:E.
    + apply existsb_exists in E. destruct E as (g & Hg & E). exists g. split; [apply H2, Hg|exact E].
    + exists a. split; [apply H2, in_or_app; right; left; reflexivity|apply form_eqb_refl].
Qed.
Theorem merge_formulas mg s1 s2 s : merge_saf mg s1 s2 = Ok s ->
  (forall f, In f (snd s1) \/ In f (snd s2) -> exists f', In f' (snd s) /\ form_eqb f' f = true) /\ (forall f, In f (snd s) -> In f (snd s1) \/ In f (snd s2)).
Proof.
  intros E. assert (R : forall (l : list form) f, In f l -> exists f', In f' l /\ form_eqb f' f = true) by (intros l f H; exists f; split; [exact H|apply form_eqb_refl]).
  unfold merge_saf in E. destruct (saf_empty s1) eqn:E1.
  - injection E as <-. destruct s1 as [[|b l] [|c r]]; try discriminate. split; [intros f [[]|H]; auto|auto].
  - destruct (saf_empty s2) eqn:E2.
    + injection E as <-. destruct s2 as [[|b l] [|c r]]; try discriminate. split; [intros f [H|[]]; auto|auto].
    + destruct (mg (fst s1) (fst s2)) as [m| | |]; cbn in E; try discriminate. injection E as <-. cbn [snd].
      destruct (form_add_all (snd s2) (snd s1)) as (H1 & H2 & H3). split; [|exact H1]. intros f [H|H]; [exact (R _ _ (H2 f H))|exact (H3 f H)].
Qed.
