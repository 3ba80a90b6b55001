(** Lists of substitutions of the incremental search: every merge is in the list, once. *)
From Coq Require Import ZArith List Bool Arith Lia.
From Verif Require Import LibSet_Model Ast_Model Problem_Model Rules_Model Sem_Spec Rules_Spec Ast_Proofs Unif_Model UnifTree_Model Closure_Proofs Incr_Model Incr_Spec IncrSub_Proofs.
Import ListNotations.
Open Scope list_scope.
Open Scope Z_scope.

Lemma sub_eqb_incl e x : sub_eqb e x = true -> List.length (every e) = List.length (every x) /\
  forall k u, In (k, u) (every e) -> exists k' u', In (k', u') (every x) /\ m_index k = m_index k' /\
    match u, u' with None, None => True | Some t, Some t' => same_term t t' | _, _ => False end.
Proof.
  unfold sub_eqb. intros E. apply andb_prop in E as [L E]. apply Nat.eqb_eq in L. split; auto. intros k u J.
  rewrite forallb_forall in E. specialize (E _ J). apply existsb_exists in E as ([k' u'] & K & S). unfold single_eqb in S. cbn [fst snd] in S.
  apply andb_prop in S as [M S]. unfold meta_eqb in M. apply Z.eqb_eq in M. exists k', u'. split; auto. split; auto.
  destruct u, u'; try discriminate; auto. apply term_eqb_reflect. exact S.
Qed.
Lemma sub_eqb_satisfies e x t : functional e -> functional x -> sub_eqb e x = true -> (satisfies t e <-> satisfies t x).
Proof.
  intros Fe Fx E. destruct (sub_eqb_incl e x E) as (L & H). split; intros S k u J.
  - assert (K : In (m_index k) (map (fun b => m_index (fst b)) (every e))).
    { apply (NoDup_length_incl (l' := map (fun b => m_index (fst b)) (every x)) Fe).
      - rewrite !map_length. apply Nat.eq_le_incl. symmetry. exact L.
      - intros i I. apply in_map_iff in I. destruct I as ([k' u'] & <- & I). destruct (H k' u' I) as (k2 & u2 & I2 & EK & _). cbn [fst]. rewrite EK.
        change (m_index k2) with ((fun b : single => m_index (fst b)) (k2, u2)). apply in_map. auto.
      - change (m_index k) with ((fun b : single => m_index (fst b)) (k, Some u)). apply in_map. auto. }
    apply in_map_iff in K. destruct K as ([k' u'] & EK & K). cbn [fst] in EK. destruct (H k' u' K) as (k2 & u2 & K2 & E2 & M).
    assert (Q : (k2, u2) = (k, Some u)) by (apply (keys_inj (every x)); auto; cbn; congruence). injection Q as -> ->.
    destruct u' as [u'|]; [|destruct M]. exact (satisfies_key t e k' k u' u S K EK M).
  - destruct (H k (Some u) J) as (k2 & u2 & K2 & E2 & M). destruct u2 as [u2|]; [|destruct M].
    exact (satisfies_key t x k2 k u2 u S K2 (eq_sym E2) (same_term_sym _ _ M)).
Qed.
Definition same_solutions (e x : sub) : Prop := forall t, satisfies t e <-> satisfies t x.
Lemma sl_add_keeps l o x : In x l -> In x (sl_add l o).
Proof. unfold sl_add. destruct sl_contains; auto. intros. apply in_or_app. auto. Qed.
Lemma sl_add_has l o : (forall e, In e l -> functional e) -> functional o -> exists e, In e (sl_add l o) /\ same_solutions e o.
Proof.
  intros F Fo. unfold sl_add. destruct (sl_contains l o) eqn:C.
  - apply existsb_exists in C as (e & J & E). exists e. split; auto. intros t. apply sub_eqb_satisfies; auto.
  - exists o. split; [apply in_or_app; right; left; auto|]. intros t. tauto.
Qed.
Lemma inner_keeps s r : forall acc x, In x acc -> In x (fold_left (fun acc o => match build s o with Some x => sl_add acc x | None => acc end) r acc).
Proof. induction r as [|o r IH]; cbn; auto. intros acc x J. apply IH. destruct (build s o); auto. apply sl_add_keeps; auto. Qed.
Lemma between_has l r s o x : (forall e, In e l -> functional e) -> (forall e, In e r -> functional e) -> In s l -> In o r -> build s o = Some x ->
  exists e, In e (compat_between l r) /\ same_solutions e x.
Proof.
  intros Fl Fr. unfold compat_between.
  set (inner := fun acc s => fold_left (fun acc o => match build s o with Some x => sl_add acc x | None => acc end) r acc).
  assert (K : forall l acc x, In x acc -> In x (fold_left inner l acc)). { induction l0 as [|a l0 IH]; cbn; auto. intros acc y J. apply IH, inner_keeps. auto. }
  assert (FI : forall s acc, functional s -> (forall e, In e acc -> functional e) -> forall e, In e (inner acc s) -> functional e).
  { intros s0 acc Fs Fa e J. apply compat_inner in J as [J|(o' & J & B)]; auto. exact (build_functional s0 o' e Fs (Fr o' J) B). }
  assert (G : forall acc, (forall e, In e acc -> functional e) -> In s l -> In o r -> build s o = Some x -> exists e, In e (fold_left inner l acc) /\ same_solutions e x).
  { induction l as [|a l IH]; intros acc Fa Ins Ino B; [destruct Ins|]. cbn [fold_left]. destruct Ins as [->|Ins].
    - assert (Z : exists e, In e (inner acc s) /\ same_solutions e x); [|destruct Z as (e & J & S); exists e; split; auto].
      assert (Fs : functional s) by (apply Fl; left; auto). unfold inner. clear K FI IH. revert acc Fa. revert Fr Ino. induction r as [|o' r' IHr]; intros Fr Ino acc Fa; [destruct Ino|].
      cbn [fold_left]. destruct Ino as [->|Ino].
      + rewrite B. destruct (sl_add_has acc x Fa) as (e & J & S). { exact (build_functional s o x Fs (Fr o (or_introl eq_refl)) B). } exists e. split; auto. apply inner_keeps. auto.
      + apply IHr; auto. { intros; apply Fr; right; auto. } destruct (build s o') as [y|] eqn:E; auto. intros e J. apply sl_add_in in J as [J| ->]; auto.
        exact (build_functional s o' y Fs (Fr o' (or_introl eq_refl)) E).
    - apply IH; auto. { intros; apply Fl; right; auto. } apply FI; auto. apply Fl; left; auto. }
  intros. apply G; auto. intros e [].
Qed.
Theorem merges_listed l r : (forall e, In e l -> functional e) -> (forall e, In e r -> functional e) ->
  (forall s o x, In s l -> In o r -> build s o = Some x -> exists e, In e (compat_between l r) /\ forall t, satisfies t e <-> satisfies t x) /\
  (forall e, In e (compat_between l r) -> exists s o, In s l /\ In o r /\ build s o = Some e).
Proof.
  intros Fl Fr. split; [|apply compat_between_in]. intros s o x A B C. exact (between_has l r s o x Fl Fr A B C).
Qed.
