(** Proofs about the unifier of a subtree (C78-C83). *)
From Coq Require Import ZArith List Bool Lia.
From Verif Require Import Ast_Model Sem_Spec Ast_Proofs Unif_Model Unif_Spec UnifLoss_Model UnifLoss_Proofs UnifRun_Proofs Unif_Final Closure_Model Select_Model Select_Spec Select_Proofs Select_Final GlobUnif_Model GlobUnif_Spec.
Import ListNotations.
Open Scope list_scope.

Ltac ok_step H x E := match type of H with bind ?e _ = Ok _ => destruct e as [x| | |] eqn:E; cbn [bind] in H; try discriminate end.

Definition actual (u : unifier) (s : subst) : Prop := exists k, stored u k s.

Section P.
Variable mg : subst -> subst -> out (option subst).

(** *** the grouping of the keys *)
Lemma append_new_kept u res new k s : kept (append_new u res new) k s <-> kept u k s \/ (same_bindings res k /\ In s new).
Proof.
  induction u as [|p r IH]; cbn [append_new].
  - split.
    + intros (k' & S & l & [E|[]] & I). injection E as -> ->. auto.
    + intros [(k' & _ & l & [] & _)|[S I]]. exists res. split; [exact S|]. exists new. split; [left; reflexivity|exact I].
  - destruct (same_subst (fst p) res) eqn:E.
    + apply subst_eqb in E. split.
      * intros (k' & S & l & [Q|Q] & I).
        -- injection Q as <- <-. apply in_app_or in I. destruct I as [I|I].
           ++ left. exists (fst p). split; [exact S|]. exists (snd p). split; [left; destruct p; reflexivity|exact I].
           ++ right. split; [|exact I]. eapply bindings_trans; [apply bindings_sym, E|exact S].
        -- left. exists k'. split; [exact S|]. exists l. split; [right; exact Q|exact I].
      * intros [(k' & S & l & [Q|Q] & I)|[S I]].
        -- subst p. exists k'. split; [exact S|]. exists (l ++ new). split; [left; reflexivity|]. apply in_or_app. left. exact I.
        -- exists k'. split; [exact S|]. exists l. split; [right; exact Q|exact I].
        -- exists (fst p). split; [eapply bindings_trans; eauto|]. exists (snd p ++ new). split; [left; reflexivity|]. apply in_or_app. right. exact I.
    + split.
      * intros (k' & S & l & [Q|Q] & I).
        -- left. exists k'. split; [exact S|]. exists l. split; [left; exact Q|exact I].
        -- destruct (proj1 IH) as [(k2 & S2 & l2 & Q2 & I2)|H]; [exists k'; split; [exact S|]; exists l; split; assumption| |auto].
           left. exists k2. split; [exact S2|]. exists l2. split; [right; exact Q2|exact I2].
      * intros [(k' & S & l & [Q|Q] & I)|H].
        -- exists k'. split; [exact S|]. exists l. split; [left; exact Q|exact I].
        -- destruct (proj2 IH) as (k2 & S2 & l2 & Q2 & I2); [left; exists k'; split; [exact S|]; exists l; split; assumption|].
           exists k2. split; [exact S2|]. exists l2. split; [right; exact Q2|exact I2].
        -- destruct (proj2 IH) as (k2 & S2 & l2 & Q2 & I2); [right; exact H|].
           exists k2. split; [exact S2|]. exists l2. split; [right; exact Q2|exact I2].
Qed.
Lemma append_new_key u res new k : key (append_new u res new) k -> key u k \/ k = res.
Proof.
  induction u as [|p r IH]; cbn [append_new].
  - intros (l & [E|[]]). injection E as -> _. auto.
  - destruct (same_subst (fst p) res).
    + intros (l & [Q|Q]); left; [injection Q as <- _; exists (snd p); left; destruct p; reflexivity|exists l; right; exact Q].
    + intros (l & [Q|Q]); [left; exists l; left; exact Q|]. destruct IH as [(l' & H)|H]; [exists l; exact Q| |auto]. left. exists l'. right. exact H.
Qed.
Lemma append_new_has u res new : exists k, key (append_new u res new) k /\ same_bindings k res.
Proof.
  induction u as [|p r IH]; cbn [append_new].
  - exists res. split; [exists new; left; reflexivity|apply bindings_refl].
  - destruct (same_subst (fst p) res) eqn:E.
    + exists (fst p). split; [exists (snd p ++ new); left; reflexivity|apply subst_eqb, E].
    + destruct IH as (k & (l & H) & S). exists k. split; [exists l; right; exact H|exact S].
Qed.
Lemma append_new_keeps u res new k : key u k -> key (append_new u res new) k.
Proof.
  intros (l & H). induction u as [|p r IH]; [destruct H|]. cbn [append_new]. destruct (same_subst (fst p) res).
  - destruct H as [->|H]; [exists (l ++ new); left; reflexivity|exists l; right; exact H].
  - destruct H as [->|H]; [exists l; left; reflexivity|]. destruct (IH H) as (l' & K). exists l'. right. exact K.
Qed.
Lemma append_new_some u res new : append_new u res new <> [].
Proof. destruct u as [|p r]; cbn; [discriminate|]. destruct (same_subst (fst p) res); discriminate. Qed.
Lemma kept_actual u s : (exists k, kept u k s) <-> actual u s.
Proof.
  split.
  - intros (k & k' & _ & H). exists k'. exact H.
  - intros (k & H). exists k, k. split; [apply bindings_refl|exact H].
Qed.
Lemma append_new_actual u res new s : actual (append_new u res new) s <-> actual u s \/ In s new.
Proof.
  rewrite <- !kept_actual. split.
  - intros (k & H). apply append_new_kept in H. destruct H as [H|[_ H]]; [left; exists k; exact H|right; exact H].
  - intros [(k & H)|H]; [exists k|exists res]; apply append_new_kept; [left; exact H|right; split; [apply bindings_refl|exact H]].
Qed.
Lemma regroup_acc u : forall acc k s, kept (fold_left (fun acc p => append_new acc (fst p) (snd p)) u acc) k s <-> kept acc k s \/ kept u k s.
Proof.
  induction u as [|p r IH]; intros acc k s; cbn.
  - split; [auto|]. intros [H|(k' & _ & l & [] & _)]. exact H.
  - rewrite IH, append_new_kept. split.
    + intros [[H|[S I]]|(k' & S & l & H & I)]; [auto| |].
      * right. exists (fst p). split; [exact S|]. exists (snd p). split; [left; destruct p; reflexivity|exact I].
      * right. exists k'. split; [exact S|]. exists l. split; [right; exact H|exact I].
    + intros [H|(k' & S & l & [H|H] & I)]; [auto| |].
      * subst p. left. right. auto.
      * right. exists k'. split; [exact S|]. exists l. auto.
Qed.
Theorem regroup_kept u k s : kept (regroup u) k s <-> kept u k s.
Proof. unfold regroup. rewrite regroup_acc. split; [|auto]. intros [(k' & _ & l & [] & _)|H]. exact H. Qed.
Lemma fold_append_some u : forall acc, acc <> [] -> fold_left (fun acc p => append_new acc (fst p) (snd p)) u acc <> [].
Proof. induction u as [|p r IH]; intros acc H; cbn; [exact H|]. apply IH, append_new_some. Qed.
Lemma regroup_some u : u <> [] -> regroup u <> [].
Proof. destruct u as [|p r]; [congruence|]. intros _. unfold regroup. cbn [fold_left]. apply fold_append_some, append_new_some. Qed.

(** *** C80 *)
Lemma prune_key_same metas s : prune_key metas s = s.
Proof. unfold prune_key. induction metas as [|m r IH]; cbn; auto. Qed.
Theorem prune_metas_same metas u : prune_metas metas u = regroup u.
Proof.
  unfold prune_metas. f_equal. induction u as [|p r IH]; cbn; [reflexivity|]. rewrite prune_key_same, IH. destruct p; reflexivity.
Qed.
Theorem prune_metas_kept metas u k s : kept (prune_metas metas u) k s <-> kept u k s.
Proof. rewrite prune_metas_same. apply regroup_kept. Qed.
Lemma fold_keys u : forall acc k, key acc k \/ key u k -> exists k', key (fold_left (fun acc p => append_new acc (fst p) (snd p)) u acc) k' /\ same_bindings k' k.
Proof.
  induction u as [|p r IH]; intros acc k H; cbn.
  - destruct H as [H|(l & [])]. exists k. split; [exact H|apply bindings_refl].
  - destruct H as [H|(l & [H|H])].
    + apply IH. left. apply append_new_keeps, H.
    + subst p. destruct (append_new_has acc k l) as (k1 & K1 & S1). destruct (IH _ k1 (or_introl K1)) as (k2 & K2 & S2).
      exists k2. split; [exact K2|]. eapply bindings_trans; eauto.
    + apply IH. right. exists l. exact H.
Qed.
Theorem prune_metas_keys metas u k : key u k -> exists k', key (prune_metas metas u) k' /\ same_bindings k' k.
Proof. intros H. rewrite prune_metas_same. apply fold_keys. right. exact H. Qed.
Lemma bound_same k k' m v : same_bindings k k' -> In (MTerm m v) k' -> exists m' v', In (MTerm m' v') k /\ m_index m' = m_index m.
Proof.
  intros S. induction S as [|a b k k' H S IH]; [intros []|]. intros [->|I].
  - destruct a as [|m' v']; cbn in H; [contradiction|]. exists m', v'. split; [left; reflexivity|apply H].
  - destruct (IH I) as (m' & v' & I' & E). exists m', v'. split; [right; exact I'|exact E].
Qed.
(** whatever is bound by a key before is bound by a key after: only what was unbound before is unbound after *)
Theorem prune_metas_unbinds metas u : unbinds metas (prune_metas metas u) -> unbinds metas u.
Proof.
  intros H k m v K I x Ix E. destruct (prune_metas_keys metas u k K) as (k' & K' & S). destruct (bound_same _ _ _ _ S I) as (m' & v' & I' & E').
  exact (H k' m' v' K' I' x Ix (eq_trans E (eq_sym E'))).
Qed.

(** *** C81 *)
Lemma merge_row_in s l r : merge_row mg s l = Ok r -> forall x, In x r <-> exists t, In t l /\ mg s t = Ok (Some x).
Proof.
  revert r. induction l as [|t l IH]; intros r H x; cbn [merge_row] in H.
  - injection H as <-. split; [intros []|intros (t & [] & _)].
  - ok_step H m Em. ok_step H q Eq0. injection H as <-. specialize (IH q eq_refl x). split.
    + intros I. assert (A : (exists y, m = Some y /\ y = x) \/ In x q) by (destruct m as [y|]; [destruct I as [->|I]; [left; exists x; auto|auto]|auto]).
      destruct A as [(y & -> & ->)|A]; [exists t; split; [left; reflexivity|exact Em]|]. apply IH in A. destruct A as (t' & I' & E'). exists t'. split; [right; exact I'|exact E'].
    + intros (t' & [<-|I'] & E').
      * rewrite Em in E'. injection E' as ->. left. reflexivity.
      * assert (A : In x q) by (apply IH; exists t'; auto). destruct m; [right; exact A|exact A].
Qed.
Lemma merge_actual_in l1 l2 r : merge_actual mg l1 l2 = Ok r -> forall x, In x r <-> exists s t, In s l1 /\ In t l2 /\ mg s t = Ok (Some x).
Proof.
  revert r. induction l1 as [|s l1 IH]; intros r H x; cbn [merge_actual] in H.
  - injection H as <-. split; [intros []|intros (s & t & [] & _)].
  - ok_step H a Ea. ok_step H b Eb. injection H as <-. rewrite in_app_iff, (merge_row_in _ _ _ Ea x), (IH _ eq_refl x). split.
    + intros [(t & I & E)|(s' & t & I & I' & E)]; [exists s, t|exists s', t]; cbn; auto.
    + intros (s' & t & [<-|I] & I' & E); [left; exists t; auto|right; exists s', t; auto].
Qed.
Definition pair_of (p q : subst * list subst) (k s : subst) : Prop :=
  exists m a b, mg (fst q) (fst p) = Ok (Some m) /\ same_bindings m k /\ In a (snd p) /\ In b (snd q) /\ mg a b = Ok (Some s).
Lemma merge_pair_kept p v : forall acc r, merge_pair mg p v acc = Ok r -> forall k s, kept r k s <-> kept acc k s \/ exists q, In q v /\ pair_of p q k s.
Proof.
  induction v as [|q v IH]; intros acc r H k s; cbn [merge_pair] in H.
  - injection H as <-. split; [auto|]. intros [H|(q & [] & _)]. exact H.
  - ok_step H res Er. destruct res as [res|].
    + ok_step H new En. rewrite (IH _ _ H k s), append_new_kept, (merge_actual_in _ _ _ En s). split.
      * intros [[H1|(S & a & b & I1 & I2 & E)]|(q' & I & E)]; [auto| |right; exists q'; split; [right; exact I|exact E]].
        right. exists q. split; [left; reflexivity|]. exists res, a, b. auto.
      * intros [H1|(q' & [<-|I] & E)]; [auto| |right; exists q'; auto].
        left. right. destruct E as (m & a & b & E & S & I1 & I2 & Em). rewrite Er in E. injection E as <-. split; [exact S|]. exists a, b. auto.
    + rewrite (IH _ _ H k s). split.
      * intros [H1|(q' & I & E)]; [auto|right; exists q'; split; [right; exact I|exact E]].
      * intros [H1|(q' & [<-|I] & E)]; [auto| |right; exists q'; auto]. destruct E as (m & a & b & E & _). rewrite Er in E. discriminate.
Qed.
Lemma merge_pairs_kept u v : forall acc r, merge_pairs mg u v acc = Ok r -> forall k s, kept r k s <-> kept acc k s \/ exists p q, In p u /\ In q v /\ pair_of p q k s.
Proof.
  induction u as [|p u IH]; intros acc r H k s; cbn [merge_pairs] in H.
  - injection H as <-. split; [auto|]. intros [H|(p & q & [] & _)]. exact H.
  - ok_step H acc' E. rewrite (IH _ _ H k s), (merge_pair_kept _ _ _ _ E k s). split.
    + intros [[H1|(q & I & P)]|(p' & q & I & I' & P)]; [auto|right; exists p, q; cbn; auto|right; exists p', q; cbn; auto].
    + intros [H1|(p' & q & [<-|I] & I' & P)]; [auto|left; right; exists q; auto|right; exists p', q; auto].
Qed.
Theorem merge_exact u v r : u <> [] -> v <> [] -> merge_unif mg u v = Ok r -> forall k s, kept r k s <->
  exists k1 s1 k2 s2 m, stored u k1 s1 /\ stored v k2 s2 /\ mg k2 k1 = Ok (Some m) /\ same_bindings m k /\ mg s1 s2 = Ok (Some s).
Proof.
  intros Nu Nv H k s. destruct u as [|p0 u]; [congruence|]. destruct v as [|q0 v]; [congruence|]. cbn [merge_unif] in H.
  rewrite (merge_pairs_kept _ _ _ _ H k s). split.
  - intros [(k' & _ & l & [] & _)|(p & q & I & J & m & a & b & E & S & A & B & Em)].
    exists (fst p), a, (fst q), b, m. repeat split; auto; [exists (snd p)|exists (snd q)]; (split; [|assumption]); [destruct p|destruct q]; assumption.
  - intros (k1 & s1 & k2 & s2 & m & (l1 & I1 & J1) & (l2 & I2 & J2) & E & S & Em). right. exists (k1, l1), (k2, l2). repeat split; auto.
    exists m, s1, s2. auto.
Qed.
(** the keys *)
Lemma merge_pair_keys p v : forall acc r, merge_pair mg p v acc = Ok r ->
  (forall k, key acc k -> key r k) /\ (forall k, key r k -> key acc k \/ exists q, In q v /\ mg (fst q) (fst p) = Ok (Some k)) /\
  (forall q m, In q v -> mg (fst q) (fst p) = Ok (Some m) -> exists k, key r k /\ same_bindings k m).
Proof.
  induction v as [|q v IH]; intros acc r H; cbn [merge_pair] in H.
  - injection H as <-. split; [auto|split; [auto|intros q m []]].
  - ok_step H res Er. destruct res as [res|].
    + ok_step H new En. destruct (IH _ _ H) as (H1 & H2 & H3). split; [|split].
      * intros k K. apply H1, append_new_keeps, K.
      * intros k K. destruct (H2 k K) as [K'|(q' & I & E)]; [|right; exists q'; split; [right; exact I|exact E]].
        apply append_new_key in K'. destruct K' as [K'| ->]; [auto|right; exists q; split; [left; reflexivity|exact Er]].
      * intros q' m [<-|I] E; [|eapply H3; eauto]. rewrite Er in E. injection E as <-.
        destruct (append_new_has acc res new) as (k & K & S). exists k. split; [apply H1, K|exact S].
    + destruct (IH _ _ H) as (H1 & H2 & H3). split; [exact H1|split].
      * intros k K. destruct (H2 k K) as [K'|(q' & I & E)]; [auto|right; exists q'; split; [right; exact I|exact E]].
      * intros q' m [<-|I] E; [|eapply H3; eauto]. rewrite Er in E. discriminate.
Qed.
Lemma merge_pairs_keys u v : forall acc r, merge_pairs mg u v acc = Ok r ->
  (forall k, key acc k -> key r k) /\ (forall k, key r k -> key acc k \/ exists p q, In p u /\ In q v /\ mg (fst q) (fst p) = Ok (Some k)) /\
  (forall p q m, In p u -> In q v -> mg (fst q) (fst p) = Ok (Some m) -> exists k, key r k /\ same_bindings k m).
Proof.
  induction u as [|p u IH]; intros acc r H; cbn [merge_pairs] in H.
  - injection H as <-. split; [auto|split; [auto|intros p q m []]].
  - ok_step H acc' E. destruct (merge_pair_keys _ _ _ _ E) as (A1 & A2 & A3). destruct (IH _ _ H) as (H1 & H2 & H3). split; [auto|split].
    + intros k K. destruct (H2 k K) as [K'|(p' & q & I & J & Em)]; [|right; exists p', q; cbn; auto].
      destruct (A2 k K') as [K2|(q & J & Em)]; [auto|right; exists p, q; cbn; auto].
    + intros p' q m [<-|I] J Em; [|eapply H3; eauto]. destruct (A3 q m J Em) as (k & K & S). exists k. auto.
Qed.
Theorem merge_keys u v r : u <> [] -> v <> [] -> merge_unif mg u v = Ok r ->
  (forall k, key r k -> exists k1 k2, key u k1 /\ key v k2 /\ mg k2 k1 = Ok (Some k)) /\
  (forall k1 k2 m, key u k1 -> key v k2 -> mg k2 k1 = Ok (Some m) -> exists k, key r k /\ same_bindings k m).
Proof.
  intros Nu Nv H. destruct u as [|p0 u]; [congruence|]. destruct v as [|q0 v]; [congruence|]. cbn [merge_unif] in H.
  destruct (merge_pairs_keys _ _ _ _ H) as (_ & H2 & H3). split.
  - intros k K. destruct (H2 k K) as [(l & [])|(p & q & I & J & E)]. exists (fst p), (fst q).
    split; [exists (snd p); destruct p; exact I|]. split; [exists (snd q); destruct q; exact J|exact E].
  - intros k1 k2 m (l1 & I) (l2 & J) E. exact (H3 _ _ m I J E).
Qed.

(** *** C83 *)
Theorem prune_exact s u r : prune mg s u = Ok r -> forall p, In p r <-> In p u /\ exists m, mg s (fst p) = Ok (Some m).
Proof.
  revert r. induction u as [|q u IH]; intros r H p; cbn [prune] in H.
  - injection H as <-. split; [intros []|intros ([] & _)].
  - ok_step H m Em. ok_step H r' Er. injection H as <-. specialize (IH _ eq_refl p). destruct m as [m|]; cbn [In]; rewrite IH.
    + split; [intros [<-|[I E]]; [split; [auto|exists m; exact Em]|auto]|]. intros [[->|I] E]; auto.
    + split; [intros [I E]; auto|]. intros [[->|I] (m & E)]; [congruence|]. split; [exact I|exists m; exact E].
Qed.

(** *** C78 *)
Variable good : subst -> Prop.
Variable ent : subst -> subst -> Prop.
Hypothesis ent_refl : forall s, ent s s.
Hypothesis ent_trans : forall s t u, ent s t -> ent t u -> ent s u.
Hypothesis mg_ok : merging good ent mg.

Definition all_closes (s : subst) := fix all (l : list ptree) : Prop := match l with [] => True | t :: r => closes ent s t /\ all r end.
Lemma closes_node s ap mc l : closes ent s (PNode ap mc l) <-> ent s ap /\ all_closes s l.
Proof. reflexivity. Qed.
Lemma tree_ind' (P : ptree -> Prop) : (forall l, P (PLeaf l)) -> (forall c a t, P t -> P (PChosen c a t)) ->
  (forall ap mc l, Forall P l -> P (PNode ap mc l)) -> forall t, P t.
Proof.
  intros H1 H2 H3. fix IH 1. intros [l|c a t|ap mc l]; [apply H1|apply H2, IH|apply H3].
  induction l as [|t l IHl]; constructor; [apply IH|exact IHl].
Qed.
Lemma closes_ent s s' t : ent s' s -> closes ent s t -> closes ent s' t.
Proof.
  intros E. induction t as [l|c a t IH|ap mc l IH] using tree_ind'.
  - intros (c & a & I & H). exists c, a. split; [exact I|]. eapply ent_trans; eauto.
  - exact IH.
  - rewrite !closes_node. intros [H1 H2]. split; [eapply ent_trans; eauto|]. clear H1. induction IH as [|t l Ht _ IHl]; [exact I|]. destruct H2 as [H2 H3]. split; auto.
Qed.
Lemma tree_node ap mc l : tree_unif mg (PNode ap mc l) = bind (trees_unif mg l) (node_unif mg ap mc).
Proof.
  reflexivity.
Qed.
Definition fine (t : ptree) (u : unifier) : Prop :=
  u <> [] /\ (forall s, actual u s -> good s /\ closes ent s t).
Lemma add_substs_some u c a : add_substs u c a <> [].
Proof.
  unfold add_substs. destruct (existsb (fun p => same_subst (fst p) c) u) eqn:E; [|destruct u; discriminate].
  destruct u; [discriminate|]. cbn. destruct (same_subst (fst p) c); discriminate.
Qed.
Lemma add_substs_actual u c a s : actual (add_substs u c a) s -> actual u s \/ s = a.
Proof.
  intros (k & l & H & I). unfold add_substs in H. destruct (existsb (fun p => same_subst (fst p) c) u).
  - apply in_map_iff in H. destruct H as (p & E & Ip). destruct (same_subst (fst p) c).
    + injection E as <- <-. apply in_app_or in I. destruct I as [I|[<-|[]]]; [|auto]. left. exists (fst p), (snd p). split; [destruct p; exact Ip|exact I].
    + subst p. left. exists k, l. auto.
  - apply in_app_or in H. destruct H as [H|[H|[]]]; [left; exists k, l; auto|]. injection H as <- <-. destruct I as [<-|[]]. auto.
Qed.
Lemma leaf_actual l : forall u s, actual (fold_left (fun u p => add_substs u (fst p) (snd p)) l u) s -> actual u s \/ exists c, In (c, s) l.
Proof.
  induction l as [|[c a] l IH]; intros u s H; cbn in H; [auto|]. destruct (IH _ _ H) as [A|(c' & I)]; [|right; exists c'; right; exact I].
  apply add_substs_actual in A. destruct A as [A| ->]; [auto|]. right. exists c. left. reflexivity.
Qed.
Lemma leaf_some l : l <> [] -> leaf_unif l <> [].
Proof.
  unfold leaf_unif. destruct l as [|p l]; [congruence|]. intros _. cbn [fold_left]. generalize (add_substs_some [] (fst p) (snd p)). generalize (add_substs [] (fst p) (snd p)).
  induction l as [|q l IH]; intros u H; cbn; [exact H|]. apply IH, add_substs_some.
Qed.
Lemma merge_actuals u v r s : u <> [] -> v <> [] -> merge_unif mg u v = Ok r -> actual r s -> exists s1 s2, actual u s1 /\ actual v s2 /\ mg s1 s2 = Ok (Some s).
Proof.
  intros Nu Nv H A. apply kept_actual in A. destruct A as (k & A). apply (merge_exact u v r Nu Nv H) in A.
  destruct A as (k1 & s1 & k2 & s2 & m & S1 & S2 & _ & _ & E). exists s1, s2. split; [exists k1; exact S1|]. split; [exists k2; exact S2|exact E].
Qed.
Lemma merge_rest_fine us : forall u r, merge_rest mg u us = Ok r -> u <> [] -> Forall (fun v => v <> [] /\ forall s, actual v s -> good s) us ->
  (forall n, merge_rest mg u (firstn n us) <> Ok []) -> (forall s, actual u s -> good s) ->
  r <> [] /\ forall s, actual r s -> good s /\ (exists s', actual u s' /\ ent s s') /\ Forall (fun v => exists s', actual v s' /\ ent s s') us.
Proof.
  induction us as [|v us IH]; intros u r H Nu F Al G; cbn [merge_rest] in H.
  - injection H as <-. split; [exact Nu|]. intros s A. split; [auto|]. split; [exists s; auto|constructor].
  - ok_step H u' E. inversion F as [|? ? [Nv Gv] F']; subst.
    assert (Nu' : u' <> []) by (intros ->; apply (Al 1%nat); cbn; rewrite E; reflexivity).
    assert (M : forall s, actual u' s -> good s /\ exists s1 s2, actual u s1 /\ actual v s2 /\ ent s s1 /\ ent s s2).
    { intros s A. destruct (merge_actuals _ _ _ _ Nu Nv E A) as (s1 & s2 & A1 & A2 & Em). destruct (mg_ok s1 s2 s (G _ A1) (Gv _ A2) Em) as (Gs & E1 & E2).
      split; [exact Gs|]. exists s1, s2. auto. }
    destruct (IH u' r H Nu' F') as [Nr Hr].
    + intros n Q. apply (Al (S n)). cbn. rewrite E. exact Q.
    + intros s A. apply M, A.
    + split; [exact Nr|]. intros s A. destruct (Hr s A) as (Gs & (s' & A' & E') & Fs). destruct (M s' A') as (_ & s1 & s2 & A1 & A2 & E1 & E2).
      split; [exact Gs|]. split; [exists s1; eauto|]. constructor; [exists s2; eauto|exact Fs].
Qed.
Lemma trees_fine l : Forall (fun t => all_good good t -> alive mg t -> forall u, tree_unif mg t = Ok u -> fine t u) l ->
  forall us, trees_unif mg l = Ok us ->
  (fix all (l : list ptree) : Prop := match l with [] => True | t :: r => all_good good t /\ all r end) l ->
  (fix all (l : list ptree) : Prop := match l with [] => True | t :: r => alive mg t /\ all r end) l ->
  Forall2 fine l us.
Proof.
  intros F. induction F as [|t l Ht F IH]; intros us H G A; cbn [trees_unif] in H.
  - injection H as <-. constructor.
  - ok_step H u Eu. ok_step H us' Eus. injection H as <-. destruct G as [G1 G2], A as [A1 A2]. constructor; [auto|]. apply IH; auto.
Qed.
Theorem tree_closes t : all_good good t -> alive mg t -> forall u, tree_unif mg t = Ok u -> fine t u.
Proof.
  induction t as [l|c a t IH|ap mc l IH] using tree_ind'; intros G A u H.
  - cbn in H. injection H as <-. split; [apply leaf_some, A|]. intros s As. destruct (leaf_actual l [] s As) as [(k & l' & [] & _)|(c & I)].
    split; [apply (G c s I)|]. exists c, s. split; [exact I|apply ent_refl].
  - destruct G as (Gc & Ga & G), A as [A Al]. cbn [tree_unif] in H. ok_step H u0 E. unfold choose_unif in H. ok_step H u1 Ep.
    assert (N1 : u1 <> []) by (intros ->; exact (Al u0 eq_refl Ep)). destruct (IH G A u0 eq_refl) as [N0 F0].
    destruct u1 as [|p u1]; [congruence|]. injection H as <-. split; [exact N1|]. intros s (k & l & I & J). apply F0. exists k, l. split; [|exact J].
    apply (prune_exact _ _ _ Ep) in I. apply I.
  - rewrite tree_node in H. destruct G as [Ga G], A as (A & Al & Ap). ok_step H us Eus. pose proof (trees_fine l IH us Eus G A) as F.
    unfold node_unif in H. ok_step H m Em. ok_step H m2 Em2. injection H as <-. change (add_substs [] ap ap) with [(ap, [ap])] in Em2.
    specialize (Al us). specialize (Ap us m eq_refl Em). rewrite Em2 in Ap.
    destruct us as [|u0 us]; [discriminate|]. inversion F as [|t0 ? l0 ? F0 Fr]; subst. cbn [merge_list] in Em.
    destruct (merge_rest_fine us u0 m Em) as [Nm Hm].
    + apply F0.
    + clear - Fr. induction Fr as [|t u l us [H1 H2] _ IHr]; constructor; [split; [exact H1|intros s As; apply H2, As]|exact IHr].
    + intros n. exact (Al n eq_refl).
    + intros s As. apply F0, As.
    + assert (N2 : m2 <> []) by (intros ->; apply Ap; reflexivity). split; [rewrite prune_metas_same; apply regroup_some, N2|].
      intros s As. apply kept_actual in As. destruct As as (k & As). rewrite prune_metas_kept in As. assert (As' : actual m2 s) by (apply kept_actual; exists k; exact As).
      assert (Na : [(ap, [ap])] <> @nil (subst * list subst)) by discriminate. destruct (merge_actuals m _ m2 s Nm Na Em2 As') as (s1 & s2 & A1 & A2 & E).
      destruct A2 as (k2 & l2 & [Q|[]] & I2). injection Q as <- <-. destruct I2 as [<-|[]].
      destruct (Hm s1 A1) as (G1 & (s' & As1 & E1) & Fs). destruct (mg_ok s1 ap s G1 Ga E) as (Gs & Es1 & Es2).
      split; [exact Gs|]. apply closes_node. split; [exact Es2|]. split.
      * eapply closes_ent; [eapply ent_trans; [exact Es1|exact E1]|]. apply F0, As1.
      * clear - Fr Fs Es1 ent_trans. revert Fs. induction Fr as [|t u l us [H1 H2] _ IHr]; intros Fs; [exact I|]. inversion Fs as [|? ? (s' & A' & E') Fs']; subst.
        split; [|apply IHr, Fs']. eapply closes_ent; [eapply ent_trans; [exact Es1|exact E']|]. apply H2, A'.
Qed.

(** *** C79 *)
Lemma get_first u : (exists k l, hd_error u = Some (k, l) /\ l <> []) -> actual u (get_unifier u).
Proof.
  intros (k & l & H & N). destruct u as [|[k' l'] u]; [discriminate|]. injection H as -> ->. destruct l as [|s l]; [congruence|].
  exists k, (s :: l). split; left; reflexivity.
Qed.
End P.
