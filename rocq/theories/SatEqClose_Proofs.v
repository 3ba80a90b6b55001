(** The indexes of a sateq problem: nothing fails, and each term is represented by a class. *)
From Coq Require Import ZArith List Bool Arith Lia.
From Verif Require Import Ast_Model Ast_Proofs Unif_Model Unif_Spec Bse_Spec UnifRun_Proofs SatEq_Model SatEq_Spec SatEqUf_Proofs.
Import ListNotations.
Open Scope list_scope.
Open Scope nat_scope.

(** ** Maps *)
Section NMaps.
Context {A : Type}.
Implicit Type m : nmap A.
Lemma nget_in m k v : nget m k = Some v -> In (k, v) m.
Proof.
  unfold nget. destruct (List.find _ m) as [[k' v']|] eqn:E; [|discriminate]. cbn. intros H. injection H as <-.
  apply find_some in E. destruct E as (I & E). cbn in E. apply Nat.eqb_eq in E. subst. exact I.
Qed.
Lemma in_nget m k v : NoDup (map fst m) -> In (k, v) m -> nget m k = Some v.
Proof.
  intros N I. unfold nget. destruct (List.find (fun e => Nat.eqb (fst e) k) m) as [[k' v']|] eqn:E.
  - apply find_some in E. destruct E as (J & E). cbn in E. apply Nat.eqb_eq in E. subst. cbn. f_equal.
    clear -N I J. induction m as [|[a b] m IH]; [destruct I|]. cbn in N. inversion N; subst. destruct I as [I|I], J as [J|J].
    + congruence.
    + injection I as -> ->. exfalso. apply H1. apply (in_map fst) in J. exact J.
    + injection J as -> ->. exfalso. apply H1. apply (in_map fst) in I. exact I.
    + auto.
  - exfalso. pose proof (find_none _ _ E _ I) as F. cbn in F. rewrite Nat.eqb_refl in F. discriminate.
Qed.
Lemma key_nget m k : In k (map fst m) -> exists v, nget m k = Some v.
Proof.
  intros I. apply in_map_iff in I. destruct I as ([k' v] & <- & I). unfold nget. destruct (List.find _ m) as [e|] eqn:E; [eexists; reflexivity|].
  pose proof (find_none _ _ E _ I) as F. cbn in F. rewrite Nat.eqb_refl in F. discriminate.
Qed.
Lemma ndel_in m k k' v : In (k', v) (ndel m k) <-> In (k', v) m /\ k' <> k.
Proof. unfold ndel. rewrite filter_In. cbn. rewrite negb_true_iff, Nat.eqb_neq. reflexivity. Qed.
Lemma ndel_key m k k' : In k' (map fst (ndel m k)) <-> In k' (map fst m) /\ k' <> k.
Proof.
  rewrite !in_map_iff. split.
  - intros ([a b] & <- & I). apply ndel_in in I. destruct I as (I & N). split; auto. exists (a, b). auto.
  - intros (([a b] & <- & I) & N). exists (a, b). split; auto. apply ndel_in. auto.
Qed.
Lemma ndel_nodup m k : NoDup (map fst m) -> NoDup (map fst (ndel m k)).
Proof.
  intros N. induction m as [|[a b] m IH]; cbn; [constructor|]. cbn in N. inversion N; subst.
  destruct (Nat.eqb a k); cbn; auto. constructor; auto. intros I. apply ndel_key in I. tauto.
Qed.
Lemma nset_in m k v k' v' : In (k', v') (nset m k v) <-> (In (k', v') m /\ k' <> k) \/ (k' = k /\ v' = v).
Proof.
  unfold nset. rewrite in_app_iff, ndel_in. cbn. split; intros [H|H]; auto.
  - right. destruct H as [H|[]]. injection H as <- <-. auto.
  - right. left. destruct H as [-> ->]. reflexivity.
Qed.
Lemma nset_key m k v k' : In k' (map fst (nset m k v)) <-> In k' (map fst m) \/ k' = k.
Proof.
  unfold nset. rewrite map_app, in_app_iff, ndel_key. cbn. destruct (Nat.eq_dec k' k); intuition congruence.
Qed.
Lemma nset_nodup m k v : NoDup (map fst m) -> NoDup (map fst (nset m k v)).
Proof.
  intros N. unfold nset. rewrite map_app. cbn. apply (Permutation.Permutation_NoDup (l := k :: map fst (ndel m k))).
  - apply Permutation.Permutation_cons_append.
  - constructor; [|apply ndel_nodup, N]. intros I. apply ndel_key in I. tauto.
Qed.
End NMaps.
Section ZMaps.
Context {A : Type}.
Implicit Type m : zmap A.
Open Scope Z_scope.
Lemma zget_in m k v : zget m k = Some v -> In (k, v) m.
Proof.
  unfold zget. destruct (List.find _ m) as [[k' v']|] eqn:E; [|discriminate]. cbn. intros H. injection H as <-.
  apply find_some in E. destruct E as (I & E). cbn in E. apply Z.eqb_eq in E. subst. exact I.
Qed.
Lemma zget_none m k v : zget m k = None -> ~ In (k, v) m.
Proof.
  unfold zget. destruct (List.find _ m) as [e|] eqn:E; [discriminate|]. intros _ I. pose proof (find_none _ _ E _ I) as F. cbn in F.
  rewrite Z.eqb_refl in F. discriminate.
Qed.
Lemma in_zget m k v : NoDup (map fst m) -> In (k, v) m -> zget m k = Some v.
Proof.
  intros N I. unfold zget. destruct (List.find (fun e => fst e =? k) m) as [[k' v']|] eqn:E.
  - apply find_some in E. destruct E as (J & E). cbn in E. apply Z.eqb_eq in E. subst. cbn. f_equal.
    clear -N I J. induction m as [|[a b] m IH]; [destruct I|]. cbn in N. inversion N; subst. destruct I as [I|I], J as [J|J].
    + congruence.
    + injection I as -> ->. exfalso. apply H1. apply (in_map fst) in J. exact J.
    + injection J as -> ->. exfalso. apply H1. apply (in_map fst) in I. exact I.
    + auto.
  - exfalso. pose proof (find_none _ _ E _ I) as F. cbn in F. rewrite Z.eqb_refl in F. discriminate.
Qed.
Lemma zset_in m k v k' v' : In (k', v') (zset m k v) <-> (In (k', v') m /\ k' <> k) \/ (k' = k /\ v' = v).
Proof.
  unfold zset. rewrite in_app_iff, filter_In. cbn. rewrite negb_true_iff, Z.eqb_neq. split; intros [H|H]; auto.
  - right. destruct H as [H|[]]. injection H as <- <-. auto.
  - right. left. destruct H as [-> ->]. reflexivity.
Qed.
Lemma zset_nodup m k v : NoDup (map fst m) -> NoDup (map fst (zset m k v)).
Proof.
  intros N. unfold zset. rewrite map_app. cbn. set (f := filter _ m).
  assert (K : forall x, In x (map fst f) -> In x (map fst m) /\ x <> k).
  { intros x I. apply in_map_iff in I. destruct I as ([a b] & <- & I). apply filter_In in I. destruct I as (I & E).
    cbn in E. apply negb_true_iff, Z.eqb_neq in E. split; auto. apply in_map_iff. exists (a, b). auto. }
  assert (NF : NoDup (map fst f)).
  { unfold f. clear K f. induction m as [|[a b] m IH]; cbn; [constructor|]. cbn in N. inversion N; subst.
    destruct (a =? k); cbn; auto. constructor; auto. intros I. apply in_map_iff in I. destruct I as ([x y] & E & I).
    apply filter_In in I. cbn in E. subst. apply H1. apply in_map_iff. exists (a, y). tauto. }
  apply (Permutation.Permutation_NoDup (l := k :: map fst f)); [apply Permutation.Permutation_cons_append|].
  constructor; auto. intros I. destruct (K _ I). congruence.
Qed.
End ZMaps.

(** ** What holds of the structure *)
Section Closure.
Variable ar : signature.

Definition rec_in (pb : problem) (t : trec) : Prop := exists c l, In (c, l) (pb_part pb) /\ In t l.
Definition reg (h : heap) (pb : problem) (a : nat) : Prop := a < length h /\ In (root h a) (classes pb).
Definition shape (t : trec) : Prop :=
  match tr_meta t with
  | Some m => pmeta ar m /\ tr_index t = m_index m /\ tr_args t = []
  | None => symbol ar (tr_sym t) /\ tr_index t = id_index (tr_sym t) /\ length (tr_args t) = ar (tr_index t)
  end.
Record inv (h : heap) (pb : problem) : Prop := mkInv
  { i_wf : wf h;
    i_nodup : NoDup (classes pb);
    i_part : forall c l, In (c, l) (pb_part pb) -> c < length h /\ root h c = c /\ l <> [] /\
             forall t, In t l -> tr_class t < length h /\ root h (tr_class t) = c;
    i_args : forall t a, rec_in pb t -> In a (tr_args t) -> reg h pb a;
    i_shape : forall t, rec_in pb t -> shape t;
    i_mkeys : NoDup (map fst (pb_metas pb));
    i_metas : forall i t, In (i, t) (pb_metas pb) <-> rec_in pb t /\ tr_is_meta t = true /\ tr_index t = i;
    i_fkeys : NoDup (map fst (pb_funs pb));
    i_funs : forall i t, (exists l, In (i, l) (pb_funs pb) /\ In t l) <-> rec_in pb t /\ tr_is_meta t = false /\ tr_index t = i;
    i_skeys : NoDup (map fst (pb_super pb));
    i_super : forall c, In c (map fst (pb_super pb)) <-> In c (classes pb);
    i_own : forall c l t, In (c, l) (pb_super pb) -> In t l -> tr_class t < length h /\ root h (tr_class t) = c;
    i_goals : forall g p, In g (pb_goals pb) -> In p g -> reg h pb (fst p) /\ reg h pb (snd p) }.

Lemma inv_empty : inv [] new_problem.
Proof.
  constructor; cbn; try (apply NoDup_nil); try tauto.
  - apply wf_nil.
  - intros t a (c & l & [] & _).
  - intros t (c & l & [] & _).
  - intros i t. split; [intros []|]. intros ((c & l & [] & _) & _).
  - intros i t. split; [intros (l & [] & _)|]. intros ((c & l & [] & _) & _).
Qed.

(** the class of a term, read from the records *)
Fixpoint rep (h : heap) (pb : problem) (t : term) (x : nat) : Prop :=
  match t with
  | Meta m => exists u, rec_in pb u /\ tr_is_meta u = true /\ tr_index u = m_index m /\ x = root h (tr_class u)
  | Fun p _ args =>
    exists u, rec_in pb u /\ tr_is_meta u = false /\ tr_index u = id_index p /\ x = root h (tr_class u) /\
      (fix go (l : list term) (cs : list nat) : Prop :=
         match l, cs with
         | [], [] => True
         | a :: r, c :: s => rep h pb a (root h c) /\ go r s
         | _, _ => False
         end) args (tr_args u)
  | _ => False
  end.
Fixpoint reps (h : heap) (pb : problem) (l : list term) (cs : list nat) : Prop :=
  match l, cs with
  | [], [] => True
  | a :: r, c :: s => rep h pb a (root h c) /\ reps h pb r s
  | _, _ => False
  end.
Lemma rep_fun h pb p tys args x : rep h pb (Fun p tys args) x <->
  exists u, rec_in pb u /\ tr_is_meta u = false /\ tr_index u = id_index p /\ x = root h (tr_class u) /\ reps h pb args (tr_args u).
Proof.
  cbn [rep]. assert (E : forall l cs, (fix go (l : list term) (cs : list nat) : Prop :=
         match l, cs with
         | [], [] => True
         | a :: r, c :: s => rep h pb a (root h c) /\ go r s
         | _, _ => False
         end) l cs <-> reps h pb l cs).
  { induction l as [|a l IH]; intros [|c cs]; cbn; try tauto. rewrite IH. tauto. }
  split; intros (u & A & B & C & D & F); exists u; repeat split; auto; apply E; auto.
Qed.

(** how the structure changes *)
Record grows (h : heap) (pb : problem) (h' : heap) (pb' : problem) : Prop := mkGrows
  { g_len : length h <= length h';
    g_rec : forall t, rec_in pb t -> rec_in pb' t;
    g_root : forall x, x < length h -> root h' (root h x) = root h' x;
    g_reg : forall x, reg h pb x -> reg h' pb' x }.
Lemma grows_refl h pb : wf h -> grows h pb h pb.
Proof. intros W. constructor; auto. intros x L. apply root_root; auto. Qed.
Lemma grows_trans h1 p1 h2 p2 h3 p3 : wf h1 -> grows h1 p1 h2 p2 -> grows h2 p2 h3 p3 -> grows h1 p1 h3 p3.
Proof.
  intros W [A1 B1 C1 D1] [A2 B2 C2 D2]. constructor; auto; try lia. intros x L.
  rewrite <- (C2 (root h1 x)) by (pose proof (root_lt h1 x W L); lia). rewrite C1 by auto. apply C2. lia.
Qed.
Lemma rec_class h pb t : inv h pb -> rec_in pb t -> tr_class t < length h /\ In (root h (tr_class t)) (classes pb).
Proof.
  intros I (c & l & J & K). destruct (i_part _ _ I c l J) as (A & B & C & D). destruct (D t K) as (E & F). split; auto.
  rewrite F. apply in_map_iff. exists (c, l). auto.
Qed.
Lemma rec_reg h pb t : inv h pb -> rec_in pb t -> reg h pb (tr_class t).
Proof. intros I R. exact (rec_class h pb t I R). Qed.
Lemma rep_mono h pb h' pb' t : inv h pb -> grows h pb h' pb' -> forall x, rep h pb t x -> rep h' pb' t (root h' x).
Proof.
  intros I G. induction t as [i|p tys l IH|i n|m] using term_ind'; intros x R; [destruct R| |destruct R|].
  - apply rep_fun in R. destruct R as (u & A & B & C & -> & D). apply rep_fun. exists u.
    split; [apply G, A|]. split; auto. split; auto. split; [apply G, (rec_class h pb u I A)|].
    assert (AR : forall a, In a (tr_args u) -> a < length h) by (intros a Ha; apply (i_args _ _ I u a A Ha)).
    revert D AR. generalize (tr_args u). clear -IH G. induction IH as [|a l Pa Pl IHl]; intros [|c cs] D AR; auto.
    destruct D as (D1 & D2). split; [|apply IHl; auto; intros; apply AR; right; auto].
    apply Pa in D1. rewrite (g_root _ _ _ _ G c) in D1 by (apply AR; left; auto). exact D1.
  - destruct R as (u & A & B & C & ->). cbn. exists u. split; [apply G, A|]. split; auto. split; auto. apply G, (rec_class h pb u I A).
Qed.
Lemma rep_root h pb t x : inv h pb -> rep h pb t x -> root h x = x /\ x < length h.
Proof.
  intros I R. assert (K : forall u, rec_in pb u -> root h (root h (tr_class u)) = root h (tr_class u) /\ root h (tr_class u) < length h).
  { intros u Ru. destruct (rec_class h pb u I Ru). pose proof (i_wf _ _ I). split; [apply root_root|apply root_lt]; auto. }
  destruct t as [i|p tys l|i n|m]; [destruct R| |destruct R|].
  - apply rep_fun in R. destruct R as (u & A & B & C & -> & D). auto.
  - destruct R as (u & A & B & C & ->). auto.
Qed.

(** ** Values *)
Definition tr_val (A : alg) (v : Z -> dom A) (val : nat -> dom A) (t : trec) : dom A :=
  match tr_meta t with Some _ => v (tr_index t) | None => a_fun A (tr_index t) [] (map val (tr_args t)) end.
Definition sem (A : alg) (v : Z -> dom A) (val : nat -> dom A) (h : heap) (pb : problem) : Prop :=
  (forall x, x < length h -> val (root h x) = val x) /\ forall t, rec_in pb t -> val (tr_class t) = tr_val A v val t.
Lemma is_meta_none t : tr_is_meta t = false -> tr_meta t = None.
Proof. unfold tr_is_meta. destruct (tr_meta t); congruence. Qed.
Lemma is_meta_some t : tr_is_meta t = true -> exists m, tr_meta t = Some m.
Proof. unfold tr_is_meta. destruct (tr_meta t); [eauto|congruence]. Qed.
Lemma rep_val A v val h pb t : inv h pb -> sem A v val h pb -> well ar t -> forall x, rep h pb t x -> tev A v t = val x.
Proof.
  intros I [S1 S2]. induction t as [i|p tys l IH|i n|m] using term_ind'; intros W x R; [destruct R| |destruct R|].
  - apply well_fun in W. destruct W as (-> & _ & _ & W). apply rep_fun in R. destruct R as (u & P & B & C & -> & D). cbn [tev].
    destruct (rec_class h pb u I P) as (L & _). rewrite S1 by auto. rewrite S2 by auto. unfold tr_val. rewrite (is_meta_none _ B), C. f_equal.
    assert (AR : forall a, In a (tr_args u) -> a < length h) by (intros a Ha; apply (i_args _ _ I u a P Ha)).
    revert D AR W. generalize (tr_args u). clear -IH S1. induction IH as [|a l Pa Pl IHl]; intros [|c cs] D AR W; try (destruct D; fail); auto.
    destruct D as (D1 & D2). inversion W; subst. cbn [map]. f_equal.
    + rewrite (Pa H1 _ D1). apply S1, AR. left; auto.
    + apply IHl; auto. intros; apply AR; right; auto.
  - destruct R as (u & P & B & C & ->). cbn [tev]. destruct (rec_class h pb u I P) as (L & _). rewrite S1, S2 by auto.
    unfold tr_val. destruct (is_meta_some _ B) as (m' & ->). rewrite C. reflexivity.
Qed.

(** ** Adding a record in a new class *)
Definition keeps (h h' : heap) : Prop := length h <= length h' /\ forall x, x < length h -> root h' x = root h x.
Lemma keeps_refl h : keeps h h.
Proof. split; auto. Qed.
Lemma keeps_trans a b c : keeps a b -> keeps b c -> keeps a c.
Proof. intros [L1 R1] [L2 R2]. split; [lia|]. intros x L. rewrite R2, R1 by lia. reflexivity. Qed.
Lemma keeps_reg h pb h' : keeps h h' -> forall x, reg h pb x -> reg h' pb x.
Proof. intros [L R] x [A B]. split; [lia|]. rewrite R; auto. Qed.
Lemma keeps_inv h pb h' : inv h pb -> keeps h h' -> wf h' -> inv h' pb.
Proof.
  intros I K W. pose proof (keeps_reg h pb h' K) as KR. destruct I. destruct K as [L R]. constructor; auto.
  - intros c l J. destruct (i_part0 c l J) as (A & B & C & D). split; [lia|]. split; [rewrite R; auto|]. split; auto.
    intros t T. destruct (D t T). split; [lia|]. rewrite R; auto.
  - intros t a J T. eauto.
  - intros c l t J T. destruct (i_own0 c l t J T). split; [lia|]. rewrite R; auto.
  - intros g q J T. destruct (i_goals0 g q J T). auto.
Qed.
Lemma make_keeps h : wf h -> keeps h (snd (make_class h)).
Proof. intros W. destruct (make_ok h W) as (A & B & C & D). split; [lia|auto]. Qed.

Definition with_goals (pb : problem) (gs : list (list (nat * nat))) : problem := mkPb gs (pb_funs pb) (pb_metas pb) (pb_part pb) (pb_super pb).
(** the class is the last one, in no index *)
Lemma add_record_ok h pb t : inv h pb -> tr_class t < length h -> root h (tr_class t) = tr_class t -> ~ In (tr_class t) (classes pb) ->
  (forall a, In a (tr_args t) -> reg h pb a) -> shape t ->
  (tr_is_meta t = true -> forall u, rec_in pb u -> tr_is_meta u = true -> tr_index u <> tr_index t) ->
  let pb' := snd (add_record h pb t) in
  fst (add_record h pb t) = tr_class t /\ inv h pb' /\ (forall u, rec_in pb' u <-> rec_in pb u \/ u = t) /\ pb_goals pb' = pb_goals pb /\
  (forall c, In c (classes pb') <-> In c (classes pb) \/ c = tr_class t).
Proof.
  intros I L R N AR SH UM pb'. set (c := tr_class t) in *.
  assert (EP : pb_part pb' = nset (pb_part pb) c [t]). { unfold pb', add_record. fold c. rewrite R. destruct (tr_meta t); reflexivity. }
  assert (EG : pb_goals pb' = pb_goals pb). { unfold pb', add_record. destruct (tr_meta t); reflexivity. }
  assert (CL : forall d, In d (classes pb') <-> In d (classes pb) \/ d = c). { intros d. unfold classes. rewrite EP. apply nset_key. }
  assert (NK : forall d l, In (d, l) (pb_part pb) -> d <> c). { intros d l J ->. apply N. apply in_map_iff. exists (c, l). auto. }
  assert (RI : forall u, rec_in pb' u <-> rec_in pb u \/ u = t).
  { intros u. unfold rec_in. rewrite EP. split.
    - intros (d & l & J & K). apply nset_in in J. destruct J as [(J & _)|(-> & ->)]; [left; eauto|]. destruct K as [<-|[]]. auto.
    - intros [(d & l & J & K)| ->].
      + exists d, l. split; auto. apply nset_in. left. split; eauto.
      + exists c, [t]. split; [apply nset_in; auto|left; auto]. }
  assert (RG : forall x, reg h pb x -> reg h pb' x). { intros x [A B]. split; auto. apply CL. auto. }
  split; [exact R|]. split; [|auto]. destruct I. constructor; auto.
  - unfold classes. rewrite EP. apply nset_nodup. auto.
  - intros d l J. rewrite EP in J. apply nset_in in J. destruct J as [(J & _)|(-> & ->)]; [auto|].
    split; auto. split; auto. split; [discriminate|]. intros u [<-|[]]. auto.
  - intros u a J K. apply RI in J. destruct J as [J| ->]; eauto.
  - intros u J. apply RI in J. destruct J as [J| ->]; eauto.
  - unfold pb', add_record. destruct (tr_meta t); cbn; [apply zset_nodup|]; auto.
  - intros i u. rewrite RI. unfold pb', add_record. destruct (tr_meta t) as [m|] eqn:M; cbn.
    + assert (MT : tr_is_meta t = true) by (unfold tr_is_meta; rewrite M; auto). rewrite zset_in, i_metas0. split.
      * intros [((A & B & C) & D)|(-> & ->)]; auto.
      * intros ([A| ->] & B & C); auto. left. split; auto. intros E. apply (UM MT u A B). congruence.
    + assert (MT : tr_is_meta t = false) by (unfold tr_is_meta; rewrite M; auto). rewrite i_metas0. split.
      * intros (A & B & C); auto.
      * intros ([A| ->] & B & C); auto. congruence.
  - unfold pb', add_record. destruct (tr_meta t); cbn; [|apply zset_nodup]; auto.
  - intros i u. rewrite RI. unfold pb', add_record. destruct (tr_meta t) as [m|] eqn:M; cbn.
    + assert (MT : tr_is_meta t = true) by (unfold tr_is_meta; rewrite M; auto). rewrite i_funs0. split.
      * intros (A & B & C); auto.
      * intros ([A| ->] & B & C); auto. congruence.
    + assert (MT : tr_is_meta t = false) by (unfold tr_is_meta; rewrite M; auto). split.
      * intros (l & J & K). apply zset_in in J. destruct J as [(J & D)|(-> & ->)].
        -- assert (X : rec_in pb u /\ tr_is_meta u = false /\ tr_index u = i) by (apply i_funs0; eauto). tauto.
        -- destruct (zget (pb_funs pb) (tr_index t)) as [l|] eqn:G.
           ++ apply in_app_or in K. destruct K as [K|[<-|[]]]; auto. apply zget_in in G.
              assert (X : rec_in pb u /\ tr_is_meta u = false /\ tr_index u = tr_index t) by (apply i_funs0; eauto). tauto.
           ++ destruct K as [<-|[]]. auto.
      * intros ([A| ->] & B & C).
        -- assert (X : exists l, In (i, l) (pb_funs pb) /\ In u l) by (apply i_funs0; auto). destruct X as (l & J & K).
           destruct (Z.eq_dec i (tr_index t)) as [E|E].
           ++ eexists. split; [apply zset_in; right; split; [exact E|reflexivity]|]. rewrite <- E. rewrite (in_zget _ _ _ i_fkeys0 J).
              apply in_or_app. auto.
           ++ exists l. split; auto. apply zset_in. auto.
        -- eexists. split; [apply zset_in; right; split; [symmetry; exact C|reflexivity]|].
           destruct (zget (pb_funs pb) (tr_index t)); [apply in_or_app; right|]; left; auto.
  - unfold pb', add_record. destruct (tr_meta t); cbn; apply nset_nodup; auto.
  - intros d. rewrite CL. rewrite <- i_super0. unfold pb', add_record. fold c. rewrite R. destruct (tr_meta t); cbn; apply nset_key.
  - intros d l u J K. unfold pb', add_record in J. fold c in J. rewrite R in J. destruct (tr_meta t); cbn in J; apply nset_in in J;
      (destruct J as [(J & _)|(-> & ->)]; [eauto|]); [destruct K|]. destruct K as [<-|[]]. auto.
  - rewrite EG. intros g q J K. destruct (i_goals0 g q J K). auto.
Qed.
(** ** Congruence of records *)
Lemma args_cong_ok h l1 : forall l2, length l1 = length l2 ->
  exists b, args_congruent h l1 l2 = Ok b /\ (b = true <-> Forall2 (fun x y => root h x = root h y) l1 l2).
Proof.
  induction l1 as [|a l1 IH]; intros [|b l2] E; try discriminate.
  - exists true. split; auto. split; auto.
  - cbn [args_congruent]. unfold congruent. destruct (Nat.eqb_spec (root h a) (root h b)) as [D|D].
    + destruct (IH l2 ltac:(cbn in E; lia)) as (x & F & G). exists x. split; auto. rewrite G. split; intros H; [constructor; auto|inversion H; auto].
    + exists false. split; auto. split; [discriminate|]. intros H. inversion H; congruence.
Qed.
Definition fun_congruent (h : heap) (t u : trec) : Prop :=
  tr_index t = tr_index u /\ Forall2 (fun x y => root h x = root h y) (tr_args t) (tr_args u).
Lemma cong_ok h t u : shape t -> shape u -> tr_is_meta t = false -> tr_is_meta u = false ->
  exists b, tr_congruent h t u = Ok b /\ (b = true <-> fun_congruent h t u).
Proof.
  intros St Su Mt Mu. unfold tr_congruent, fun_congruent. rewrite Mt, Mu. cbn [Bool.eqb negb]. rewrite orb_false_r.
  destruct (Z.eqb_spec (tr_index t) (tr_index u)) as [E|E]; cbn [negb].
  - unfold shape in *. rewrite (is_meta_none _ Mt) in St. rewrite (is_meta_none _ Mu) in Su.
    destruct (args_cong_ok h (tr_args t) (tr_args u)) as (b & F & G).
    { destruct St as (_ & _ & ->). destruct Su as (_ & _ & ->). congruence. }
    exists b. split; auto. rewrite G. tauto.
  - exists false. split; auto. split; [discriminate|tauto].
Qed.
(** the records of the same application are in the same class *)
Definition closed (h : heap) (pb : problem) : Prop :=
  forall t u, rec_in pb t -> rec_in pb u -> tr_is_meta t = false -> tr_is_meta u = false -> fun_congruent h t u -> root h (tr_class t) = root h (tr_class u).
Lemma closed_spec h pb : inv h pb -> (closed h pb <-> closed_classes h pb).
Proof.
  intros I. unfold closed_classes. split.
  - intros C i l t u J Ht Hu E. apply Nat.eqb_eq.
    destruct (proj1 (i_funs _ _ I i t) ltac:(eauto)) as (A1 & A2 & A3). destruct (proj1 (i_funs _ _ I i u) ltac:(eauto)) as (B1 & B2 & B3).
    apply C; auto. destruct (cong_ok h t u) as (b & F & G); try (apply (i_shape _ _ I)); auto. rewrite F in E. injection E as ->. apply G; auto.
  - intros C t u Rt Ru Mt Mu F. apply Nat.eqb_eq.
    destruct (proj2 (i_funs _ _ I (tr_index t) t) ltac:(auto)) as (l & J & K).
    destruct (proj2 (i_funs _ _ I (tr_index t) u)) as (l' & J' & K'). { destruct F as [E _]. auto. }
    pose proof (in_zget _ _ _ (i_fkeys _ _ I) J) as G1. rewrite (in_zget _ _ _ (i_fkeys _ _ I) J') in G1. injection G1 as ->.
    apply (C (tr_index t) l); auto. destruct (cong_ok h t u) as (b & X & Y); try (apply (i_shape _ _ I)); auto. rewrite X. f_equal. apply Y. auto.
Qed.
Lemma first_ok h t l : shape t -> tr_is_meta t = false -> (forall u, In u l -> shape u /\ tr_is_meta u = false) ->
  exists o, first_congruent h t l = Ok o /\
    match o with
    | Some u => In u l /\ fun_congruent h t u
    | None => forall u, In u l -> ~ fun_congruent h t u
    end.
Proof.
  intros St Mt. induction l as [|a l IH]; intros H.
  - exists None. cbn. split; [reflexivity|]. intros u [].
  - cbn [first_congruent]. destruct (H a ltac:(left; auto)) as (Sa & Ma). destruct (cong_ok h t a St Sa Mt Ma) as (b & -> & G). cbn [bind].
    destruct b.
    + exists (Some a). split; auto. split; [left; auto|apply G; auto].
    + destruct IH as (o & E & P). { intros u Hu. apply H. right; auto. } exists o. split; auto. destruct o as [u|].
      * destruct P. split; auto. right; auto.
      * intros u [<-|Hu]; auto. intros F. apply G in F. discriminate.
Qed.

(** ** The class of a term *)
Definition same_values (h : heap) (pb : problem) (h' : heap) (pb' : problem) : Prop :=
  forall A v val, sem A v val h pb -> exists val', sem A v val' h' pb'.
Record extends (h : heap) (pb : problem) (h' : heap) (pb' : problem) : Prop := mkExt
  { e_inv : inv h' pb';
    e_grows : grows h pb h' pb';
    e_keeps : keeps h h';
    e_goals : pb_goals pb' = pb_goals pb;
    e_values : same_values h pb h' pb';
    e_closed : closed h pb -> closed h' pb' }.
Lemma extends_refl h pb : inv h pb -> extends h pb h pb.
Proof. intros I. constructor; auto using keeps_refl. apply grows_refl, I. intros A v val S. eauto. Qed.
Lemma extends_trans h1 p1 h2 p2 h3 p3 : inv h1 p1 -> extends h1 p1 h2 p2 -> extends h2 p2 h3 p3 -> extends h1 p1 h3 p3.
Proof.
  intros I [A1 B1 C1 D1 E1 F1] [A2 B2 C2 D2 E2 F2]. constructor; auto.
  - eapply grows_trans; eauto. apply I.
  - eapply keeps_trans; eauto.
  - congruence.
  - intros A v val S. destruct (E1 _ _ _ S) as (val' & S'). eauto.
Qed.
Lemma keeps_cong h pb h' t u : inv h pb -> keeps h h' -> rec_in pb t -> rec_in pb u -> fun_congruent h' t u -> fun_congruent h t u.
Proof.
  intros I [L R] Rt Ru [E F]. split; auto.
  assert (Lt : forall a, In a (tr_args t) -> a < length h) by (intros a Ha; apply (i_args _ _ I t a Rt Ha)).
  assert (Lu : forall a, In a (tr_args u) -> a < length h) by (intros a Ha; apply (i_args _ _ I u a Ru Ha)).
  revert F Lt Lu. generalize (tr_args t) (tr_args u). clear -R. intros l1 l2 F. induction F; intros Lt Lu; constructor.
  - rewrite <- !R by (try (apply Lt; left; reflexivity); apply Lu; left; reflexivity). auto.
  - apply IHF; intros; [apply Lt|apply Lu]; right; auto.
Qed.
(** only a class is allocated *)
Lemma make_extends h pb : inv h pb -> extends h pb (snd (make_class h)) pb.
Proof.
  intros I. pose proof (i_wf _ _ I) as W. destruct (make_ok h W) as (A & B & C & D). pose proof (make_keeps h W) as K.
  set (h' := snd (make_class h)) in *. constructor; auto.
  - eapply keeps_inv; eauto.
  - constructor; auto; try lia.
    + intros x L. rewrite !D by (auto using root_lt). apply root_root; auto.
    + intros x. apply keeps_reg; auto.
  - intros Al v val [S1 S2]. exists val. split; auto. intros x L. destruct (Nat.eq_dec x (length h)) as [->|].
    + rewrite C. reflexivity.
    + rewrite D by lia. apply S1. lia.
  - intros Cl t u Rt Ru Mt Mu F. destruct (rec_class h pb t I Rt), (rec_class h pb u I Ru). rewrite !D by auto.
    apply Cl; auto. apply (keeps_cong h pb h'); auto.
Qed.
(** a class is allocated, with a record *)
Lemma record_extends h pb t : inv h pb -> tr_class t = length h -> (forall a, In a (tr_args t) -> reg h pb a) -> shape t ->
  (tr_is_meta t = true -> forall u, rec_in pb u -> tr_is_meta u = true -> tr_index u <> tr_index t) ->
  (tr_is_meta t = false -> forall u, rec_in pb u -> tr_is_meta u = false -> ~ fun_congruent (snd (make_class h)) t u) ->
  let h' := snd (make_class h) in
  exists pb', add_record h' pb t = (tr_class t, pb') /\ extends h pb h' pb' /\ rec_in pb' t.
Proof.
  intros I E AR SH UM UF h'. pose proof (make_extends h pb I) as X. pose proof (i_wf _ _ I) as W. destruct (make_ok h W) as (A & B & C & D).
  fold h' in X, A, B, C, D. destruct X as [XI XG XK XO XV XC].
  assert (NC : ~ In (tr_class t) (classes pb)).
  { intros J. unfold classes in J. apply in_map_iff in J. destruct J as ([c l] & F & J). destruct (i_part _ _ I c l J) as (Y & _). cbn in F. lia. }
  destruct (add_record_ok h' pb t) as (F & J & R & G & CL); auto; try (rewrite E; auto; lia).
  { intros a Ha. apply XG, AR, Ha. }
  set (pb' := snd (add_record h' pb t)) in *. exists pb'. split; [unfold pb'; rewrite <- F; apply surjective_pairing|].
  split; [|apply R; auto].
  assert (AL : forall a, In a (tr_args t) -> a < length h) by (intros a Ha; apply (AR a Ha)).
  constructor; auto.
  - constructor; auto; try lia.
    + intros u Hu. apply R. auto.
    + apply XG.
    + intros x Hx. destruct (g_reg _ _ _ _ XG x Hx). split; auto. apply CL. auto.
  - intros Al v val S. pose proof S as [S1 S2]. set (val' := fun x => if Nat.eqb x (length h) then tr_val Al v val t else val x).
    assert (OLD : forall x, x < length h -> val' x = val x). { intros x L. unfold val'. destruct (Nat.eqb_spec x (length h)); [lia|auto]. }
    assert (NEW : val' (length h) = tr_val Al v val t) by (unfold val'; rewrite Nat.eqb_refl; auto).
    assert (TV : forall u, (forall a, In a (tr_args u) -> a < length h) -> tr_val Al v val' u = tr_val Al v val u).
    { intros u Lu. unfold tr_val. destruct (tr_meta u); auto. f_equal. apply map_ext_in. auto. }
    exists val'. split.
    + intros x L. destruct (Nat.eq_dec x (length h)) as [->|]; [rewrite C; auto|]. assert (x < length h) by lia.
      rewrite D by auto. rewrite !OLD by (auto using root_lt). auto.
    + intros u Hu. apply R in Hu. destruct Hu as [Hu| ->].
      * destruct (rec_class h pb u I Hu). rewrite OLD by auto. rewrite TV by (intros a Ha; apply (i_args _ _ I u a Hu Ha)). auto.
      * rewrite E, NEW, TV; auto.
  - intros Cl u w Ru Rw Mu Mw FC. apply R in Ru. apply R in Rw. pose proof (XC Cl) as Cl'. destruct Ru as [Ru| ->], Rw as [Rw| ->]; auto.
    + exfalso. apply (UF Mw u Ru Mu). destruct FC as [X Y]. split; [congruence|]. clear -Y. induction Y; constructor; auto.
    + exfalso. apply (UF Mu w Rw Mw FC).
Qed.

Definition found (t : term) (h : heap) (pb : problem) : Prop :=
  exists c h' pb', get_class t h pb = Ok (c, h', pb') /\ extends h pb h' pb' /\ reg h' pb' c /\ rep h' pb' t (root h' c).
Fixpoint get_classes (args : list term) (h : heap) (pb : problem) : out (list nat * heap * problem) :=
  match args with
  | [] => Ok ([], h, pb)
  | a :: r =>
    do (c, h, pb) <- get_class a h pb;
    do (l, h, pb) <- get_classes r h pb;
    Ok (c :: l, h, pb)
  end.
Lemma get_class_fun p tys args h pb : get_class (Fun p tys args) h pb =
  (do (l, h, pb) <- get_classes args h pb;
    let '(c, h) := make_class h in
    let r := fun_rec p l c in
    do found <- first_congruent h r (match zget (pb_funs pb) (tr_index r) with Some l => l | None => [] end);
    match found with
    | Some u => Ok (tr_class u, h, pb)
    | None => let '(c, pb) := add_record h pb r in Ok (c, h, pb)
    end).
Proof.
  cbn [get_class]. match goal with |- bind ?a _ = bind ?b _ => assert (E : a = b) end; [|rewrite E; reflexivity].
  revert h pb. induction args as [|a r IH]; intros h pb; [reflexivity|]. cbn [get_classes]. destruct (get_class a h pb) as [[[c h1] p1]| | |]; auto.

Qed.
Lemma rep_ext h pb h' pb' t x : inv h pb -> extends h pb h' pb' -> rep h pb t x -> rep h' pb' t x.
Proof.
  intros I X R. destruct (rep_root _ _ _ _ I R) as (A & B). apply (rep_mono h pb h' pb' t I (e_grows _ _ _ _ X)) in R.
  destruct (e_keeps _ _ _ _ X) as [_ K]. rewrite K, A in R by auto. exact R.
Qed.
Lemma reps_len h pb l : forall cs, reps h pb l cs -> length cs = length l.
Proof. induction l; intros [|c cs] R; cbn in *; try tauto. f_equal. apply IHl, R. Qed.
Lemma get_classes_ok l : Forall (fun t => well ar t -> forall h pb, inv h pb -> found t h pb) l -> Forall (well ar) l ->
  forall h pb, inv h pb -> exists cs h' pb', get_classes l h pb = Ok (cs, h', pb') /\ extends h pb h' pb' /\
    (forall c, In c cs -> reg h' pb' c) /\ reps h' pb' l cs.
Proof.
  intros H. induction H as [|a l Ha Hl IH]; intros W h pb I.
  - exists [], h, pb. split; auto. split; [apply extends_refl; auto|]. split; [intros c []|exact Logic.I].
  - inversion W; subst. cbn [get_classes]. destruct (Ha H1 h pb I) as (c & h1 & p1 & E1 & X1 & G1 & R1). rewrite E1. cbn [bind].
    destruct (IH H2 h1 p1 (e_inv _ _ _ _ X1)) as (cs & h2 & p2 & E2 & X2 & G2 & R2). rewrite E2. cbn [bind].
    exists (c :: cs), h2, p2. split; auto. split; [eapply extends_trans; eauto|]. split.
    + intros d [<-|Hd]; auto. apply (g_reg _ _ _ _ (e_grows _ _ _ _ X2)), G1.
    + split; auto. destruct G1 as (L1 & _). destruct (e_keeps _ _ _ _ X2) as [_ K]. rewrite K by auto.
      eapply rep_ext; [apply X1|exact X2|exact R1].
Qed.
Lemma reps_cong h pb l : forall cs ds, Forall2 (fun x y => root h x = root h y) cs ds -> reps h pb l cs -> reps h pb l ds.
Proof.
  induction l; intros cs ds F R; destruct F; cbn in *; try tauto. destruct R. split; [congruence|eauto].
Qed.
Theorem get_class_ok t : well ar t -> forall h pb, inv h pb -> found t h pb.
Proof.
  induction t as [i|p tys l IH|i n|m] using term_ind'; intros W h pb I; [destruct W| |destruct W|].
  - pose proof W as W0. apply well_fun in W. destruct W as (-> & LN & SY & W). unfold found. rewrite get_class_fun.
    destruct (get_classes_ok l IH W h pb I) as (cs & h1 & p1 & E1 & X1 & G1 & R1). rewrite E1. cbn [bind]. clear E1.
    pose proof (e_inv _ _ _ _ X1) as I1. pose proof (make_extends h1 p1 I1) as XM.
    destruct (make_class h1) as [c h2] eqn:EM. assert (c = length h1) by (unfold make_class in EM; congruence).
    assert (E2 : h2 = snd (make_class h1)) by (rewrite EM; auto). cbn [snd] in XM.
    set (r := fun_rec p cs c).
    assert (SR : shape r). { unfold shape, r; cbn. rewrite (reps_len _ _ _ _ R1). auto. }
    assert (AR : forall a, In a (tr_args r) -> reg h1 p1 a) by (intros a Ha; apply G1, Ha).
    set (us := match zget (pb_funs p1) (tr_index r) with Some l0 => l0 | None => [] end).
    assert (US : forall u, In u us <-> rec_in p1 u /\ tr_is_meta u = false /\ tr_index u = tr_index r).
    { intros u. rewrite <- (i_funs _ _ I1). unfold us. destruct (zget (pb_funs p1) (tr_index r)) as [l0|] eqn:G.
      - split; [intros Hu; exists l0; split; auto; apply zget_in; auto|]. intros (l1 & J & K). rewrite (in_zget _ _ _ (i_fkeys _ _ I1) J) in G. congruence.
      - split; [intros []|]. intros (l1 & J & K). exact (zget_none _ _ _ G J). }
    destruct (first_ok h2 r us SR eq_refl) as (o & EF & PO).
    { intros u Hu. apply US in Hu. destruct Hu as (A & B & _). split; auto. apply (i_shape _ _ I1); auto. }
    rewrite EF. cbn [bind]. destruct o as [u|].
    + destruct PO as (Hu & FC). apply US in Hu. destruct Hu as (A & B & C). exists (tr_class u), h2, p1. split; auto.
      split; [eapply extends_trans; eauto|]. pose proof (e_inv _ _ _ _ XM) as I2. split; [apply rec_reg; auto|].
      apply rep_fun. exists u. split; auto. split; auto. split; [exact C|]. split; auto.
      destruct FC as [_ F]. apply (reps_cong h2 p1 l cs); auto. clear -R1 XM I1 G1. revert cs R1 G1. induction l; intros [|c cs] R1 G1; cbn in *; try tauto.
      destruct R1 as (R1 & R2). split; [|apply IHl; auto]. destruct (e_keeps _ _ _ _ XM) as [_ K]. rewrite K by (apply G1; auto). eapply rep_ext; eauto.
    + destruct (record_extends h1 p1 r I1) as (p2 & ER & X2 & RR); auto; try discriminate.
      { intros _ u Hu Mu F. rewrite <- E2 in F. apply (PO u); auto. apply US. destruct F as [F _]. auto. }
      rewrite <- E2 in *. rewrite ER. exists (tr_class r), h2, p2. split; auto. split; [eapply extends_trans; eauto|].
      pose proof (e_inv _ _ _ _ X2) as I2. split; [apply rec_reg; auto|]. apply rep_fun. exists r. repeat split; auto. unfold r; cbn [tr_args fun_rec].
      clear -R1 X2 I1 G1. revert cs R1 G1. induction l; intros [|c cs] R1 G1; cbn in *; try tauto.
      destruct R1 as (R1 & R2). split; [|apply IHl; auto]. destruct (e_keeps _ _ _ _ X2) as [_ K]. rewrite K by (apply G1; auto). eapply rep_ext; eauto.
  - unfold found. cbn [get_class]. destruct (zget (pb_metas pb) (m_index m)) as [u|] eqn:G.
    + apply zget_in in G. apply (i_metas _ _ I) in G. destruct G as (A & B & C). exists (tr_class u), h, pb. split; auto.
      split; [apply extends_refl; auto|]. split; [apply rec_reg; auto|]. exists u. auto.
    + destruct (make_class h) as [c h2] eqn:EM. assert (c = length h) by (unfold make_class in EM; congruence).
      assert (E2 : h2 = snd (make_class h)) by (rewrite EM; auto). set (r := meta_rec m c).
      destruct (record_extends h pb r I) as (p2 & ER & X2 & RR); auto; try discriminate.
      { intros a []. }
      { unfold shape, r; cbn. auto. }
      { intros _ u Hu Mu E. apply (zget_none _ _ u G). apply (i_metas _ _ I). auto. }
      rewrite <- E2 in *. rewrite ER. exists (tr_class r), h2, p2. split; auto. split; auto.
      pose proof (e_inv _ _ _ _ X2) as I2. split; [apply rec_reg; auto|]. exists r. auto.
Qed.
End Closure.
