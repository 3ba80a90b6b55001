(** The tree of nodes of the incremental search: an invariant of all runs. *)
From Coq Require Import ZArith List Bool String Lia.
From Verif Require Import LibSet_Model Ast_Model Problem_Model Rules_Model Sem_Spec Rules_Spec Expand_Proofs
  Unif_Model UnifTree_Model Incr_Model Incr_Spec IncrSub_Proofs Incr_Proofs.
Import ListNotations.
Open Scope list_scope.
Open Scope nat_scope.

(** ** Lists *)
Lemma nth_set {A} (l : list A) i (a : A) j : i < List.length l ->
  nth_error (firstn i l ++ a :: skipn (S i) l) j = if Nat.eqb j i then Some a else nth_error l j.
Proof.
  revert i j. induction l as [|b l IH]; intros [|i] [|j] H; cbn in *; try lia; auto. rewrite IH by lia. auto.
Qed.
Lemma len_set {A} (l : list A) i (a : A) : i < List.length l -> List.length (firstn i l ++ a :: skipn (S i) l) = List.length l.
Proof. intros H. rewrite app_length, firstn_length. cbn [List.length]. rewrite skipn_length. lia. Qed.
Lemma nth_in_range {A} (l : list A) i a : nth_error l i = Some a -> i < List.length l.
Proof. intros H. apply nth_error_Some. congruence. Qed.
Lemma map_set {A B} (h : A -> B) l i a : map h (firstn i l ++ a :: skipn (S i) l) = firstn i (map h l) ++ h a :: skipn (S i) (map h l).
Proof. rewrite map_app, firstn_map, skipn_map. reflexivity. Qed.
Lemma set_same {A} (l : list A) i a : nth_error l i = Some a -> firstn i l ++ a :: skipn (S i) l = l.
Proof. revert i. induction l as [|b l IH]; intros [|i] H; cbn in *; try discriminate; [congruence|]. f_equal. auto. Qed.

(** ** The skeleton *)
Definition skel (n : snode) : nat * nat * list nat * mgr := (n_father n, n_nb n, n_children n, n_mgr n).
Definition quiet (w w' : world) : Prop :=
  map skel (w_nodes w') = map skel (w_nodes w) /\ w_gen w' = w_gen w /\ w_sko w' = w_sko w /\ w_impossible w' = w_impossible w.
Lemma quiet_refl w : quiet w w.
Proof. repeat split. Qed.
Lemma quiet_trans w1 w2 w3 : quiet w1 w2 -> quiet w2 w3 -> quiet w1 w3.
Proof. intros (A & B & C & D) (A' & B' & C' & D'). repeat split; congruence. Qed.
Lemma quiet_sym w1 w2 : quiet w1 w2 -> quiet w2 w1.
Proof. intros (A & B & C & D). repeat split; congruence. Qed.
Lemma skel_at w w' i n : map skel (w_nodes w') = map skel (w_nodes w) -> node_at w i n -> exists n', node_at w' i n' /\ skel n' = skel n.
Proof.
  unfold node_at. intros Q H. pose proof (map_nth_error skel _ _ H) as K. rewrite <- Q in K.
  rewrite nth_error_map in K. destruct (nth_error (w_nodes w') i) as [n'|] eqn:E; [|discriminate]. exists n'. split; [reflexivity|]. cbn [option_map] in K. congruence.
Qed.
Lemma skel_len w w' : map skel (w_nodes w') = map skel (w_nodes w) -> List.length (w_nodes w') = List.length (w_nodes w).
Proof. intros Q. rewrite <- (map_length skel (w_nodes w')), Q, map_length. auto. Qed.
Lemma skel_children n n' : skel n' = skel n -> n_children n' = n_children n /\ n_father n' = n_father n /\ n_nb n' = n_nb n /\ n_mgr n' = n_mgr n.
Proof. unfold skel. intros E. injection E as -> -> -> ->. auto. Qed.
Lemma skel_below w w' : map skel (w_nodes w') = map skel (w_nodes w) -> forall i j, below w i j -> below w' i j.
Proof.
  intros Q i j B. induction B as [i|i n c j H C B IH]; [constructor|].
  destruct (skel_at _ _ _ _ Q H) as (n' & H' & S). apply skel_children in S as (S & _). econstructor; [exact H'|rewrite S; exact C|auto].
Qed.
Lemma skel_closed w w' t i : map skel (w_nodes w') = map skel (w_nodes w) -> closed_below t w i -> closed_below t w' i.
Proof.
  intros Q C j n (B & H & L). symmetry in Q. destruct (skel_at _ _ _ _ Q H) as (n' & H' & S). apply skel_children in S as (S1 & _ & _ & S4).
  rewrite <- S4. apply (C j n'). split; [eapply skel_below; eauto|]. split; auto. congruence.
Qed.

Lemma put_at w i n n' j m : node_at w i n -> (node_at (put w i n') j m <-> (j = i /\ m = n') \/ (j <> i /\ node_at w j m)).
Proof.
  unfold node_at, put. cbn [w_nodes]. intros H. unfold set_node. rewrite nth_set by (eapply nth_in_range; eauto).
  destruct (Nat.eqb j i) eqn:E; [apply Nat.eqb_eq in E|apply Nat.eqb_neq in E].
  - split; [intros K; injection K as <-; auto|intros [[_ ->]|[K _]]; [auto|contradiction]].
  - split; [auto|intros [[K _]|[_ K]]; [contradiction|auto]].
Qed.
Lemma put_skel w i n n' : node_at w i n -> skel n' = skel n -> map skel (w_nodes (put w i n')) = map skel (w_nodes w).
Proof.
  unfold node_at, put. cbn [w_nodes]. intros H S. unfold set_node. rewrite map_set, S. apply set_same.
  apply map_nth_error. auto.
Qed.
Lemma put_quiet w i n n' : node_at w i n -> skel n' = skel n -> quiet w (put w i n').
Proof. intros H S. split; [eapply put_skel; eauto|]. repeat split. Qed.
Lemma get_at w i n : get w i = Ok n <-> node_at w i n.
Proof. unfold get, node_at. destruct (nth_error _ _); split; intros E; try discriminate; congruence. Qed.
Lemma bind_ok {A B} (x : out A) (f : A -> out B) b : bind x f = Ok b -> exists a, x = Ok a /\ f a = Ok b.
Proof. destruct x; cbn; intros E; try discriminate. eauto. Qed.

(** ** The tree *)
Record tree (w : world) : Prop := {
  tr_root : exists n, node_at w 0 n /\ n_father n = 0 /\ n_nb n = 0;
  tr_up : forall i n, node_at w i n -> i <> 0 -> n_father n < i /\
    exists nf, node_at w (n_father n) nf /\ nth_error (n_children nf) (n_nb n) = Some i;
  tr_down : forall i n k c, node_at w i n -> nth_error (n_children n) k = Some c ->
    i < c /\ exists nc, node_at w c nc /\ n_father nc = i /\ n_nb nc = k;
  tr_sorted : forall i n, node_at w i n -> sorted (n_mgr n);
  tr_rest : forall i n, node_at w i n -> mg_reintro (n_mgr n) = [] /\ mg_metas (n_mgr n) = [] }.
Lemma skel_tree w w' : map skel (w_nodes w') = map skel (w_nodes w) -> tree w -> tree w'.
Proof.
  intros Q T. pose proof (eq_sym Q) as Q'. destruct T as [(n0 & T1 & T2 & T3) T4 T5 T6 T7]. constructor.
  - destruct (skel_at _ _ _ _ Q T1) as (n & H & S). apply skel_children in S as (S1 & S2 & S3 & S4). exists n. split; auto. split; congruence.
  - intros i n' H' N. destruct (skel_at _ _ _ _ Q' H') as (n & H & S). apply skel_children in S as (S1 & S2 & S3 & S4).
    destruct (T4 i n H N) as (L & nf & Hf & C). destruct (skel_at _ _ _ _ Q Hf) as (nf' & Hf' & Sf). apply skel_children in Sf as (Sf & _).
    rewrite <- S2, <- S3. split; auto. exists nf'. split; auto. congruence.
  - intros i n' k c H' C. destruct (skel_at _ _ _ _ Q' H') as (n & H & S). apply skel_children in S as (S1 & S2 & S3 & S4).
    rewrite <- S1 in C. destruct (T5 i n k c H C) as (L & nc & Hc & F & B). split; auto.
    destruct (skel_at _ _ _ _ Q Hc) as (nc' & Hc' & Sc). apply skel_children in Sc as (_ & Sc2 & Sc3 & _). exists nc'. split; auto. split; congruence.
  - intros i n' H'. destruct (skel_at _ _ _ _ Q' H') as (n & H & S). apply skel_children in S as (_ & _ & _ & <-). eauto.
  - intros i n' H'. destruct (skel_at _ _ _ _ Q' H') as (n & H & S). apply skel_children in S as (_ & _ & _ & <-). eauto.
Qed.
Lemma node_fun w i n n' : node_at w i n -> node_at w i n' -> n = n'.
Proof. unfold node_at. congruence. Qed.
Lemma tr_child w i n c : tree w -> node_at w i n -> In c (n_children n) -> i < c /\ exists nc, node_at w c nc /\ n_father nc = i.
Proof.
  intros T H C. apply In_nth_error in C as (k & C). destruct (tr_down w T i n k c H C) as (L & nc & Hc & F & _). eauto.
Qed.
Lemma tr_nodup w i n : tree w -> node_at w i n -> NoDup (n_children n).
Proof.
  intros T H. apply NoDup_nth_error. intros a b L E.
  destruct (nth_error (n_children n) a) as [c|] eqn:Ea; [|apply nth_error_Some in L; congruence]. symmetry in E.
  destruct (tr_down w T i n a c H Ea) as (_ & n1 & H1 & _ & B1). destruct (tr_down w T i n b c H E) as (_ & n2 & H2 & _ & B2).
  pose proof (node_fun _ _ _ _ H1 H2). congruence.
Qed.
Lemma below_le w i j : tree w -> below w i j -> i <= j.
Proof.
  intros T B. induction B as [i|i n c j H C B IH]; auto. destruct (tr_child w i n c T H C) as (L & _). lia.
Qed.
Lemma below_trans w i j k : below w i j -> below w j k -> below w i k.
Proof. induction 1; auto. intros. econstructor; eauto. Qed.
Lemma below_at w i j : tree w -> below w i j -> (exists n, node_at w i n) -> exists n, node_at w j n.
Proof.
  intros T B. induction B as [i|i n c j H C B IH]; auto. intros _. destruct (tr_child w i n c T H C) as (_ & nc & Hc & _). eauto.
Qed.
Lemma below_up w i j n : tree w -> below w i j -> i <> j -> node_at w j n -> below w i (n_father n).
Proof.
  intros T B. induction B as [i|i n' c j H C B IH]; intros N Hj; [contradiction|].
  destruct (Nat.eq_dec c j) as [->|D].
  - destruct (tr_child w i n' j T H C) as (_ & nc & Hc & F). pose proof (node_fun _ _ _ _ Hj Hc). subst nc. rewrite F. constructor.
  - econstructor; eauto.
Qed.
Lemma below_disjoint w i n c1 c2 j : tree w -> node_at w i n -> In c1 (n_children n) -> In c2 (n_children n) -> c1 <> c2 ->
  below w c1 j -> below w c2 j -> False.
Proof.
  intros T H C1 C2 D. destruct (tr_child w i n c1 T H C1) as (L1 & n1 & H1 & F1), (tr_child w i n c2 T H C2) as (L2 & n2 & H2 & F2).
  induction j as [j IH] using lt_wf_ind. intros B1 B2.
  destruct (Nat.eq_dec c1 j) as [->|N1]; [|destruct (Nat.eq_dec c2 j) as [->|N2]].
  - pose proof (below_up w c2 j n1 T B2 ltac:(auto) H1) as K. rewrite F1 in K. apply below_le in K; auto. lia.
  - pose proof (below_up w c1 j n2 T B1 N1 H2) as K. rewrite F2 in K. apply below_le in K; auto. lia.
  - destruct (below_at w c1 j T B1 (ex_intro _ n1 H1)) as (nj & Hj).
    assert (J : j <> 0) by (apply below_le in B1; auto; lia).
    destruct (tr_up w T j nj Hj J) as (L & _). apply (IH (n_father nj) L); eapply below_up; eauto.
Qed.

(** ** Substitutions found by the closure rules *)
Section Search.
Variable P : mgr -> Prop.
Variables E G : Prop.
Definition okc (m : mgr) (s : sub) : Prop :=
  (E -> functional s /\ forall t, satisfies t s -> clash t (forms_of m)) /\ (G -> every s = []).
Definition good (w : world) (j : nat) (s : sub) : Prop :=
  (E -> functional s /\ forall t, satisfies t s -> closed_below t w j) /\ (G -> every s = []).
Lemma good_quiet w w' j s : map skel (w_nodes w') = map skel (w_nodes w) -> good w j s -> good w' j s.
Proof. intros Q [A B]. split; auto. intros e. destruct (A e) as [F C]. split; auto. intros t S. eapply skel_closed; eauto. Qed.

(** what a position of the list of substitutions is about *)
Definition target (i : nat) (n : snode) (k : nat) : nat :=
  match n_children n with [] => i | _ => nth k (n_children n) 0 end.
Record fok (w : world) (i : nat) (n : snode) : Prop := {
  fo_leaf : n_children n = [] -> n_kind n = Simple /\ List.length (n_closing n) = 1 /\ n_amount n = 1;
  fo_leaf_empty : n_children n = [] -> i <> 0 -> n_closing n = [[]];
  fo_inner : n_children n <> [] -> List.length (n_closing n) = List.length (n_children n) /\ n_amount n = List.length (n_children n) /\
    (n_kind n = Simple -> List.length (n_children n) = 1);
  fo_closing : forall k l s, nth_error (n_closing n) k = Some l -> In s l -> good w (target i n k) s;
  fo_closed : n_closed n = true -> n_subs n <> [] /\ forall s, In s (n_subs n) -> okc (n_mgr n) s }.
Definition fields (w : world) : Prop := forall i n, node_at w i n -> fok w i n.
Lemma fok_quiet w w' i n : map skel (w_nodes w') = map skel (w_nodes w) -> fok w i n -> fok w' i n.
Proof. intros Q [F1 F2 F3 F4 F5]. constructor; auto. intros k l s H1 H2. eapply good_quiet; eauto. Qed.
Lemma put_fields w i n n' : node_at w i n -> skel n' = skel n -> fields w -> fok w i n' -> fields (put w i n').
Proof.
  intros H S F K j m Hj. pose proof (put_skel w i n n' H S) as Q. eapply fok_quiet; [exact Q|].
  apply (put_at w i n n') in Hj as [[-> ->]|[_ Hj]]; auto.
Qed.

(** ** Pending goroutines *)
Definition tnode (t : task) : nat := match t with DoSearch i | DoKeepGoing i => i end.
Definition pending (w : world) : list nat := map tnode (w_tasks w).
Definition active (w : world) (A : nat -> Prop) (c : nat) : Prop := exists j, below w c j /\ A j.
(** the counter of a branching node is at least the number of its children under which something is active, or ([G]) that have
    not answered *)
Definition counts (w : world) (A : nat -> Prop) : Prop :=
  forall i n k, node_at w i n -> n_kind n = Branching k -> forall l, NoDup l -> incl l (n_children n) ->
  (forall c, In c l -> active w A c \/ (G /\ exists j, nth_error (n_children n) j = Some c /\ nth_error (n_closing n) j = Some [])) ->
  (Z.of_nat (List.length l) <= k)%Z.
Definition unanswered (w : world) (A : nat -> Prop) : Prop :=
  G -> forall i n j c, node_at w i n -> nth_error (n_children n) j = Some c -> active w A c -> nth_error (n_closing n) j = Some [].
(** an active node has not answered yet ([G]) *)
Definition fresh (w : world) (A : nat -> Prop) : Prop := G -> forall i n, node_at w i n -> active w A i -> n_done n = [].
Record tasks_ok (w : world) : Prop := {
  ta_nodup : NoDup (pending w);
  ta_leaf : forall j, In j (pending w) -> exists n, node_at w j n /\ n_children n = [] /\ n_closing n = [[]] }.

(** ** keepGoing *)
Definition leaves_under (w : world) (i j : nat) : Prop := exists n, leaf_of w i j n.
Record kept (w w' : world) (U : nat -> Prop) : Prop := {
  ke_quiet : quiet w w';
  ke_fields : fields w';
  ke_tasks : exists L, w_tasks w' = w_tasks w ++ map DoKeepGoing L /\ NoDup L /\
    forall j, In j L <-> exists i, U i /\ leaves_under w i j;
  ke_same : forall j n, node_at w j n -> (n_children n = [] \/ ~ exists i, U i /\ below w i j) -> node_at w' j n;
  ke_count : forall i j n k, U i -> below w i j -> node_at w' j n -> n_kind n = Branching k -> (k = Z.of_nat (List.length (n_children n)))%Z }.
Lemma keep_fold (kg : nat -> world -> out world) : (forall i w w', tree w -> fields w -> (exists n, node_at w i n) -> kg i w = Ok w' -> kept w w' (fun x => x = i)) ->
  forall p np cs w w', tree w -> fields w -> node_at w p np -> incl cs (n_children np) -> NoDup cs ->
  fold_left (fun w c => do w <- w; kg c w) cs (Ok w) = Ok w' -> kept w w' (fun x => In x cs).
Proof.
  intros IH p np cs. revert np. induction cs as [|c cs IHc]; intros np w w' T F Hp IN ND K; cbn [fold_left] in K.
  - injection K as <-. constructor; auto.
    + apply quiet_refl.
    + exists []. rewrite app_nil_r. split; auto. split; [constructor|]. intros j. split; [intros []|intros (i & [] & _)].
    + intros i j n k [].
  - cbn [bind] in K.
    assert (KK : exists w1, kg c w = Ok w1 /\ fold_left (fun w c => do w <- w; kg c w) cs (Ok w1) = Ok w').
    { destruct (kg c w) as [w1| | |] eqn:Ek; eauto; exfalso; revert K; clear; induction cs as [|a r J]; cbn; auto; discriminate. }
    destruct KK as (w1 & K1 & K2).
    destruct (tr_child w p np c T Hp (IN c (or_introl eq_refl))) as (_ & nc & Hc & _).
    destruct (IH c w w1 T F (ex_intro _ nc Hc) K1) as [Q1 F1 (L1 & T1 & N1 & M1) S1 C1].
    assert (TT1 : tree w1) by (eapply skel_tree; [apply Q1|auto]).
    destruct (skel_at w w1 p np (proj1 Q1) Hp) as (np1 & Hp1 & Sp). apply skel_children in Sp as (Sp & _).
    inversion ND as [|? ? NI ND']; subst.
    assert (IN1 : incl cs (n_children np1)) by (rewrite Sp; intros x Hx; apply IN; right; auto).
    destruct (IHc np1 w1 w' TT1 F1 Hp1 IN1 ND' K2) as [Q2 F2 (L2 & T2 & N2 & M2) S2 C2].
    assert (LU : forall i j, leaves_under w1 i j <-> leaves_under w i j).
    { intros i j. split; intros (n & B & H & L).
      - destruct (skel_at w1 w j n (eq_sym (proj1 Q1)) H) as (n' & H' & S'). apply skel_children in S' as (S' & _).
        exists n'. split; [eapply skel_below; [symmetry; apply Q1|auto]|]. split; auto. congruence.
      - destruct (skel_at w w1 j n (proj1 Q1) H) as (n' & H' & S'). apply skel_children in S' as (S' & _).
        exists n'. split; [eapply skel_below; [apply Q1|auto]|]. split; auto. congruence. }
    constructor.
    + eapply quiet_trans; eauto.
    + auto.
    + exists (L1 ++ L2). rewrite T2, T1, map_app, app_assoc. split; auto. split.
      * apply nodup_app; auto. intros j J1 J2. apply M1 in J1 as (i1 & -> & n1 & B1 & _). apply M2 in J2 as (i2 & I2 & J2).
        apply LU in J2 as (n2 & B2 & _). apply (below_disjoint w p np c i2 j T Hp); auto.
        -- apply IN; left; auto.
        -- apply IN; right; auto.
        -- intros ->. contradiction.
      * intros j. rewrite in_app_iff, M1, M2. split.
        -- intros [(i & -> & J)|(i & I & J)]; [exists c; split; [left; auto|auto]|exists i; split; [right; auto|apply LU; auto]].
        -- intros (i & [<-|I] & J); [left; eauto|right; exists i; split; auto; apply LU; auto].
    + intros j n Hj D. assert (Hj1 : node_at w1 j n).
      { apply S1; auto. destruct D as [D|D]; auto. right. intros (i & -> & B). apply D. exists c. split; [left; auto|auto]. }
      apply S2; auto. destruct D as [D|D]; auto. right. intros (i & I & B). apply D. exists i. split; [right; auto|].
      eapply skel_below; [symmetry; apply Q1|auto].
    + intros i j n k [<-|I] B Hj Kd.
      * destruct (skel_at w' w1 j n (eq_sym (proj1 Q2)) Hj) as (n1 & Hj1 & Sj). pose proof (skel_children _ _ Sj) as (Sc & _).
        assert (D : ~ exists i, In i cs /\ below w1 i j).
        { intros (i & I & B'). apply (below_disjoint w p np c i j T Hp); auto.
          - apply IN; left; auto.
          - apply IN; right; auto.
          - intros ->. contradiction.
          - eapply skel_below; [symmetry; apply Q1|auto]. }
        pose proof (S2 j n1 Hj1 (or_intror D)) as Hj2. pose proof (node_fun _ _ _ _ Hj Hj2). subst n1. eapply C1; eauto.
      * eapply C2; eauto. eapply skel_below; [apply Q1|auto].
Qed.

Lemma spawn_skel w t : map skel (w_nodes (spawn w t)) = map skel (w_nodes w).
Proof. reflexivity. Qed.
Lemma below_child w i n j : node_at w i n -> below w i j -> j = i \/ exists c, In c (n_children n) /\ below w c j.
Proof.
  intros H B. inversion B as [|? n' c ? H' C B']; subst; auto. pose proof (node_fun _ _ _ _ H H'). subst n'. eauto.
Qed.
Lemma not_below_child w i n c : tree w -> node_at w i n -> In c (n_children n) -> below w c i -> False.
Proof. intros T H C B. destruct (tr_child w i n c T H C) as (L & _). apply below_le in B; auto. lia. Qed.
Lemma keep_going_ok fuel : forall i w w', tree w -> fields w -> (exists n, node_at w i n) -> keep_going fuel i w = Ok w' -> kept w w' (fun x => x = i).
Proof.
  induction fuel as [|fuel IH]; intros i w w' T F (n & H) K; [discriminate|]. cbn [keep_going] in K.
  rewrite (proj2 (get_at w i n) H) in K. cbn [bind] in K. destruct (n_children n) as [|c0 cs] eqn:C.
  - injection K as <-. constructor.
    + split; [reflexivity|]. repeat split.
    + intros j m Hj. eapply fok_quiet; [apply spawn_skel|]. apply F. exact Hj.
    + exists [i]. split; [reflexivity|]. split; [repeat constructor; intros []|]. intros j. split.
      * intros [<-|[]]. exists i. split; auto. exists n. split; [constructor|auto].
      * intros (x & -> & m & B & Hj & L). apply (below_child w i n) in B as [->|(c & Hc & _)]; auto; [left; auto|]. rewrite C in Hc. destruct Hc.
    + intros j m Hj _. exact Hj.
    + intros x j m k -> B Hj Kd. assert (Hj' : node_at w j m) by exact Hj. apply (below_child w i n) in B as [->|(c & Hc & _)]; auto.
      * pose proof (node_fun _ _ _ _ H Hj'). subst m. destruct (fo_leaf _ _ _ (F i n H) C) as (Ks & _). congruence.
      * rewrite C in Hc. destruct Hc.
  - rewrite <- C in K. set (n1 := with_closure _ false false _) in K.
    change (n_children n1) with (n_children n) in K. set (w1 := put w i n1) in K.
    assert (S1 : skel n1 = skel n) by reflexivity.
    pose proof (put_skel w i n n1 H S1) as Q1. fold w1 in Q1.
    assert (F1 : fields w1).
    { apply (put_fields w i n); auto. destruct (F i n H) as [A1 A2 A3 A4 A5]. constructor.
      - change (n_children n1) with (n_children n). rewrite C. discriminate.
      - change (n_children n1) with (n_children n). rewrite C. discriminate.
      - intros D. destruct (A3 D) as (B1 & B2 & B3). subst n1. cbn [n_closing n_amount n_children n_kind with_closure with_closing with_manager].
        rewrite repeat_length. split; auto. split; auto. destruct (n_kind n); [auto|discriminate].
      - subst n1. cbn [n_closing n_amount n_children n_kind with_closure with_closing with_manager]. intros k l s Hl Hs.
        apply nth_error_In, repeat_spec in Hl. subst l. destruct Hs.
      - discriminate. }
    assert (T1 : tree w1) by (eapply skel_tree; eauto).
    assert (H1 : node_at w1 i n1) by (apply (put_at w i n n1); auto).
    destruct (keep_fold (keep_going fuel) IH i n1 (n_children n) w1 w' T1 F1 H1 (incl_refl _) (tr_nodup w i n T H) K)
      as [Q2 F2 (L & T2 & N2 & M2) S2 C2].
    constructor.
    + eapply quiet_trans; [eapply put_quiet; eauto|exact Q2].
    + auto.
    + exists L. rewrite T2. split; auto. split; auto. intros j. rewrite M2. split.
      * intros (c & Hc & m & B & Hj & Lj). exists i. split; auto. destruct (skel_at w1 w j m (eq_sym Q1) Hj) as (m' & Hj' & Sj).
        apply skel_children in Sj as (Sj & _). exists m'. split; [|split; [auto|congruence]].
        econstructor; [exact H|exact Hc|]. eapply skel_below; [symmetry; exact Q1|auto].
      * intros (x & -> & m & B & Hj & Lj). apply (below_child w i n) in B as [->|(c & Hc & B)]; auto.
        { pose proof (node_fun _ _ _ _ H Hj). subst m. congruence. }
        exists c. split; auto. destruct (skel_at w w1 j m Q1 Hj) as (m' & Hj' & Sj). apply skel_children in Sj as (Sj & _).
        exists m'. split; [eapply skel_below; eauto|]. split; auto. congruence.
    + intros j m Hj D. assert (N : j <> i).
      { intros ->. destruct D as [D|D]; [pose proof (node_fun _ _ _ _ H Hj); congruence|]. apply D. exists i. split; auto. constructor. }
      apply S2; [apply (put_at w i n n1); auto|]. destruct D as [D|D]; auto. right. intros (c & Hc & B). apply D. exists i. split; auto.
      econstructor; [exact H|exact Hc|]. eapply skel_below; [symmetry; exact Q1|auto].
    + intros x j m k -> B Hj Kd. apply (below_child w i n) in B as [->|(c & Hc & B)]; auto.
      * assert (Hi : node_at w' i n1).
        { apply S2; auto. right. intros (c & Hc & B). apply (not_below_child w1 i n1 c T1 H1 Hc B). }
        pose proof (node_fun _ _ _ _ Hj Hi). subst m. subst n1.
        cbn [n_closing n_amount n_children n_kind with_closure with_closing with_manager] in *. destruct (n_kind n); congruence.
      * eapply C2; eauto. eapply skel_below; eauto.
Qed.
Lemma below_comparable w a b j : tree w -> below w a j -> below w b j -> (exists n, node_at w a n) -> (exists n, node_at w b n) -> below w a b \/ below w b a.
Proof.
  intros T. revert a b. induction j as [j IH] using lt_wf_ind. intros a b A B (na & Ha) (nb & Hb).
  destruct (Nat.eq_dec a j) as [->|NA]; [auto|]. destruct (Nat.eq_dec b j) as [->|NB]; [auto|].
  destruct (below_at w a j T A (ex_intro _ na Ha)) as (n & Hn).
  assert (J : j <> 0) by (apply below_le in A; auto; lia).
  destruct (tr_up w T j n Hn J) as (L & _). apply (IH (n_father n) L); eauto using below_up.
Qed.

Lemma below_dec w a g : tree w -> (exists n, node_at w g n) -> below w a g \/ ~ below w a g.
Proof.
  intros T. induction g as [g IH] using lt_wf_ind. intros (n & H).
  destruct (Nat.eq_dec a g) as [->|NA]; [left; constructor|]. destruct (Nat.eq_dec g 0) as [->|G0].
  - right. intros B. apply below_le in B; auto. lia.
  - destruct (tr_up w T g n H G0) as (Lt & nf & Hf & Ef). destruct (IH (n_father n) Lt (ex_intro _ nf Hf)) as [B|B].
    + left. eapply below_trans; [exact B|]. econstructor; [exact Hf|eapply nth_error_In; eauto|constructor].
    + right. intros B'. apply B. eapply below_up; eauto.
Qed.
Lemma some_dec {A} (Q : A -> Prop) l : (forall c, In c l -> Q c \/ ~ Q c) -> (exists c, In c l /\ Q c) \/ ~ exists c, In c l /\ Q c.
Proof.
  induction l as [|a l IH]; intros D; [right; intros (c & [] & _)|].
  destruct (D a (or_introl eq_refl)) as [H|H]; [left; exists a; cbn; auto|].
  destruct IH as [(c & Hc & Q1)|N]; [intros c Hc; apply D; right; auto|left; exists c; cbn; auto|].
  right. intros (c & [<-|Hc] & Q1); [auto|]. apply N. eauto.
Qed.

(** ** Answers to the father *)
Definition alike (w w' : world) : Prop :=
  map skel (w_nodes w') = map skel (w_nodes w) /\
  forall j m, node_at w' j m -> exists m0, node_at w j m0 /\ n_kind m = n_kind m0 /\ n_closing m = n_closing m0.
Lemma counts_alike w w' A : alike w w' -> counts w A -> counts w' A.
Proof.
  intros [Q AL] C i n k H K l N IN HL. destruct (AL i n H) as (n0 & H0 & K0 & C0).
  destruct (skel_at w' w i n (eq_sym Q) H) as (n1 & H1 & S1). pose proof (node_fun _ _ _ _ H0 H1). subst n1. apply skel_children in S1 as (S1 & _).
  apply (C i n0 k H0); [congruence|auto|rewrite S1; auto|]. intros c Hc. destruct (HL c Hc) as [(j & B & J)|(g & j & J1 & J2)].
  - left. exists j. split; auto. eapply skel_below; [symmetry; exact Q|auto].
  - right. split; auto. exists j. split; congruence.
Qed.
Lemma unanswered_alike w w' A : alike w w' -> unanswered w A -> unanswered w' A.
Proof.
  intros [Q AL] C g i n j c H HE (x & B & X). destruct (AL i n H) as (n0 & H0 & K0 & C0).
  destruct (skel_at w' w i n (eq_sym Q) H) as (n1 & H1 & S1). pose proof (node_fun _ _ _ _ H0 H1). subst n1. apply skel_children in S1 as (S1 & _).
  rewrite C0. apply (C g i n0 j c H0); [congruence|]. exists x. split; auto. eapply skel_below; [symmetry; exact Q|auto].
Qed.
Lemma counts_weaken w (A A' : nat -> Prop) : (forall j, A' j -> A j) -> counts w A -> counts w A'.
Proof.
  intros W C i n k H K l N IN HL. apply (C i n k H K l N IN). intros c Hc. destruct (HL c Hc) as [(j & B & J)|R]; auto.
  left. exists j. auto.
Qed.
Lemma unanswered_weaken w (A A' : nat -> Prop) : (forall j, A' j -> A j) -> unanswered w A -> unanswered w A'.
Proof. intros W C g i n j c H HE (x & B & X). apply (C g i n j c H HE). exists x. auto. Qed.
Lemma add_at_spec l i subs l' : add_at l i subs = Ok l' ->
  exists old, nth_error l i = Some old /\ l' = firstn i l ++ sl_append old subs :: skipn (S i) l /\ List.length l' = List.length l /\
    forall j, nth_error l' j = if Nat.eqb j i then Some (sl_append old subs) else nth_error l j.
Proof.
  unfold add_at. destruct (nth_error l i) as [old|] eqn:X; [|discriminate]. intros K. injection K as <-. exists old. split; auto. split; auto.
  pose proof (nth_in_range _ _ _ X) as L. split; [apply len_set; auto|]. intros j. apply nth_set; auto.
Qed.
(** nodes without children keep what the closure rules found *)
Definition leaf_same (w w' : world) : Prop := forall j n', node_at w' j n' -> n_children n' = [] ->
  exists n, node_at w j n /\ n_closed n' = n_closed n /\ n_finished n' = n_finished n /\ n_subs n' = n_subs n.
Lemma leaf_same_refl w : leaf_same w w.
Proof. intros j n H _. exists n. auto. Qed.
Lemma leaf_same_trans w1 w2 w3 : map skel (w_nodes w2) = map skel (w_nodes w3) -> leaf_same w1 w2 -> leaf_same w2 w3 -> leaf_same w1 w3.
Proof.
  intros Q A B j n3 H L. destruct (B j n3 H L) as (n2 & H2 & E1 & E2 & E3).
  destruct (skel_at w3 w2 j n3 Q H) as (n2' & H2' & S). pose proof (node_fun _ _ _ _ H2 H2'). subst n2'. apply skel_children in S as (S & _).
  destruct (A j n2 H2) as (n1 & H1 & E1' & E2' & E3'); [congruence|]. exists n1. split; auto. repeat split; congruence.
Qed.
Lemma leaf_same_put w i n n' : node_at w i n -> n_closed n' = n_closed n -> n_finished n' = n_finished n -> n_subs n' = n_subs n ->
  leaf_same w (put w i n').
Proof. intros H E1 E2 E3 j m Hj _. apply (put_at w i n n') in Hj as [[-> ->]|[_ Hj]]; eauto. Qed.
Lemma leaf_same_kept w w' U : kept w w' U -> leaf_same w w'.
Proof.
  intros K j m Hj L. destruct (skel_at w' w j m (eq_sym (proj1 (ke_quiet _ _ _ K))) Hj) as (n & H & S). apply skel_children in S as (S & _).
  pose proof (ke_same _ _ _ K j n H (or_introl (eq_trans S L))) as H'. pose proof (node_fun _ _ _ _ Hj H'). subst m. eauto.
Qed.

Lemma compat_good w f nf c : fields w -> node_at w f nf -> n_children nf <> [] -> mg_metas (n_mgr nf) = [] ->
  compat_of nf = Ok c -> forall s, In s c -> good w f s.
Proof.
  intros F H NE M K s Hs. unfold compat_of in K. rewrite M in K. destruct (F f nf H) as [_ _ A3 A4 _].
  destruct (A3 NE) as (L & _ & _). destruct (n_closing nf) as [|c0 r] eqn:CL; [discriminate|]. injection K as <-.
  assert (GG : forall l x, In l (c0 :: r) -> In x l -> exists k, nth_error (n_children nf) k <> None /\ good w (target f nf k) x).
  { intros l x Hl Hx. apply In_nth_error in Hl as (k & Hk). exists k. split; [|eapply A4; eauto].
    apply nth_error_Some. rewrite <- L. eapply nth_in_range; eauto. }
  split.
  - intros e. destruct (compat_fold r c0 s Hs) as [FF SS].
    { intros l x Hl Hx. destruct (GG l x Hl Hx) as (k & _ & [Q _]). apply Q; auto. }
    split; auto. intros t St. specialize (SS t St). intros j m (B & Hj & Lj).
    apply (below_child w f nf) in B as [->|(c & Hc & B)]; auto.
    { pose proof (node_fun _ _ _ _ H Hj). subst m. contradiction. }
    apply In_nth_error in Hc as (k & Hk). unfold sat_all in SS. rewrite Forall_forall in SS.
    destruct (nth_error (c0 :: r) k) as [l|] eqn:El.
    + destruct (SS l (nth_error_In _ _ El)) as (x & Hx & Sx). destruct (A4 k l x El Hx) as [Q _]. destruct (Q e) as [_ Q'].
      specialize (Q' t Sx). unfold target in Q'. destruct (n_children nf) as [|a b] eqn:Cn; [contradiction|].
      rewrite (nth_error_nth _ _ 0 Hk) in Q'. apply (Q' j m). split; auto.
    + apply nth_error_None in El. apply nth_in_range in Hk. lia.
  - intros g. apply (trivial_weaken r c0); auto. intros l Hl x Hx. destruct (GG l x Hl Hx) as (k & _ & [_ Q]). apply Q; auto.
Qed.
Record answered (w w' : world) : Prop := {
  an_quiet : quiet w w';
  an_fields : fields w';
  an_tasks : tasks_ok w';
  an_counts : counts w' (fun j => In j (pending w'));
  an_unanswered : unanswered w' (fun j => In j (pending w'));
  an_fresh : fresh w' (fun j => In j (pending w'));
  an_spawned : exists L, w_tasks w' = w_tasks w ++ map DoKeepGoing L;
  an_none : G -> w_tasks w' = w_tasks w;
  an_leaf : leaf_same w w' }.

Lemma tasks_ok_put w i n n' : node_at w i n -> skel n' = skel n -> (n_closing n' = n_closing n \/ ~ In i (pending w)) -> tasks_ok w -> tasks_ok (put w i n').
Proof.
  intros H S D [A B]. constructor; [exact A|]. intros j Hj. destruct (B j Hj) as (m & Hm & L & C).
  destruct (Nat.eq_dec j i) as [->|N].
  - pose proof (node_fun _ _ _ _ H Hm). subst m. exists n'. split; [apply (put_at w i n n'); auto|]. apply skel_children in S as (S & _).
    split; [congruence|]. destruct D as [D|D]; [congruence|contradiction].
  - exists m. split; auto. apply (put_at w i n n'); auto.
Qed.

Lemma add_for_father_ok fuel : forall i subs w w', tree w -> fields w -> tasks_ok w ->
  (exists n, node_at w i n /\ (i = 0 -> n_children n = [])) ->
  counts w (fun j => In j (pending w) \/ j = i) -> unanswered w (fun j => In j (pending w) \/ j = i) ->
  fresh w (fun j => In j (pending w) \/ j = i) ->
  (forall j, below w i j -> ~ In j (pending w)) ->
  subs <> [] -> (forall s, In s subs -> good w i s) -> add_for_father fuel i subs w = Ok w' -> answered w w'.
Proof.
  induction fuel as [|fuel IH]; intros i subs w w' T F TO (n & H & ROOT) CN UN FR NB NE GS K; [discriminate|]. cbn [add_for_father] in K.
  rewrite (proj2 (get_at w i n) H) in K. cbn [bind] in K.
  set (n1 := with_done n (sl_append (n_done n) subs)) in K. set (w1 := put w i n1) in K. set (f := n_father n) in K.
  assert (S1 : skel n1 = skel n) by reflexivity.
  pose proof (put_skel w i n n1 H S1) as Q1. fold w1 in Q1.
  assert (H1 : node_at w1 i n1) by (apply (put_at w i n n1); auto).
  assert (F1 : fields w1).
  { apply (put_fields w i n); auto. destruct (F i n H) as [A1 A2 A3 A4 A5]. constructor; auto. }
  assert (T1 : tree w1) by (eapply skel_tree; eauto).
  assert (AL : alike w w1).
  { split; auto. intros j m Hj. apply (put_at w i n n1) in Hj as [[-> ->]|[_ Hj]]; eauto. }
  assert (P1 : pending w1 = pending w) by reflexivity.
  assert (CN1 : counts w1 (fun j => In j (pending w1) \/ j = i)) by (apply (counts_alike w); auto).
  assert (UN1 : unanswered w1 (fun j => In j (pending w1) \/ j = i)) by (apply (unanswered_alike w); auto).
  assert (TO1 : tasks_ok w1) by (apply (tasks_ok_put w i n); auto).
  assert (NB1 : forall j, below w1 i j -> ~ In j (pending w1)).
  { intros j B. rewrite P1. apply NB. eapply skel_below; [symmetry; exact Q1|auto]. }
  assert (GS1 : forall s, In s subs -> good w1 i s) by (intros s Hs; eapply good_quiet; [exact Q1|auto]).
  assert (LS1 : leaf_same w w1) by (apply (leaf_same_put w i n); auto).
  assert (QQ1 : quiet w w1) by (eapply put_quiet; eauto).
  assert (WT : w_tasks w1 = w_tasks w) by reflexivity.
  assert (FR1 : forall A : nat -> Prop, (forall g, active w1 A g -> g <> i /\ active w1 (fun j => In j (pending w1) \/ j = i) g) -> fresh w1 A).
  { intros A HA g x m Hx AX. destruct (HA x AX) as (Nx & j & Bj & Jj). apply (put_at w i n n1) in Hx as [[X _]|[_ Hx]]; auto; [contradiction|].
    apply (FR g x m Hx). exists j. split; auto. eapply skel_below; [symmetry; exact Q1|auto]. }
  clearbody w1. clear AL CN UN FR NB TO GS.
  apply bind_ok in K as (nf & Kf & K). apply get_at in Kf. rename Kf into Hf.
  apply bind_ok in K as (closing & Ka & K). apply add_at_spec in Ka as (old & Eold & _ & Lc & Nc).
  assert (MM : mg_metas (n_mgr nf) = []) by (apply (tr_rest w1 T1 f nf Hf)).
  destruct (Nat.eq_dec i 0) as [I0|I0].
  - (* the root answers itself *)
    subst i. assert (F0 : f = 0).
    { destruct (tr_root w T) as (n0 & H0 & E0 & _). pose proof (node_fun _ _ _ _ H H0). subst n0. exact E0. }
    rewrite F0 in *. pose proof (node_fun _ _ _ _ H1 Hf) as <-.
    assert (NB0 : n_nb n = 0).
    { destruct (tr_root w T) as (n0 & H0 & _ & E0). pose proof (node_fun _ _ _ _ H H0). subst n0. exact E0. }
    rewrite NB0 in *. specialize (ROOT eq_refl).
    assert (C1 : n_children n1 = []) by exact ROOT.
    destruct (fo_leaf _ _ _ (F1 0 n1 Hf) C1) as (Ks & Len & Am). rewrite Ks in K.
    set (n2 := with_closing n1 Simple closing) in K. set (w2 := put w1 0 n2) in K.
    assert (IR : is_root 0 n2 = true) by (unfold is_root; apply Nat.eqb_eq; symmetry; exact F0). rewrite IR in K. injection K as <-.
    assert (S2 : skel n2 = skel n1) by reflexivity.
    pose proof (put_skel w1 0 n1 n2 Hf S2) as Q2. fold w2 in Q2.
    constructor.
    + eapply quiet_trans; [exact QQ1|]. eapply put_quiet; eauto.
    + apply (put_fields w1 0 n1); auto. destruct (F1 0 n1 Hf) as [A1 A2 A3 A4 A5]. constructor.
      * intros _. split; auto. split; [change (List.length closing = 1); congruence|exact Am].
      * intros _ X. contradiction.
      * intros X. contradiction.
      * intros k l s El Hs. change (nth_error closing k = Some l) in El. rewrite Nc in El. unfold target. change (n_children n2) with (n_children n1). rewrite C1.
        destruct (Nat.eqb k 0) eqn:Ek.
        -- injection El as <-. apply sl_append_in in Hs as [Hs|Hs]; [|apply GS1; auto].
           pose proof (A4 0 old s Eold Hs) as X. unfold target in X. rewrite C1 in X. auto.
        -- pose proof (A4 k l s El Hs) as X. unfold target in X. rewrite C1 in X. auto.
      * exact A5.
    + apply (tasks_ok_put w1 0 n1); auto. right. apply NB1. constructor.
    + intros g m k Hg Kg l N IN HL. apply (put_at w1 0 n1 n2) in Hg as [[-> ->]|[Ng Hg]]; auto; [discriminate|].
      apply (CN1 g m k Hg Kg l N IN). intros c Hc. destruct (HL c Hc) as [(j & B & J)|R]; auto. left. exists j. split; auto.
      eapply skel_below; [symmetry; exact Q2|auto].
    + intros g x m j c Hx Ej (y & B & Y). apply (put_at w1 0 n1 n2) in Hx as [[-> ->]|[Ng Hx]]; auto.
      * change (n_children n2) with (n_children n1) in Ej. rewrite C1 in Ej. destruct j; discriminate.
      * apply (UN1 g x m j c Hx Ej). exists y. split; [eapply skel_below; [symmetry; exact Q2|auto]|left; auto].
    + intros g x m Hx (y & B & Y). apply (skel_below w2 w1 (eq_sym Q2)) in B.
      assert (FF : fresh w1 (fun j => In j (pending w1))).
      { apply FR1. intros z (j & Bj & Jj). split; [intros ->; apply (NB1 j Bj Jj)|exists j; auto]. }
      apply (put_at w1 0 n1 n2) in Hx as [[-> ->]|[Ng Hx]]; auto.
      * apply (FF g 0 n1 Hf). exists y. auto.
      * apply (FF g x m Hx). exists y. auto.
    + exists []. cbn [map]. rewrite app_nil_r. exact WT.
    + intros _. exact WT.
    + eapply leaf_same_trans; [symmetry; exact Q2|exact LS1|]. apply (leaf_same_put w1 0 n1); auto.
  - (* the father *)
    assert (UP : f < i /\ nth_error (n_children nf) (n_nb n) = Some i).
    { destruct (tr_up w1 T1 i n1 H1 I0) as (L & nf' & Hf' & E'). change (n_father n1) with f in *. change (n_nb n1) with (n_nb n) in *.
      pose proof (node_fun _ _ _ _ Hf Hf'). subst nf'. auto. }
    destruct UP as (FI & EI). set (nb := n_nb n) in *.
    assert (INF : In i (n_children nf)) by (eapply nth_error_In; eauto).
    assert (CNE : n_children nf <> []) by (intros X; rewrite X in INF; destruct INF).
    pose proof (tr_nodup w1 f nf T1 Hf) as ND.
    destruct (fo_inner _ _ _ (F1 f nf Hf) CNE) as (Len & Am & Sim).
    assert (UNIQ : forall j, nth_error (n_children nf) j = Some i -> j = nb).
    { intros j Ej. apply (proj1 (NoDup_nth_error _) ND); [eapply nth_in_range; eauto|congruence]. }
    (* the father with the new answer *)
    assert (STEP : forall kd, (n_kind nf = Simple -> kd = Simple) -> (kd = Simple -> n_kind nf = Simple) ->
      (forall k, n_kind nf = Branching k -> kd = Branching (k - 1)) ->
      let nf2 := with_closing nf kd closing in let w2 := put w1 f nf2 in
      quiet w1 w2 /\ fields w2 /\ tasks_ok w2 /\ counts w2 (fun j => In j (pending w2) \/ j = f) /\
      unanswered w2 (fun j => In j (pending w2) \/ j = f) /\ node_at w2 f nf2 /\ leaf_same w1 w2 /\
      fresh w2 (fun j => In j (pending w2) \/ j = f)).
    { intros kd KS KS' KB nf2 w2. assert (S2 : skel nf2 = skel nf) by reflexivity.
      pose proof (put_skel w1 f nf nf2 Hf S2) as Q2. fold w2 in Q2.
      assert (FP : ~ In f (pending w1)).
      { intros X. destruct (ta_leaf _ TO1 f X) as (m & Hm & Lm & _). pose proof (node_fun _ _ _ _ Hf Hm). subst m. contradiction. }
      assert (LIFT : forall c, active w2 (fun j => In j (pending w2) \/ j = f) c -> active w1 (fun j => In j (pending w1) \/ j = i) c).
      { intros c (j & B & [J| ->]); [exists j; split; [eapply skel_below; [symmetry; exact Q2|auto]|auto]|].
        exists i. split; auto. eapply below_trans; [eapply skel_below; [symmetry; exact Q2|exact B]|].
        econstructor; [exact Hf|exact INF|constructor]. }
      assert (NOTI : ~ active w2 (fun j => In j (pending w2) \/ j = f) i).
      { intros (j & B & J). apply (skel_below w2 w1 (eq_sym Q2)) in B. destruct J as [J| ->]; [apply (NB1 j B); exact J|].
        apply below_le in B; auto. lia. }
      split; [eapply put_quiet; eauto|]. split; [|split; [|split; [|split; [|split; [|split]]]]].
      - apply (put_fields w1 f nf); auto. destruct (F1 f nf Hf) as [A1 A2 A3 A4 A5]. constructor; auto.
        + intros X. contradiction.
        + intros X. contradiction.
        + intros _. split; [change (List.length closing = List.length (n_children nf)); congruence|]. split; [exact Am|].
          intros X. change (kd = Simple) in X. apply Sim. auto.
        + intros k l s El Hs. change (nth_error closing k = Some l) in El. rewrite Nc in El. change (target f nf2 k) with (target f nf k).
          destruct (Nat.eqb k nb) eqn:Ek.
          * apply Nat.eqb_eq in Ek. subst k. injection El as <-. apply sl_append_in in Hs as [Hs|Hs]; [eapply A4; eauto|].
            unfold target. destruct (n_children nf) as [|a b] eqn:Cn; [contradiction|]. rewrite (nth_error_nth _ _ 0 EI). auto.
          * eapply A4; eauto.
      - apply (tasks_ok_put w1 f nf); auto.
      - intros g m k Hg Kg l N IN HL. apply (put_at w1 f nf nf2) in Hg as [[-> ->]|[Ng Hg]]; auto.
        + change (kd = Branching k) in Kg. change (n_children nf2) with (n_children nf) in *. destruct (n_kind nf) as [|k0] eqn:Kn; [rewrite KS in Kg; [discriminate|auto]|].
          rewrite (KB k0) in Kg by auto. injection Kg as <-.
          assert (NI : ~ In i l).
          { intros X. destruct (HL i X) as [A|(g & j & E1 & E2)]; [auto|]. change (nth_error closing j = Some []) in E2.
            pose proof (UNIQ j E1). subst j. rewrite Nc, Nat.eqb_refl in E2. injection E2 as E2.
            apply (sl_append_ne subs old); auto. }
          assert (Z : (Z.of_nat (List.length (i :: l)) <= k0)%Z).
          { apply (CN1 f nf k0 Hf Kn); [constructor; auto|intros x [<-|X]; auto|]. intros c [<-|Hc].
            - left. exists i. split; [constructor|auto].
            - destruct (HL c Hc) as [A|(g & j & E1 & E2)]; [left; auto|]. right. split; auto. exists j. split; auto.
              change (nth_error closing j = Some []) in E2. rewrite Nc in E2. destruct (Nat.eqb j nb) eqn:Ej; auto.
              apply Nat.eqb_eq in Ej. subst j. congruence. }
          cbn [List.length] in Z. lia.
        + apply (CN1 g m k Hg Kg l N IN). intros c Hc. destruct (HL c Hc) as [A|R]; auto.
      - intros g x m j c Hx Ej A. apply (put_at w1 f nf nf2) in Hx as [[-> ->]|[Ng Hx]]; auto.
        + change (n_children nf2) with (n_children nf) in Ej. change (nth_error closing j = Some []). rewrite Nc.
          destruct (Nat.eqb j nb) eqn:Ejn.
          * apply Nat.eqb_eq in Ejn. subst j. rewrite EI in Ej. injection Ej as <-. contradiction.
          * apply (UN1 g f nf j c Hf Ej). auto.
        + apply (UN1 g x m j c Hx Ej). auto.
      - apply (put_at w1 f nf nf2); auto.
      - apply (leaf_same_put w1 f nf); auto.
      - assert (FF : fresh w1 (fun j => In j (pending w1) \/ j = f)).
        { apply FR1. intros z (j & Bj & Jj). split.
          - intros ->. apply NOTI. exists j. split; [eapply skel_below; [exact Q2|auto]|auto].
          - apply LIFT. exists j. split; [eapply skel_below; [exact Q2|auto]|auto]. }
        intros g x m Hx (y & B & Y). apply (skel_below w2 w1 (eq_sym Q2)) in B.
        apply (put_at w1 f nf nf2) in Hx as [[-> ->]|[Ng Hx]]; auto.
        + apply (FF g f nf Hf). exists y. auto.
        + apply (FF g x m Hx). exists y. auto. }
    (* nothing more happens *)
    assert (DONE : forall w2, quiet w1 w2 -> fields w2 -> tasks_ok w2 -> w_tasks w2 = w_tasks w1 ->
      counts w2 (fun j => In j (pending w2) \/ j = f) -> unanswered w2 (fun j => In j (pending w2) \/ j = f) -> leaf_same w1 w2 ->
      fresh w2 (fun j => In j (pending w2) \/ j = f) -> answered w w2).
    { intros w2 B1 B2 B3 B4 B5 B6 B7 B8. constructor; auto.
      - eapply quiet_trans; eauto.
      - eapply counts_weaken; [|exact B5]. intros j Hj. left. exact Hj.
      - eapply unanswered_weaken; [|exact B6]. intros j Hj. left. exact Hj.
      - intros g x m Hx (y & B & Y). apply (B8 g x m Hx). exists y. auto.
      - exists []. cbn [map]. rewrite app_nil_r. congruence.
      - intros _. congruence.
      - eapply leaf_same_trans; [symmetry; apply B1|exact LS1|exact B7]. }
    (* the father answers its own father *)
    assert (MORE : forall w2 nf2 c, quiet w1 w2 -> fields w2 -> tasks_ok w2 -> w_tasks w2 = w_tasks w1 ->
      counts w2 (fun j => In j (pending w2) \/ j = f) -> unanswered w2 (fun j => In j (pending w2) \/ j = f) -> leaf_same w1 w2 ->
      fresh w2 (fun j => In j (pending w2) \/ j = f) -> node_at w2 f nf2 -> skel nf2 = skel nf -> is_root f nf2 = false -> (forall j, below w2 f j -> ~ In j (pending w2)) ->
      compat_of nf2 = Ok c -> c <> [] -> add_for_father fuel f c w2 = Ok w' -> answered w w').
    { intros w2 nf2 c B1 B2 B3 B4 B5 B6 B7 B10 B8 B9 R NBf CP CN0 AF. pose proof (skel_children _ _ B9) as (B9a & B9b & _ & B9d).
      assert (T2 : tree w2) by (eapply skel_tree; [apply B1|auto]).
      assert (AN : answered w2 w').
      { apply (IH f c w2 w' T2 B2 B3); auto.
        - exists nf2. split; auto. intros F0. exfalso. destruct (tr_root w2 T2) as (n0 & H0 & E0 & _). rewrite F0 in *.
          pose proof (node_fun _ _ _ _ H0 B8). subst n0. unfold is_root in R. rewrite E0 in R. discriminate.
        - eapply (compat_good w2 f nf2); eauto; [congruence|]. rewrite B9d. exact MM. }
      destruct AN as [D1 D2 D3 D4 D5 D9 (L & D6) D7 D8]. constructor; auto.
      - eapply quiet_trans; [exact QQ1|]. eapply quiet_trans; eauto.
      - exists L. congruence.
      - intros g. rewrite (D7 g). congruence.
      - eapply leaf_same_trans; [symmetry; apply D1| |exact D8]. eapply leaf_same_trans; [symmetry; apply B1|exact LS1|exact B7]. }
    destruct (n_kind nf) as [|k] eqn:Kn.
    + destruct (STEP Simple) as (B1 & B2 & B3 & B4 & B5 & B6 & B7 & B8); auto; [discriminate|].
      set (nf2 := with_closing nf Simple closing) in *. set (w2 := put w1 f nf2) in *.
      destruct (is_root f nf2) eqn:IR; [injection K as <-; apply DONE; auto|].
      apply bind_ok in K as (c & Kc & K). destruct c as [|c0 cr]; [injection K as <-; apply DONE; auto|].
      eapply (MORE w2 nf2 (c0 :: cr)); eauto; [|discriminate].
      intros j B X. apply (skel_below w2 w1 (eq_sym (proj1 B1))) in B. apply (below_child w1 f nf) in B as [->|(c & Hc & B)]; auto.
      * destruct (ta_leaf _ TO1 f X) as (m & Hm & Lm & _). pose proof (node_fun _ _ _ _ Hf Hm). subst m. contradiction.
      * specialize (Sim eq_refl). destruct (n_children nf) as [|a [|b r]] eqn:Cn; try discriminate.
        destruct Hc as [<-|[]]. destruct INF as [<-|[]]. apply (NB1 j B X).
    + destruct (STEP (Branching (k - 1))) as (B1 & B2 & B3 & B4 & B5 & B6 & B7 & B8); [discriminate|discriminate|intros k0 E0; congruence|].
      set (nf2 := with_closing nf (Branching (k - 1)) closing) in *. set (w2 := put w1 f nf2) in *.
      destruct ((k - 1 =? 0)%Z) eqn:K0; [|injection K as <-; apply DONE; auto]. apply Z.eqb_eq in K0.
      apply bind_ok in K as (c & Kc & K). destruct c as [|c0 cr].
      * (* the children start again *)
        assert (NG : ~ G).
        { intros g. unfold compat_of in Kc. change (mg_metas (n_mgr nf2)) with (mg_metas (n_mgr nf)) in Kc. rewrite MM in Kc.
          change (n_closing nf2) with closing in Kc.
          assert (CL : exists l0 r, closing = l0 :: r) by (clear -Kc; destruct closing as [|l0 r]; [discriminate|eauto]).
          destruct CL as (l0 & r & CL). rewrite CL in Kc. injection Kc as Kc.
          cbn [add_missing] in Kc. destruct (compat_trivial r l0) as [X _]; [|apply X; exact Kc].
          intros l Hl. rewrite <- CL in Hl. apply In_nth_error in Hl as (j & Hj). split.
          - intros ->. assert (Lj : j < List.length (n_children nf)) by (rewrite <- Len, <- Lc; eapply nth_in_range; eauto).
            destruct (nth_error (n_children nf) j) as [cj|] eqn:Ecj; [|apply nth_error_Some in Lj; contradiction].
            assert (Z : (Z.of_nat (List.length [cj]) <= k - 1)%Z).
            { apply (B4 f nf2 (k - 1)%Z B6 eq_refl); [repeat constructor; intros []| |].
              - intros x [<-|[]]. eapply nth_error_In; eauto.
              - intros x [<-|[]]. right. split; auto. exists j. split; [exact Ecj|]. exact Hj. }
            cbn in Z. lia.
          - intros s Hs. eapply (fo_closing _ _ _ (B2 f nf2 B6) j l s); auto. }
        set (kl := Branching (Z.of_nat (List.length (n_children nf2)))) in K.
        set (nf3 := with_closing nf2 kl closing) in K. set (w3 := put w2 f nf3) in K.
        change (n_children nf2) with (n_children nf) in *.
        assert (S3 : skel nf3 = skel nf2) by reflexivity. pose proof (put_skel w2 f nf2 nf3 B6 S3) as Q3. fold w3 in Q3.
        assert (H3 : node_at w3 f nf3) by (apply (put_at w2 f nf2 nf3); auto).
        assert (F3 : fields w3).
        { apply (put_fields w2 f nf2); auto. destruct (B2 f nf2 B6) as [A1 A2 A3 A4 A5]. constructor; auto.
          - intros X. contradiction.
          - intros _. split; [change (List.length closing = List.length (n_children nf)); congruence|]. split; [exact Am|discriminate]. }
        assert (T3 : tree w3) by (eapply skel_tree; [exact Q3|eapply skel_tree; [apply B1|auto]]).
        assert (TO3 : tasks_ok w3) by (apply (tasks_ok_put w2 f nf2); auto).
        destruct (keep_fold (fun c w => keep_going (List.length (w_nodes w)) c w)
          (fun i w w' => keep_going_ok (List.length (w_nodes w)) i w w') f nf3 (n_children nf) w3 w' T3 F3 H3 (incl_refl _) ND K) as [Q4 F4 (L & T4 & N4 & M4) S4 C4].
        assert (P3 : pending w3 = pending w1) by reflexivity.
        assert (P4 : pending w' = pending w3 ++ L).
        { unfold pending. rewrite T4, map_app, map_map. f_equal. apply map_id. }
        assert (Q13 : map skel (w_nodes w3) = map skel (w_nodes w1)) by (rewrite Q3; apply B1).
        assert (NBf : forall j, below w3 f j -> ~ In j (pending w3)).
        { intros j B X. apply (below_child w3 f nf3) in B as [->|(c & Hc & B)]; auto.
          - destruct (ta_leaf _ TO3 f X) as (m & Hm & Lm & _). pose proof (node_fun _ _ _ _ H3 Hm). subst m. contradiction.
          - assert (Z : (Z.of_nat (List.length [c]) <= k - 1)%Z).
            { apply (B4 f nf2 (k - 1)%Z B6 eq_refl); [repeat constructor; intros []| |].
              - intros x [<-|[]]. exact Hc.
              - intros x [<-|[]]. left. exists j. split; [|left; exact X]. eapply skel_below; [symmetry; exact Q3|auto]. }
            cbn in Z. lia. }
        assert (LB : forall j, In j L -> below w3 f j /\ exists m, node_at w3 j m /\ n_children m = []).
        { intros j Hj. apply M4 in Hj as (c & Hc & m & B & Hm & Lm). split; eauto. econstructor; eauto. }
        assert (Q34 : quiet w w').
        { eapply quiet_trans; [exact QQ1|]. eapply quiet_trans; [exact B1|]. eapply quiet_trans; [eapply put_quiet; eauto|exact Q4]. }
        constructor; auto.
        -- constructor.
           ++ rewrite P4. apply nodup_app; auto; [apply (ta_nodup _ TO3)|]. intros z Z1 Z2. apply (NBf z); auto. apply LB; auto.
           ++ intros j Hj. rewrite P4 in Hj. apply in_app_iff in Hj as [Hj|Hj].
              ** destruct (ta_leaf _ TO3 j Hj) as (m & Hm & Lm & Cm). exists m. split; auto.
              ** destruct (LB j Hj) as (B & m & Hm & Lm). exists m. split; [apply S4; auto|]. split; auto.
                 apply (fo_leaf_empty _ _ _ (F3 j m Hm) Lm). intros ->. apply below_le in B; auto. assert (f = 0) by lia.
                 rewrite H0 in H3. pose proof (node_fun _ _ _ _ H3 Hm). subst m. contradiction.
        -- intros g m kk Hg Kg l N IN HL.
           destruct (skel_at w' w3 g m (eq_sym (proj1 Q4)) Hg) as (m3 & Hg3 & Sg). pose proof (skel_children _ _ Sg) as (Sc & _).
           assert (DEC : (exists c, In c (n_children nf) /\ below w3 c g) \/ ~ exists c, In c (n_children nf) /\ below w3 c g).
           { apply some_dec. intros c _. eapply below_dec; eauto. }
           assert (LEN : kk = Z.of_nat (List.length (n_children m)) -> (Z.of_nat (List.length l) <= kk)%Z).
           { intros ->. apply Nat2Z.inj_le. apply NoDup_incl_length; auto. }
           destruct DEC as [(c & Hc & B)|D]; [apply LEN; eapply C4; eauto|].
           pose proof (S4 g m3 Hg3 (or_intror D)) as Hg'. pose proof (node_fun _ _ _ _ Hg Hg'). subst m3.
           destruct (Nat.eq_dec g f) as [->|NF]; [apply LEN; pose proof (node_fun _ _ _ _ H3 Hg3); subst m; injection Kg as <-; reflexivity|].
           assert (Hg2 : node_at w2 g m).
           { apply (put_at w2 f nf2 nf3) in Hg3 as [[X _]|[_ X]]; auto. contradiction. }
           apply (B4 g m kk Hg2 Kg l N IN). intros c Hc. left. destruct (HL c Hc) as [(j & B & J)|[g0 _]]; [|contradiction].
           apply (skel_below w' w3 (eq_sym (proj1 Q4))) in B. rewrite P4 in J. apply in_app_iff in J as [J|J].
           ++ exists j. split; [eapply skel_below; [symmetry; exact Q3|auto]|left; exact J].
           ++ destruct (LB j J) as (BF & _). exists f. split; auto.
              destruct (tr_child w3 g m c T3 Hg3 (IN c Hc)) as (Lgc & nc & Hnc & Fc).
              eapply skel_below; [symmetry; exact Q3|].
              destruct (below_comparable w3 c f j T3 B BF (ex_intro _ nc Hnc) (ex_intro _ nf3 H3)) as [X|X]; auto.
              destruct (Nat.eq_dec f c) as [->|Nfc]; [constructor|].
              exfalso. pose proof (below_up w3 f c nc T3 X Nfc Hnc) as Y. rewrite Fc in Y.
              apply (below_child w3 f nf3) in Y as [Y|(d & Hd & Y)]; auto. apply D. exists d. auto.
        -- intros g. contradiction.
        -- intros g. contradiction.
        -- exists L. rewrite T4. change (w_tasks w3) with (w_tasks w1). rewrite WT. reflexivity.
        -- intros g. contradiction.
        -- eapply leaf_same_trans; [symmetry; apply Q4| |].
           2: { intros j m Hj Lj. destruct (skel_at w' w3 j m (eq_sym (proj1 Q4)) Hj) as (n3 & Hn3 & Sn). apply skel_children in Sn as (Sn & _).
             assert (L3 : n_children n3 = []) by congruence. pose proof (S4 j n3 Hn3 (or_introl L3)) as X. pose proof (node_fun _ _ _ _ Hj X). subst n3. eauto. }
           eapply leaf_same_trans; [symmetry; exact Q13|exact LS1|].
           eapply leaf_same_trans; [symmetry; exact Q3|exact B7|]. apply (leaf_same_put w2 f nf2); auto.
      * destruct (is_root f nf2) eqn:IR; [injection K as <-; apply DONE; auto|].
        eapply (MORE w2 nf2 (c0 :: cr)); eauto; [|discriminate].
        intros j B X. apply (below_child w2 f nf2) in B as [->|(c & Hc & B)]; auto.
        -- destruct (ta_leaf _ B3 f X) as (m & Hm & Lm & _). pose proof (node_fun _ _ _ _ B6 Hm). subst m. contradiction.
        -- assert (Z : (Z.of_nat (List.length [c]) <= k - 1)%Z).
           { apply (B4 f nf2 (k - 1)%Z B6 eq_refl); [repeat constructor; intros []| |].
             - intros x [<-|[]]. exact Hc.
             - intros x [<-|[]]. left. exists j. auto. }
           cbn in Z. lia.
Qed.

(** ** The invariant *)
Record winv (w : world) : Prop := {
  wi_tree : tree w;
  wi_fields : fields w;
  wi_tasks : tasks_ok w;
  wi_counts : counts w (fun j => In j (pending w));
  wi_unanswered : unanswered w (fun j => In j (pending w));
  wi_fresh : fresh w (fun j => In j (pending w)) }.
Record ready (w : world) (i : nat) (n : snode) : Prop := {
  re_tree : tree w;
  re_fields : fields w;
  re_tasks : tasks_ok w;
  re_node : node_at w i n;
  re_leaf : n_children n = [];
  re_closing : n_closing n = [[]];
  re_free : ~ In i (pending w);
  re_counts : counts w (fun j => In j (pending w) \/ j = i);
  re_unanswered : unanswered w (fun j => In j (pending w) \/ j = i);
  re_fresh : fresh w (fun j => In j (pending w) \/ j = i) }.
Definition without (k : nat) (w : world) : world :=
  mkWorld (w_nodes w) (w_gen w) (w_sko w) (w_impossible w) (firstn k (w_tasks w) ++ skipn (S k) (w_tasks w)).
Lemma split_nth {A} (l : list A) k a : nth_error l k = Some a -> exists l1 l2, l = l1 ++ a :: l2 /\ firstn k l ++ skipn (S k) l = l1 ++ l2.
Proof.
  intros H. exists (firstn k l), (skipn (S k) l). split; auto. symmetry. apply set_same. auto.
Qed.
Lemma without_in {A} (l1 l2 : list A) a x : In x (l1 ++ a :: l2) <-> In x (l1 ++ l2) \/ x = a.
Proof. rewrite !in_app_iff. cbn. intuition. Qed.
Lemma step_ready w k t : winv w -> nth_error (w_tasks w) k = Some t -> exists n, ready (without k w) (tnode t) n.
Proof.
  intros [T F TO C U R] H. apply split_nth in H as (l1 & l2 & E1 & E2).
  assert (PW : pending w = map tnode l1 ++ tnode t :: map tnode l2) by (unfold pending; rewrite E1, map_app; reflexivity).
  assert (PW' : pending (without k w) = map tnode l1 ++ map tnode l2) by (unfold pending, without; cbn [w_tasks]; rewrite E2, map_app; reflexivity).
  assert (Q : map skel (w_nodes (without k w)) = map skel (w_nodes w)) by reflexivity.
  destruct TO as [ND LF]. destruct (LF (tnode t)) as (n & Hn & Ln & Cn); [rewrite PW; apply in_elt|].
  assert (AL : alike w (without k w)) by (split; [reflexivity|intros j m Hj; exists m; auto]).
  assert (PP : forall j, In j (pending (without k w)) \/ j = tnode t -> In j (pending w)).
  { intros j Hj. rewrite PW, without_in. rewrite PW' in Hj. auto. }
  exists n. constructor; auto.
  - eapply skel_tree; eauto.
  - intros j m Hj. eapply fok_quiet; [exact Q|]. apply F. exact Hj.
  - constructor; [rewrite PW'; eapply NoDup_remove_1; rewrite <- PW; auto|]. intros j Hj. destruct (LF j) as (m & Hm & R1); [apply PP; auto|]. exists m. auto.
  - rewrite PW'. apply NoDup_remove_2. rewrite <- PW. auto.
  - apply (counts_alike w); auto. eapply counts_weaken; [|exact C]. exact PP.
  - apply (unanswered_alike w); auto. eapply unanswered_weaken; [|exact U]. exact PP.
  - intros g x m Hx (y & B & Y). apply (R g x m Hx). exists y. split; [eapply skel_below; [|exact B]; reflexivity|]. apply PP; auto.
Qed.
Lemma ready_below w i n j : ready w i n -> below w i j -> j = i.
Proof. intros R B. apply (below_child w i n) in B as [->|(c & Hc & _)]; auto; [|apply (re_node _ _ _ R)]. rewrite (re_leaf _ _ _ R) in Hc. destruct Hc. Qed.
Lemma okc_good w i n s : ready w i n -> okc (n_mgr n) s -> good w i s.
Proof.
  intros R [A B]. split; auto. intros e. destruct (A e) as [A1 A2]. split; auto. intros t St j m (Bj & Hj & _).
  apply (ready_below w i n) in Bj; auto. subst j. pose proof (node_fun _ _ _ _ Hj (re_node _ _ _ R)). subst m. auto.
Qed.
(** the fields of the node that do not matter may change *)
Lemma ready_put w i n n' : ready w i n -> skel n' = skel n -> n_kind n' = n_kind n -> n_closing n' = n_closing n -> n_amount n' = n_amount n ->
  n_done n' = n_done n -> (n_closed n' = true -> n_subs n' <> [] /\ forall s, In s (n_subs n') -> okc (n_mgr n) s) -> ready (put w i n') i n'.
Proof.
  intros [T F TO H L C NP CN UN FR] S K Cl Am Dn OK. pose proof (put_skel w i n n' H S) as Q. pose proof (skel_children _ _ S) as (S1 & S2 & S3 & S4).
  assert (AL : alike w (put w i n')).
  { split; auto. intros j m Hj. apply (put_at w i n n') in Hj as [[-> ->]|[_ Hj]]; eauto. }
  constructor.
  - eapply skel_tree; eauto.
  - apply (put_fields w i n); auto. destruct (F i n H) as [A1 A2 A3 A4 A5]. constructor.
    + rewrite S1, K, Cl, Am. auto.
    + rewrite S1, Cl. auto.
    + rewrite S1, K, Cl, Am. auto.
    + intros k l s. rewrite Cl. unfold target. rewrite S1. apply A4.
    + intros X. rewrite S4. auto.
  - apply (tasks_ok_put w i n); auto.
  - apply (put_at w i n n'); auto.
  - congruence.
  - congruence.
  - exact NP.
  - apply (counts_alike w); auto.
  - apply (unanswered_alike w); auto.
  - intros g x m Hx (y & B & Y). apply (skel_below _ w (eq_sym Q)) in B. apply (put_at w i n n') in Hx as [[-> ->]|[_ Hx]]; auto.
    + rewrite Dn. apply (FR g i n H). exists y. auto.
    + apply (FR g x m Hx). exists y. auto.
Qed.
Lemma ready_done w i n : ready w i n -> winv w.
Proof.
  intros [T F TO H L C NP CN UN FR]. constructor; auto.
  - eapply counts_weaken; [|exact CN]. intros j Hj. left; exact Hj.
  - eapply unanswered_weaken; [|exact UN]. intros j Hj. left; exact Hj.
  - intros g x m Hx (y & B & Y). apply (FR g x m Hx). exists y. auto.
Qed.
Lemma winv_ext w w' : w_nodes w' = w_nodes w -> w_tasks w' = w_tasks w -> winv w -> winv w'.
Proof.
  intros N TK [T F TO C U R]. assert (Q : map skel (w_nodes w') = map skel (w_nodes w)) by congruence.
  assert (P' : pending w' = pending w) by (unfold pending; congruence).
  assert (AT : forall j m, node_at w' j m -> node_at w j m) by (unfold node_at; rewrite N; auto).
  assert (TA : forall j m, node_at w j m -> node_at w' j m) by (unfold node_at; rewrite N; auto).
  assert (AL : alike w w') by (split; auto; intros j m Hj; exists m; auto).
  constructor.
  - eapply skel_tree; eauto.
  - intros j m Hj. eapply fok_quiet; eauto.
  - destruct TO as [ND LF]. constructor; rewrite P'; auto. intros j Hj. destruct (LF j Hj) as (m & Hm & R1). exists m. auto.
  - rewrite P'. apply (counts_alike w); auto.
  - rewrite P'. apply (unanswered_alike w); auto.
  - rewrite P'. intros g x m Hx (y & B & Y). apply (R g x m (AT _ _ Hx)). exists y. split; auto. eapply skel_below; [symmetry; exact Q|auto].
Qed.
Lemma answered_winv w w' : tree w -> answered w w' -> winv w'.
Proof. intros T [A1 A2 A3 A4 A5 A6 _ _]. constructor; auto. eapply skel_tree; [apply A1|auto]. Qed.

(** ** A node is expanded *)
Definition grow_node (n nf : snode) (a : applied) (base : nat) : snode :=
  with_children (with_closure
    (if is_beta (ap_rule a) then
       with_manager n (Branching (Z.of_nat (List.length (ap_new a)))) (repeat [] (List.length (ap_new a))) (List.length (ap_new a)) (n_done nf)
     else n) false (n_finished n) []) (seq base (List.length (ap_new a))).
Definition grown (i : nat) (n nf : snode) (a : applied) (w : world) : world :=
  let n2 := grow_node n nf a (List.length (w_nodes w)) in
  mkWorld (set_node (w_nodes w) i n2 ++ map (fun x => new_node i (fst x) (snd x) (n_done n2)) (combine (seq 0 (List.length (ap_new a))) (ap_new a)))
    (ap_gen a) (ap_sko a) (w_impossible w) (w_tasks w ++ map DoSearch (seq (List.length (w_nodes w)) (List.length (ap_new a)))).
Lemma nth_news {A B} (h : nat -> A -> B) (l : list A) : forall b k, nth_error (map (fun x => h (fst x) (snd x)) (combine (seq b (List.length l)) l)) k =
  option_map (h (b + k)) (nth_error l k).
Proof.
  induction l as [|a l IH]; intros b k; cbn; [destruct k; auto|]. destruct k as [|k]; cbn; [rewrite Nat.add_0_r; auto|].
  rewrite IH. replace (S b + k) with (b + S k) by lia. auto.
Qed.
Lemma grown_at i n nf a w j m : node_at w i n ->
  (node_at (grown i n nf a w) j m <->
   (j = i /\ m = grow_node n nf a (List.length (w_nodes w))) \/ (j <> i /\ node_at w j m) \/
   (exists k mg, j = List.length (w_nodes w) + k /\ nth_error (ap_new a) k = Some mg /\
      m = new_node i k mg (n_done (grow_node n nf a (List.length (w_nodes w)))))).
Proof.
  unfold node_at, grown. cbn [w_nodes]. intros H. pose proof (nth_in_range _ _ _ H) as LI. set (base := List.length (w_nodes w)) in *.
  set (n2 := grow_node n nf a base).
  assert (LS : List.length (set_node (w_nodes w) i n2) = base) by (apply len_set; auto).
  destruct (Nat.lt_ge_cases j base) as [LJ|LJ].
  - rewrite nth_error_app1 by lia. unfold set_node. rewrite nth_set by auto. destruct (Nat.eqb j i) eqn:Ej; [apply Nat.eqb_eq in Ej|apply Nat.eqb_neq in Ej].
    + split; [intros X; injection X as <-; auto|]. intros [[_ ->]|[[X _]|(k & mg & X & _)]]; [auto|contradiction|lia].
    + split; [auto|]. intros [[X _]|[[_ X]|(k & mg & X & _)]]; [contradiction|auto|lia].
  - rewrite nth_error_app2 by lia. rewrite LS, (nth_news (fun x y => new_node i x y (n_done n2))). cbn [plus]. split.
    + destruct (nth_error (ap_new a) (j - base)) as [mg|] eqn:X; [|discriminate]. cbn. intros Y. injection Y as <-.
      right. right. exists (j - base), mg. split; [lia|auto].
    + intros [[-> _]|[[_ X]|(k & mg & -> & X & ->)]]; [lia|apply nth_in_range in X; lia|].
      replace (base + k - base) with k by lia. rewrite X. reflexivity.
Qed.
Lemma sorted_lit m x : sorted m -> In x (forms_of m) -> kind_of_rule (ft_form x) = KAtomic -> In x (mg_pos m) \/ In x (mg_neg m).
Proof.
  intros [S1 S2 S3 S4 S5 S6] H K. unfold forms_of in H. rewrite !in_app_iff in H.
  destruct H as [H|[H|[H|[H|[H|H]]]]]; auto; exfalso;
    [apply S3, alpha_kind in H|apply S4, beta_kind in H|apply S5, gamma_kind in H|apply S6, delta_kind in H]; congruence.
Qed.
Lemma clash_lits t m m' : sorted m -> incl (mg_pos m) (mg_pos m') -> incl (mg_neg m) (mg_neg m') -> clash t (forms_of m) -> clash t (forms_of m').
Proof.
  intros S IP IN.
  assert (K : forall x, In x (forms_of m) -> kind_of_rule (ft_form x) = KAtomic -> In x (forms_of m')).
  { intros x H A. unfold forms_of. rewrite !in_app_iff. destruct (sorted_lit m x S H A); auto. }
  intros C. destruct C as [i ts H|i j ts H|i p tys args ts i' j' p' tys' args' ts' H H' X Y Z].
  - eapply ch_bot. apply K; eauto.
  - eapply ch_top. apply K; eauto.
  - eapply ch_pair; [apply K; eauto|apply K; eauto| | |]; eauto.
Qed.

(** rules with one branch *)
Lemma one_branch x s g news metas s' g' : is_beta x = false -> rule_form (ft_form x) -> apply_rule x s g = Some (news, metas, s', g') -> List.length news = 1.
Proof.
  destruct x as [f ts]. unfold is_beta, apply_rule. cbn [ft_form ft_terms]. intros B RF K.
  destruct f as [| | | | | |i f| | |]; try discriminate B; try (injection K as <- _ _ _; reflexivity).
  all: try (destruct f; try discriminate B; try (injection K as <- _ _ _; reflexivity)).
  all: try (destruct (negs _ _ _) as [l1 g1]; injection K as <- _ _ _; reflexivity).
  all: try (unfold maker_not, maker_index_formula in K; cbv beta iota zeta in K; injection K as <- _ _ _; reflexivity).
  all: try (destruct (apply_gamma _ _ _) as [[[y m] g1]|]; [|discriminate]; injection K as <- _ _ _; reflexivity).
  all: destruct (form_metas _) as [mm|]; [|discriminate]; destruct (skolemize _ _ _ _) as [[[h s1] g1]|]; [|discriminate]; injection K as <- _ _ _; reflexivity.
Qed.
(** what applyNonClosureRule does *)
Record app_of (m : mgr) (s : sko) (g : gen) (a : applied) : Prop := {
  ao_rule : In (ap_rule a) (rules_of m);
  ao_apply : exists news, apply_rule (ap_rule a) s g = Some (news, ap_metas a, ap_sko a, ap_gen a) /\
    ap_new a = map (branch_mgr m (ap_rule a) (ap_metas a)) news;
  ao_self : ap_self a = m }.
Lemma try_app m cat s g a : incl cat (rules_of m) -> try_to_apply m cat s g = Ok (Some a) -> app_of m s g a.
Proof.
  intros IN. unfold try_to_apply. destruct cat as [|x r]; [discriminate|]. destruct (apply_rule x s g) as [[[[news metas] s1] g1]|] eqn:X; [|discriminate].
  intros K. injection K as <-. constructor; cbn [ap_rule ap_metas ap_sko ap_gen ap_new ap_self]; [apply IN; left; auto|eauto|apply applied_mgr_id].
Qed.
Lemma app_some m s g a : apply_non_closure m s g = Ok (Some a) -> app_of m s g a.
Proof.
  unfold apply_non_closure. apply try_app. unfold rules_of. intros x Hx. rewrite !in_app_iff.
  destruct (mg_alpha m); [|auto]. destruct (mg_delta m); [|auto]. destruct (mg_beta m); [|auto]. auto.
Qed.
Lemma app_none m s g : apply_non_closure m s g = Ok None -> rules_of m = [] /\ only_reintro m = true.
Proof.
  unfold apply_non_closure, try_to_apply, rules_of, only_reintro.
  destruct (mg_alpha m) as [|x l], (mg_delta m) as [|x1 l1], (mg_beta m) as [|x2 l2], (mg_gamma m) as [|x3 l3]; auto;
    match goal with |- context [apply_rule ?x s g] => destruct (apply_rule x s g) as [[[[? ?] ?] ?]|]; discriminate end.
Qed.
Lemma rules_not_reintro m x : In x (rules_of m) -> only_reintro m = false.
Proof. unfold rules_of, only_reintro. destruct (mg_alpha m), (mg_beta m), (mg_gamma m), (mg_delta m); cbn; intros H; try reflexivity. destruct H. Qed.

Lemma grown_below i n nf a w x y : tree w -> node_at w i n -> n_children n = [] -> below (grown i n nf a w) x y -> x < List.length (w_nodes w) ->
  (y < List.length (w_nodes w) /\ below w x y) \/ (List.length (w_nodes w) <= y /\ below w x i).
Proof.
  intros T H L B. induction B as [x|x nx c y Hx C B IH]; intros LX; [left; split; auto; constructor|].
  apply (grown_at i n nf a w x nx H) in Hx as [[-> ->]|[[NX Hx]|(k & mg & -> & _)]]; [| |lia].
  - cbn [grow_node n_children with_children] in C. apply in_seq in C as [C1 C2]. right. split; [|constructor].
    assert (y = c); [|lia]. inversion B as [|? nc d ? Hc Cd Bd]; subst; auto. exfalso.
    apply (grown_at i n nf a w c nc H) in Hc as [[-> _]|[[_ Hc]|(k & mg & _ & _ & ->)]].
    + apply nth_in_range in H. lia.
    + apply nth_in_range in Hc. lia.
    + destruct Cd.
  - destruct (tr_child w x nx c T Hx C) as (_ & nc & Hc & _). destruct (IH (nth_in_range _ _ _ Hc)) as [[A1 A2]|[A1 A2]].
    + left. split; auto. econstructor; eauto.
    + right. split; auto. econstructor; eauto.
Qed.
Lemma grow_old_below i n nf a w x y : node_at w i n -> n_children n = [] -> below w x y -> below (grown i n nf a w) x y.
Proof.
  intros H L B. induction B as [x|x nx c y Hx C B IH]; [constructor|].
  econstructor; [|exact C|exact IH]. apply (grown_at i n nf a w x nx H). right. left. split; auto. intros ->.
  pose proof (node_fun _ _ _ _ H Hx). subst nx. rewrite L in C. destruct C.
Qed.
Lemma grown_inv w i n nf a s g : ready w i n -> node_at w (n_father n) nf -> app_of (n_mgr n) s g a -> ap_new a <> [] -> winv (grown i n nf a w).
Proof.
  intros [T F TO H L C NP CN UN FR] Hnf AO NE. set (base := List.length (w_nodes w)). set (w' := grown i n nf a w). set (n2 := grow_node n nf a base).
  assert (AT : forall j m, node_at w' j m <-> (j = i /\ m = n2) \/ (j <> i /\ node_at w j m) \/
    (exists k mg, j = base + k /\ nth_error (ap_new a) k = Some mg /\ m = new_node i k mg (n_done n2))) by (intros j m; apply grown_at; auto).
  pose proof (nth_in_range _ _ _ H) as LI. fold base in LI.
  assert (CH2 : n_children n2 = seq base (List.length (ap_new a))) by reflexivity.
  assert (CHK : forall k c, nth_error (n_children n2) k = Some c -> c = base + k /\ k < List.length (ap_new a)).
  { intros k c Ek. rewrite CH2 in Ek. pose proof (nth_in_range _ _ _ Ek) as LK. rewrite seq_length in LK.
    apply (nth_error_nth _ _ 0) in Ek. rewrite seq_nth in Ek by auto. auto. }
  assert (NE2 : n_children n2 <> []) by (rewrite CH2; destruct (ap_new a); [contradiction|discriminate]).
  destruct (F i n H) as [L1 _ _ _ _]. destruct (L1 L) as (KS & _ & AM).
  assert (NEWM : forall k mg, nth_error (ap_new a) k = Some mg -> sorted mg /\ mg_reintro mg = [] /\ mg_metas mg = [] /\
     incl (mg_pos (n_mgr n)) (mg_pos mg) /\ incl (mg_neg (n_mgr n)) (mg_neg mg)).
  { intros k mg Ek. destruct (ao_apply _ _ _ _ AO) as (news & _ & EN). rewrite EN in Ek. apply nth_error_In, in_map_iff in Ek as (new & <- & _).
    pose proof (tr_sorted w T i n H) as SO. destruct (tr_rest w T i n H) as [R1 R2].
    destruct (branch_rest (n_mgr n) (ap_rule a) (ap_metas a) new) as [R3 R4].
    destruct (branch_lits (n_mgr n) (ap_rule a) (ap_metas a) new SO (ao_rule _ _ _ _ AO)) as [I1 I2].
    split; [apply branch_sorted; auto|]. split; [congruence|]. split; [congruence|]. auto. }
  assert (ONE : is_beta (ap_rule a) = false -> List.length (ap_new a) = 1).
  { intros B. destruct (ao_apply _ _ _ _ AO) as (news & EA & EN). rewrite EN, map_length. eapply one_branch; eauto.
    apply (sorted_rules (n_mgr n)); [exact (tr_sorted w T i n H)|apply AO]. }
  assert (MG2 : n_mgr n2 = n_mgr n /\ n_father n2 = n_father n /\ n_nb n2 = n_nb n).
  { unfold n2, grow_node. destruct (is_beta _); auto. }
  destruct MG2 as (MG2 & FA2 & NB2).
  assert (CL2 : forall k l, nth_error (n_closing n2) k = Some l -> l = []).
  { intros k l. unfold n2, grow_node. destruct (is_beta (ap_rule a)); cbn [n_closing with_children with_closure with_manager].
    - intros X. apply nth_error_In, repeat_spec in X. auto.
    - rewrite C. intros X. apply nth_error_In in X as [X|[]]. auto. }
  assert (LEN2 : List.length (n_closing n2) = List.length (n_children n2) /\ n_amount n2 = List.length (n_children n2) /\ (n_kind n2 = Simple -> List.length (n_children n2) = 1)).
  { rewrite CH2, seq_length. unfold n2, grow_node. destruct (is_beta (ap_rule a)) eqn:B; cbn [n_closing n_amount n_kind with_children with_closure with_manager].
    - rewrite repeat_length. split; auto. split; auto. discriminate.
    - rewrite C, AM, (ONE eq_refl). auto. }
  assert (GG : forall j s, j < base -> good w j s -> good w' j s).
  { intros j x LJ [A B]. split; auto. intros e. destruct (A e) as [A1 A2]. split; auto. intros t St y m (By & Hy & Ly).
    specialize (A2 t St). apply (grown_below i n nf a w j y T H L By) in LJ. fold base in LJ.
    apply AT in Hy as [[-> ->]|[[NY Hy]|(k & mg & -> & Ek & ->)]].
    - contradiction.
    - destruct LJ as [[_ B']|[B' _]]; [apply (A2 y m); split; auto|apply nth_in_range in Hy; fold base in Hy; lia].
    - destruct LJ as [[B' _]|[_ B']]; [lia|]. destruct (NEWM k mg Ek) as (_ & _ & _ & I1 & I2). cbn [n_mgr new_node].
      apply (clash_lits t (n_mgr n)); auto; [eapply tr_sorted; eauto|]. apply (A2 i n). split; auto. }
  assert (ACT : forall x, x < base -> active w' (fun j => In j (pending w')) x -> active w (fun j => In j (pending w) \/ j = i) x).
  { intros x LX (j & B & J). destruct (grown_below i n nf a w x j T H L B LX) as [[LJ B']|[LJ B']]; [|exists i; auto].
    exists j. split; auto. left. unfold pending, w', grown in J. cbn [w_tasks] in J. rewrite map_app, map_map in J.
    apply in_app_iff in J as [J|J]; auto. cbn [tnode] in J. rewrite map_id in J. apply in_seq in J as [J _]. fold base in J, LJ. lia. }
  assert (PEND : forall j, In j (pending w) -> j < base).
  { intros j J. destruct (ta_leaf _ TO j J) as (m & Hm & _). apply nth_in_range in Hm. auto. }
  assert (PW : pending w' = pending w ++ seq base (List.length (ap_new a))).
  { unfold pending, w', grown. cbn [w_tasks]. rewrite map_app, map_map. cbn [tnode]. rewrite map_id. reflexivity. }
  constructor.
  - (* the tree *) constructor.
    + destruct (tr_root w T) as (n0 & H0 & F0 & B0). destruct (Nat.eq_dec i 0) as [->|I0].
      * pose proof (node_fun _ _ _ _ H H0). subst n0. exists n2. split; [apply AT; auto|]. split; congruence.
      * exists n0. split; [apply AT; auto|auto].
    + intros j m Hj J0. apply AT in Hj as [[-> ->]|[[NJ Hj]|(k & mg & -> & Ek & ->)]].
      * destruct (tr_up w T i n H J0) as (Lt & nf' & Hf & Ef). rewrite FA2, NB2. split; auto. exists nf'. split; auto. apply AT. right. left. split; auto. lia.
      * destruct (tr_up w T j m Hj J0) as (Lt & nf' & Hf & Ef). split; auto. destruct (Nat.eq_dec (n_father m) i) as [X|X].
        -- exfalso. rewrite X in Hf. pose proof (node_fun _ _ _ _ H Hf). subst nf'. rewrite L in Ef. destruct (n_nb m); discriminate.
        -- exists nf'. split; auto. apply AT. auto.
      * cbn [n_father n_nb new_node]. split; [lia|]. exists n2. split; [apply AT; auto|]. rewrite CH2.
        pose proof (nth_in_range _ _ _ Ek) as LK. rewrite (nth_error_nth' _ 0) by (rewrite seq_length; exact LK). rewrite seq_nth by exact LK. reflexivity.
    + intros j m k c Hj Ec. apply AT in Hj as [[-> ->]|[[NJ Hj]|(k' & mg & -> & Ek & ->)]].
      * destruct (CHK k c Ec) as [-> LK]. split; [lia|]. destruct (nth_error (ap_new a) k) as [mg|] eqn:Ek; [|apply nth_error_Some in LK; contradiction].
        exists (new_node i k mg (n_done n2)). split; [apply AT; right; right; eauto|auto].
      * destruct (tr_down w T j m k c Hj Ec) as (Lt & nc & Hc & F1 & F2). split; auto. destruct (Nat.eq_dec c i) as [->|X].
        -- pose proof (node_fun _ _ _ _ H Hc). subst nc. exists n2. split; [apply AT; auto|]. split; congruence.
        -- exists nc. split; auto. apply AT. auto.
      * destruct k; discriminate.
    + intros j m Hj. apply AT in Hj as [[-> ->]|[[NJ Hj]|(k' & mg & -> & Ek & ->)]]; [rewrite MG2; eapply tr_sorted; eauto|eapply tr_sorted; eauto|].
      apply (NEWM k' mg Ek).
    + intros j m Hj. apply AT in Hj as [[-> ->]|[[NJ Hj]|(k' & mg & -> & Ek & ->)]]; [rewrite MG2; eapply tr_rest; eauto|eapply tr_rest; eauto|].
      destruct (NEWM k' mg Ek) as (_ & R1 & R2 & _). auto.
  - (* the fields *) intros j m Hj. apply AT in Hj as [[-> ->]|[[NJ Hj]|(k' & mg & -> & Ek & ->)]].
    + constructor; [contradiction|contradiction|auto| |].
      * intros k l x El Hx. apply CL2 in El. subst l. destruct Hx.
      * unfold n2, grow_node. discriminate.
    + destruct (F j m Hj) as [A1 A2 A3 A4 A5]. constructor; auto. intros k l x El Hx. apply GG; [|eapply A4; eauto].
      unfold target. pose proof (nth_in_range _ _ _ Hj) as LJ. destruct (n_children m) as [|c0 cs] eqn:Cm; auto. rewrite <- Cm.
      destruct (nth_in_or_default k (n_children m) 0) as [X|X]; [|rewrite X; unfold base; lia].
      destruct (tr_child w j m _ T Hj X) as (_ & nc & Hc & _). eapply nth_in_range; eauto.
    + constructor; cbn [n_children n_kind n_closing n_amount n_closed n_subs new_node]; auto.
      * contradiction.
      * intros k l x El Hx. apply nth_error_In in El as [<-|[]]. destruct Hx.
      * discriminate.
  - (* the tasks *) constructor.
    + rewrite PW. apply nodup_app; [apply TO|apply seq_NoDup|]. intros z Z1 Z2. apply PEND in Z1. apply in_seq in Z2. lia.
    + intros j J. rewrite PW in J. apply in_app_iff in J as [J|J].
      * destruct (ta_leaf _ TO j J) as (m & Hm & R1). exists m. split; auto. apply AT. right. left. split; auto. intros ->. contradiction.
      * apply in_seq in J as [J1 J2]. assert (LK : j - base < List.length (ap_new a)) by lia.
        destruct (nth_error (ap_new a) (j - base)) as [mg|] eqn:Ek; [|apply nth_error_Some in LK; contradiction].
        exists (new_node i (j - base) mg (n_done n2)). split; [apply AT; right; right; exists (j - base), mg; split; [lia|auto]|auto].
  - intros x m k Hx Kx l N IN HL. apply AT in Hx as [[-> ->]|[[NX Hx]|(k' & mg & -> & Ek & ->)]]; [| |discriminate].
    + assert (k = Z.of_nat (List.length (n_children n2))).
      { rewrite CH2, seq_length. unfold n2, grow_node in Kx. destruct (is_beta (ap_rule a)); cbn [n_kind with_children with_closure with_manager] in Kx; congruence. }
      subst k. apply Nat2Z.inj_le, NoDup_incl_length; auto.
    + apply (CN x m k Hx Kx l N IN). intros c Hc. destruct (HL c Hc) as [A|R]; auto. left. apply ACT; auto.
      destruct (tr_child w x m c T Hx (IN c Hc)) as (_ & nc & Hnc & _). eapply nth_in_range; eauto.
  - intros gg x m j c Hx Ej A. apply AT in Hx as [[-> ->]|[[NX Hx]|(k' & mg & -> & Ek & ->)]].
    + destruct (CHK j c Ej) as [_ LK]. destruct LEN2 as (LL & _). destruct (nth_error (n_closing n2) j) as [l|] eqn:El; [f_equal; eauto|].
      apply nth_error_None in El. rewrite LL, CH2, seq_length in El. lia.
    + apply (UN gg x m j c Hx Ej). apply ACT; auto. destruct (tr_down w T x m j c Hx Ej) as (_ & nc & Hc & _). eapply nth_in_range; eauto.
    + destruct j; discriminate.
  - intros gg.
    assert (D2 : n_done n2 = []).
    { assert (DI : n_done n = []) by (apply (FR gg i n H); exists i; split; [constructor|auto]).
      unfold n2, grow_node. destruct (is_beta (ap_rule a)); cbn [n_done with_children with_closure with_manager]; auto.
      apply (FR gg (n_father n) nf Hnf). exists i. split; auto. destruct (Nat.eq_dec i 0) as [->|I0].
      - destruct (tr_root w T) as (n0 & H0 & F0 & _). pose proof (node_fun _ _ _ _ H H0). subst n0. rewrite F0. constructor.
      - destruct (tr_up w T i n H I0) as (_ & nf' & Hf & Ef). econstructor; [exact Hf|eapply nth_error_In; eauto|constructor]. }
    intros x m Hx A. apply AT in Hx as [[-> ->]|[[NX Hx]|(k' & mg & -> & Ek & ->)]]; auto.
    apply (FR gg x m Hx). apply ACT; auto. eapply nth_in_range; eauto.
Qed.

(** ** What a goroutine does *)
Variable name_id : string -> ident.
Variable ty_arity : string -> nat.
Variable add : term -> term -> substs -> out substs.
Variable comp : list (nat * term) -> list meta -> substs -> out substs.
Let tc := try_closure name_id ty_arity add comp.
Hypothesis closure_ok : forall m x subs, P m -> sorted m -> tc m = Ok (Some (x, subs)) -> subs <> [] /\ forall s, In s subs -> okc m s.

Definition marked (n : snode) (subs : list sub) : snode := with_closure n true (n_finished n) subs.
Definition finished (i : nat) (n : snode) (g : gen) (s : sko) (w : world) : world :=
  mkWorld (set_node (w_nodes w) i (with_closure n false true (n_subs n))) g s true (w_tasks w).
(** no rule, or one without branches *)
Inductive stuck (m : mgr) (s : sko) (g : gen) : sko -> gen -> Prop :=
| st_none : apply_non_closure m s g = Ok None -> stuck m s g s g
| st_empty a : apply_non_closure m s g = Ok (Some a) -> ap_new a = [] -> stuck m s g (ap_sko a) (ap_gen a).
(** the node when the rules are tried *)
Inductive seen (t : task) (n : snode) : snode -> Prop :=
| sn_none i : t = DoSearch i -> tc (n_mgr n) = Ok None -> seen t n n
| sn_keep i : t = DoKeepGoing i -> seen t n n
| sn_old i x subs : t = DoSearch i -> tc (n_mgr n) = Ok (Some (x, subs)) -> has_new (n_done n) subs = false -> seen t n (marked n subs).
Definition skipped (t : task) (n : snode) (w : world) : Prop :=
  match t with DoSearch _ => should_search w n = false | DoKeepGoing _ => should_keep w n = false end.
Inductive outcome (t : task) (w : world) (i : nat) (n : snode) : world -> Prop :=
| oc_drop : skipped t n w -> outcome t w i n w
| oc_answer x subs w' : ~ skipped t n w -> t = DoSearch i -> tc (n_mgr n) = Ok (Some (x, subs)) ->
    answered (put w i (marked n subs)) w' -> outcome t w i n w'
| oc_finish n1 s g : ~ skipped t n w -> seen t n n1 -> stuck (n_mgr n) (w_sko w) (w_gen w) s g ->
    outcome t w i n (finished i n1 g s (put w i n1))
| oc_grow n1 nf a : ~ skipped t n w -> seen t n n1 -> node_at (put w i n1) (n_father n) nf ->
    apply_non_closure (n_mgr n) (w_sko w) (w_gen w) = Ok (Some a) -> ap_new a <> [] ->
    outcome t w i n (grown i n1 nf a (put w i n1)).

Lemma put_same w i n : node_at w i n -> put w i n = w.
Proof. unfold node_at, put, set_node. intros H. rewrite set_same by auto. destruct w; reflexivity. Qed.
Lemma with_mgr_same n : with_mgr n (n_mgr n) = n.
Proof. destruct n; reflexivity. Qed.
Lemma set_nothing_eq w i n : ready w i n -> set_nothing i w = Ok (finished i n (w_gen w) (w_sko w) w).
Proof.
  intros R. unfold set_nothing. rewrite (proj2 (get_at w i n) (re_node _ _ _ R)). cbn [bind].
  destruct (tr_rest w (re_tree _ _ _ R) i n (re_node _ _ _ R)) as [-> _]. reflexivity.
Qed.
Lemma ready_counters w i n s g : ready w i n -> ready (set_counters w s g) i n.
Proof.
  intros [T F TO H L C NP CN UN FR]. assert (Q : map skel (w_nodes (set_counters w s g)) = map skel (w_nodes w)) by reflexivity.
  assert (AL : alike w (set_counters w s g)) by (split; [reflexivity|intros j m Hj; exists m; auto]).
  constructor; auto.
  - eapply skel_tree; eauto.
  - intros j m Hj. eapply fok_quiet; [exact Q|]. apply F. exact Hj.
  - destruct TO as [ND LF]. constructor; auto.
  - apply (counts_alike w); auto.
  - apply (unanswered_alike w); auto.
  - intros gg x m Hx (y & B & Y). apply (FR gg x m Hx). exists y. split; [eapply skel_below; [symmetry; exact Q|exact B]|exact Y].
Qed.
Lemma non_closure_cases w i n w' : ready w i n -> non_closure i w = Ok w' ->
  (exists s g, stuck (n_mgr n) (w_sko w) (w_gen w) s g /\ w' = finished i n g s w) \/
  (exists nf a, node_at w (n_father n) nf /\ apply_non_closure (n_mgr n) (w_sko w) (w_gen w) = Ok (Some a) /\ ap_new a <> [] /\ w' = grown i n nf a w).
Proof.
  intros R K. unfold non_closure in K. pose proof (re_node _ _ _ R) as H. rewrite (proj2 (get_at w i n) H) in K. cbn [bind] in K.
  destruct (tr_rest w (re_tree _ _ _ R) i n H) as [R1 _].
  apply bind_ok in K as ([a|] & Ka & K).
  - pose proof (app_some _ _ _ _ Ka) as AO. rewrite (ao_self _ _ _ _ AO), with_mgr_same, (put_same w i n H) in K.
    destruct (ap_new a) as [|m0 ms] eqn:NA.
    + left. exists (ap_sko a), (ap_gen a). split; [apply st_empty; auto|].
      assert (G1 : get (set_counters w (ap_sko a) (ap_gen a)) i = Ok n) by (apply get_at; exact H). rewrite G1 in K. cbn [bind] in K.
      rewrite (rules_not_reintro (n_mgr n) (ap_rule a)) in K by apply AO.
      rewrite (set_nothing_eq _ i n) in K by (apply ready_counters; auto). injection K as <-. reflexivity.
    + right. unfold expand_node in K. assert (G1 : get (set_counters w (ap_sko a) (ap_gen a)) i = Ok n) by (apply get_at; exact H).
      rewrite G1 in K. cbn [bind] in K. apply bind_ok in K as (nf & Kf & K). apply get_at in Kf. exists nf, a.
      split; [exact Kf|]. split; auto. split; [congruence|]. rewrite not_gamma in K. rewrite NA in K. injection K as <-. unfold grown, grow_node. rewrite NA.
      destruct (is_beta (ap_rule a)); reflexivity.
  - left. destruct (app_none _ _ _ Ka) as [_ OR]. rewrite OR in K.
    unfold apply_reintro in K. rewrite R1 in K. cbn [bind] in K. rewrite (set_nothing_eq w i n R) in K. injection K as <-.
    exists (w_sko w), (w_gen w). split; [constructor; auto|reflexivity].
Qed.
Lemma send_eq w i n : ready w i n -> send i w = Ok w.
Proof.
  intros R. unfold send. pose proof (re_node _ _ _ R) as H. rewrite (proj2 (get_at w i n) H). cbn [bind].
  destruct (fo_leaf _ _ _ (re_fields _ _ _ R i n H) (re_leaf _ _ _ R)) as (-> & _). destruct (is_root i n); auto.
  unfold compat_of. rewrite (re_closing _ _ _ R). destruct (tr_rest w (re_tree _ _ _ R) i n H) as [_ ->]. reflexivity.
Qed.
Lemma seen_ready t w i n n1 : ready w i n -> P (n_mgr n) -> seen t n n1 -> ready (put w i n1) i n1 /\ n_mgr n1 = n_mgr n /\ n_father n1 = n_father n.
Proof.
  intros R PM S. assert (SO : sorted (n_mgr n)) by (eapply tr_sorted; [apply R|apply R]).
  destruct S as [j E1 E2|j E1|j x subs E1 E2 E3].
  - rewrite put_same by apply R. auto.
  - rewrite put_same by apply R. auto.
  - split; auto. apply (ready_put w i n); auto. intros _. apply (closure_ok (n_mgr n) x subs PM SO E2).
Qed.
Lemma run_outcome t w i n w' : ready w i n -> tnode t = i -> P (n_mgr n) -> run_task name_id ty_arity add comp t w = Ok w' -> outcome t w i n w'.
Proof.
  intros R TI PM K. pose proof (re_node _ _ _ R) as H. assert (SO : sorted (n_mgr n)) by (eapply tr_sorted; [apply R|apply R]).
  assert (NC : forall n1, ~ skipped t n w -> seen t n n1 -> non_closure i (put w i n1) = Ok w' -> outcome t w i n w').
  { intros n1 NS S N. destruct (seen_ready t w i n n1 R PM S) as (R1 & M1 & F1).
    apply (non_closure_cases _ i n1) in N as [(s & g & ST & ->)|(nf & a & Hf & Ea & NE & ->)]; auto; rewrite M1 in *.
    - apply oc_finish; auto.
    - rewrite F1 in *. apply oc_grow; auto. }
  destruct t as [j|j]; cbn [tnode] in TI; subst j; cbn [run_task] in K; rewrite (proj2 (get_at w i n) H) in K; cbn [bind] in K.
  - destruct (should_search w n) eqn:SS; [|rewrite (send_eq w i n R) in K; injection K as <-; apply oc_drop; auto].
    assert (NS : ~ skipped (DoSearch i) n w) by (cbn [skipped]; congruence).
    unfold search_node in K. rewrite (proj2 (get_at w i n) H) in K. cbn [bind] in K.
    apply bind_ok in K as ([[x subs]|] & Kc & K).
    + fold tc in Kc. change (with_closure n true (n_finished n) subs) with (marked n subs) in K. change (n_done (marked n subs)) with (n_done n) in K.
      destruct (closure_ok (n_mgr n) x subs PM SO Kc) as [NE OK].
      destruct (has_new (n_done n) subs) eqn:HN; [|apply (NC (marked n subs)); auto; eapply sn_old; eauto].
      eapply oc_answer; eauto.
      assert (R1 : ready (put w i (marked n subs)) i (marked n subs)) by (apply (ready_put w i n); auto).
      apply (add_for_father_ok (S i) i subs); auto; try apply R1.
      * exists (marked n subs). split; [apply R1|intros _; apply R1].
      * intros j B. apply (ready_below _ _ _ _ R1) in B. subst j. apply R1.
      * intros s Hs. apply (okc_good _ _ _ _ R1). apply OK; auto.
    + apply (NC n); [auto|eapply sn_none; eauto|rewrite put_same; auto].
  - destruct (should_keep w n) eqn:SS; [|rewrite (send_eq w i n R) in K; injection K as <-; apply oc_drop; auto].
    apply (NC n); [cbn [skipped]; congruence|eapply sn_keep; eauto|rewrite put_same; auto].
Qed.
Lemma stuck_or_app m s g s' g' : stuck m s g s' g' -> (rules_of m = [] /\ s' = s /\ g' = g) \/
  exists a, app_of m s g a /\ ap_new a = [] /\ s' = ap_sko a /\ g' = ap_gen a.
Proof. intros [X|a X Y]; [left; apply app_none in X as [X _]; auto|right; exists a; split; auto; apply app_some; auto]. Qed.
Lemma outcome_inv t w i n w' : ready w i n -> P (n_mgr n) -> outcome t w i n w' -> winv w'.
Proof.
  intros R PM O. destruct O as [SK|x subs w' NS TI KC AN|n1 s g NS SN ST|n1 nf a NS SN Hf AP NE].
  - eapply ready_done; eauto.
  - eapply answered_winv; [|exact AN]. eapply skel_tree; [|apply R]. apply (put_skel w i n); [apply R|reflexivity].
  - destruct (seen_ready t w i n n1 R PM SN) as (R1 & M1 & F1).
    assert (R2 : ready (put (put w i n1) i (with_closure n1 false true (n_subs n1))) i (with_closure n1 false true (n_subs n1))).
    { apply (ready_put (put w i n1) i n1); auto. discriminate. }
    eapply winv_ext; [| |eapply ready_done; exact R2]; reflexivity.
  - destruct (seen_ready t w i n n1 R PM SN) as (R1 & M1 & F1).
    eapply (grown_inv (put w i n1) i n1 nf a (w_sko w) (w_gen w)); auto; [rewrite F1; auto|rewrite M1; apply app_some; auto].
Qed.
Lemma first_winv g k f : winv (first_world g k f).
Proof.
  set (w := first_world g k f). set (n0 := new_node 0 0 (insert_rule empty_mgr (mkFat f [])) []).
  assert (AT : forall j m, node_at w j m -> j = 0 /\ m = n0).
  { unfold node_at, w, first_world. cbn [w_nodes]. intros [|j] m E'; cbn in E'; [injection E' as <-; auto|destruct j; discriminate]. }
  assert (H0 : node_at w 0 n0) by reflexivity.
  constructor.
  - constructor.
    + exists n0. auto.
    + intros j m Hj J. apply AT in Hj as [-> _]. contradiction.
    + intros j m x c Hj Ec. apply AT in Hj as [-> ->]. destruct x; discriminate.
    + intros j m Hj. apply AT in Hj as [-> ->]. apply insert_sorted, sorted_empty.
    + intros j m Hj. apply AT in Hj as [-> ->]. cbn [n_mgr n0 new_node]. destruct (insert_rest empty_mgr (mkFat f [])) as [-> ->]. auto.
  - intros j m Hj. apply AT in Hj as [-> ->]. constructor; auto; try discriminate.
    + intros X. exfalso. apply X. reflexivity.
    + intros x l s El Hs. destruct x as [|[|x]]; try discriminate. injection El as <-. destruct Hs.
  - constructor; [repeat constructor; intros []|]. intros j [<-|[]]. exists n0. auto.
  - intros j m x Hj Kj. apply AT in Hj as [-> ->]. discriminate.
  - intros gg j m x c Hj Ec. apply AT in Hj as [-> ->]. destruct x; discriminate.
  - intros gg j m Hj _. apply AT in Hj as [-> ->]. reflexivity.
Qed.
(** managers of nodes never change *)
Lemma outcome_mgr t w i n w' j m : ready w i n -> P (n_mgr n) -> outcome t w i n w' -> node_at w j m -> exists m', node_at w' j m' /\ n_mgr m' = n_mgr m.
Proof.
  intros R PM O Hj.
  assert (PUT : forall n1, skel n1 = skel n -> exists m', node_at (put w i n1) j m' /\ n_mgr m' = n_mgr m).
  { intros n1 S. destruct (skel_at w (put w i n1) j m (put_skel w i n n1 (re_node _ _ _ R) S) Hj) as (m' & Hm & Sm). apply skel_children in Sm as (_ & _ & _ & Sm). eauto. }
  destruct O as [SK|x subs w' NS TI KC AN|n1 s g NS SN ST|n1 nf a NS SN Hf AP NE].
  - eauto.
  - destruct (PUT (marked n subs) eq_refl) as (m1 & H1 & M1). destruct (skel_at _ w' j m1 (proj1 (an_quiet _ _ AN)) H1) as (m2 & H2 & S2).
    apply skel_children in S2 as (_ & _ & _ & S2). exists m2. split; auto. congruence.
  - assert (S1 : skel n1 = skel n) by (destruct SN; reflexivity). destruct (PUT n1 S1) as (m1 & H1 & M1).
    assert (H1i : node_at (put w i n1) i n1) by (apply (put_at w i n n1); [apply R|auto]).
    pose proof (put_skel (put w i n1) i n1 (with_closure n1 false true (n_subs n1)) H1i eq_refl) as Q.
    destruct (skel_at _ (finished i n1 g s (put w i n1)) j m1 Q H1) as (m2 & H2 & S2). apply skel_children in S2 as (_ & _ & _ & S2). exists m2. split; auto. congruence.
  - assert (S1 : skel n1 = skel n) by (destruct SN; reflexivity). destruct (PUT n1 S1) as (m1 & H1 & M1).
    assert (H1i : node_at (put w i n1) i n1) by (apply (put_at w i n n1); [apply R|auto]).
    destruct (Nat.eq_dec j i) as [->|NJ].
    + exists (grow_node n1 nf a (List.length (w_nodes (put w i n1)))). split; [apply grown_at; auto|].
      pose proof (node_fun _ _ _ _ H1 H1i). subst m1. rewrite <- M1. unfold grow_node. destruct (is_beta _); reflexivity.
    + exists m1. split; auto. apply grown_at; auto.
Qed.
(** ** Runs *)
Definition all_nodes (w : world) : Prop := forall j n, node_at w j n -> P (n_mgr n).
Notation stepf := (step name_id ty_arity add comp).
Notation runf := (run name_id ty_arity add comp).
Lemma step_cases k w w' : winv w -> all_nodes w -> stepf k w = Ok w' ->
  exists t i n, nth_error (w_tasks w) k = Some t /\ tnode t = i /\ ready (without k w) i n /\ outcome t (without k w) i n w'.
Proof.
  intros W PA K. unfold step in K. destruct (nth_error (w_tasks w) k) as [t|] eqn:Et; [|discriminate].
  destruct (step_ready w k t W Et) as (n & R). exists t, (tnode t), n. split; auto. split; auto. split; auto.
  apply run_outcome; auto. eapply PA. exact (re_node _ _ _ R).
Qed.
Lemma run_app s1 : forall s2 w, runf (s1 ++ s2) w = do w' <- runf s1 w; runf s2 w'.
Proof. induction s1 as [|k s1 IH]; intros s2 w; cbn; auto. destruct (stepf k w); cbn; auto. Qed.
End Search.
