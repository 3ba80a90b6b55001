(** Lemmas for C50. *)
From Coq Require Import List Bool Arith Lia Relations.
From Verif Require Import Unif_Model GsGraph_Model GsGraph_Spec.
Import ListNotations.
Open Scope list_scope.

(** *** assignments *)
Lemma set_nth_some {A} i (x : A) l : (i < length l)%nat -> exists l', set_nth i x l = Some l'.
Proof.
  revert i. induction l as [|y l IH]; intros [|i] H; cbn in *; try lia; [eauto|]. destruct (IH i) as (l' & E); [lia|]. rewrite E. cbn. eauto.
Qed.
Lemma set_nth_ok {A} i (x : A) l l' : set_nth i x l = Some l' ->
  (i < length l)%nat /\ length l' = length l /\ forall j, nth_error l' j = if Nat.eqb j i then Some x else nth_error l j.
Proof.
  revert i l'. induction l as [|y l IH]; intros [|i] l' H; cbn in H; try discriminate.
  - injection H as <-. cbn. split; [lia|]. split; [reflexivity|]. intros [|j]; reflexivity.
  - destruct (set_nth i x l) as [r|] eqn:E; cbn in H; [|discriminate]. injection H as <-. destruct (IH _ _ E) as (H1 & H2 & H3). cbn.
    split; [lia|]. split; [congruence|]. intros [|j]; [reflexivity|]. cbn. apply H3.
Qed.

Lemma nth_ext' {A} (l r : list A) : (forall i, nth_error l i = nth_error r i) -> l = r.
Proof.
  revert r. induction l as [|x l IH]; intros [|y r] H; [reflexivity|specialize (H 0%nat); discriminate|specialize (H 0%nat); discriminate|].
  pose proof (H 0%nat) as H0. injection H0 as ->. f_equal. apply IH. intros i. apply (H (S i)).
Qed.

Section G.
Variable T : Type.
Variable deq : T -> T -> bool.
Hypothesis deq_ok : forall x y, deq x y = true <-> x = y.

(** *** vertices *)
Lemma find_from_ok u l : forall i, match find_from deq i u l with
  | Some j => exists k, j = (i + k)%nat /\ nth_error l k = Some u /\ forall k', (k' < k)%nat -> nth_error l k' <> Some u
  | None => ~ In u l end.
Proof.
  induction l as [|v l IH]; intros i; cbn; [tauto|]. destruct (deq u v) eqn:E.
  - apply deq_ok in E. subst v. exists 0%nat. split; [lia|]. split; [reflexivity|]. intros k' H. lia.
  - assert (N : u <> v) by (intros ->; rewrite (proj2 (deq_ok v v) eq_refl) in E; discriminate). specialize (IH (S i)).
    destruct (find_from deq (S i) u l) as [j|]; [|intros [K|K]; [congruence|auto]].
    destruct IH as (k & -> & H1 & H2). exists (S k). split; [lia|]. split; [exact H1|]. intros [|k'] H; cbn; [congruence|]. apply H2. lia.
Qed.
Definition first (l : list T) (u : T) (i : nat) : Prop := nth_error l i = Some u /\ forall k, (k < i)%nat -> nth_error l k <> Some u.
Lemma find_some (g : graph T) u i : find_vertex deq g u = Some i <-> first (vertices g) u i.
Proof.
  unfold find_vertex. pose proof (find_from_ok u (vertices g) 0) as H. split.
  - intros E. rewrite E in H. destruct H as (k & -> & H1 & H2). split; assumption.
  - intros [F1 F2]. destruct (find_from deq 0 u (vertices g)) as [j|].
    + destruct H as (k & -> & H1 & H2). cbn. f_equal. destruct (lt_eq_lt_dec k i) as [[L|L]|L]; [destruct (F2 k L H1)|exact L|destruct (H2 i L F1)].
    + destruct H. eapply nth_error_In. exact F1.
Qed.
Lemma find_none (g : graph T) u : find_vertex deq g u = None <-> ~ In u (vertices g).
Proof.
  unfold find_vertex. pose proof (find_from_ok u (vertices g) 0) as H. destruct (find_from deq 0 u (vertices g)) as [j|].
  - split; [discriminate|]. intros N. destruct H as (k & _ & H & _). destruct N. eapply nth_error_In, H.
  - split; auto.
Qed.
Lemma first_app l r u i : first l u i -> first (l ++ r) u i.
Proof.
  intros [H1 H2]. assert (L : (i < length l)%nat) by (apply nth_error_Some; congruence). split; [rewrite nth_error_app1; auto|].
  intros k Hk. rewrite nth_error_app1 by lia. auto.
Qed.
Lemma first_last l u : ~ In u l -> first (l ++ [u]) u (length l).
Proof.
  intros N. split; [rewrite nth_error_app2, Nat.sub_diag by lia; reflexivity|]. intros k Hk. rewrite nth_error_app1 by lia. intros K. apply N. eapply nth_error_In, K.
Qed.
Lemma first_eq l u i j : first l u i -> first l u j -> i = j.
Proof. intros [A1 A2] [B1 B2]. destruct (lt_eq_lt_dec i j) as [[L|L]|L]; [destruct (B2 i L A1)|exact L|destruct (A2 j L B1)]. Qed.
Lemma nth_in_app (l r : list T) i x : nth_error l i = Some x -> nth_error (l ++ r) i = Some x.
Proof. intros H. rewrite nth_error_app1; [exact H|]. apply nth_error_Some. congruence. Qed.

(** *** the search *)
Definition next (g : graph T) (i j : nat) : Prop := exists row, nth_error (edges g) i = Some row /\ In j row.
Definition whole (g : graph T) : Prop := length (edges g) = length (vertices g) /\ forall i j, next g i j -> (j < length (vertices g))%nat.
Definition marked (s : list bool) (i : nat) : Prop := nth_error s i = Some true.
Fixpoint unseen (s : list bool) : nat := match s with [] => 0 | b :: r => (if b then 0 else 1) + unseen r end.
Lemma unseen_le s : (unseen s <= length s)%nat.
Proof. induction s as [|[] s IH]; cbn; lia. Qed.
Lemma unseen_set i s s' : set_nth i true s = Some s' -> nth_error s i = Some false -> unseen s = S (unseen s').
Proof.
  revert i s'. induction s as [|b s IH]; intros [|i] s' H F; cbn in *; try discriminate.
  - injection F as ->. injection H as <-. reflexivity.
  - destruct (set_nth i true s) as [r|] eqn:E; cbn in H; [|discriminate]. injection H as <-. cbn. rewrite (IH _ _ E F). lia.
Qed.
Lemma marked_unseen s s' : length s = length s' -> (forall i, marked s i -> marked s' i) -> (unseen s' <= unseen s)%nat.
Proof.
  revert s'. induction s as [|b s IH]; intros [|b' s'] L H; cbn in *; try discriminate; [lia|].
  assert (U : (unseen s' <= unseen s)%nat) by (apply IH; [lia|intros i; apply (H (S i))]).
  destruct b, b'; try lia. specialize (H 0%nat eq_refl). discriminate.
Qed.
(** what one call does: it marks its source, marks only what it can reach, and leaves nothing to do below what it marked *)
Definition did (g : graph T) (s s' : list bool) (src : nat) : Prop :=
  length s' = length s /\ (forall i, marked s i -> marked s' i) /\ marked s' src /\
  (forall i, marked s' i -> marked s i \/ clos_refl_trans nat (next g) src i) /\
  (forall i j, marked s' i -> next g i j -> marked s i \/ marked s' j).
Lemma dfs_ok g : whole g -> forall n s src, length s = length (vertices g) -> (unseen s < n)%nat -> nth_error s src = Some false ->
  exists s', dfs n g s src = Ok s' /\ did g s s' src.
Proof.
  intros [W1 W2]. induction n as [|n IH]; intros s src L U F; [lia|]. cbn [dfs].
  assert (Ls : (src < length s)%nat) by (apply nth_error_Some; congruence).
  destruct (set_nth_some src true s Ls) as (s0 & E0). rewrite E0.
  destruct (set_nth_ok _ _ _ _ E0) as (_ & L0 & N0). pose proof (unseen_set _ _ _ E0 F) as U0.
  destruct (nth_error (edges g) src) as [row|] eqn:Er; [|apply nth_error_None in Er; lia].
  assert (Hrow : forall x, In x row -> next g src x) by (intros x Hx; exists row; auto).
  set (go := fix go (row : list nat) (seen : list bool) : out (list bool) := match row with
      | [] => Ok seen | x :: r => match nth_error seen x with None => Crash | Some true => go r seen | Some false => do seen <- dfs n g seen x; go r seen end end).
  assert (G : forall r s1, (forall x, In x r -> In x row) -> length s1 = length s -> (unseen s1 < n)%nat ->
    exists s', go r s1 = Ok s' /\ length s' = length s1 /\ (forall i, marked s1 i -> marked s' i) /\ (forall x, In x r -> marked s' x) /\
      (forall i, marked s' i -> marked s1 i \/ clos_refl_trans nat (next g) src i) /\
      (forall i j, marked s' i -> next g i j -> marked s1 i \/ marked s' j)).
  { induction r as [|x r IHr]; intros s1 Hr L1 U1.
    - exists s1. cbn. repeat (split; auto). intros x [].
    - cbn. assert (Hx : In x row) by (apply Hr; left; reflexivity). pose proof (W2 _ _ (Hrow x Hx)) as Bx.
      destruct (nth_error s1 x) as [[]|] eqn:Ex; [| |apply nth_error_None in Ex; lia].
      + destruct (IHr s1) as (s' & E' & A1 & A2 & A3 & A4 & A5); auto; [intros y Hy; apply Hr; right; exact Hy|].
        exists s'. split; [exact E'|]. repeat (split; auto). intros y [<-|Hy]; auto.
      + destruct (IH s1 x) as (s2 & E2 & D1 & D2 & D3 & D4 & D5); auto; [lia|]. rewrite E2. cbn [bind].
        assert (U2 : (unseen s2 < n)%nat) by (pose proof (marked_unseen s1 s2 (eq_sym D1) D2); lia).
        destruct (IHr s2) as (s' & E' & A1 & A2 & A3 & A4 & A5); auto; [intros y Hy; apply Hr; right; exact Hy|lia|].
        exists s'. split; [exact E'|]. split; [lia|]. split; [auto|]. split; [intros y [<-|Hy]; auto|]. split.
        * intros i Hi. destruct (A4 i Hi) as [K|K]; [|auto]. destruct (D4 i K) as [K'|K']; [auto|]. right. eapply rt_trans; [apply rt_step, Hrow, Hx|exact K'].
        * intros i j Hi Hj. destruct (A5 i j Hi Hj) as [K|K]; [|auto]. destruct (D5 i j K Hj) as [K'|K']; auto. }
  destruct (G row s0) as (s' & E' & A1 & A2 & A3 & A4 & A5); auto; [lia|].
  assert (M0 : forall i, marked s0 i -> i = src \/ marked s i).
  { intros i Hi. unfold marked in Hi. rewrite N0 in Hi. destruct (Nat.eqb i src) eqn:Ei; [apply Nat.eqb_eq in Ei; auto|auto]. }
  assert (M1 : forall i, marked s i -> marked s0 i).
  { intros i Hi. unfold marked. rewrite N0. destruct (Nat.eqb i src); [reflexivity|exact Hi]. }
  assert (M2 : marked s0 src) by (unfold marked; rewrite N0, Nat.eqb_refl; reflexivity).
  exists s'. split; [exact E'|]. split; [congruence|]. split; [auto|]. split; [auto|]. split.
  - intros i Hi. destruct (A4 i Hi) as [K|K]; [|auto]. destruct (M0 i K) as [-> |K']; [right; apply rt_refl|auto].
  - intros i j Hi Hj. destruct (A5 i j Hi Hj) as [K|K]; [|auto]. destruct (M0 i K) as [-> |K']; [|auto].
    right. apply A3. destruct Hj as (row' & Er' & Hj). congruence.
Qed.
(** graph.go:93-108: dfsAux is also called on a source that is already seen *)
Lemma dfs_again g : whole g -> forall n s src, length s = length (vertices g) -> (unseen s < n)%nat -> (src < length s)%nat ->
  (forall i j, marked s i -> next g i j -> marked s j) ->
  exists s', dfs n g s src = Ok s' /\ length s' = length s /\ (forall i, marked s i -> marked s' i) /\ marked s' src /\
    (forall i, marked s' i -> marked s i \/ clos_refl_trans nat (next g) src i) /\ (forall i j, marked s' i -> next g i j -> marked s' j).
Proof.
  intros W n s src L U B C. destruct (nth_error s src) as [[]|] eqn:F; [| |apply nth_error_None in F; lia].
  - destruct n as [|n]; [lia|]. exists s. cbn [dfs]. destruct (set_nth_some src true s B) as (s0 & E0).
    destruct (set_nth_ok _ _ _ _ E0) as (_ & L0 & N0).
    assert (Es : s0 = s).
    { apply nth_ext'. intros i. rewrite N0. destruct (Nat.eqb i src) eqn:Ei; [apply Nat.eqb_eq in Ei; subst; congruence|reflexivity]. }
    rewrite E0, Es. destruct W as [W1 W2]. destruct (nth_error (edges g) src) as [row|] eqn:Er; [|apply nth_error_None in Er; lia].
    split; [|repeat (split; auto)].
    assert (H : forall x, In x row -> marked s x) by (intros x Hx; apply (C src x F); exists row; auto). clear - H.
    induction row as [|x r IH]; [reflexivity|]. rewrite (H x (or_introl eq_refl)). apply IH. intros y Hy. apply H. right. exact Hy.
  - destruct (dfs_ok g W n s src L U F) as (s' & E & D1 & D2 & D3 & D4 & D5). exists s'. split; [exact E|]. repeat (split; auto).
    intros i j Hi Hj. destruct (D5 i j Hi Hj) as [K|K]; [apply D2, (C i j K Hj)|exact K].
Qed.
Definition from (g : graph T) (sources : list T) (i : nat) : Prop :=
  exists s k, In s sources /\ first (vertices g) s k /\ clos_refl_trans nat (next g) k i.
Lemma sources_ok g : whole g -> forall sources s, length s = length (vertices g) -> (forall i j, marked s i -> next g i j -> marked s j) ->
  exists s', dfs_sources deq g sources s = Ok s' /\ length s' = length s /\ forall i, marked s' i <-> marked s i \/ from g sources i.
Proof.
  intros W. induction sources as [|x r IH]; intros s L C; cbn [dfs_sources].
  - exists s. split; [reflexivity|]. split; [reflexivity|]. intros i. split; [auto|]. intros [H|(y & k & [] & _)]; exact H.
  - destruct (find_vertex deq g x) as [k|] eqn:Ef.
    + apply find_some in Ef. destruct (dfs_again g W (S (length (vertices g))) s k L) as (s1 & E1 & L1 & M1 & M2 & M3 & M4); auto.
      * pose proof (unseen_le s). lia.
      * rewrite L. apply nth_error_Some. destruct Ef as [Ef _]. congruence.
      * rewrite E1. cbn [bind]. destruct (IH s1) as (s' & E' & L' & M'); [congruence|exact M4|].
        exists s'. split; [exact E'|]. split; [congruence|]. intros i. rewrite M'. split.
        -- intros [H|(y & j & Hy & H)]; [|right; exists y, j; split; [right; exact Hy|exact H]].
           destruct (M3 i H) as [K|K]; [auto|]. right. exists x, k. split; [left; reflexivity|auto].
        -- intros [H|(y & j & [<-|Hy] & F & H)]; [auto| |right; exists y, j; auto].
           left. rewrite (first_eq _ _ _ _ F Ef) in H. apply clos_rt_rtn1 in H. induction H; [exact M2|]. eapply M4; eauto.
    + destruct (IH s L C) as (s' & E' & L' & M'). exists s'. split; [exact E'|]. split; [exact L'|]. intros i. rewrite M'. split.
      * intros [H|(y & j & Hy & H)]; [auto|]. right. exists y, j. split; [right; exact Hy|exact H].
      * intros [H|(y & j & [<-|Hy] & F & H)]; [auto| |right; exists y, j; auto].
        apply find_none in Ef. destruct Ef. eapply nth_error_In, F.
Qed.
Lemma elements_in (vs : list T) : forall seen x, In x (elements_seen vs seen) <-> exists i, nth_error vs i = Some x /\ marked seen i.
Proof.
  induction vs as [|v vs IH]; intros [|b seen] x; cbn.
  - split; [intros []|intros ([|i] & H & _); discriminate].
  - split; [intros []|intros ([|i] & H & _); discriminate].
  - split; [intros []|intros ([|i] & _ & H); discriminate].
  - assert (K : In x (elements_seen vs seen) <-> exists i, nth_error (v :: vs) (S i) = Some x /\ marked (b :: seen) (S i)) by apply IH.
    destruct b; cbn [In]; rewrite K; split.
    + intros [<-|(i & H)]; [exists 0%nat; split; reflexivity|eauto].
    + intros ([|i] & H1 & H2); [left; injection H1; auto|eauto].
    + intros (i & H). eauto.
    + intros ([|i] & H1 & H2); [discriminate H2|eauto].
Qed.
Theorem search_ok g sources : whole g -> exists l, search deq g sources = Ok l /\
  forall x, In x l <-> exists i, nth_error (vertices g) i = Some x /\ from g sources i.
Proof.
  intros W. unfold search. assert (R : forall n i, ~ marked (repeat false n) i).
  { unfold marked. induction n as [|n IH]; intros [|i]; cbn; try discriminate. apply IH. }
  destruct (sources_ok g W sources (repeat false (length (vertices g)))) as (s & E & L & M).
  - apply repeat_length.
  - intros i j H. destruct (R _ _ H).
  - rewrite E. cbn. eexists. split; [reflexivity|]. intros x. rewrite elements_in. split; intros (i & H1 & H2); exists i; (split; [exact H1|]).
    + apply M in H2. destruct H2 as [H2|H2]; [destruct (R _ _ H2)|exact H2].
    + apply M. auto.
Qed.

(** *** the calls *)
Lemma app_last_inv {A} (p q l : list A) x y : p ++ x :: q = l ++ [y] -> (q = [] /\ p = l /\ x = y) \/ exists q', q = q' ++ [y] /\ l = p ++ x :: q'.
Proof.
  destruct q as [|z q] using rev_ind; intros E.
  - left. apply app_inj_tail in E. tauto.
  - right. clear IHq. exists q. change (p ++ x :: q ++ [z]) with (p ++ (x :: q) ++ [z]) in E. rewrite app_assoc in E. apply app_inj_tail in E. destruct E as [<- ->]. auto.
Qed.
Lemma recorded_edge (ops : list (op T)) u v x y : recorded (ops ++ [AddEdge u v]) x y <-> recorded ops x y \/ (x = u /\ y = v).
Proof.
  split.
  - intros (p & q & E & N1 & N2). symmetry in E. apply app_last_inv in E. destruct E as [(-> & -> & E)|(q' & -> & ->)]; [injection E; auto|].
    left. exists p, q'. split; [reflexivity|]. split; intros K; [apply N1|apply N2]; apply in_or_app; auto.
  - intros [(p & q & -> & N1 & N2)|[-> ->]].
    + exists p, (q ++ [AddEdge u v]). split; [rewrite <- app_assoc; reflexivity|].
      split; intros K; apply in_app_or in K; destruct K as [K|[K|[]]]; auto; discriminate.
    + exists ops, []. split; [reflexivity|]. split; intros [].
Qed.
Lemma recorded_clean (ops : list (op T)) u x y : recorded (ops ++ [Clean u]) x y <-> recorded ops x y /\ x <> u /\ y <> u.
Proof.
  split.
  - intros (p & q & E & N1 & N2). symmetry in E. apply app_last_inv in E. destruct E as [(_ & _ & E)|(q' & -> & ->)]; [discriminate|].
    split; [|split; intros ->; [apply N1|apply N2]; apply in_or_app; right; left; reflexivity].
    exists p, q'. split; [reflexivity|]. split; intros K; [apply N1|apply N2]; apply in_or_app; auto.
  - intros ((p & q & -> & N1 & N2) & Nx & Ny). exists p, (q ++ [Clean u]). split; [rewrite <- app_assoc; reflexivity|].
    split; intros K; apply in_app_or in K; destruct K as [K|[K|[]]]; auto; congruence.
Qed.
Lemma mentioned_edge (ops : list (op T)) u v x : mentioned (ops ++ [AddEdge u v]) x <-> mentioned ops x \/ x = u \/ x = v.
Proof.
  unfold mentioned. split.
  - intros [H|(y & [H|H])]; apply in_app_or in H; destruct H as [H|[H|[]]]; try discriminate; try (injection H as <- <-); eauto.
  - intros [[H|(y & H)]|[-> | ->]].
    + left. apply in_or_app. auto.
    + right. exists y. rewrite !in_app_iff. tauto.
    + right. exists v. left. apply in_or_app. right. left. reflexivity.
    + right. exists u. right. apply in_or_app. right. left. reflexivity.
Qed.
Lemma mentioned_clean (ops : list (op T)) u x : mentioned (ops ++ [Clean u]) x <-> mentioned ops x.
Proof.
  unfold mentioned. split.
  - intros [H|(y & [H|H])]; apply in_app_or in H; destruct H as [H|[H|[]]]; try discriminate; eauto.
  - intros [H|(y & H)]; [left; apply in_or_app; auto|]. right. exists y. rewrite !in_app_iff. tauto.
Qed.
Lemma once_app (ops : list (op T)) o : once (ops ++ [o]) -> once ops.
Proof. intros H p u v q ->. apply (H p u v (q ++ [o])). rewrite <- app_assoc. reflexivity. Qed.
Lemma once_edge (ops : list (op T)) u v : once (ops ++ [AddEdge u v]) -> ~ recorded ops u v.
Proof. intros H. apply (H ops u v []). reflexivity. Qed.
Lemma run_app (g : graph T) ops o : run deq g (ops ++ [o]) = do g <- run deq g ops; step deq g o.
Proof.
  revert g. induction ops as [|a ops IH]; intros g; cbn; [destruct (step deq g o); reflexivity|].
  destruct (step deq g a) as [g'| | |]; cbn; auto.
Qed.

(** *** what the calls do *)
Lemma resize_ok (g g' : graph T) u k : whole g -> add_resize g u = (g', k) ->
  vertices g' = vertices g ++ [u] /\ edges g' = edges g ++ [[]] /\ k = length (vertices g) /\ whole g' /\ forall i j, next g' i j <-> next g i j.
Proof.
  intros [W1 W2] E. unfold add_resize in E. injection E as <- <-. cbn.
  rewrite app_length. cbn [length]. replace (length (vertices g) + 1 - length (edges g))%nat with 1%nat by lia. cbn [repeat].
  assert (N : forall i j, next (mkG (vertices g ++ [u]) (edges g ++ [[]])) i j <-> next g i j).
  { intros i j. unfold next. cbn. split.
    - intros (row & E & H). destruct (lt_dec i (length (edges g))) as [L|L]; [rewrite nth_error_app1 in E by lia; eauto|].
      rewrite nth_error_app2 in E by lia. destruct (i - length (edges g))%nat as [|[|]]; cbn in E; [injection E as <-; destruct H|discriminate|discriminate].
    - intros (row & E & H). exists row. split; [|exact H]. rewrite nth_error_app1; [exact E|]. apply nth_error_Some. congruence. }
  split; [reflexivity|]. split; [reflexivity|]. split; [lia|]. split; [|exact N].
  split; cbn; [rewrite !app_length; cbn; lia|]. intros i j H. apply N, W2 in H. rewrite app_length. lia.
Qed.
Lemma add_edge_ok g u v : whole g -> exists g' ux vx, add_edge deq g u v = Ok g' /\ whole g' /\
  (exists r, vertices g' = vertices g ++ r) /\ (forall x, In x (vertices g') <-> In x (vertices g) \/ x = u \/ x = v) /\
  first (vertices g') u ux /\ nth_error (vertices g') vx = Some v /\ (first (vertices g') v vx \/ u = v) /\
  (forall i j, next g' i j <-> next g i j \/ (i = ux /\ j = vx)) /\
  (forall i row, nth_error (edges g') i = Some row -> exists row0, (nth_error (edges g) i = Some row0 \/ row0 = []) /\ row = row0 ++ (if Nat.eqb i ux then [vx] else [])).
Proof.
  intros W. unfold add_edge.
  assert (A : exists g1 ux, match find_vertex deq g u with Some i => (g, i) | None => add_resize g u end = (g1, ux) /\ whole g1 /\
    (exists r, vertices g1 = vertices g ++ r /\ (forall x, In x r -> x = u)) /\ first (vertices g1) u ux /\ (forall i j, next g1 i j <-> next g i j) /\
    (exists k, edges g1 = edges g ++ repeat [] k)).
  { destruct (find_vertex deq g u) as [i|] eqn:Ef.
    - apply find_some in Ef. exists g, i. split; [reflexivity|]. split; [exact W|]. split; [exists []; rewrite app_nil_r; split; [reflexivity|intros x []]|].
      split; [exact Ef|]. split; [tauto|]. exists 0%nat. cbn. rewrite app_nil_r. reflexivity.
    - apply find_none in Ef. destruct (add_resize g u) as [g1 k] eqn:Er. destruct (resize_ok _ _ _ _ W Er) as (E1 & E2 & -> & W1 & N1).
      exists g1, (length (vertices g)). split; [reflexivity|]. split; [exact W1|]. split; [exists [u]; split; [exact E1|intros x [<-|[]]; reflexivity]|].
      split; [rewrite E1; apply first_last, Ef|]. split; [exact N1|]. exists 1%nat. exact E2. }
  destruct A as (g1 & ux & -> & W1 & (r1 & V1 & R1) & F1 & N1 & (k1 & K1)).
  assert (B : exists g2 vx, match find_vertex deq g v with Some i => (g1, i) | None => add_resize g1 v end = (g2, vx) /\ whole g2 /\
    (exists r, vertices g2 = vertices g1 ++ r /\ (forall x, In x r -> x = v)) /\ nth_error (vertices g2) vx = Some v /\ (first (vertices g2) v vx \/ u = v) /\
    (forall i j, next g2 i j <-> next g1 i j) /\ (exists k, edges g2 = edges g1 ++ repeat [] k)).
  { destruct (find_vertex deq g v) as [i|] eqn:Ef.
    - apply find_some in Ef. exists g1, i. split; [reflexivity|]. split; [exact W1|]. split; [exists []; rewrite app_nil_r; split; [reflexivity|intros x []]|].
      assert (F : first (vertices g1) v i) by (rewrite V1; apply first_app, Ef). split; [apply F|]. split; [auto|]. split; [tauto|]. exists 0%nat. cbn. rewrite app_nil_r. reflexivity.
    - apply find_none in Ef. destruct (add_resize g1 v) as [g2 k] eqn:Er. destruct (resize_ok _ _ _ _ W1 Er) as (E1 & E2 & -> & W2 & N2).
      exists g2, (length (vertices g1)). split; [reflexivity|]. split; [exact W2|]. split; [exists [v]; split; [exact E1|intros x [<-|[]]; reflexivity]|].
      split; [rewrite E1, nth_error_app2, Nat.sub_diag by lia; reflexivity|]. split.
      + destruct (deq u v) eqn:D; [right; apply deq_ok, D|]. left. rewrite E1. apply first_last. rewrite V1. intros K. apply in_app_or in K.
        destruct K as [K|K]; [auto|]. apply R1 in K. subst v. rewrite (proj2 (deq_ok u u) eq_refl) in D. discriminate.
      + split; [exact N2|]. exists 1%nat. exact E2. }
  destruct B as (g2 & vx & -> & W2 & (r2 & V2 & R2) & F2 & F3 & N2 & (k2 & K2)).
  assert (Fu : first (vertices g2) u ux) by (rewrite V2; apply first_app, F1).
  assert (Lu : (ux < length (edges g2))%nat) by (destruct W2 as [-> _]; apply nth_error_Some; destruct Fu as [-> _]; discriminate).
  assert (Lv : (vx < length (vertices g2))%nat) by (apply nth_error_Some; rewrite F2; discriminate).
  destruct (nth_error (edges g2) ux) as [row|] eqn:Er; [|apply nth_error_None in Er; lia].
  destruct (set_nth_some ux (row ++ [vx]) (edges g2) Lu) as (e & Ee). rewrite Ee. destruct (set_nth_ok _ _ _ _ Ee) as (_ & Le & Ne).
  assert (N3 : forall i j, next (mkG (vertices g2) e) i j <-> next g2 i j \/ (i = ux /\ j = vx)).
  { intros i j. unfold next. cbn. rewrite Ne. destruct (Nat.eqb i ux) eqn:Ei.
    - apply Nat.eqb_eq in Ei. subst i. split.
      + intros (row' & E' & H). injection E' as <-. apply in_app_or in H. destruct H as [H|[H|[]]]; [left; eauto|auto].
      + intros [(row' & E' & H)|[_ ->]]; exists (row ++ [vx]); (split; [reflexivity|]); apply in_or_app; [left; congruence|right; left; reflexivity].
    - apply Nat.eqb_neq in Ei. split; [auto|]. intros [H|[H _]]; [exact H|contradiction]. }
  exists (mkG (vertices g2) e), ux, vx. split; [reflexivity|]. split.
  { destruct W2 as [A1 A2]. split; cbn; [congruence|]. intros i j H. apply N3 in H. destruct H as [H|[_ ->]]; [apply A2 in H; exact H|exact Lv]. }
  cbn [vertices edges]. split; [exists (r1 ++ r2); rewrite V2, V1, app_assoc; reflexivity|]. split.
  { intros x. rewrite V2, V1, !in_app_iff. split.
    - intros [[H|H]|H]; auto.
    - intros [H|[-> | ->]]; auto.
      + assert (K : In u (vertices g1)) by (eapply nth_error_In; apply F1). rewrite V1, in_app_iff in K. tauto.
      + apply nth_error_In in F2. rewrite V2, V1, !in_app_iff in F2. tauto. }
  split; [exact Fu|]. split; [exact F2|]. split; [exact F3|]. split; [intros i j; rewrite N3, N2, N1; tauto|].
  assert (Q : forall i row0, nth_error (edges g2) i = Some row0 -> nth_error (edges g) i = Some row0 \/ row0 = []).
  { intros i row0 H. rewrite K2, K1, <- app_assoc, <- repeat_app in H. destruct (lt_dec i (length (edges g))) as [L|L]; [rewrite nth_error_app1 in H by lia; auto|].
    rewrite nth_error_app2 in H by lia. apply nth_error_In, repeat_spec in H. auto. }
  intros i row' H. rewrite Ne in H. destruct (Nat.eqb i ux) eqn:Ei.
  - apply Nat.eqb_eq in Ei. subst i. injection H as <-. exists row. split; [apply Q, Er|reflexivity].
  - exists row'. split; [apply Q, H|]. rewrite app_nil_r. reflexivity.
Qed.
Lemma remove_first_in v l : NoDup l -> forall x, In x (remove_first v l) <-> In x l /\ x <> v.
Proof.
  induction l as [|a l IH]; intros D x; cbn; [tauto|]. inversion D as [|? ? N D']; subst. destruct (Nat.eqb a v) eqn:E.
  - apply Nat.eqb_eq in E. subst a. split; [intros H; split; [auto|intros ->; auto]|]. intros [[<-|H] K]; [congruence|exact H].
  - apply Nat.eqb_neq in E. cbn. rewrite (IH D'). split; [intros [<-|[H1 H2]]; auto|]. intros [[<-|H] K]; auto.
Qed.
Lemma remove_first_nodup v l : NoDup l -> NoDup (remove_first v l).
Proof.
  induction l as [|a l IH]; intros D; cbn; [constructor|]. inversion D as [|? ? N D']; subst. destruct (Nat.eqb a v); [exact D'|].
  constructor; [|auto]. intros H. apply remove_first_in in H; [|exact D']. tauto.
Qed.

(** *** the graph remembers the calls *)
Record remembers (ops : list (op T)) (g : graph T) : Prop := mkRem {
  rem_whole : whole g;
  rem_vs : forall x, In x (vertices g) <-> mentioned ops x;
  rem_next : forall i j, next g i j -> exists x y, first (vertices g) x i /\ nth_error (vertices g) j = Some y /\ recorded ops x y /\ (first (vertices g) y j \/ x = y);
  rem_rec : forall x y, recorded ops x y -> exists i j, first (vertices g) x i /\ next g i j /\ nth_error (vertices g) j = Some y;
  rem_once : once ops -> forall i row, nth_error (edges g) i = Some row -> NoDup row }.
Lemma run_remembers ops : no_bare_vertex ops -> once ops \/ never_cleaned ops -> exists g, run deq make_graph ops = Ok g /\ remembers ops g.
Proof.
  induction ops as [|o ops IH] using rev_ind; intros NV H.
  - exists make_graph. split; [reflexivity|]. split.
    + split; [reflexivity|]. intros i j (row & E & _). destruct i; discriminate.
    + intros x. split; [intros []|intros [[]|(y & [[]|[]])]].
    + intros i j (row & E & _). destruct i; discriminate.
    + intros x y (p & q & E & _). destruct p; discriminate.
    + intros _ [|i] row E; discriminate.
  - destruct IH as (g & E & [W V N R O]).
    + intros u K. apply (NV u). apply in_or_app. auto.
    + destruct H as [H|H]; [left; eapply once_app, H|right; intros u K; apply (H u), in_or_app; auto].
    + rewrite run_app, E. cbn [bind]. destruct o as [u|u v|u]; [destruct (NV u); apply in_or_app; right; left; reflexivity| |].
      * destruct (add_edge_ok g u v W) as (g' & ux & vx & E' & W' & (r & V') & I' & Fu & Fv & Fv' & N' & Q). cbn [step]. exists g'. split; [exact E'|].
        split; [exact W'| | | |].
        -- intros x. rewrite I', mentioned_edge, V. reflexivity.
        -- intros i j Hij. apply N' in Hij. destruct Hij as [Hij|[-> ->]].
           ++ destruct (N i j Hij) as (x & y & F1 & F2 & F3 & F4). exists x, y. rewrite V'. split; [apply first_app, F1|]. split; [apply nth_in_app, F2|].
              split; [apply recorded_edge; auto|]. destruct F4 as [F4|F4]; [left; apply first_app, F4|auto].
           ++ exists u, v. split; [exact Fu|]. split; [exact Fv|]. split; [apply recorded_edge; auto|exact Fv'].
        -- intros x y Hxy. apply recorded_edge in Hxy. destruct Hxy as [Hxy|[-> ->]].
           ++ destruct (R x y Hxy) as (i & j & F1 & F2 & F3). exists i, j. rewrite V'. split; [apply first_app, F1|]. split; [apply N'; auto|apply nth_in_app, F3].
           ++ exists ux, vx. split; [exact Fu|]. split; [apply N'; auto|exact Fv].
        -- intros On i row Hr. pose proof (once_edge _ _ _ On) as Nr. specialize (O (once_app _ _ On)).
           destruct (Q i row Hr) as (row0 & H0 & ->).
           assert (D0 : NoDup row0) by (destruct H0 as [H0|H0]; [apply (O _ _ H0)|subst; constructor]).
           destruct (Nat.eqb i ux) eqn:Ei; [|rewrite app_nil_r; exact D0]. apply Nat.eqb_eq in Ei. subst i.
           assert (Nx : ~ In vx row0).
           { intros K. destruct H0 as [H0|H0]; [|subst; destruct K]. destruct (N ux vx) as (x & y & F1 & F2 & F3 & _); [exists row0; auto|].
             apply Nr. destruct F1 as [F1 _]. apply (nth_in_app _ r) in F1. rewrite <- V' in F1. destruct Fu as [Fu _].
             apply (nth_in_app _ r) in F2. rewrite <- V' in F2. congruence. }
           clear - D0 Nx. induction row0 as [|a row0 IH]; cbn; [constructor; [intros []|constructor]|]. inversion D0; subst. constructor; [|apply IH; [assumption|]].
           ++ intros K. apply in_app_or in K. destruct K as [K|[K|[]]]; [contradiction|]. apply Nx. left. auto.
           ++ intros K. apply Nx. right. exact K.
      * destruct H as [On|H]; [|destruct (H u); apply in_or_app; right; left; reflexivity]. specialize (O (once_app _ _ On)). cbn [step]. unfold clean.
        destruct (find_vertex deq g u) as [k|] eqn:Ef.
        -- apply find_some in Ef. assert (Lk : (k < length (edges g))%nat) by (destruct W as [-> _]; apply nth_error_Some; destruct Ef as [-> _]; discriminate).
           destruct (set_nth_some k [] (edges g) Lk) as (e & Ee). rewrite Ee. destruct (set_nth_ok _ _ _ _ Ee) as (_ & Le & Ne).
           set (g' := mkG (vertices g) (map (remove_first k) e)). exists g'. split; [reflexivity|].
           assert (N' : forall i j, next g' i j <-> next g i j /\ i <> k /\ j <> k).
           { intros i j. unfold next, g'. cbn. rewrite nth_error_map, Ne. destruct (Nat.eqb i k) eqn:Ei.
             - apply Nat.eqb_eq in Ei. cbn. split; [intros (row & K & Hj); injection K as <-; destruct Hj|]. tauto.
             - apply Nat.eqb_neq in Ei. split.
               + intros (row & K & Hj). destruct (nth_error (edges g) i) as [row0|] eqn:E0; [|discriminate]. cbn in K. injection K as <-.
                 apply remove_first_in in Hj; [|apply (O _ _ E0)]. split; [exists row0; tauto|tauto].
               + intros ((row & K & Hj) & _ & Nj). rewrite K. exists (remove_first k row). split; [reflexivity|]. apply remove_first_in; [apply (O _ _ K)|auto]. }
           assert (Fk : forall i x, first (vertices g) x i -> (i = k <-> x = u)).
           { intros i x F. split; [intros ->; destruct F as [F _], Ef as [Ef _]; congruence|]. intros ->. apply (first_eq _ _ _ _ F Ef). }
           split.
           ++ destruct W as [W1 W2]. split; cbn; [rewrite map_length; congruence|]. intros i j Hij. apply N' in Hij. apply (W2 i j). tauto.
           ++ intros x. rewrite mentioned_clean. apply V.
           ++ intros i j Hij. apply N' in Hij. destruct Hij as (Hij & Ni & Nj). destruct (N i j Hij) as (x & y & F1 & F2 & F3 & F4). exists x, y.
              split; [exact F1|]. split; [exact F2|]. split; [|exact F4]. apply recorded_clean. split; [exact F3|].
              assert (Nx : x <> u) by (rewrite <- (Fk _ _ F1); exact Ni). split; [exact Nx|].
              destruct F4 as [F4|F4]; [rewrite <- (Fk _ _ F4); exact Nj|congruence].
           ++ intros x y Hxy. apply recorded_clean in Hxy. destruct Hxy as (Hxy & Nx & Ny). destruct (R x y Hxy) as (i & j & F1 & F2 & F3).
              exists i, j. split; [exact F1|]. split; [|exact F3]. apply N'. split; [exact F2|]. split; [rewrite (Fk _ _ F1); exact Nx|].
              intros ->. destruct Ef as [Ef _]. cbn in F3. congruence.
           ++ intros _ i row Hr. cbn in Hr. rewrite nth_error_map, Ne in Hr. destruct (Nat.eqb i k); [injection Hr as <-; constructor|].
              destruct (nth_error (edges g) i) as [row0|] eqn:E0; [|discriminate]. injection Hr as <-. apply remove_first_nodup, (O _ _ E0).
        -- apply find_none in Ef. exists g. split; [reflexivity|]. split; [exact W| | | |].
           ++ intros x. rewrite mentioned_clean. apply V.
           ++ intros i j Hij. destruct (N i j Hij) as (x & y & F1 & F2 & F3 & F4). exists x, y. split; [exact F1|]. split; [exact F2|]. split; [|exact F4].
              apply recorded_clean. split; [exact F3|]. split; intros ->; apply Ef; eapply nth_error_In; [apply F1|exact F2].
           ++ intros x y Hxy. apply recorded_clean in Hxy. apply R. tauto.
           ++ intros _. exact O.
Qed.
Lemma path_forth ops g : remembers ops g -> forall i j, clos_refl_trans nat (next g) i j -> forall x y, nth_error (vertices g) i = Some x -> nth_error (vertices g) j = Some y ->
  clos_refl_trans T (recorded ops) x y.
Proof.
  intros [W V N R O] i j P. apply clos_rt_rtn1 in P. induction P as [|j k Hjk P IH]; intros x y Hx Hy.
  - replace y with x by congruence. apply rt_refl.
  - destruct (N _ _ Hjk) as (a & b & [F1 _] & F2 & F3 & _). eapply rt_trans; [apply (IH x a Hx F1)|]. apply rt_step. replace y with b by congruence. exact F3.
Qed.
Lemma path_back ops g : remembers ops g -> forall x y, clos_refl_trans T (recorded ops) x y -> forall i, first (vertices g) x i ->
  exists j, clos_refl_trans nat (next g) i j /\ nth_error (vertices g) j = Some y.
Proof.
  intros [W V N R O] x y P. apply clos_rt_rt1n in P. induction P as [x|x y z Hxy P IH]; intros i F.
  - exists i. split; [apply rt_refl|apply F].
  - destruct (R _ _ Hxy) as (i' & j & F1 & F2 & F3). rewrite (first_eq _ _ _ _ F1 F) in F2.
    destruct (N _ _ F2) as (a & b & A1 & A2 & A3 & A4). assert (Eb : b = y) by congruence. subst b.
    destruct A4 as [A4| ->].
    + destruct (IH j A4) as (k & K1 & K2). exists k. split; [eapply rt_trans; [apply rt_step, F2|exact K1]|exact K2].
    + apply (IH i A1).
Qed.
Theorem reachability ops : no_bare_vertex ops -> once ops \/ never_cleaned ops ->
  exists g, run deq make_graph ops = Ok g /\ forall sources, exists l, search deq g sources = Ok l /\ forall x, In x l <-> reachable ops sources x.
Proof.
  intros NV H. destruct (run_remembers ops NV H) as (g & E & Rm). exists g. split; [exact E|]. intros sources.
  destruct (search_ok g sources (rem_whole _ _ Rm)) as (l & El & Hl). exists l. split; [exact El|]. intros x. rewrite Hl. split.
  - intros (i & Hi & s & k & Hs & Fk & P). exists s. split; [exact Hs|]. split; [apply (rem_vs _ _ Rm); eapply nth_error_In; apply Fk|].
    eapply path_forth; eauto. apply Fk.
  - intros (s & Hs & Ms & P). apply (rem_vs _ _ Rm) in Ms. assert (F : exists k, first (vertices g) s k).
    { destruct (find_vertex deq g s) as [k|] eqn:Ef; [exists k; apply find_some, Ef|apply find_none in Ef; contradiction]. }
    destruct F as (k & F). destruct (path_back _ _ Rm _ _ P k F) as (j & P' & Hj). exists j. split; [exact Hj|]. exists s, k. auto.
Qed.
End G.
