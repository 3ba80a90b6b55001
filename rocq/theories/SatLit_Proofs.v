(** Proofs about the literals given to the SAT solver. *)
From Coq Require Import List Bool Arith Lia.
From Verif Require Import SatEq_Model SatEq_Spec SatLit_Model SatLit_Spec.
Import ListNotations.
Open Scope list_scope.

Lemma key_eqb_eq : forall v w, key_eqb v w = true <-> v = w.
Proof.
  intros v w. split.
  - destruct v, w; cbn; try discriminate; rewrite ?andb_true_iff, ?Nat.eqb_eq; intuition subst; reflexivity.
  - intros <-. destruct v; cbn; rewrite ?Nat.eqb_refl; reflexivity.
Qed.
Lemma place_eqb_eq : forall p q, place_eqb p q = true <-> p = q.
Proof.
  intros [a b] [c d]. unfold place_eqb. cbn. rewrite andb_true_iff, !Nat.eqb_eq. split; [intros [-> ->]; reflexivity | intros [= -> ->]; auto].
Qed.
Record inv (b : builder) : Prop := {
  i_lits : forall p v n, In (v, n) (b_maps b p) -> In n (b_lits b);
  i_one : forall p q v w n, In (v, n) (b_maps b p) -> In (w, n) (b_maps b q) -> v = w;
  i_even : forall n, In n (b_lits b) -> exists k, n = 2 * k /\ 1 <= k <= b_vars b;
  i_nodup : NoDup (b_lits b);
  i_key : forall n, In n (b_lits b) -> exists v, lookup b v = Some n
}.
Lemma inv_new : inv new_builder.
Proof. split; cbn; try tauto. constructor. Qed.
Lemma assoc_in : forall v l n, assoc v l = Some n -> In (v, n) l.
Proof.
  intros v. induction l as [|[w m] l IH]; intros n H; [discriminate|]. cbn in H. destruct (key_eqb w v) eqn:E.
  - apply key_eqb_eq in E. injection H as ->. subst. left. reflexivity.
  - right. auto.
Qed.
Lemma get_id_spec : forall b v, inv b -> let '(n, b') := get_id b v in
  inv b' /\ lookup b' v = Some n /\ forall w m, lookup b w = Some m -> lookup b' w = Some m.
Proof.
  intros b v [I1 I2 I3 I4 I5]. unfold get_id. destruct (lookup b v) as [n|] eqn:E; [repeat split; auto|].
  remember (S (b_vars b)) as k eqn:Ek0. set (b' := mkB k _ _).
  assert (Hv : lookup b' v = Some (2 * k)).
  { unfold lookup, b'. cbn [b_maps]. assert (Hp : place_eqb (place v) (place v) = true) by (apply place_eqb_eq; reflexivity). rewrite Hp.
    cbn [assoc]. assert (Hk : key_eqb v v = true) by (apply key_eqb_eq; reflexivity). rewrite Hk. reflexivity. }
  assert (Hw : forall w m, lookup b w = Some m -> lookup b' w = Some m).
  { intros w m Hw. unfold lookup, b'. cbn [b_maps]. destruct (place_eqb (place w) (place v)); [|exact Hw]. cbn [assoc].
    destruct (key_eqb v w) eqn:Ek; [|exact Hw]. apply key_eqb_eq in Ek. subst. congruence. }
  assert (Hin : forall p w m, In (w, m) (b_maps b' p) -> (w = v /\ m = 2 * k) \/ In (w, m) (b_maps b p)).
  { intros p w m H. unfold b' in H. cbn [b_maps] in H. destruct (place_eqb p (place v)); [|auto]. destruct H as [H | H]; [left; split; congruence | auto]. }
  assert (Hnew : ~ In (2 * k) (b_lits b)).
  { intros H. destruct (I3 _ H) as (j & Hj & Hj2). lia. }
  split; [|split; assumption]. split.
  - intros p w m H. unfold b'. cbn [b_lits]. apply in_app_iff. destruct (Hin _ _ _ H) as [[_ ->] | H']; [right; left; reflexivity | left; eauto].
  - intros p q w w' m H H'. destruct (Hin _ _ _ H) as [[-> ->] | H1], (Hin _ _ _ H') as [[-> Hm] | H2]; try reflexivity.
    + exfalso. apply Hnew. eauto.
    + exfalso. subst m. apply Hnew. eauto.
    + eauto.
  - intros m H. unfold b' in H |- *. cbn [b_lits b_vars] in *. apply in_app_iff in H. destruct H as [H | [<- | []]].
    + destruct (I3 _ H) as (j & -> & Hj). exists j. lia.
    + exists k. lia.
  - unfold b'. cbn [b_lits]. rewrite <- (rev_involutive (b_lits b)). change [2 * k] with (rev [2 * k]). rewrite <- rev_app_distr. apply NoDup_rev. cbn.
    constructor; [rewrite <- in_rev; exact Hnew | apply NoDup_rev; exact I4].
  - intros m H. unfold b' in H. cbn [b_lits] in H. apply in_app_iff in H. destruct H as [H | [<- | []]]; [|exists v; exact Hv].
    destruct (I5 _ H) as (w & Hw'). exists w. auto.
Qed.
Lemma lookup_inj : forall b v w n, inv b -> lookup b v = Some n -> lookup b w = Some n -> v = w.
Proof. intros b v w n H Hv Hw. apply assoc_in in Hv, Hw. exact (i_one b H _ _ _ _ _ Hv Hw). Qed.
Definition extends (b b' : builder) : Prop := inv b' /\ forall w m, lookup b w = Some m -> lookup b' w = Some m.
Lemma extends_trans : forall a b c, extends a b -> extends b c -> extends a c.
Proof. intros a b c [_ H1] [H2 H3]. split; auto. Qed.
(** the literals of a clause, for a builder that knows all its keys *)
Definition names (b : builder) (l : lit) (n : nat) : Prop := exists k, lookup b (snd l) = Some k /\ n = if fst l then k else not_lit k.
Lemma names_extends : forall b b' l n, extends b b' -> names b l n -> names b' l n.
Proof. intros b b' l n [_ H] (k & H1 & H2). exists k. auto. Qed.
Lemma get_lit_spec : forall b l, inv b -> let '(n, b') := get_lit b l in extends b b' /\ names b' l n.
Proof.
  intros b [s v] H. unfold get_lit. cbn [fst snd]. pose proof (get_id_spec b v H) as Hg. destruct (get_id b v) as [n b']. destruct Hg as (H1 & H2 & H3).
  split; [split; assumption|]. exists n. auto.
Qed.
Lemma get_clause_spec : forall c b, inv b -> let '(ns, b') := get_clause b c in extends b b' /\ Forall2 (names b') c ns.
Proof.
  induction c as [|l c IH]; intros b H; cbn [get_clause]; [split; [split; auto | constructor]|].
  pose proof (get_lit_spec b l H) as Hl. destruct (get_lit b l) as [n b1]. destruct Hl as [E1 N1].
  specialize (IH b1 (proj1 E1)). destruct (get_clause b1 c) as [ns b2]. destruct IH as [E2 N2]. split; [exact (extends_trans _ _ _ E1 E2)|].
  constructor; [exact (names_extends _ _ _ _ E2 N1) | exact N2].
Qed.
Lemma get_clauses_spec : forall cs b, inv b -> let '(ns, b') := get_clauses b cs in extends b b' /\ Forall2 (Forall2 (names b')) cs ns.
Proof.
  induction cs as [|c cs IH]; intros b H; cbn [get_clauses]; [split; [split; auto | constructor]|].
  pose proof (get_clause_spec c b H) as Hl. destruct (get_clause b c) as [n b1]. destruct Hl as [E1 N1].
  specialize (IH b1 (proj1 E1)). destruct (get_clauses b1 cs) as [ns b2]. destruct IH as [E2 N2]. split; [exact (extends_trans _ _ _ E1 E2)|].
  constructor; [|exact N2]. clear - E2 N1. induction N1; constructor; eauto using names_extends.
Qed.
Lemma ask_spec : forall l b, inv b -> extends b (ask b l) /\ forall v, In v l -> lookup (ask b l) v <> None.
Proof.
  induction l as [|v l IH]; intros b H; cbn [ask]; [split; [split; auto | intros v []]|].
  pose proof (get_id_spec b v H) as Hg. destruct (get_id b v) as [n b1]. destruct Hg as (H1 & H2 & H3). cbn [snd]. destruct (IH b1 H1) as [E F].
  split; [apply extends_trans with b1; [split|]; assumption|]. intros w [<- | Hw]; [|auto]. rewrite (proj2 E _ _ H2). discriminate.
Qed.
(** ** Values *)
Lemma value_pos : forall g k, value g (2 * k) = g k.
Proof. intros g k. unfold value. assert (E : Nat.even (2 * k) = true) by (apply Nat.even_spec; exists k; reflexivity). rewrite E, Nat.div2_double. reflexivity. Qed.
Lemma value_neg : forall g k, value g (not_lit (2 * k)) = negb (g k).
Proof.
  intros g k. unfold value, not_lit. assert (E : Nat.even (2 * k) = true) by (apply Nat.even_spec; exists k; reflexivity). rewrite E.
  replace (2 * k + 1) with (S (2 * k)) by lia. rewrite Nat.even_succ, <- Nat.negb_even, E. cbn [negb]. rewrite Nat.div2_succ_double. reflexivity.
Qed.
Lemma read_value : forall g lits n, In n lits -> read (assignment g lits) n = value g n.
Proof.
  intros g lits n H. unfold read, assignment. induction lits as [|a lits IH]; [destruct H|]. cbn. destruct (a =? n) eqn:E.
  - apply Nat.eqb_eq in E. subst. reflexivity.
  - destruct H as [-> | H]; [rewrite Nat.eqb_refl in E; discriminate | auto].
Qed.
Lemma names_value : forall b g l n, inv b -> names b l n -> (value g n = true <-> truth_of b g (snd l) = fst l).
Proof.
  intros b g [s v] n Hb (k & Hk & Hn). cbn [fst snd] in *. unfold truth_of. rewrite Hk.
  assert (Hi : In k (b_lits b)) by (apply (i_lits b Hb (place v) v); apply assoc_in; exact Hk). rewrite read_value by exact Hi.
  destruct (i_even b Hb _ Hi) as (j & -> & _). rewrite value_pos. subst n. destruct s; [rewrite value_pos; tauto|].
  rewrite value_neg. destruct (g j); cbn; split; congruence.
Qed.
Lemma holds_sat : forall b g cs ns, inv b -> Forall2 (Forall2 (names b)) cs ns -> (holds g ns <-> sat_all (truth_of b g) cs).
Proof.
  intros b g cs ns Hb H. unfold holds, sat_all. induction H as [|c n cs ns Hc H IH]; [split; intros _ x []|].
  assert (Hone : (exists m, In m n /\ value g m = true) <-> sat_clause (truth_of b g) c).
  { unfold sat_clause. clear - Hb Hc. induction Hc as [|l m c n Hl Hc IH]; [split; intros (x & [] & _)|]. split.
    - intros (x & [<- | Hx] & Hv); [exists l; split; [left; reflexivity | apply (names_value b g l m Hb Hl); exact Hv]|].
      destruct (proj1 IH (ex_intro _ x (conj Hx Hv))) as (y & Hy & Hz). exists y. split; [right; exact Hy | exact Hz].
    - intros (x & [<- | Hx] & Hv); [exists m; split; [left; reflexivity | apply (names_value b g l m Hb Hl); exact Hv]|].
      destruct (proj2 IH (ex_intro _ x (conj Hx Hv))) as (y & Hy & Hz). exists y. split; [right; exact Hy | exact Hz]. }
  split.
  - intros Hh x [<- | Hx]; [apply Hone; apply Hh; left; reflexivity|]. apply IH; [|exact Hx]. intros y Hy. apply Hh. right. exact Hy.
  - intros Hh x [<- | Hx]; [apply Hone; apply Hh; left; reflexivity|]. apply IH; [|exact Hx]. intros y Hy. apply Hh. right. exact Hy.
Qed.
Lemma sat_ext : forall f f' cs, (forall c l, In c cs -> In l c -> f (snd l) = f' (snd l)) -> sat_all f cs -> sat_all f' cs.
Proof.
  intros f f' cs H Hs c Hc. destruct (Hs c Hc) as (l & Hl & Ht). exists l. split; [exact Hl|]. rewrite <- (H c l Hc Hl). exact Ht.
Qed.
Theorem through_sound : forall solver before, sound_on_literals solver -> sound_solver (through solver before).
Proof.
  intros solver before H cs truth. unfold through. destruct (ask_spec before new_builder inv_new) as [[Hi _] _].
  pose proof (get_clauses_spec cs (ask new_builder before) Hi) as Hg. destruct (get_clauses (ask new_builder before) cs) as [ns b]. destruct Hg as [[Hb _] Hn].
  destruct (solver ns) as [g|] eqn:E; [|discriminate]. intros [= <-]. apply (holds_sat b g cs ns Hb Hn). exact (H ns g E).
Qed.
(** any truth of the keys is that of an assignment *)
Lemma assignment_exists : forall (b : builder) (truth : var -> bool), inv b -> exists g, forall v n, lookup b v = Some n -> truth_of b g v = truth v.
Proof.
  intros b truth Hb.
  assert (H : forall l, (forall n, In n l -> In n (b_lits b)) -> exists g : nat -> bool, forall v n, In n l -> lookup b v = Some n -> value g n = truth v).
  { induction l as [|m l IH]; intros Hl; [exists (fun _ => true); intros v n []|]. destruct IH as (g & Hg); [intros n Hn; apply Hl; right; exact Hn|].
    destruct (i_key b Hb m (Hl m (or_introl eq_refl))) as (w & Hw). destruct (i_even b Hb m (Hl m (or_introl eq_refl))) as (j & -> & _).
    exists (fun k => if k =? j then truth w else g k). intros v n Hn Hv.
    destruct (i_even b Hb n (Hl n Hn)) as (i & -> & _). rewrite value_pos. destruct (i =? j) eqn:E.
    - apply Nat.eqb_eq in E. subst i. rewrite (lookup_inj b v w _ Hb Hv Hw). reflexivity.
    - destruct Hn as [Hn | Hn]; [apply Nat.eqb_neq in E; lia|]. rewrite <- (Hg v (2 * i) Hn Hv), value_pos. reflexivity. }
  destruct (H (b_lits b) (fun n Hn => Hn)) as (g & Hg). exists g. intros v n Hv. unfold truth_of. rewrite Hv.
  assert (Hi : In n (b_lits b)) by (apply (i_lits b Hb (place v) v); apply assoc_in; exact Hv).
  rewrite read_value by exact Hi. exact (Hg v n Hi Hv).
Qed.
Theorem through_complete : forall solver before cs, complete_on_literals solver -> through solver before cs = None -> forall truth, ~ sat_all truth cs.
Proof.
  intros solver before cs H E truth Hs. unfold through in E. destruct (ask_spec before new_builder inv_new) as [[Hi _] _].
  pose proof (get_clauses_spec cs (ask new_builder before) Hi) as Hg. destruct (get_clauses (ask new_builder before) cs) as [ns b]. destruct Hg as [[Hb _] Hn].
  destruct (solver ns) as [g|] eqn:Es; [discriminate|]. destruct (assignment_exists b truth Hb) as (g & Hgt). apply (H ns Es g).
  apply (holds_sat b g cs ns Hb Hn). revert Hs. apply sat_ext. intros c l Hc Hl.
  assert (Hk : exists n, names b l n).
  { clear - Hn Hc Hl. induction Hn as [|c' n cs ns Hf Hn IH]; [destruct Hc|]. destruct Hc as [-> | Hc]; [|auto]. clear - Hf Hl.
    induction Hf as [|l' m c n Hn Hf IH]; [destruct Hl|]. destruct Hl as [-> | Hl]; eauto. }
  destruct Hk as (n & k & Hk & _). symmetry. exact (Hgt _ _ Hk).
Qed.
Theorem ids_spec : forall before, let b := ask new_builder before in
  (forall v, In v before -> exists k, lookup b v = Some (2 * k) /\ 1 <= k) /\
  (forall v w n, lookup b v = Some n -> lookup b w = Some n -> v = w) /\
  NoDup (b_lits b) /\ (forall n, In n (b_lits b) <-> exists v, lookup b v = Some n) /\
  (forall v after, In v before -> lookup (ask b after) v = lookup b v).
Proof.
  intros before b. destruct (ask_spec before new_builder inv_new) as [[Hb _] Hl]. fold b in Hb, Hl.
  assert (Hin : forall v n, lookup b v = Some n -> In n (b_lits b)) by (intros v n Hv; apply (i_lits b Hb (place v) v); apply assoc_in; exact Hv).
  split; [|split; [|split; [exact (i_nodup b Hb)|split]]].
  - intros v Hv. specialize (Hl v Hv). destruct (lookup b v) as [n|] eqn:E; [|congruence]. destruct (i_even b Hb n (Hin v n E)) as (k & -> & Hk). exists k. split; [reflexivity | lia].
  - intros v w n. apply lookup_inj. exact Hb.
  - intros n. split; [apply (i_key b Hb) | intros (v & Hv); eauto].
  - intros v after Hv. specialize (Hl v Hv). destruct (lookup b v) as [n|] eqn:E; [|congruence]. destruct (ask_spec after b Hb) as [[_ He] _]. auto.
Qed.
