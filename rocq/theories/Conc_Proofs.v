(** C07-C10. *)
From Coq Require Import ZArith List Bool String Lia Permutation.
From Verif Require Import Ast_Model Conc_Model Conc_Spec.
Import ListNotations.
Open Scope Z_scope.

Lemma mrun_inv (P : mstate -> Prop) : (forall t st, P st -> P (mstep t st)) ->
  forall sched st, P st -> P (mrun sched st).
Proof. intros H sched; induction sched; simpl; auto. Qed.

Lemma nth_upd_in {A} (l : list A) n x y : In y (upd_nth n x l) -> y = x \/ In y l.
Proof. revert n; induction l; destruct n; simpl; intuition. apply IHl in H0; intuition. Qed.
Lemma nth_upd_eq {A} (l : list A) n x : forall y, nth_error l n = Some y -> nth_error (upd_nth n x l) n = Some x.
Proof. revert n; induction l; destruct n; simpl; intros y H; try discriminate; eauto. Qed.
Lemma nth_upd_neq {A} (l : list A) n m x : n <> m -> nth_error (upd_nth n x l) m = nth_error l m.
Proof. revert n m; induction l; destruct n, m; simpl; intros H; auto; try congruence. Qed.

(** ** C07 *)
Lemma flat_map_app' {A B} (f : A -> list B) l1 l2 : flat_map f (l1 ++ l2) = flat_map f l1 ++ flat_map f l2.
Proof. apply flat_map_app. Qed.

Definition fresh_in (c0 c : Z) (l : list Z) : Prop := c0 <= c /\ NoDup l /\ forall i, In i l -> c0 <= i < c.
Lemma NoDup_snoc {A} (l : list A) x : NoDup l -> ~ In x l -> NoDup (l ++ [x]).
Proof.
  induction 1; simpl; intros N; [repeat constructor; auto|].
  constructor; [|apply IHNoDup; intuition]. rewrite in_app_iff; simpl. intuition.
Qed.
Lemma fresh_snoc c0 c l : fresh_in c0 c l -> fresh_in c0 (c + 1) (l ++ [c]).
Proof.
  intros (A & B & C). split; [lia|]. split.
  - apply NoDup_snoc; auto. intros H; apply C in H; lia.
  - intros i Hi. apply in_app_iff in Hi as [Hi|[<-|[]]]; [apply C in Hi|]; lia.
Qed.

Definition inv7 (g0 : gen) (st : mstate) : Prop :=
  fresh_in (cpt_term g0) (cpt_term (m_gen st)) (created_terms (m_log st)) /\
  fresh_in (count_meta g0) (count_meta (m_gen st)) (created_tymetas (m_log st)) /\
  fresh_in (cpt_formula g0) (cpt_formula (m_gen st)) (created_forms (m_log st)).

Lemma inv7_step g0 t st : inv7 g0 st -> inv7 g0 (mstep t st).
Proof.
  intros (A & B & C). unfold mstep. destruct (nth_error (m_threads st) t) as [[p prog]|]; [|split; auto].
  unfold inv7, created_terms, created_tymetas, created_forms in *.
  destruct p as [|s|s|s n]; cbn [msection].
  - destruct prog as [|[s|s|s|s|s|s|] r]; try (split; auto; fail); cbn -[Z.add];
    try (match goal with |- context [lookup ?s ?l] => destruct (lookup s l) as [i|] end); cbn -[Z.add];
    rewrite !flat_map_app'; cbn [flat_map]; rewrite ?app_nil_r; (split; [|split]); auto using fresh_snoc.
  - cbn -[Z.add]; rewrite !flat_map_app'; cbn [flat_map]; rewrite ?app_nil_r; (split; [|split]); auto using fresh_snoc.
  - cbn -[Z.add]; rewrite !flat_map_app'; cbn [flat_map]; rewrite ?app_nil_r; (split; [|split]); auto using fresh_snoc.
  - cbn -[Z.add]; rewrite !flat_map_app'; cbn [flat_map]; rewrite ?app_nil_r; (split; [|split]); auto using fresh_snoc.
Qed.
Lemma fresh_nil c : fresh_in c c [].
Proof. split; [lia|]. split; [constructor|intros i []]. Qed.

Lemma fresh_indices g0 progs sched : let st := mrun sched (minit g0 progs) in
  NoDup (created_terms (m_log st)) /\ NoDup (created_tymetas (m_log st)) /\ NoDup (created_forms (m_log st)) /\
  (forall i, In i (created_terms (m_log st)) -> cpt_term g0 <= i) /\
  (forall i, In i (created_tymetas (m_log st)) -> count_meta g0 <= i) /\
  (forall i, In i (created_forms (m_log st)) -> cpt_formula g0 <= i).
Proof.
  intros st. assert (I : inv7 g0 st).
  { apply mrun_inv; [apply inv7_step|]. split; [|split]; apply fresh_nil. }
  destruct I as ((A1 & A2 & A3) & (B1 & B2 & B3) & (C1 & C2 & C3)).
  repeat (split; auto); intros i Hi; [apply A3 in Hi|apply B3 in Hi|apply C3 in Hi]; lia.
Qed.

(** ** C08 *)
Definition inv8 (st : mstate) : Prop :=
  gen_ok (m_gen st) /\
  (forall x, In x (ids_returned (m_log st)) -> In x (idTable (m_gen st))) /\
  (forall x, In x (vars_returned (m_log st)) -> In x (idVar (m_gen st))).

Lemma lookup_in s l i : lookup s l = Some i -> In (s, i) l.
Proof.
  induction l as [|(k, v) r IH]; simpl; [discriminate|]. destruct (String.eqb s k) eqn:E; auto.
  intros H; injection H as ->. apply String.eqb_eq in E; subst; auto.
Qed.

Lemma gen_ok_id s g : gen_ok g -> gen_ok (snd (maker_new_id s g)).
Proof.
  intros (A & B & C & E & F). unfold maker_new_id; cbn -[Z.add].
  split; [|split; [|split; [|split]]]; cbn [cpt_term idTable idVar].
  - intros x i [H|H]; [injection H as <- <-; lia|apply A in H; lia].
  - intros x i H; apply B in H; lia.
  - intros x y i [H|H] [K|K]; [congruence| | |eauto].
    + injection H as <- <-. apply A in K. lia.
    + injection K as <- <-. apply A in H. lia.
  - auto.
  - intros x y i [H|H] K; [|eauto]. injection H as <- <-. apply B in K. lia.
Qed.
Lemma gen_ok_var s g : gen_ok g -> gen_ok (snd (maker_new_var s g)).
Proof.
  intros (A & B & C & E & F). unfold maker_new_var; cbn -[Z.add].
  split; [|split; [|split; [|split]]]; cbn [cpt_term idTable idVar].
  - intros x i H; apply A in H; lia.
  - intros x i [H|H]; [injection H as <- <-; lia|apply B in H; lia].
  - auto.
  - intros x y i [H|H] [K|K]; [congruence| | |eauto].
    + injection H as <- <-. apply B in K. lia.
    + injection K as <- <-. apply B in H. lia.
  - intros x y i H [K|K]; [|eauto]. injection K as <- <-. apply A in H. lia.
Qed.
Lemma gen_ok_same g g' : gen_ok g -> cpt_term g <= cpt_term g' -> idTable g' = idTable g -> idVar g' = idVar g -> gen_ok g'.
Proof.
  intros (A & B & C & E & F) H1 H2 H3. unfold gen_ok. rewrite H2, H3.
  split; [|split; [|split; [|split]]]; auto; intros x i H; [apply A in H|apply B in H]; lia.
Qed.

Lemma inv8_step t st : inv8 st -> inv8 (mstep t st).
Proof.
  intros (A & B & C). unfold mstep. destruct (nth_error (m_threads st) t) as [[p prog]|]; [|split; auto].
  unfold inv8, ids_returned, vars_returned in *.
  assert (NID : forall s th, inv8 (mkM (snd (maker_new_id s (m_gen st))) th (m_log st ++ [RId s (cpt_term (m_gen st)) true]))).
  { intros s th. split; [apply gen_ok_id; auto|]. unfold ids_returned, vars_returned. cbn [m_log m_gen].
    rewrite !flat_map_app'. cbn -[Z.add]. rewrite app_nil_r. split; auto.
    intros x Hx. apply in_app_iff in Hx as [Hx|[<-|[]]]; auto. }
  assert (NVAR : forall s th, inv8 (mkM (snd (maker_new_var s (m_gen st))) th (m_log st ++ [RVar s (cpt_term (m_gen st)) true]))).
  { intros s th. split; [apply gen_ok_var; auto|]. unfold ids_returned, vars_returned. cbn [m_log m_gen].
    rewrite !flat_map_app'. cbn -[Z.add]. rewrite app_nil_r. split; auto.
    intros x Hx. apply in_app_iff in Hx as [Hx|[<-|[]]]; auto. }
  destruct p as [|s|s|s n]; cbn [msection].
  - destruct prog as [|[s|s|s|s|s|s|] r]; try (split; auto; fail).
    + destruct (lookup s (idTable (m_gen st))) as [i|] eqn:E; cbn [m_gen m_log]; rewrite !flat_map_app'; cbn [flat_map];
        rewrite ?app_nil_r; (split; [auto|split; auto]).
      intros x Hx. apply in_app_iff in Hx as [Hx|[<-|[]]]; auto. apply lookup_in; auto.
    + apply NID.
    + destruct (lookup s (idVar (m_gen st))) as [i|] eqn:E; cbn [m_gen m_log]; rewrite !flat_map_app'; cbn [flat_map];
        rewrite ?app_nil_r; (split; [auto|split; auto]).
      intros x Hx. apply in_app_iff in Hx as [Hx|[<-|[]]]; auto. apply lookup_in; auto.
    + apply NVAR.
    + cbn [m_gen m_log]. rewrite !app_nil_r; auto.
    + cbn -[Z.add]. rewrite !flat_map_app'; cbn [flat_map]; rewrite ?app_nil_r. split; [|split; auto].
      eapply gen_ok_same; eauto; cbn; lia.
    + cbn -[Z.add]. rewrite !flat_map_app'; cbn [flat_map]; rewrite ?app_nil_r. split; [|split; auto].
      eapply gen_ok_same; eauto; cbn; lia.
  - apply NID.
  - apply NVAR.
  - cbn -[Z.add]. rewrite !flat_map_app'; cbn [flat_map]; rewrite ?app_nil_r. split; [|split; auto].
    eapply gen_ok_same; eauto; cbn -[Z.add]; lia.
Qed.

Lemma different_names g0 progs sched : gen_ok g0 ->
  let l := m_log (mrun sched (minit g0 progs)) in
  (forall s s' i, In (s, i) (ids_returned l) -> In (s', i) (ids_returned l) -> s = s') /\
  (forall s s' i, In (s, i) (vars_returned l) -> In (s', i) (vars_returned l) -> s = s') /\
  (forall s s' i, In (s, i) (ids_returned l) -> In (s', i) (vars_returned l) -> False).
Proof.
  intros H l. assert (I : inv8 (mrun sched (minit g0 progs))).
  { apply mrun_inv; [apply inv8_step|]. split; auto. split; intros x []. }
  destruct I as ((A & B & C & E & F) & I1 & I2). fold l in I1, I2.
  split; [|split]; intros; eauto.
Qed.

(** a name known before the goroutines start *)
Definition invK (s : string) (i0 : Z) (st : mstate) : Prop :=
  lookup s (idTable (m_gen st)) = Some i0 /\
  (forall p prog, In (p, prog) (m_threads st) -> p <> IdMiss s /\ forall c, In c prog -> asks_new_id s c = false) /\
  (forall i, In (s, i) (ids_returned (m_log st)) -> i = i0).

Lemma thread_upd (P : pc * list call -> Prop) n th l : (forall x, In x l -> P x) -> P th ->
  forall x, In x (upd_nth n th l) -> P x.
Proof. intros H1 H2 x Hx. apply nth_upd_in in Hx as [->|Hx]; auto. Qed.

Lemma invK_step s i0 t st : invK s i0 st -> invK s i0 (mstep t st).
Proof.
  intros (A & B & C). unfold mstep. destruct (nth_error (m_threads st) t) as [[p prog]|] eqn:E; [|split; auto].
  apply nth_error_In in E. destruct (B _ _ E) as [B1 B2].
  assert (UP : forall th, fst th <> IdMiss s -> (forall c, In c (snd th) -> asks_new_id s c = false) ->
    forall p0 prog0, In (p0, prog0) (upd_nth t th (m_threads st)) -> p0 <> IdMiss s /\ forall c, In c prog0 -> asks_new_id s c = false).
  { intros th H1 H2 p0 prog0 H. apply nth_upd_in in H as [<-|H]; eauto. }
  assert (NID : forall x r, x <> s -> (forall c, In c r -> asks_new_id s c = false) ->
     invK s i0 (mkM (snd (maker_new_id x (m_gen st))) (upd_nth t (Idle, r) (m_threads st)) (m_log st ++ [RId x (cpt_term (m_gen st)) true]))).
  { intros x r N HR. split; [|split].
    - cbn. destruct (String.eqb s x) eqn:Ex; auto. apply String.eqb_eq in Ex; congruence.
    - apply UP; auto; discriminate.
    - cbn [m_log]. unfold ids_returned. rewrite flat_map_app'. intros i Hi. apply in_app_iff in Hi as [Hi|[Hi|[]]]; auto.
      injection Hi as <- <-; congruence. }
  assert (SAME : forall g' th out, idTable g' = idTable (m_gen st) -> fst th <> IdMiss s ->
     (forall c, In c (snd th) -> asks_new_id s c = false) ->
     (forall i, In (s, i) (ids_returned out) -> i = i0) ->
     invK s i0 (mkM g' (upd_nth t th (m_threads st)) (m_log st ++ out))).
  { intros g' th out E1 E2 E3 E4. split; [cbn; congruence|]. split; [apply UP; auto|].
    cbn [m_log]. unfold ids_returned. rewrite flat_map_app'. intros i Hi. apply in_app_iff in Hi as [Hi|Hi]; auto. }
  destruct p as [|x|x|x n]; cbn [msection].
  - destruct prog as [|c r]; [split; auto|].
    assert (B3 : forall c', In c' r -> asks_new_id s c' = false) by (intros; apply B2; right; auto).
    destruct c as [x|x|x|x|x|x|].
    + destruct (lookup x (idTable (m_gen st))) as [i|] eqn:EL.
      * apply SAME; cbn; auto; try discriminate. intros j [H|[]]. injection H as -> <-. congruence.
      * apply SAME; cbn; auto; try tauto. congruence.
    + apply NID; auto. specialize (B2 _ (or_introl eq_refl)). cbn in B2. apply String.eqb_neq in B2; auto.
    + destruct (lookup x (idVar (m_gen st))); apply SAME; cbn; auto; try discriminate; tauto.
    + apply SAME; cbn; auto; try discriminate; tauto.
    + apply SAME; cbn; auto; try discriminate; tauto.
    + apply SAME; cbn; auto; try discriminate; tauto.
    + apply SAME; cbn; auto; try discriminate; tauto.
  - apply NID; auto. congruence.
  - apply SAME; cbn; auto; try discriminate; tauto.
  - apply SAME; cbn; auto; try discriminate; tauto.
Qed.

Lemma known_name_stable g0 progs sched s i0 : lookup s (idTable g0) = Some i0 ->
  (forall prog c, In prog progs -> In c prog -> asks_new_id s c = false) ->
  forall i, In (s, i) (ids_returned (m_log (mrun sched (minit g0 progs)))) -> i = i0.
Proof.
  intros H1 H2. assert (I : invK s i0 (mrun sched (minit g0 progs))).
  { apply mrun_inv; [apply invK_step|]. split; auto. split; [|intros i []].
    cbn. intros p prog H. apply in_map_iff in H as (x & E & Hx). injection E as <- <-. split; [discriminate|]. eauto. }
  apply I.
Qed.

(** a name asked by one goroutine only *)
Definition invS (s : string) (t0 : nat) (st : mstate) : Prop :=
  (forall t p prog, nth_error (m_threads st) t = Some (p, prog) ->
     (forall c, In c prog -> asks_new_id s c = false) /\
     (t <> t0 -> p <> IdMiss s /\ forall c, In c prog -> asks_id s c = false)) /\
  match lookup s (idTable (m_gen st)) with
  | None => forall i, ~ In (s, i) (ids_returned (m_log st))
  | Some i0 => (forall prog, nth_error (m_threads st) t0 <> Some (IdMiss s, prog)) /\
               (forall i, In (s, i) (ids_returned (m_log st)) -> i = i0)
  end.

Lemma invS_step s t0 t st : invS s t0 st -> invS s t0 (mstep t st).
Proof.
  intros (A & B). unfold mstep. destruct (nth_error (m_threads st) t) as [[p prog]|] eqn:E; [|split; auto].
  destruct (A _ _ _ E) as [A1 A2].
  assert (UP : forall th, (forall c, In c (snd th) -> asks_new_id s c = false) ->
     (t <> t0 -> fst th <> IdMiss s /\ forall c, In c (snd th) -> asks_id s c = false) ->
    forall t' p0 prog0, nth_error (upd_nth t th (m_threads st)) t' = Some (p0, prog0) ->
     (forall c, In c prog0 -> asks_new_id s c = false) /\
     (t' <> t0 -> p0 <> IdMiss s /\ forall c, In c prog0 -> asks_id s c = false)).
  { intros th H1 H2 t' p0 prog0 H. destruct (Nat.eq_dec t t') as [<-|N].
    - rewrite (nth_upd_eq _ _ _ _ E) in H. injection H as ->. auto.
    - rewrite nth_upd_neq in H by auto. eauto. }
  assert (PC : forall th prog0, fst th <> IdMiss s -> nth_error (upd_nth t th (m_threads st)) t0 = Some (IdMiss s, prog0) ->
     nth_error (m_threads st) t0 = Some (IdMiss s, prog0)).
  { intros th prog0 H1 H. destruct (Nat.eq_dec t t0) as [<-|N].
    - rewrite (nth_upd_eq _ _ _ _ E) in H. injection H as ->. contradiction.
    - rewrite nth_upd_neq in H by auto. auto. }
  (* steps that do not touch the name *)
  assert (SAME : forall g' th out, lookup s (idTable g') = lookup s (idTable (m_gen st)) -> fst th <> IdMiss s ->
     (forall c, In c (snd th) -> asks_new_id s c = false) ->
     (t <> t0 -> forall c, In c (snd th) -> asks_id s c = false) ->
     (forall i, In (s, i) (ids_returned out) -> lookup s (idTable (m_gen st)) = Some i) ->
     invS s t0 (mkM g' (upd_nth t th (m_threads st)) (m_log st ++ out))).
  { intros g' th out E1 E2 E3 E4 E5. split; [apply UP; auto|]. cbn [m_gen m_log m_threads]. rewrite E1.
    unfold ids_returned in *. rewrite flat_map_app'.
    destruct (lookup s (idTable (m_gen st))) as [i0|].
    - destruct B as [B1 B2]. split.
      + intros prog0 H. apply PC in H; auto. apply B1 in H; auto.
      + intros i Hi. apply in_app_iff in Hi as [Hi|Hi]; auto. apply E5 in Hi. congruence.
    - intros i Hi. apply in_app_iff in Hi as [Hi|Hi]; [eapply B; eauto|]. apply E5 in Hi. discriminate. }
  destruct p as [|x|x|x n]; cbn [msection].
  - destruct prog as [|c r]; [split; auto|].
    assert (B3 : forall c', In c' r -> asks_new_id s c' = false) by (intros; apply A1; right; auto).
    assert (B4 : t <> t0 -> forall c', In c' r -> asks_id s c' = false) by (intros N c' H; apply A2; auto; right; auto).
    destruct c as [x|x|x|x|x|x|].
    + destruct (lookup x (idTable (m_gen st))) as [i|] eqn:EL.
      * apply SAME; cbn; auto; try discriminate. intros j [H|[]]. injection H as -> <-. auto.
      * destruct (String.eqb x s) eqn:EX.
        -- apply String.eqb_eq in EX; subst x. split.
           ++ apply UP; cbn; auto. intros N. destruct (A2 N) as [_ A3].
              specialize (A3 _ (or_introl eq_refl)). cbn in A3. rewrite String.eqb_refl in A3. discriminate.
           ++ cbn [m_gen m_log m_threads]. rewrite app_nil_r. rewrite EL in *. auto.
        -- apply String.eqb_neq in EX. apply SAME; cbn; auto; try tauto. congruence.
    + assert (NX : x <> s).
      { specialize (A1 _ (or_introl eq_refl)). cbn in A1. apply String.eqb_neq in A1; auto. }
      apply SAME; cbn; auto; try discriminate.
      * destruct (String.eqb s x) eqn:Ex; auto. apply String.eqb_eq in Ex; congruence.
      * intros i [H|[]]. injection H as -> _; congruence.
    + destruct (lookup x (idVar (m_gen st))); apply SAME; cbn; auto; try discriminate; tauto.
    + apply SAME; cbn; auto; try discriminate; tauto.
    + apply SAME; cbn; auto; try discriminate; tauto.
    + apply SAME; cbn; auto; try discriminate; tauto.
    + apply SAME; cbn; auto; try discriminate; tauto.
  - destruct (String.eqb x s) eqn:EX.
    + apply String.eqb_eq in EX; subst x.
      destruct (Nat.eq_dec t t0) as [<-|N]; [|destruct (A2 N); congruence].
      destruct (lookup s (idTable (m_gen st))) as [i0|] eqn:EL; [destruct B as [B1 _]; exfalso; eapply B1; eauto|].
      split; [apply UP; cbn; auto; congruence|].
      cbn -[Z.add]. rewrite String.eqb_refl. split.
      * intros prog0 H. rewrite (nth_upd_eq _ _ _ _ E) in H. discriminate.
      * unfold ids_returned. rewrite flat_map_app'. cbn. intros i Hi. apply in_app_iff in Hi as [Hi|[Hi|[]]].
        -- exfalso; eapply B; eauto.
        -- congruence.
    + apply String.eqb_neq in EX. apply SAME; cbn; auto; try discriminate.
      * destruct (String.eqb s x) eqn:Ex; auto. apply String.eqb_eq in Ex; congruence.
      * intros N; apply A2; auto.
      * intros i [H|[]]. injection H as -> _; congruence.
  - apply SAME; cbn; auto; try discriminate; try tauto; intros N; apply A2; auto.
  - apply SAME; cbn; auto; try discriminate; try tauto; intros N; apply A2; auto.
Qed.

Lemma one_asker_stable g0 progs sched s t0 :
  (forall prog c, In prog progs -> In c prog -> asks_new_id s c = false) ->
  (forall t prog c, nth_error progs t = Some prog -> t <> t0 -> In c prog -> asks_id s c = false) ->
  forall i j, In (s, i) (ids_returned (m_log (mrun sched (minit g0 progs)))) ->
              In (s, j) (ids_returned (m_log (mrun sched (minit g0 progs)))) -> i = j.
Proof.
  intros H1 H2. assert (I : invS s t0 (mrun sched (minit g0 progs))).
  { apply mrun_inv; [apply invS_step|]. split.
    - cbn. intros t p prog H. rewrite nth_error_map in H. destruct (nth_error progs t) as [q|] eqn:E; [|discriminate].
      injection H as <- <-. split; [intros; eapply H1; eauto; eapply nth_error_In; eauto|].
      intros N. split; [discriminate|]. eauto.
    - cbn. destruct (lookup s (idTable g0)) as [i0|].
      + split; [|intros i []]. intros prog H. rewrite nth_error_map in H. destruct (nth_error progs t0); discriminate.
      + intros i []. }
  destruct I as [_ I]. intros i j Hi Hj. destruct (lookup s (idTable (m_gen (mrun sched (minit g0 progs))))).
  - destruct I as [_ I]. rewrite (I i Hi), (I j Hj). auto.
  - exfalso; eapply I; eauto.
Qed.

(** two goroutines asking for the same new name *)
Lemma same_name_race : exists i j,
  In ("f"%string, i) (ids_returned (m_log (mrun [0; 1; 0; 1]%nat (minit gen0 [[CId "f"]; [CId "f"]])))) /\
  In ("f"%string, j) (ids_returned (m_log (mrun [0; 1; 0; 1]%nat (minit gen0 [[CId "f"]; [CId "f"]])))) /\ i <> j.
Proof. exists 0, 1. cbn. intuition discriminate. Qed.

(** ** C09 *)
Lemma node_race : n_all (nrun [0; 1; 0; 1]%nat (ninit 0 [1; 1]%nat)) = [2; 2].
Proof. reflexivity. Qed.

Lemma nrun_inv (P : nstate -> Prop) : (forall t st, P st -> P (nstep t st)) ->
  forall sched st, P st -> P (nrun sched st).
Proof. intros H sched; induction sched; simpl; auto. Qed.

Definition inv9 (c : Z) (st : nstate) : Prop := c <= n_cpt st /\
  forall th, In th (n_threads st) -> NoDup (n_got th) /\
    match n_pc th with
    | NIdle => forall v, In v (n_got th) -> c < v <= n_cpt st
    | NIncremented => c < n_cpt st /\ forall v, In v (n_got th) -> c < v < n_cpt st
    end.
Lemma inv9_step c t st : inv9 c st -> inv9 c (nstep t st).
Proof.
  intros [A B]. unfold nstep. destruct (nth_error (n_threads st) t) as [th|] eqn:E; [|split; auto].
  pose proof (nth_error_In _ _ E) as IE. destruct (B th IE) as [B1 B2].
  destruct (n_pc th) eqn:EP.
  - destruct (n_todo th); [split; auto|]. split; [cbn; lia|]. cbn. intros th' H.
    apply nth_upd_in in H as [->|H].
    + split; auto. cbn. split; [lia|]. intros v Hv; apply B2 in Hv; lia.
    + destruct (B th' H) as [C1 C2]. split; auto. destruct (n_pc th').
      * intros v Hv; apply C2 in Hv; lia.
      * destruct C2 as [C2 C3]. split; [lia|]. intros v Hv; apply C3 in Hv; lia.
  - destruct B2 as [B2 B3]. split; [cbn; lia|]. cbn. intros th' H.
    apply nth_upd_in in H as [->|H]; [|apply B; auto].
    cbn. split.
    + apply NoDup_snoc; auto. intros H; apply B3 in H; lia.
    + intros v Hv. apply in_app_iff in Hv as [Hv|[<-|[]]]; [apply B3 in Hv|]; lia.
Qed.
Lemma node_per_goroutine c calls sched th : In th (n_threads (nrun sched (ninit c calls))) ->
  NoDup (n_got th) /\ forall v, In v (n_got th) -> c < v.
Proof.
  intros H. assert (I : inv9 c (nrun sched (ninit c calls))).
  { apply nrun_inv; [apply inv9_step|]. split; [cbn; lia|]. cbn. intros x Hx.
    apply in_map_iff in Hx as (k & <- & _). cbn. split; [constructor|intros v []]. }
  destruct I as [_ I]. destruct (I th H) as [A B]. split; auto.
  intros v Hv. destruct (n_pc th); [apply B in Hv|apply B in Hv]; lia.
Qed.

(** schedules in which calls do not overlap: each goroutine takes its two steps in a row *)
Definition atomic_sched (l : list nat) : list nat := flat_map (fun t => [t; t]) l.
Lemma upd_upd {A} n (x y : A) l : upd_nth n x (upd_nth n y l) = upd_nth n x l.
Proof. revert n; induction l; destruct n; simpl; f_equal; auto. Qed.
Lemma double_step t st : (forall th, In th (n_threads st) -> n_pc th = NIdle) ->
  nstep t (nstep t st) = st \/ exists th k, nth_error (n_threads st) t = Some th /\
   nstep t (nstep t st) = mkNS (n_cpt st + 1) (upd_nth t (mkN NIdle k (n_got th ++ [n_cpt st + 1])) (n_threads st)).
Proof.
  intros B. destruct (nth_error (n_threads st) t) as [th|] eqn:ET.
  - destruct (n_todo th) as [|k] eqn:EK.
    + left. assert (E1 : nstep t st = st) by (unfold nstep; rewrite ET, (B th (nth_error_In _ _ ET)), EK; auto).
      rewrite !E1; auto.
    + right. exists th, k. split; auto.
      assert (E1 : nstep t st = mkNS (n_cpt st + 1) (upd_nth t (mkN NIncremented k (n_got th)) (n_threads st)))
        by (unfold nstep; rewrite ET, (B th (nth_error_In _ _ ET)), EK; auto).
      rewrite E1. unfold nstep. cbn -[Z.add]. rewrite (nth_upd_eq _ _ _ _ ET). cbn -[Z.add].
      rewrite upd_upd. auto.
  - left. assert (E1 : nstep t st = st) by (unfold nstep; rewrite ET; auto). rewrite !E1; auto.
Qed.
Lemma all_upd t th th' l v : nth_error l t = Some th -> n_got th' = n_got th ++ [v] ->
  Permutation (flat_map n_got (upd_nth t th' l)) (flat_map n_got l ++ [v]).
Proof.
  revert t; induction l as [|a l IH]; destruct t; simpl; intros E1 E2; try discriminate.
  - injection E1 as ->. rewrite E2, <- !app_assoc. apply Permutation_app_head. simpl. apply Permutation_cons_append.
  - rewrite <- app_assoc. apply Permutation_app_head. apply IH; auto.
Qed.
Lemma inv9_atomic l : forall c st, 
  (c <= n_cpt st /\ (forall th, In th (n_threads st) -> n_pc th = NIdle) /\ NoDup (n_all st) /\
   forall v, In v (n_all st) -> c < v <= n_cpt st) ->
  NoDup (n_all (nrun (atomic_sched l) st)).
Proof.
  induction l as [|t l IH]; intros c st (A & B & C & E); [cbn; auto|].
  cbn [atomic_sched flat_map app nrun]. apply (IH c). clear IH.
  destruct (double_step t st B) as [->|(th & k & ET & ->)]; [auto|].
  cbn -[Z.add]. split; [lia|]. split; [|].
  - intros th' H. apply nth_upd_in in H as [->|H]; auto.
  - unfold n_all in *. cbn [n_threads].
    assert (P : Permutation (flat_map n_got (upd_nth t (mkN NIdle k (n_got th ++ [n_cpt st + 1])) (n_threads st)))
             (flat_map n_got (n_threads st) ++ [n_cpt st + 1])) by (eapply all_upd; eauto).
    split.
    + eapply Permutation_NoDup; [apply Permutation_sym; exact P|]. apply NoDup_snoc; auto.
      intros H; apply E in H; lia.
    + intros v Hv. eapply Permutation_in in Hv; [|exact P]. apply in_app_iff in Hv as [Hv|[<-|[]]]; [apply E in Hv|]; lia.
Qed.
Lemma node_atomic c calls l : NoDup (n_all (nrun (atomic_sched l) (ninit c calls))).
Proof.
  apply (inv9_atomic l c).
  assert (EN : n_all (ninit c calls) = []).
  { unfold n_all, ninit. cbn. induction calls; auto. }
  rewrite EN. cbn. split; [lia|]. split; [|split; [constructor|intros v []]].
  intros th H. apply in_map_iff in H as (k & <- & _). auto.
Qed.

(** ** C10 *)
Lemma trun_inv (P : tstate -> Prop) : (forall t st, P st -> P (tstep t st)) ->
  forall sched st, P st -> P (trun sched st).
Proof. intros H sched; induction sched; simpl; auto. Qed.

Definition running1 (th : tpc * list (nat * task)) : list (nat * task) :=
  match fst th with PRun i t | PLoaded i t _ | PStored i t => [(i, t)] | _ => [] end.
Definition pending (l : list (tpc * list (nat * task))) : list (nat * task) :=
  flat_map (fun th => running1 th ++ snd th) l.
Definition worker (th : tpc * list (nat * task)) : Prop := fst th <> PIdle.

Lemma pending_upd n th th' l : nth_error l n = Some th ->
  exists r, Permutation (pending l) ((running1 th ++ snd th) ++ r) /\
            Permutation (pending (upd_nth n th' l)) ((running1 th' ++ snd th') ++ r).
Proof.
  revert n; induction l as [|a l IH]; destruct n; simpl; intros E; try discriminate.
  - injection E as ->. exists (pending l). split; reflexivity.
  - destruct (IH n E) as (r & P1 & P2). exists ((running1 a ++ snd a) ++ r).
    split.
    + rewrite P1, !app_assoc. apply Permutation_app_tail. rewrite <- !app_assoc.
      rewrite (app_assoc (running1 a)), (app_assoc (running1 th)). apply Permutation_app_comm.
    + rewrite P2, !app_assoc. apply Permutation_app_tail. rewrite <- !app_assoc.
      rewrite (app_assoc (running1 a)), (app_assoc (running1 th')). apply Permutation_app_comm.
Qed.

Definition inv10 (all : list (nat * task)) (st : tstate) : Prop :=
  Permutation (t_done st ++ q_tasks st ++ pending (t_threads st)) all /\
  (q_tasks st = [] \/ exists th, In th (t_threads st) /\ worker th).

Lemma in_upd_other {A} (l : list A) n x y z : nth_error l n = Some z -> In y l -> y = z \/ In y (upd_nth n x l).
Proof.
  revert n; induction l as [|a l IH]; destruct n; simpl; intros E H; try discriminate.
  - injection E as ->. destruct H; auto.
  - destruct H as [->|H]; auto. destruct (IH _ E H); auto.
Qed.
Lemma in_upd_self {A} (l : list A) n x z : nth_error l n = Some z -> In x (upd_nth n x l).
Proof. intros H. eapply nth_error_In, nth_upd_eq; eauto. Qed.

Lemma inv10_step all n st : inv10 all st -> inv10 all (tstep n st).
Proof.
  intros [P W]. unfold tstep. destruct (nth_error (t_threads st) n) as [[p prog]|] eqn:E; [|split; auto].
  assert (PU := fun th' => pending_upd n (p, prog) th' (t_threads st) E).
  destruct p as [| |i t|i t v|i t].
  - destruct prog as [|x r]; [split; auto|].
    destruct (PU (match q_tasks st with [] => PWork | _ => PIdle end, r)) as (R & P1 & P2).
    split; cbn [t_done q_tasks t_threads].
    + rewrite <- P. rewrite P1, P2. apply Permutation_app_head. rewrite <- app_assoc. apply Permutation_app_head.
      destruct (q_tasks st); reflexivity.
    + right. destruct W as [W|(th & H1 & H2)].
      * rewrite W. exists (PWork, r). split; [eapply in_upd_self; eauto|discriminate].
      * destruct (in_upd_other _ n (match q_tasks st with [] => PWork | _ => PIdle end, r) _ _ E H1) as [->|H]; [|eauto].
        exfalso; apply H2; reflexivity.
  - destruct (q_tasks st) as [|[i t] q] eqn:EQ.
    + destruct (PU (PIdle, prog)) as (R & P1 & P2). split; [|left; auto]. cbn [t_done q_tasks t_threads].
      rewrite <- P, P1, P2. reflexivity.
    + destruct (PU (PRun i t, prog)) as (R & P1 & P2). split; cbn [t_done q_tasks t_threads].
      * rewrite <- P, P1, P2. apply Permutation_app_head. cbn. symmetry. apply Permutation_middle.
      * right. exists (PRun i t, prog). split; [eapply in_upd_self; eauto|discriminate].
  - destruct (PU (PLoaded i t (t_counter st), prog)) as (R & P1 & P2). split; cbn [t_done q_tasks t_threads].
    + rewrite <- P, P1, P2. reflexivity.
    + right. eexists. split; [eapply in_upd_self; eauto|discriminate].
  - destruct (PU (PStored i t, prog)) as (R & P1 & P2). split; cbn [t_done q_tasks t_threads].
    + rewrite <- P, P1, P2. reflexivity.
    + right. eexists. split; [eapply in_upd_self; eauto|discriminate].
  - destruct (PU (PWork, prog)) as (R & P1 & P2). split; cbn [t_done q_tasks t_threads].
    + rewrite <- P, P1, P2, <- app_assoc. apply Permutation_app_head. cbn. apply Permutation_middle.
    + right. eexists. split; [eapply in_upd_self; eauto|discriminate].
Qed.

Lemma tasks_once c progs sched : let st := trun sched (tinit c progs) in
  Permutation (t_done st ++ q_tasks st ++ pending (t_threads st)) (List.concat progs) /\
  (t_finished st -> Permutation (t_done st) (List.concat progs)).
Proof.
  intros st. assert (I : inv10 (List.concat progs) st).
  { apply trun_inv; [apply inv10_step|]. split; [|left; auto]. cbn [tinit t_done q_tasks t_threads app].
    assert (EE : pending (map (fun p => (PIdle, p)) progs) = List.concat progs).
    { unfold pending. clear st. induction progs as [|a l IH]; auto. cbn in *. rewrite IH. auto. }
    rewrite EE. reflexivity. }
  destruct I as [P W]. split; auto. intros F.
  assert (Q : q_tasks st = []).
  { destruct W as [W|([p prog] & H1 & H2)]; auto. destruct (F _ _ H1) as [-> _]. exfalso; apply H2; auto. }
  assert (PE : pending (t_threads st) = []).
  { clear -F. unfold t_finished in F. induction (t_threads st) as [|[p prog] l IH]; auto. simpl.
    destruct (F p prog (or_introl eq_refl)) as [-> ->]. simpl. apply IH. intros; apply F; right; auto. }
  rewrite Q, PE, !app_nil_r in P. auto.
Qed.

(** two goroutines: both tasks execute at the same time and an increment is lost *)
Lemma tasks_overlap : 
  let st := trun [0; 0; 0; 1; 1; 1]%nat (tinit 0 [[(0, TInc)]; [(1, TInc)]]%nat) in
  Forall (fun th => executing th = true) (t_threads st) /\ List.length (t_threads st) = 2%nat.
Proof. cbn. repeat constructor. Qed.
Lemma increment_lost :
  let st := trun [0; 0; 0; 1; 1; 1; 0; 1; 0; 1; 0; 1]%nat (tinit 0 [[(0, TInc)]; [(1, TInc)]]%nat) in
  t_finished st /\ t_counter st = 1.
Proof. cbn. split; auto. intros p prog [H|[H|[]]]; injection H as <- <-; auto. Qed.

(** a single goroutine *)
Definition inv1 (c : Z) (all : list (nat * task)) (st : tstate) : Prop :=
  exists p prog, t_threads st = [(p, prog)] /\
  let '(cd, fd) := seq_counter c O (t_done st) in
  all = t_done st ++ running1 (p, prog) ++ q_tasks st ++ prog /\
  match p with
  | PIdle => q_tasks st = [] /\ t_counter st = cd /\ t_fired st = fd
  | PWork => t_counter st = cd /\ t_fired st = fd /\ (List.length (q_tasks st) <= 1)%nat
  | PRun i t => q_tasks st = [] /\ t_counter st = cd /\ t_fired st = fd
  | PLoaded i t v => q_tasks st = [] /\ t_counter st = cd /\ t_fired st = fd /\ v = cd
  | PStored i t => q_tasks st = [] /\ t_counter st = (match t with TInc => cd + 1 | TDec => cd - 1 end) /\ t_fired st = fd
  end.
Lemma seq_counter_snoc l : forall c f x, seq_counter c f (l ++ [x]) =
  let '(c', f') := seq_counter c f l in seq_counter c' f' [x].
Proof. induction l as [|[i t] l IH]; intros c f x; [reflexivity|]. destruct t; simpl app; cbn [seq_counter]; apply IH. Qed.

Lemma inv1_step c all n st : inv1 c all st -> inv1 c all (tstep n st).
Proof.
  intros (p & prog & ET & I). unfold tstep. rewrite ET. destruct n as [|n]; [|destruct n; exists p, prog; auto].
  cbn [nth_error]. destruct (seq_counter c 0 (t_done st)) as [cd fd] eqn:ES. destruct I as [IA I].
  destruct p as [| |i t|i t v|i t].
  - destruct I as (Q & C & F). destruct prog as [|x r]; [exists PIdle, []; rewrite ES; auto|].
    rewrite Q in *. exists PWork, r. cbn -[seq_counter]. rewrite ES. split; auto.
  - destruct I as (C & F & L). destruct (q_tasks st) as [|[i t] q] eqn:EQ.
    + exists PIdle, prog. cbn -[seq_counter]. rewrite ES. auto.
    + exists (PRun i t), prog. cbn -[seq_counter]. rewrite ES. split; auto. split; auto.
      destruct q; [auto|cbn in L; lia].
  - exists (PLoaded i t (t_counter st)), prog. cbn -[seq_counter]. rewrite ES. intuition.
  - exists (PStored i t), prog. cbn -[seq_counter Z.add Z.sub]. rewrite ES. destruct I as (Q & C & F & ->). intuition.
  - exists PWork, prog. cbn -[seq_counter Z.add Z.sub]. rewrite seq_counter_snoc, ES. destruct I as (Q & C & F).
    cbn -[Z.add Z.sub]. destruct t; (split; [auto|split; [rewrite IA, <- app_assoc; auto|split; [auto|]]]).
    + rewrite Q; auto.
    + rewrite C, F. rewrite Q; auto.
Qed.
Lemma single_goroutine c prog sched : let st := trun sched (tinit c [prog]) in
  t_finished st -> t_done st = prog /\ (t_counter st, t_fired st) = seq_counter c O prog.
Proof.
  intros st F. assert (I : inv1 c prog st).
  { apply trun_inv; [apply inv1_step|]. exists PIdle, prog. cbn. auto. }
  destruct I as (p & pr & ET & I). unfold t_finished in F. rewrite ET in F.
  destruct (F p pr (or_introl eq_refl)) as [-> ->].
  destruct (seq_counter c 0 (t_done st)) as [cd fd] eqn:ES. destruct I as (A & Q & C & D).
  cbn in A. rewrite Q, !app_nil_r in A. split; [auto|].
  assert (E2 : seq_counter c 0 prog = (cd, fd)) by (rewrite <- ES; f_equal; exact A).
  rewrite E2, C, D. auto.
Qed.
