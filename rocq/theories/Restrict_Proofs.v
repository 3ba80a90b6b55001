(** The restriction of substitutions: what is kept, and that the loop ends. *)
From Coq Require Import ZArith List Bool String Lia.
From Verif Require Import Ast_Model Ast_Proofs Sem_Spec Occ_Spec Unif_Model Unif_Spec UnifLoss_Model Elim_Proofs UnifRun_Proofs UnifLoss_Proofs
  Unif_Final Restrict_Model Restrict_Spec.
Import ListNotations.
Open Scope list_scope.
Open Scope Z_scope.

Lemma mem_ok m l : mem m l = true <-> In (m_index m) (map m_index l).
Proof.
  unfold mem. rewrite existsb_exists, in_map_iff. split.
  - intros (x & Hx & E). apply meta_eqb_idx in E. eauto.
  - intros (x & E & Hx). exists x. rewrite meta_eqb_idx. auto.
Qed.
Lemma idx_mem m l : existsb (fun x => m_index x =? m_index m) l = mem m l.
Proof. unfold mem. induction l as [|x r IH]; [reflexivity|]. cbn. rewrite IH. f_equal. unfold meta_eqb. apply Z.eqb_sym. Qed.
Lemma mem_app m a b : mem m (a ++ b) = mem m a || mem m b.
Proof. apply existsb_app. Qed.
Lemma meta_list_idx t : map m_index (meta_list t) = t_metas t.
Proof.
  induction t as [i|p tys l IH|i n|m] using term_ind'; try reflexivity. cbn.
  induction l as [|a r IHr]; [reflexivity|]. inversion IH as [|? ? H1 H2]; subst. cbn. rewrite map_app, H1, (IHr H2). reflexivity.
Qed.

(** ** One round *)
Definition handled (rl : list meta) (kp : substs) (b : meta * term) : Prop :=
  match snd b with
  | Meta n => mem (fst b) rl = true -> mem n rl = true -> In (m_index (fst b)) (keys kp)
  | t => mem (fst b) rl = true -> In (m_index (fst b)) (keys kp) /\ forall c, In c (meta_list t) -> mem c rl = true
  end.
Lemma one_grows b st st' c : one b st = (st', c) ->
  (forall m, mem m (rel st) = true -> mem m (rel st') = true) /\ (forall i, In i (keys (kept st)) -> In i (keys (kept st'))).
Proof.
  destruct b as [k t]. unfold one. destruct t as [i|p tys l|i n|n].
  4: { destruct (mem k (rel st) && mem n (rel st)); intros E; injection E as <- <-; split; auto; intros; apply sset_keys; auto. }
  all: destruct (mem k (rel st)); intros E; injection E as <- <-; split; cbn [rel kept]; auto; intros; try (apply sset_keys; auto);
    rewrite mem_app, orb_true_iff; auto.
Qed.
Lemma one_same b st st' : one b st = (st', false) ->
  (forall m, mem m (rel st') = mem m (rel st)) /\ handled (rel st) (kept st') b.
Proof.
  destruct b as [k t]. unfold one, handled. cbn [fst snd].
  assert (D : forall l : list meta, existsb (fun c => negb (mem c (rel st))) l = false -> forall c, In c l -> mem c (rel st) = true).
  { intros l H c Hc. destruct (mem c (rel st)) eqn:F; [reflexivity|].
    assert (existsb (fun c => negb (mem c (rel st))) l = true) by (apply existsb_exists; exists c; rewrite F; auto). congruence. }
  assert (A : forall l : list meta, existsb (fun c => negb (mem c (rel st))) l = false -> forall m, mem m (rel st ++ l) = mem m (rel st)).
  { intros l H m. rewrite mem_app. destruct (mem m l) eqn:F; [|apply orb_false_r]. rewrite orb_true_r. symmetry.
    apply mem_ok in F. apply in_map_iff in F. destruct F as (x & Ex & Hx). specialize (D l H x Hx). apply mem_ok in D.
    apply mem_ok. rewrite <- Ex. exact D. }
  destruct t as [i|p tys l|i n|n].
  4: { destruct (mem k (rel st)) eqn:Ek, (mem n (rel st)) eqn:En; cbn [andb]; intros E; injection E as <-; cbn [rel kept]; split; auto; intros; try congruence.
       apply sset_keys. auto. }
  all: destruct (mem k (rel st)) eqn:Ek; intros E; [apply pair_equal_spec in E; destruct E as [<- EX]|injection E as <-];
    cbn [rel kept]; split; auto; try (intros; congruence); intros _; split; [apply sset_keys; auto|apply D, EX].
Qed.
Lemma round_same l : forall st c st', round l st c = (st', false) ->
  c = false /\ (forall m, mem m (rel st') = mem m (rel st)) /\ (forall i, In i (keys (kept st)) -> In i (keys (kept st'))) /\
  forall b, In b l -> handled (rel st') (kept st') b.
Proof.
  induction l as [|b r IH]; intros st c st' E; cbn in E.
  - injection E as <- <-. repeat split; auto. intros b [].
  - destruct (one b st) as [st1 c1] eqn:E1. destruct (IH st1 _ _ E) as (Hc & Hr & Hk & Hh). apply orb_false_iff in Hc. destruct Hc as [-> ->].
    destruct (one_same b st st1 E1) as [H1 H2]. destruct (one_grows b st st1 _ E1) as [_ G2].
    split; [reflexivity|]. split; [intros m; rewrite Hr; apply H1|]. split; [auto|]. intros b' [<- |Hb]; [|apply Hh, Hb].
    assert (RR : forall m, mem m (rel st') = mem m (rel st)) by (intros m; rewrite Hr; apply H1).
    destruct b as [k t]. unfold handled in *. cbn [fst snd] in *. destruct t; rewrite ?RR; intros Ek; try intros En.
    1-3: destruct (H2 Ek) as [H3 H4]; split; [auto|intros c Hc; rewrite RR; auto].
    apply Hk, H2; auto.
Qed.

(** ** What holds after every binding *)
Section Inv.
Variable ar : signature.
Variable s : substs.
Variable mm : list meta.
Hypothesis Os : okS ar s.
Hypothesis Ss : solved s.
Record inv (st : rst) : Prop := {
  i_mm : forall m, In m mm -> mem m (rel st) = true;
  i_rel : forall b, In b (map m_index (rel st)) -> relevant mm s b;
  i_kept : incl (kept st) s;
  i_kn : NoDup (keys (kept st));
  i_reo : incl (reo st) s;
  i_rn : NoDup (keys (reo st));
}.
Lemma key_mm k t : In (k, t) s -> relevant mm s (m_index k) -> In (m_index k) (map m_index mm).
Proof.
  intros H [G|(k' & t' & H1 & _ & _ & H2)]; [exact G|]. exfalso. destruct Ss as [_ S]. apply (S k' t' _ H1 H2). eapply keys_in, H.
Qed.
Lemma incl_sset a k t : incl a s -> In (k, t) s -> incl (sset a k t) s.
Proof. intros H1 H2 p Hp. apply sset_in in Hp. destruct Hp as [Hp| ->]; auto. Qed.
Lemma one_inv b st : inv st -> In b s -> inv (fst (one b st)).
Proof.
  intros [H1 H2 H3 H4 H5 H6] Hb. destruct b as [k t]. unfold one.
  assert (G : (forall n, t <> Meta n) -> mem k (rel st) = true -> inv (mkR (rel st ++ meta_list t) (sset (kept st) k t) (reo st))).
  { intros Nt E. constructor; cbn [rel kept reo]; auto.
    - intros m Hm. rewrite mem_app, (H1 m Hm). reflexivity.
    - intros b Hb2. rewrite map_app, in_app_iff in Hb2. destruct Hb2 as [Hb2|Hb2]; [apply H2, Hb2|]. right. exists k, t. rewrite meta_list_idx in Hb2.
      repeat split; auto. eapply key_mm; [exact Hb|]. apply H2, mem_ok, E.
    - apply incl_sset; auto.
    - apply sset_nodup; auto. }
  destruct t as [i|p tys l|i n|n].
  4: { destruct (mem k (rel st) && mem n (rel st)); cbn [fst]; [|constructor; auto].
       constructor; cbn [rel kept reo]; auto using incl_sset, sset_nodup. }
  all: destruct (mem k (rel st)) eqn:E; cbn [fst]; [apply G; [discriminate|reflexivity]|constructor; auto].
Qed.
Lemma round_inv l : forall st c, inv st -> incl l s -> inv (fst (round l st c)).
Proof.
  induction l as [|b r IH]; intros st c I H; [exact I|]. cbn. pose proof (one_inv b st I (H b (or_introl eq_refl))) as I1.
  destruct (one b st) as [st1 c1]. apply IH; [exact I1|]. intros p Hp. apply H. right. exact Hp.
Qed.
Lemma rounds_inv n : forall st st', inv st -> rounds n s st = Some st' -> inv st' /\ forall b, In b s -> handled (rel st') (kept st') b.
Proof.
  induction n as [|n IH]; intros st st' I E; [discriminate|]. cbn in E. pose proof (round_inv s st false I (fun p H => H)) as I1.
  destruct (round s st false) as [st1 c] eqn:E1. destruct c; [apply (IH st1 st' I1 E)|]. injection E as <-. split; [exact I1|].
  apply (round_same s st false st1 E1).
Qed.
Lemma inv0 : inv (mkR mm [] []).
Proof.
  constructor; cbn; auto; try (intros p []); try constructor.
  - intros m Hm. apply mem_ok, in_map, Hm.
  - assumption.
Qed.
Lemma okS_incl a : incl a s -> NoDup (keys a) -> okS ar a.
Proof. intros H N. split; [exact N|]. intros k t Hin. apply (proj2 Os), H, Hin. Qed.

(** the kept bindings lose nothing, unless two metavariables share an irrelevant one *)
Lemma kept_keeps st : inv st -> (forall b, In b s -> handled (rel st) (kept st) b) -> ~ shared mm s -> keeps_more mm s (kept st).
Proof.
  intros [H1 H2 H3 H4 _ _] HH NS A v Hv. destruct Ss as [Nd Sv].
  set (relb := fun i => existsb (fun m => m_index m =? i) (rel st)).
  assert (Rb : forall m, relb (m_index m) = mem m (rel st)).
  { intros m. unfold relb. apply idx_mem. }
  assert (Kp : forall k t, In (k, t) s -> In (m_index k) (keys (kept st)) -> v (m_index k) = tev A v t).
  { intros k t Hin Hk. apply keys_ex in Hk. destruct Hk as (k' & t' & Hin' & E). rewrite <- E.
    pose proof (nodup_key s k t k' t' Nd Hin (H3 _ Hin') (eq_sym E)) as Q. injection Q as -> ->. apply Hv, Hin'. }
  set (pick := fun n => find (fun p : meta * term => match snd p with Meta x => (m_index x =? n) && relb (m_index (fst p)) | _ => false end) s).
  set (v1 := fun n => if relb n then v n else match pick n with Some p => v (m_index (fst p)) | None => v n end).
  set (v' := fun i => if relb i then v i else match assoc i s with Some t => tev A v1 t | None => v1 i end).
  assert (Ext : forall w w' t, (forall b, In b (t_metas t) -> w b = w' b) -> tev A w t = tev A w' t).
  { intros w w' t. induction t as [i|p tys l IH|i n|m] using term_ind'; cbn; intros Hw; auto. f_equal. apply map_ext_in. intros a Ha.
    rewrite Forall_forall in IH. apply (IH a Ha). intros b Hb. apply Hw, in_flat_map. eauto. }
  assert (Vals : forall k t, In (k, t) s -> tev A v' t = tev A v1 t).
  { intros k t Hin. apply Ext. intros b Hb. unfold v'. destruct (relb b) eqn:Eb; [unfold v1; rewrite Eb; reflexivity|].
    assert (E : assoc b s = None) by (apply assoc_none; eapply Sv; eauto). rewrite E. reflexivity. }
  assert (Rl : forall b, relevant mm s b -> relb b = true).
  { intros b [R|(k & t & R1 & R2 & R3 & R4)].
    - apply in_map_iff in R. destruct R as (m & <- & Hm). rewrite Rb. apply H1, Hm.
    - apply in_map_iff in R2. destruct R2 as (m & R2 & Hm). specialize (H1 m Hm). apply mem_ok in H1. rewrite R2 in H1.
      specialize (HH _ R1). unfold handled in HH. cbn [fst snd] in HH. rewrite <- meta_list_idx in R4. apply in_map_iff in R4.
      destruct R4 as (c & <- & Hc). rewrite Rb.
      destruct t as [i2|p2 ty2 l2|i2 n2|n2]; [| | |destruct (R3 n2 eq_refl)]; apply HH; try exact Hc; apply mem_ok, H1. }
  exists v'. split.
  - intros b [R|[U1 U2]]; unfold v'; [rewrite (Rl b R); reflexivity|]. destruct (relb b); [reflexivity|].
    rewrite (proj2 (assoc_none s b) U1). unfold v1. destruct (relb b); [reflexivity|]. destruct (pick b) as [[k t]|] eqn:Ep; [|reflexivity].
    apply find_some in Ep. destruct Ep as [Hin E]. cbn [fst snd] in *. destruct t as [| | |x]; try discriminate.
    apply andb_true_iff in E. destruct E as [E _]. apply Z.eqb_eq in E. exfalso. apply (U2 _ _ Hin). cbn. auto.
  - intros k t Hin. rewrite (Vals k t Hin). unfold v' at 1. destruct (relb (m_index k)) eqn:Ek.
    2: { rewrite (assoc_in s k t Nd Hin). reflexivity. }
    assert (Mk : mem k (rel st) = true) by (rewrite <- Rb; exact Ek). pose proof HH as HHc. specialize (HH _ Hin). unfold handled in HH. cbn [fst snd] in HH.
    assert (F : (In (m_index k) (keys (kept st)) /\ forall c, In c (meta_list t) -> mem c (rel st) = true) -> v (m_index k) = tev A v1 t).
    { intros [G1 G2]. rewrite (Kp k t Hin G1). apply Ext. intros b Hb. unfold v1. rewrite <- meta_list_idx in Hb. apply in_map_iff in Hb.
      destruct Hb as (c & <- & Hc). rewrite Rb, (G2 c Hc). reflexivity. }
    destruct t as [i|p tys l|i n|n]; try (apply F, HH, Mk).
    destruct (mem n (rel st)) eqn:En.
    + apply F. split; [apply HH; auto|]. intros c [<- |[]]. exact En.
    + cbn [tev]. unfold v1. rewrite Rb, En. destruct (pick (m_index n)) as [[k' t']|] eqn:Ep.
      * apply find_some in Ep. destruct Ep as [Hin' E']. cbn [fst snd] in *. destruct t' as [| | |n']; try discriminate.
        apply andb_true_iff in E'. destruct E' as [E1 E2]. apply Z.eqb_eq in E1.
        destruct (Z.eq_dec (m_index k) (m_index k')) as [Q|Q]; [rewrite Q; reflexivity|]. exfalso. apply NS. exists k, k', n, n'.
        repeat split; auto.
        -- eapply key_mm; [exact Hin|]. apply H2, mem_ok, Mk.
        -- eapply key_mm; [exact Hin'|]. apply H2. rewrite Rb in E2. apply mem_ok, E2.
        -- intros R. apply Rl in R. rewrite Rb in R. congruence.
      * exfalso. assert (Q := find_none _ _ Ep (k, Meta n) Hin). cbn [fst snd] in Q. rewrite Z.eqb_refl, Ek in Q. discriminate.
Qed.
End Inv.

(** ** The loop ends: every round but the last one meets a binding for the first time *)
Definition left (rl : list meta) (s : substs) : nat :=
  List.length (filter (fun b : meta * term => existsb (fun c => negb (mem c rl)) (meta_list (snd b))) s).
Lemma filter_less {X} (f g : X -> bool) l : (forall x, f x = true -> g x = true) ->
  (List.length (filter f l) <= List.length (filter g l))%nat /\
  ((exists x, In x l /\ g x = true /\ f x = false) -> (List.length (filter f l) < List.length (filter g l))%nat).
Proof.
  intros H. induction l as [|a r [IH1 IH2]]; cbn; [split; [lia|intros (x & [] & _)]|].
  destruct (f a) eqn:Ef; [rewrite (H a Ef)|destruct (g a) eqn:Eg]; cbn; split; try lia.
  - intros (x & [->|Hx] & G1 & G2); [congruence|]. assert (List.length (filter f r) < List.length (filter g r))%nat by (apply IH2; eauto). lia.
  - intros (x & [->|Hx] & G1 & G2); [congruence|]. apply IH2. eauto.
Qed.
Lemma round_grows l : forall st c st' c', round l st c = (st', c') -> forall m, mem m (rel st) = true -> mem m (rel st') = true.
Proof.
  induction l as [|b r IH]; intros st c st' c' E m Hm; cbn in E; [injection E as <- _; exact Hm|].
  destruct (one b st) as [st1 c1] eqn:E1. apply (IH _ _ _ _ E). apply (proj1 (one_grows _ _ _ _ E1)), Hm.
Qed.
Lemma round_changed l : forall st st', round l st false = (st', true) ->
  exists b c, In b l /\ In c (meta_list (snd b)) /\ mem c (rel st) = false /\ forall c', In c' (meta_list (snd b)) -> mem c' (rel st') = true.
Proof.
  induction l as [|b r IH]; intros st st' E; cbn in E; [discriminate|].
  destruct (one b st) as [st1 c1] eqn:E1. destruct c1; cbn [orb] in E.
  - pose proof (round_grows _ _ _ _ _ E) as G. destruct b as [k t].
    assert (Q : existsb (fun c => negb (mem c (rel st))) (meta_list t) = true /\ rel st1 = rel st ++ meta_list t).
    { unfold one in E1. destruct t as [i|p tys l|i n|n].
      4: destruct (mem k (rel st) && mem n (rel st)); discriminate.
      all: destruct (mem k (rel st)); [|discriminate]; apply pair_equal_spec in E1; destruct E1 as [<- E2]; auto. }
    destruct Q as [Q1 Q2]. apply existsb_exists in Q1. destruct Q1 as (c & Hc & Nc). apply negb_true_iff in Nc.
    exists (k, t), c. cbn [snd]. repeat split; auto; [left; reflexivity|]. intros c' Hc'. apply G. rewrite Q2, mem_app.
    apply orb_true_iff. right. apply mem_ok, in_map, Hc'.
  - destruct (IH _ _ E) as (b' & c & H1 & H2 & H3 & H4). exists b', c. repeat split; auto; [right; exact H1|].
    destruct (mem c (rel st)) eqn:F; [|reflexivity]. rewrite (proj1 (one_grows _ _ _ _ E1) c F) in H3. discriminate.
Qed.
Lemma rounds_end s : forall n st, (left (rel st) s < n)%nat -> rounds n s st <> None.
Proof.
  induction n as [|n IH]; intros st H; [lia|]. cbn. destruct (round s st false) as [st1 c] eqn:E. destruct c; [|discriminate].
  apply IH. destruct (round_changed _ _ _ E) as (b & c & H1 & H2 & H3 & H4). pose proof (round_grows _ _ _ _ _ E) as G.
  assert (left (rel st1) s < left (rel st) s)%nat; [|lia]. apply filter_less.
  - intros x Hx. apply existsb_exists in Hx. destruct Hx as (y & Hy & Ny). apply existsb_exists. exists y. split; [exact Hy|].
    destruct (mem y (rel st)) eqn:F; [|reflexivity]. rewrite (G y F) in Ny. discriminate.
  - exists b. split; [exact H1|]. split; [apply existsb_exists; exists c; rewrite H3; auto|].
    destruct (existsb (fun c0 => negb (mem c0 (rel st1))) (meta_list (snd b))) eqn:F; [|reflexivity]. apply existsb_exists in F.
    destruct F as (y & Hy & Ny). rewrite (H4 y Hy) in Ny. discriminate.
Qed.
Theorem loop_ends s mm : rounds (S (List.length s)) s (mkR mm [] []) <> None.
Proof. apply rounds_end. unfold left. pose proof (filter_short (fun b : meta * term => existsb (fun c => negb (mem c (rel (mkR mm [] [])))) (meta_list (snd b))) s). cbn [rel] in *. lia. Qed.

(** ** The bindings between the metavariables that share a value *)
Lemma reo_inner_ok ar k1 v1 l : forall res seen, pmeta ar k1 -> (forall k t, In (k, t) l -> pmeta ar k) -> okS ar res ->
  okS ar (fst (reo_inner k1 v1 l res seen)).
Proof.
  induction l as [|[k2 v2] r IH]; intros res seen P Hl O; cbn; [exact O|].
  assert (Hr : forall k t, In (k, t) r -> pmeta ar k) by (intros k t H; eapply Hl; right; exact H).
  destruct (term_eqb v1 v2 && negb (meta_eqb k1 k2) && negb (mem k2 seen)); apply IH; auto.
  apply okS_sset; auto. eapply Hl. left. reflexivity.
Qed.
Lemma reo_outer_ok ar todo l : forall res seen, (forall k t, In (k, t) todo -> pmeta ar k) -> (forall k t, In (k, t) l -> pmeta ar k) -> okS ar res ->
  okS ar (reo_outer todo l res seen).
Proof.
  induction todo as [|[k v] r IH]; intros res seen Ht Hl O; cbn; [exact O|].
  pose proof (reo_inner_ok ar k v l res (k :: seen) (Ht k v (or_introl eq_refl)) Hl O) as Q.
  destruct (reo_inner k v l res (k :: seen)) as [res' seen']. apply IH; auto. intros k' t' H. eapply Ht. right. exact H.
Qed.
Lemma reorganize_ok ar s : okS ar s -> okS ar (reorganize s).
Proof. intros O. apply reo_outer_ok; try (intros k t H; apply (proj2 O k t H)). apply okS_nil. Qed.

(** ** C39 *)
Theorem restrict_keeps_more ar n fe s mm r : okS ar s -> solved s -> ~ shared mm s ->
  restrict fe (add_unif_s true n fe) s mm <> Out -> restrict fe (add_unif n fe) s mm = Ok r -> keeps_more mm s r.
Proof.
  intros Os Ss NS NL E. unfold restrict in *. destruct (rounds (S (List.length s)) s (mkR mm [] [])) as [st|] eqn:Er; [|discriminate].
  destruct (rounds_inv s mm Ss _ _ _ (inv0 s mm) Er) as [I H].
  pose proof (okS_incl ar s Os (kept st) (i_kept _ _ _ I) (i_kn _ _ _ I)) as Ok1.
  pose proof (okS_incl ar s Os (reo st) (i_reo _ _ _ I) (i_rn _ _ _ I)) as Ok2.
  pose proof (elim_out_ok ar fe _ (reorganize_ok ar _ Ok2)) as Q.
  destruct (elim_out fe (reorganize (reo st))) as [e| | |]; try discriminate. cbn in *.
  destruct (merge fe (add_unif n fe) (kept st) e) as [m| | |] eqn:Em; try discriminate. cbn in E.
  destruct (is_failure m) eqn:Fm; [discriminate|]. injection E as <-.
  destruct Q as [Q|(Oe & _)]; [rewrite (merge_failure_r ar fe _ _ _ _ Ok1 Q Em) in Fm; discriminate|].
  assert (NL' : merge fe (add_unif_s true n fe) (kept st) e <> Out) by (intros F; rewrite F in NL; apply NL; reflexivity).
  intros A v Hv. apply (kept_keeps s mm Ss st I H NS A v). apply (merge_sound ar fe n _ _ _ Ok1 Oe NL' Em Fm A v Hv).
Qed.
Theorem restrict_keeps ar n fe s mm r : okS ar s -> solved s -> ~ shared mm s ->
  restrict fe (add_unif_s true n fe) s mm <> Out -> restrict fe (add_unif n fe) s mm = Ok r -> keeps mm s r.
Proof.
  intros H1 H2 H3 H4 H5 A v Hv. destruct (restrict_keeps_more ar n fe s mm r H1 H2 H3 H4 H5 A v Hv) as (v' & Ag & Hs).
  exists v'. split; [|exact Hs]. intros m Hm. apply Ag. left. left. apply in_map, Hm.
Qed.
