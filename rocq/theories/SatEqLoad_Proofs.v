(** Merging classes, and loading a problem. *)
From Coq Require Import ZArith List Bool Arith Lia.
From Verif Require Import Ast_Model Ast_Proofs Unif_Model Unif_Spec Bse_Spec UnifRun_Proofs SatEq_Model SatEq_Spec SatEqUf_Proofs SatEqClose_Proofs.
Import ListNotations.
Open Scope list_scope.
Open Scope nat_scope.

Section Load.
Variable ar : signature.
Notation inv := (inv ar).
Notation extends := (extends ar).

(** ** Merging *)
Record merged (h : heap) (pb : problem) (c1 c2 : nat) (h' : heap) (pb' : problem) : Prop := mkMerged
  { m_inv : inv h' pb';
    m_grows : grows h pb h' pb';
    m_rec : forall t, rec_in pb' t <-> rec_in pb t;
    m_goals : pb_goals pb' = pb_goals pb;
    m_same : root h' c1 = root h' c2;
    m_sem : forall A v val, sem A v val h pb -> val c1 = val c2 -> sem A v val h' pb' }.
Lemma fold_same {S T} (f : out S -> T -> out S) s l : (forall t, In t l -> f (Ok s) t = Ok s) -> fold_left f l (Ok s) = Ok s.
Proof. induction l as [|a l IH]; intros H; [reflexivity|]. cbn. rewrite H by (left; auto). apply IH. intros; apply H; right; auto. Qed.
Lemma tr_add_in l t u : In u (tr_add l t) -> In u l \/ u = t.
Proof. unfold tr_add. destruct (existsb _ l); auto. intros I. apply in_app_or in I. destruct I as [I|[<-|[]]]; auto. Qed.
Lemma tr_adds_in d : forall l u, In u (fold_left tr_add d l) -> In u l \/ In u d.
Proof.
  induction d as [|a d IH]; intros l u I; auto. cbn in I. destruct (IH _ _ I) as [J|J]; [|right; right; auto].
  apply tr_add_in in J. destruct J as [J| ->]; auto. right; left; auto.
Qed.
Lemma merge_ok f h pb c1 c2 : inv h pb -> reg h pb c1 -> reg h pb c2 ->
  exists h' pb', merge_classes (S f) h pb c1 c2 = Ok (h', pb') /\ merged h pb c1 c2 h' pb'.
Proof.
  intros I [L1 R1] [L2 R2]. pose proof (i_wf _ _ _ I) as W. cbn [merge_classes]. unfold congruent at 1.
  destruct (Nat.eqb_spec (root h c1) (root h c2)) as [E|N].
  - exists h, pb. split; auto. constructor; auto; try tauto. apply grows_refl; auto.
  - destruct (union_spec h c1 c2 W L1 L2 N) as (w & l & WL & LE & W' & R). set (h' := union h c1 c2) in *.
    assert (MD : (if Nat.eqb (root h' c1) (root h c1) then (root h c1, root h c2) else (root h c2, root h c1)) = (w, l)).
    { rewrite R by auto. destruct WL as [[-> ->]|[-> ->]].
      - apply Nat.eqb_neq in N. rewrite N, Nat.eqb_refl. reflexivity.
      - rewrite Nat.eqb_refl. destruct (Nat.eqb_spec (root h c2) (root h c1)); congruence. }
    rewrite MD. clear MD.
    assert (DW : w <> l) by (destruct WL as [[-> ->]|[-> ->]]; auto).
    assert (KW : In w (classes pb)) by (destruct WL as [[-> ->]|[-> ->]]; auto).
    assert (KL : In l (classes pb)) by (destruct WL as [[-> ->]|[-> ->]]; auto).
    destruct (key_nget _ _ KW) as (pm & GM). destruct (key_nget _ _ KL) as (pd & GD).
    destruct (key_nget _ _ (proj2 (i_super _ _ _ I w) KW)) as (sm & HM). destruct (key_nget _ _ (proj2 (i_super _ _ _ I l) KL)) as (sd & HD).
    rewrite GM, GD, HM, HD. cbv zeta. cbn [pb_super].
    set (pb' := mkPb (pb_goals pb) (pb_funs pb) (pb_metas pb) (ndel (nset (pb_part pb) w (pm ++ pd)) l)
                  (ndel (nset (pb_super pb) w (fold_left tr_add sd sm)) l)).
    apply nget_in in GM. apply nget_in in GD. apply nget_in in HM. apply nget_in in HD.
    assert (RW : root h w = w) by (apply (i_part _ _ _ I w pm GM)). assert (RL : root h l = l) by (apply (i_part _ _ _ I l pd GD)).
    assert (LW : w < length h) by (apply (i_part _ _ _ I w pm GM)).
    assert (PI : forall c x, In (c, x) (pb_part pb') <-> (c = w /\ x = pm ++ pd) \/ (In (c, x) (pb_part pb) /\ c <> w /\ c <> l)).
    { intros c x. cbn [pb_part pb']. rewrite ndel_in, nset_in. intuition (subst; auto). }
    assert (SI : forall c x, In (c, x) (pb_super pb') <-> (c = w /\ x = fold_left tr_add sd sm) \/ (In (c, x) (pb_super pb) /\ c <> w /\ c <> l)).
    { intros c x. cbn [pb_super pb']. rewrite ndel_in, nset_in. intuition (subst; auto). }
    assert (CI : forall c, In c (classes pb') <-> In c (classes pb) /\ c <> l).
    { intros c. unfold classes. cbn [pb_part pb']. rewrite ndel_key, nset_key. fold (classes pb). intuition (subst; auto). }
    assert (UP : forall c x, In (c, x) (pb_part pb) -> forall y, In (c, y) (pb_part pb) -> x = y).
    { intros c x J y K. pose proof (in_nget _ _ _ (i_nodup _ _ _ I) J) as A. rewrite (in_nget _ _ _ (i_nodup _ _ _ I) K) in A. congruence. }
    assert (RI : forall t, rec_in pb' t <-> rec_in pb t).
    { intros t. split.
      - intros (c & x & J & K). apply PI in J. destruct J as [(-> & ->)|(J & _)]; [|exists c, x; auto].
        apply in_app_or in K. destruct K; [exists w, pm|exists l, pd]; auto.
      - intros (c & x & J & K). destruct (Nat.eq_dec c w) as [->|]; [|destruct (Nat.eq_dec c l) as [->|]].
        + exists w, (pm ++ pd). split; [apply PI; auto|]. apply in_or_app. left. rewrite (UP w pm GM x J). auto.
        + exists w, (pm ++ pd). split; [apply PI; auto|]. apply in_or_app. right. rewrite (UP l pd GD x J). auto.
        + exists c, x. split; auto. apply PI. auto. }
    assert (RR : forall x, x < length h -> root h' x = if Nat.eqb (root h x) l then w else root h x) by (intros; apply R; auto).
    assert (RG : forall x, reg h pb x -> reg h' pb' x).
    { intros x [A B]. split; [lia|]. rewrite RR by auto. apply CI. destruct (Nat.eqb_spec (root h x) l); auto. }
    assert (I' : inv h' pb').
    { destruct I as [i_wf0 i_nodup0 i_part0 i_args0 i_shape0 i_mkeys0 i_metas0 i_fkeys0 i_funs0 i_skeys0 i_super0 i_own0 i_goals0]. constructor; auto.
      - unfold classes. cbn [pb_part pb']. apply ndel_nodup, nset_nodup. auto.
      - intros c x J. apply PI in J. destruct J as [(-> & ->)|(J & N1 & N2)].
        + split; [lia|]. split; [rewrite RR, RW by auto; apply Nat.eqb_neq in DW; rewrite DW; auto|].
          split. { destruct (i_part0 w pm GM) as (_ & _ & Z & _). destruct pm; [congruence|discriminate]. }
          intros t K. apply in_app_or in K. destruct K as [K|K].
          * destruct (i_part0 w pm GM) as (_ & _ & _ & Z). destruct (Z t K) as (A & B). split; [lia|]. rewrite RR, B by auto.
            apply Nat.eqb_neq in DW. rewrite DW. auto.
          * destruct (i_part0 l pd GD) as (_ & _ & _ & Z). destruct (Z t K) as (A & B). split; [lia|]. rewrite RR, B by auto.
            rewrite Nat.eqb_refl. auto.
        + destruct (i_part0 c x J) as (A & B & C & D). split; [lia|]. apply Nat.eqb_neq in N2. split; [rewrite RR, B, N2 by auto; auto|]. split; auto.
          intros t K. destruct (D t K) as (E & F). split; [lia|]. rewrite RR, F, N2 by auto. auto.
      - intros t a J K. apply RG. apply RI in J. eauto.
      - intros t J. apply RI in J. auto.
      - intros i t. rewrite RI. apply i_metas0.
      - intros i t. rewrite RI. apply i_funs0.
      - cbn [pb_super pb']. apply ndel_nodup, nset_nodup. auto.
      - intros c. rewrite CI. cbn [pb_super pb']. rewrite ndel_key, nset_key, i_super0. intuition (subst; auto).
      - intros c x t J K. apply SI in J. destruct J as [(-> & ->)|(J & N1 & N2)].
        + apply tr_adds_in in K. destruct K as [K|K].
          * destruct (i_own0 w sm t HM K) as (A & B). split; [lia|]. rewrite RR, B by auto. apply Nat.eqb_neq in DW. rewrite DW. auto.
          * destruct (i_own0 l sd t HD K) as (A & B). split; [lia|]. rewrite RR, B by auto. rewrite Nat.eqb_refl. auto.
        + destruct (i_own0 c x t J K) as (A & B). split; [lia|]. rewrite RR, B by auto. apply Nat.eqb_neq in N2. rewrite N2. auto.
      - intros g p J K. destruct (i_goals0 g p J K). auto. }
    assert (GS : nget (pb_super pb') w = Some (fold_left tr_add sd sm)). { apply in_nget; [apply I'|]. apply SI. auto. }
    fold (pb_super pb'). change (ndel (nset (pb_super pb) w (fold_left tr_add sd sm)) l) with (pb_super pb'). rewrite GS.
    exists h', pb'. split.
    + apply fold_same. intros t3 H3. cbn [bind]. rewrite GS. apply fold_same. intros t4 H4. cbn [bind].
      destruct (i_own _ _ _ I' w _ t3 ltac:(apply SI; auto) H3) as (_ & E3). destruct (i_own _ _ _ I' w _ t4 ltac:(apply SI; auto) H4) as (_ & E4).
      unfold congruent. rewrite E3, E4, Nat.eqb_refl. reflexivity.
    + constructor; auto.
      * constructor; auto; try lia. { intros t. apply RI. }
        intros x L. rewrite !RR by (auto using root_lt). rewrite root_root by auto. reflexivity.
      * rewrite !RR by auto. destruct WL as [[-> ->]|[-> ->]]; repeat match goal with |- context [Nat.eqb ?u ?v] => destruct (Nat.eqb_spec u v) end; congruence.
      * intros A v val [S1 S2] E. split.
        -- intros x L. rewrite LE in L. rewrite RR by auto. destruct (Nat.eqb_spec (root h x) l) as [F|F]; [|auto].
           rewrite <- (S1 x L), F. pose proof (S1 c1 L1) as E1. pose proof (S1 c2 L2) as E2. destruct WL as [[-> ->]|[-> ->]]; congruence.
        -- intros t J. apply RI in J. auto.
Qed.

(** ** The assumptions *)
Definition assumed (es : list (term * term)) (h : heap) (pb : problem) : Prop :=
  forall s t, In (s, t) es -> exists x, rep h pb s x /\ rep h pb t x.
Record state (es : list (term * term)) (h : heap) (pb : problem) : Prop := mkState
  { st_inv : inv h pb;
    st_rep : assumed es h pb;
    st_sem : forall A v, eqs A v es -> exists val, sem A v val h pb }.
Lemma sem_new A v h : wf h -> exists val, sem A v val h new_problem.
Proof.
  intros W. exists (fun _ => v 0%Z). split; auto. intros t (c & l & [] & _).
Qed.
Lemma inv_new h : wf h -> inv h new_problem.
Proof.
  intros W. constructor; cbn; auto; try (apply NoDup_nil); try tauto.
  - intros t a (c & l & [] & _).
  - intros t (c & l & [] & _).
  - intros i t. split; [intros []|]. intros ((c & l & [] & _) & _).
  - intros i t. split; [intros (l & [] & _)|]. intros ((c & l & [] & _) & _).
Qed.
Lemma state_new h : wf h -> state [] h new_problem.
Proof. intros W. constructor; [apply inv_new; auto|intros s t []|]. intros A v _. apply sem_new; auto. Qed.
Lemma assumed_mono es h pb h' pb' : inv h pb -> grows h pb h' pb' -> assumed es h pb -> assumed es h' pb'.
Proof. intros I G H s t J. destruct (H s t J) as (x & A & B). exists (root h' x). split; eapply rep_mono; eauto. Qed.
Lemma add_assumption_ok es s t h pb : well ar s -> well ar t -> state es h pb ->
  exists h' pb', add_assumption (s, t) h pb = Ok (h', pb') /\ state (es ++ [(s, t)]) h' pb' /\ pb_goals pb' = pb_goals pb /\
  (atom s -> atom t -> (forall u, rec_in pb u -> tr_args u = []) -> closed h pb -> (forall u, rec_in pb' u -> tr_args u = []) /\ closed h' pb').
Proof.
  intros Ws Wt [I R S]. unfold add_assumption. cbn [fst snd].
  destruct (get_class_ok ar s Ws h pb I) as (c1 & h1 & p1 & E1 & X1 & G1 & R1). rewrite E1. cbn [bind].
  pose proof (e_inv _ _ _ _ _ X1) as I1.
  destruct (get_class_ok ar t Wt h1 p1 I1) as (c2 & h2 & p2 & E2 & X2 & G2 & R2). rewrite E2. cbn [bind].
  pose proof (e_inv _ _ _ _ _ X2) as I2.
  assert (G1' : reg h2 p2 c1) by (apply (e_grows _ _ _ _ _ X2), G1).
  assert (R1' : rep h2 p2 s (root h2 c1)).
  { destruct (e_keeps _ _ _ _ _ X2) as [_ K]. rewrite K by (apply G1). eapply rep_ext; [exact I1|exact X2|exact R1]. }
  destruct (merge_ok (length h2) h2 p2 c1 c2 I2 G1' G2) as (h3 & p3 & E3 & [MI MG MR MO MS MV]). exists h3, p3. split; auto.
  assert (GA : grows h pb h3 p3).
  { eapply grows_trans; [apply I|apply X1|]. eapply grows_trans; [apply I1|apply X2|exact MG]. }
  split; [constructor; auto|split].
  - intros a b J. apply in_app_or in J. destruct J as [J|[J|[]]].
    + apply (assumed_mono es h pb h3 p3); auto.
    + injection J as <- <-. exists (root h3 c1). split.
      * rewrite <- (g_root _ _ _ _ MG c1) by apply G1'. apply (rep_mono ar h2 p2 h3 p3); auto.
      * rewrite MS. rewrite <- (g_root _ _ _ _ MG c2) by apply G2. apply (rep_mono ar h2 p2 h3 p3); auto.
  - intros A v EQ. destruct (S A v) as (val & SV). { intros a b J. apply EQ, in_or_app. auto. }
    destruct (e_values _ _ _ _ _ X1 A v val SV) as (val1 & SV1). destruct (e_values _ _ _ _ _ X2 A v val1 SV1) as (val2 & SV2).
    exists val2. apply MV; auto. pose proof (rep_val ar A v val2 h2 p2 s I2 SV2 Ws _ R1') as V1. pose proof (rep_val ar A v val2 h2 p2 t I2 SV2 Wt _ R2) as V2.
    destruct SV2 as [SR _]. rewrite <- (SR c1), <- (SR c2) by (apply G1' || apply G2). rewrite <- V1, <- V2. apply EQ, in_or_app. right. left. auto.
  - rewrite MO, (e_goals _ _ _ _ _ X2), (e_goals _ _ _ _ _ X1). reflexivity.
  - intros As At NU CL.
    assert (AT : forall t h pb c h' pb', atom t -> inv h pb -> get_class t h pb = Ok (c, h', pb') -> (forall u, rec_in pb u -> tr_args u = []) ->
                 extends h pb h' pb' -> forall u, rec_in pb' u -> tr_args u = []).
    { clear. intros t h pb c h' pb' At I E NU X u Hu.
      assert (AD : forall h pb r c pb', inv h pb -> add_record h pb r = (c, pb') -> forall u, rec_in pb' u -> rec_in pb u \/ u = r).
      { clear. intros h pb r c pb' I E u (d & l & J & K). unfold add_record in E. injection E as <- <-.
        assert (EP : pb_part (match tr_meta r with
           | Some _ => mkPb (pb_goals pb) (pb_funs pb) (zset (pb_metas pb) (tr_index r) r) (nset (pb_part pb) (root h (tr_class r)) [r]) (nset (pb_super pb) (root h (tr_class r)) [])
           | None => mkPb (pb_goals pb)
              (zset (pb_funs pb) (tr_index r) (match zget (pb_funs pb) (tr_index r) with Some l => l ++ [r] | None => [r] end))
              (pb_metas pb) (nset (pb_part pb) (root h (tr_class r)) [r]) (nset (pb_super pb) (root h (tr_class r)) [r]) end)
           = nset (pb_part pb) (root h (tr_class r)) [r]) by (destruct (tr_meta r); reflexivity).
        rewrite EP in J. apply nset_in in J. destruct J as [(J & _)|(-> & ->)]; [left; exists d, l; auto|]. destruct K as [<-|[]]. auto. }
      destruct t as [i|p tys l|i n|m]; try (destruct At; fail).
      - destruct l as [|a l]; [|destruct At]. rewrite get_class_fun in E. cbn [get_classes bind] in E.
        destruct (make_class h) as [d h1]. destruct (first_congruent _ _ _) as [[w|]| | |]; cbn [bind] in E; try discriminate.
        + injection E as <- <- <-. auto.
        + destruct (add_record h1 pb (fun_rec p [] d)) as [e p1] eqn:EA. injection E as <- <- <-.
          unfold add_record in EA. injection EA as <- <-. cbn [tr_meta fun_rec] in Hu. destruct Hu as (k & l & J & K). cbn [pb_part] in J.
          apply nset_in in J. destruct J as [(J & _)|(-> & ->)]; [apply NU; exists k, l; auto|]. destruct K as [<-|[]]. reflexivity.
      - cbn [get_class] in E. destruct (zget _ _).
        + injection E as <- <- <-. auto.
        + destruct (make_class h) as [d h1]. destruct (add_record h1 pb (meta_rec m d)) as [e p1] eqn:EA. injection E as <- <- <-.
          unfold add_record in EA. injection EA as <- <-. cbn [tr_meta meta_rec] in Hu. destruct Hu as (k & l & J & K). cbn [pb_part] in J.
          apply nset_in in J. destruct J as [(J & _)|(-> & ->)]; [apply NU; exists k, l; auto|]. destruct K as [<-|[]]. reflexivity. }
    assert (N1 : forall u, rec_in p1 u -> tr_args u = []) by (eapply AT; [exact As|exact I|exact E1|auto|exact X1]).
    assert (N2 : forall u, rec_in p2 u -> tr_args u = []) by (eapply AT; [exact At|exact I1|exact E2|auto|exact X2]).
    pose proof (e_closed _ _ _ _ _ X2 (e_closed _ _ _ _ _ X1 CL)) as C2.
    split; [intros u Hu; apply N2, MR, Hu|]. intros a b Ra Rb Ma Mb [EI _]. apply MR in Ra. apply MR in Rb.
    assert (E : root h2 (tr_class a) = root h2 (tr_class b)). { apply C2; auto. split; auto. rewrite (N2 a Ra), (N2 b Rb). constructor. }
    destruct (rec_class _ _ _ _ I2 Ra), (rec_class _ _ _ _ I2 Rb). rewrite <- (g_root _ _ _ _ MG (tr_class a)), <- (g_root _ _ _ _ MG (tr_class b)) by auto. congruence.
Qed.
Lemma add_assumptions_ok l : forall es h pb, Forall (well_pair ar) l -> state es h pb ->
  exists h' pb', add_assumptions l h pb = Ok (h', pb') /\ state (es ++ l) h' pb' /\ pb_goals pb' = pb_goals pb /\
  (Forall (fun e => atom (fst e) /\ atom (snd e)) l -> (forall u, rec_in pb u -> tr_args u = []) -> closed h pb -> closed h' pb').
Proof.
  induction l as [|[s t] l IH]; intros es h pb W S.
  - exists h, pb. rewrite app_nil_r. auto.
  - inversion W as [|? ? [Ws Wt] Wl]; subst. cbn [add_assumptions]. destruct (add_assumption_ok es s t h pb Ws Wt S) as (h1 & p1 & E1 & S1 & G1 & C1).
    rewrite E1. cbn [bind]. destruct (IH (es ++ [(s, t)]) h1 p1 Wl S1) as (h2 & p2 & E2 & S2 & G2 & C2). exists h2, p2. split; auto.
    rewrite <- app_assoc in S2. split; auto. split; [congruence|]. intros AT NU CL. inversion AT as [|? ? [As Aq] Al]; subst. cbn in As, Aq.
    destruct (C1 As Aq NU CL). auto.
Qed.

(** ** The goals *)
Definition matches (h : heap) (pb : problem) (g : list (term * term)) (l : list (nat * nat)) : Prop :=
  (forall s t, In (s, t) g -> exists a b, In (a, b) l /\ rep h pb s (root h a) /\ rep h pb t (root h b)) /\
  (forall a b, In (a, b) l -> exists s t, In (s, t) g /\ rep h pb s (root h a) /\ rep h pb t (root h b)).
Definition all_reg (h : heap) (pb : problem) (l : list (nat * nat)) : Prop := forall p, In p l -> reg h pb (fst p) /\ reg h pb (snd p).
Lemma matches_ext h pb h' pb' g l : inv h pb -> extends h pb h' pb' -> all_reg h pb l -> matches h pb g l -> matches h' pb' g l.
Proof.
  intros I X AR [A B]. destruct (e_keeps _ _ _ _ _ X) as [_ K]. split.
  - intros s t J. destruct (A s t J) as (a & b & P & Q & R). exists a, b. split; auto. destruct (AR _ P) as ((La & _) & (Lb & _)). cbn in La, Lb.
    rewrite !K by auto. split; eapply rep_ext; eauto.
  - intros a b P. destruct (B a b P) as (s & t & J & Q & R). exists s, t. split; auto. destruct (AR _ P) as ((La & _) & (Lb & _)). cbn in La, Lb.
    rewrite !K by auto. split; eapply rep_ext; eauto.
Qed.
Lemma goal_pairs_ok g : forall g0 acc h pb, Forall (well_pair ar) g -> inv h pb -> all_reg h pb acc -> matches h pb g0 acc ->
  exists l h' pb', goal_pairs g acc h pb = Ok (l, h', pb') /\ extends h pb h' pb' /\ all_reg h' pb' l /\ matches h' pb' (g0 ++ g) l.
Proof.
  induction g as [|[s t] g IH]; intros g0 acc h pb W I AR M.
  - exists acc, h, pb. rewrite app_nil_r. split; auto. split; auto. apply extends_refl; auto.
  - inversion W as [|? ? [Ws Wt] Wl]; subst. cbn [goal_pairs fst snd].
    destruct (get_class_ok ar s Ws h pb I) as (c1 & h1 & p1 & E1 & X1 & G1 & R1). rewrite E1. cbn [bind].
    pose proof (e_inv _ _ _ _ _ X1) as I1.
    destruct (get_class_ok ar t Wt h1 p1 I1) as (c2 & h2 & p2 & E2 & X2 & G2 & R2). rewrite E2. cbn [bind].
    pose proof (e_inv _ _ _ _ _ X2) as I2. cbn [fst snd] in *.
    assert (G1' : reg h2 p2 c1) by (apply (e_grows _ _ _ _ _ X2), G1).
    assert (R1' : rep h2 p2 s (root h2 c1)).
    { destruct (e_keeps _ _ _ _ _ X2) as [_ K]. rewrite K by (apply G1). eapply rep_ext; [exact I1|exact X2|exact R1]. }
    assert (X : extends h pb h2 p2) by (eapply extends_trans; eauto).
    set (acc' := if existsb (pair_eqb (c1, c2)) acc then acc else acc ++ [(c1, c2)]).
    assert (IN : forall p, In p acc' <-> In p acc \/ p = (c1, c2)).
    { intros p. unfold acc'. destruct (existsb (pair_eqb (c1, c2)) acc) eqn:EX.
      - split; auto. intros [J| ->]; auto. apply existsb_exists in EX. destruct EX as ([x y] & J & E). unfold pair_eqb in E. cbn in E.
        apply andb_prop in E. destruct E as (EA & EB). apply Nat.eqb_eq in EA. apply Nat.eqb_eq in EB. subst. auto.
      - rewrite in_app_iff. cbn. intuition. }
    destruct (IH (g0 ++ [(s, t)]) acc' h2 p2 Wl I2) as (l & h3 & p3 & E3 & X3 & A3 & M3).
    + intros p J. apply IN in J. destruct J as [J| ->]; auto. destruct (AR p J). split; apply (e_grows _ _ _ _ _ X); auto.
    + destruct (matches_ext _ _ _ _ _ _ I X AR M) as [MA MB]. split.
      * intros a b J. apply in_app_or in J. destruct J as [J|[J|[]]].
        -- destruct (MA a b J) as (x & y & P & Q). exists x, y. split; auto. apply IN. auto.
        -- injection J as <- <-. exists c1, c2. split; auto. apply IN. auto.
      * intros x y J. apply IN in J. destruct J as [J|J].
        -- destruct (MB x y J) as (a & b & P & Q). exists a, b. split; auto. apply in_or_app. auto.
        -- injection J as -> ->. exists s, t. split; auto. apply in_or_app. right. left. auto.
    + exists l, h3, p3. split; auto. split; [eapply extends_trans; eauto|]. split; auto. rewrite <- app_assoc in M3. exact M3.
Qed.
Definition goals_for (gs : list (list (term * term))) (h : heap) (pb : problem) : Prop :=
  (forall g, In g gs -> exists l, In l (pb_goals pb) /\ matches h pb g l) /\ (forall l, In l (pb_goals pb) -> exists g, In g gs /\ matches h pb g l).
Lemma state_ext es h pb h' pb' : state es h pb -> extends h pb h' pb' -> state es h' pb'.
Proof.
  intros [I R S] X. constructor.
  - apply X.
  - eapply assumed_mono; eauto. apply X.
  - intros A v E. destruct (S A v E) as (val & SV). eapply e_values; eauto.
Qed.
Lemma add_goal_ok es gs g h pb : Forall (well_pair ar) g -> state es h pb -> goals_for gs h pb ->
  exists h' pb', add_goal g h pb = Ok (h', pb') /\ state es h' pb' /\ goals_for (gs ++ [g]) h' pb' /\ (closed h pb -> closed h' pb').
Proof.
  intros W S [GA GB]. unfold add_goal. pose proof (st_inv _ _ _ S) as I.
  destruct (goal_pairs_ok g [] [] h pb W I) as (l & h1 & p1 & E & X & A & M).
  { intros p []. } { split; intros a b []. }
  rewrite E. cbn [bind]. cbn [app] in M. pose proof (state_ext _ _ _ _ _ S X) as S1. pose proof (st_inv _ _ _ S1) as I1.
  assert (OA : forall l0, In l0 (pb_goals pb) -> all_reg h pb l0) by (intros l0 J p K; apply (i_goals _ _ _ I l0 p J K)).
  eexists _, _. split; [reflexivity|]. rewrite (e_goals _ _ _ _ _ X). destruct (existsb (list_eqb pair_eqb l) (pb_goals pb)) eqn:EX.
  - split; auto. split; [|apply X]. apply existsb_exists in EX. destruct EX as (l' & J & EQ).
    assert (l = l').
    { clear -EQ. revert l' EQ. induction l as [|[a b] l IH]; intros [|[x y] l'] E; try discriminate; auto. cbn in E. apply andb_prop in E. destruct E as (E1 & E2).
      unfold pair_eqb in E1. cbn in E1. apply andb_prop in E1. destruct E1 as (EA & EB). apply Nat.eqb_eq in EA. apply Nat.eqb_eq in EB. subst. f_equal. auto. }
    subst l'. split; rewrite (e_goals _ _ _ _ _ X).
    + intros g' K. apply in_app_or in K. destruct K as [K|[<-|[]]]; [|exists l; auto]. destruct (GA g' K) as (l0 & J0 & M0). exists l0. split; auto.
      apply (matches_ext h pb h1 p1); auto.
    + intros l0 J0. destruct (GB l0 J0) as (g' & K & M0). exists g'. split; [apply in_or_app; auto|]. apply (matches_ext h pb h1 p1); auto.
  - set (p2 := mkPb (pb_goals pb ++ [l]) (pb_funs p1) (pb_metas p1) (pb_part p1) (pb_super p1)).
    assert (RP : forall t x, rep h1 p1 t x -> rep h1 p2 t x).
    { intros t. induction t as [i|p tys k IH|i n|m] using term_ind'; intros x R; [destruct R| |destruct R|].
      - apply rep_fun in R. destruct R as (u & P1 & P2 & P3 & P4 & P5). apply rep_fun. exists u. repeat split; auto.
        revert P5. generalize (tr_args u). clear -IH. induction IH; intros [|c cs] P5; cbn in *; try tauto. destruct P5. split; auto.
      - exact R. }
    assert (MP : forall g0 l0, matches h1 p1 g0 l0 -> matches h1 p2 g0 l0).
    { intros g0 l0 [MA MB]. split.
      - intros s t K. destruct (MA s t K) as (a & b & P & Q & R). exists a, b. auto.
      - intros a b K. destruct (MB a b K) as (s & t & P & Q & R). exists s, t. auto. }
    split; [|split].
    + destruct S1 as [_ SR SS]. constructor.
      * destruct I1 as [i_wf0 i_nodup0 i_part0 i_args0 i_shape0 i_mkeys0 i_metas0 i_fkeys0 i_funs0 i_skeys0 i_super0 i_own0 i_goals0]. constructor; auto. intros g' p K H. cbn [pb_goals p2] in K. apply in_app_or in K. destruct K as [K|[<-|[]]].
        -- destruct (OA g' K p H). split; apply (e_grows _ _ _ _ _ X); auto.
        -- apply A; auto.
      * intros s t K. destruct (SR s t K) as (x & P & Q). exists x. auto.
      * intros Al v EQ. destruct (SS Al v EQ) as (val & SV). exists val. exact SV.
    + split; cbn [pb_goals p2].
      * intros g' K. apply in_app_or in K. destruct K as [K|[<-|[]]]; [|exists l; split; [apply in_or_app; right; left; auto|apply MP; auto]].
        destruct (GA g' K) as (l0 & J0 & M0). exists l0. split; [apply in_or_app; auto|]. apply MP. apply (matches_ext h pb h1 p1); auto.
      * intros l0 J0. apply in_app_or in J0. destruct J0 as [J0|[<-|[]]].
        -- destruct (GB l0 J0) as (g' & K & M0). exists g'. split; [apply in_or_app; auto|]. apply MP. apply (matches_ext h pb h1 p1); auto.
        -- exists g. split; [apply in_or_app; right; left; auto|]. apply MP; auto.
    + intros CL. exact (e_closed _ _ _ _ _ X CL).
Qed.
Lemma add_goals_ok l : forall es gs h pb, Forall (Forall (well_pair ar)) l -> state es h pb -> goals_for gs h pb ->
  exists h' pb', add_goals l h pb = Ok (h', pb') /\ state es h' pb' /\ goals_for (gs ++ l) h' pb' /\ (closed h pb -> closed h' pb').
Proof.
  induction l as [|g l IH]; intros es gs h pb W S G.
  - exists h, pb. rewrite app_nil_r. auto.
  - inversion W; subst. cbn [add_goals]. destruct (add_goal_ok es gs g h pb) as (h1 & p1 & E1 & S1 & G1 & C1); auto. rewrite E1. cbn [bind].
    destruct (IH es (gs ++ [g]) h1 p1) as (h2 & p2 & E2 & S2 & G2 & C2); auto. exists h2, p2. split; auto. rewrite <- app_assoc in G2. auto.
Qed.
Theorem load_ok es gs h : wf h -> well_problem ar es gs ->
  exists h0 p0 h' pb', load es [] h new_problem = Ok (h0, p0) /\ load es gs h new_problem = Ok (h', pb') /\
    state es h0 p0 /\ state es h' pb' /\ goals_for gs h' pb' /\ (closed h0 p0 -> closed h' pb') /\
    (Forall (fun e => atom (fst e) /\ atom (snd e)) es -> closed h0 p0).
Proof.
  intros W [We Wg]. unfold load. destruct (add_assumptions_ok es [] h new_problem We (state_new h W)) as (h0 & p0 & E0 & S0 & G0 & C0).
  rewrite E0. cbn [bind add_goals app] in *. destruct (add_goals_ok gs es [] h0 p0 Wg S0) as (h' & pb' & E1 & S1 & G1 & C1).
  { split; [intros g []|]. rewrite G0. intros l []. }
  exists h0, p0, h', pb'. repeat (split; [auto|]). intros AT. apply C0; auto.
  - intros u (c & l & [] & _).
  - intros t u (c & l & [] & _).
Qed.

(** ** What the classes say *)
(** C91 *)
Lemma trivial_solved es gs h pb : Forall (Forall (well_pair ar)) gs -> state es h pb -> goals_for gs h pb -> has_trivial h pb = true -> some_solved es [] gs.
Proof.
  intros Wg [I R S] [GA GB] T. apply existsb_exists in T. destruct T as (l & J & T). destruct (GB l J) as (g & Hg & [MA MB]). exists g. split; auto.
  intros s t K A v _ EQ. destruct (MA s t K) as (a & b & P & Q1 & Q2). destruct (S A v EQ) as (val & SV).
  rewrite Forall_forall in Wg. specialize (Wg g Hg). rewrite Forall_forall in Wg. destruct (Wg _ K) as (Ws & Wt). cbn in Ws, Wt.
  rewrite (rep_val ar A v val h pb s I SV Ws _ Q1), (rep_val ar A v val h pb t I SV Wt _ Q2). unfold trivial_goal in T. rewrite forallb_forall in T.
  specialize (T _ P). cbn in T. apply Nat.eqb_eq in T. rewrite T. reflexivity.
Qed.
End Load.
