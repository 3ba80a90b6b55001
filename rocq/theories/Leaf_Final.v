(** C118-C122: the answer of a branch that closes. *)
From Coq Require Import ZArith List Bool Lia Sorting.Sorted.
From Verif Require Import Ast_Model Occ_Spec Sem_Spec Ast_Proofs Unif_Model Unif_Spec UnifLoss_Model UnifLoss_Proofs UnifMgu_Proofs Elim_Proofs Unif_Final Closure_Model Dmt_Model Select_Model Select_Spec Select_Proofs
  Select_Final GlobUnif_Model GlobUnif_Spec Restrict_Model Restrict_Spec Restrict_Proofs Restrict_Final Leaf_Model Leaf_Spec Leaf_Proofs.
Import ListNotations.
Open Scope list_scope.
Open Scope Z_scope.

Lemma out_ok {A B} (x : out A) (f : A -> out B) b : bind x f = Ok b -> exists a, x = Ok a /\ f a = Ok b.
Proof. destruct x; cbn; try discriminate. eauto. Qed.

Section Sending.
Variable mg : subst -> subst -> out subst.
Variable applied : saf.
Lemma sending_ok f l : forall found again x, sending mg f applied l found again = Ok x ->
  (forall t, In t (fst x) -> In t found \/ exists s, In s l /\ merge_saf mg (s, [f]) applied = Ok t) /\
  (forall t, In t found -> In t (fst x)) /\
  (forall s, In s l -> exists t t', merge_saf mg (s, [f]) applied = Ok t /\ In t' (fst x) /\ same_bindings (fst t') (fst t)) /\
  (forall i, In i (snd x) <-> In i again \/ exists s k v, In s l /\ In (MTerm k v) s /\ m_formula k = i) /\
  (NoDup again -> NoDup (snd x)).
Proof.
  induction l as [|s l IH]; intros found again x E; cbn in E.
  - injection E as <-. cbn. split; [auto|]. split; [auto|]. split; [intros s []|]. split; [|auto]. intros i. split; [auto|]. intros [H|(s & k & v & [] & _)]; exact H.
  - destruct (succeeded s); [|discriminate]. apply out_ok in E. destruct E as (m & Em & E). apply IH in E. destruct E as (H1 & H2 & H3 & H4 & H5).
    destruct (union_int_ok (formulas_of s) again) as [U1 U2].
    split; [|split; [|split; [|split]]].
    + intros t Ht. destruct (H1 t Ht) as [Hf|(s' & Hs & Es)]; [|right; exists s'; split; [right; exact Hs|exact Es]].
      unfold append_saf in Hf. destruct (existsb _ found); [auto|]. apply in_app_or in Hf. destruct Hf as [Hf|[<-|[]]]; [auto|]. right. exists s. split; [left; reflexivity|exact Em].
    + intros t Ht. apply H2. unfold append_saf. destruct (existsb _ found); [exact Ht|]. apply in_or_app. auto.
    + intros s' [<-|Hs]; [|apply H3, Hs]. exists m. unfold append_saf in H2. destruct (existsb (fun v => saf_eqb v m) found) eqn:Ex.
      * apply existsb_exists in Ex. destruct Ex as (t' & Ht & Et). exists t'. unfold saf_eqb in Et. apply andb_true_iff in Et. destruct Et as [Et _]. apply subst_eqb in Et. auto.
      * exists m. split; [exact Em|]. split; [apply H2, in_or_app; right; left; reflexivity|apply bindings_refl].
    + intros i. rewrite H4, U1, formulas_of_in. split.
      * intros [[H|(k & v & H & E')]|(s' & k & v & H)]; [auto|right; exists s, k, v; cbn; auto|right; exists s', k, v; cbn; tauto].
      * intros [H|(s' & k & v & [<-|H] & H' & E')]; [auto|left; right; exists k, v; auto|right; exists s', k, v; auto].
    + auto.
Qed.
End Sending.

Section Manage.
Variable destructive : bool.
Variable restr : subst -> list meta -> out subst.
Variable mg raw : subst -> subst -> out subst.
Variable mm : list meta.
Variable applied : saf.
Notation ap := (fst applied).
Notation rs := (fun s => if destructive then restr s (mm ++ metas_of_subst ap) else Ok s).
Notation manage := (manage destructive restr mg raw mm applied).

(** *** the three answers *)
Lemma manage_cases found l f o : manage found l f = Ok o -> exists d, dispatch_substs rs l (mkD [] [] []) = Ok d /\
  ((l = [] /\ o = Some (mkReply false (remove_empty [applied]) [(ap, ap)] [])) \/
   (exists p, l <> [] /\ d_without d <> [] /\ pairs_without raw ap (d_without d) = Ok p /\ o = Some (mkReply false (remove_empty [applied]) p [])) \/
   (exists x p, l <> [] /\ d_without d = [] /\ sending mg f applied (d_with d) found [] = Ok x /\ pairs_with raw ap (d_with d) (d_uncleared d) = Ok p /\
     o = Some (mkReply true (remove_empty (fst x)) p (sort_ints (snd x))))).
Proof.
  unfold Leaf_Model.manage. intros E. apply out_ok in E. destruct E as (d & Ed & E). exists d. split; [exact Ed|].
  destruct l as [|s l]; [left; split; [reflexivity|congruence]|]. right. pose proof (dispatch_lists rs (s :: l) d Ed) as [(_ & _ & C1) (_ & _ & C2)].
  assert (R : exists r, rs s = Ok r) by (cbn in Ed; apply out_ok in Ed; destruct Ed as (r & Er & _); exists r; exact Er). destruct R as (r & Er).
  destruct (d_without d) as [|a n] eqn:En.
  - right. destruct (d_with d) as [|b w] eqn:Ew.
    + exfalso. destruct r as [|c r]; [destruct (C2 s (or_introl eq_refl) Er) as (? & [] & _)|]. destruct (C1 s _ (or_introl eq_refl) Er) as (? & [] & _). discriminate.
    + apply out_ok in E. destruct E as (x & Ex & E). apply out_ok in E. destruct E as (p & Ep & E). exists x, p. split; [discriminate|]. split; [reflexivity|].
      split; [exact Ex|]. split; [exact Ep|]. congruence.
  - left. apply out_ok in E. destruct E as (p & Ep & E). exists p. split; [discriminate|]. split; [discriminate|]. split; [exact Ep|]. congruence.
Qed.
Theorem manage_answers found l f o : manage found l f = Ok o -> exists rp, o = Some rp /\
  (rp_need rp = false <-> l = [] \/ exists s, In s l /\ rs s = Ok []) /\
  (rp_need rp = false -> rp_substs rp = remove_empty [applied] /\ rp_again rp = []).
Proof.
  intros E. apply manage_cases in E. destruct E as (d & Ed & E). pose proof (dispatch_lists rs l d Ed) as [(_ & I1 & C1) (_ & I2 & C2)].
  destruct E as [(-> & ->)|[(p & Nl & Nn & _ & ->)|(x & p & Nl & En & Ex & _ & ->)]]; eexists; (split; [reflexivity|]); cbn [rp_need rp_substs rp_again].
  - split; [split; auto|auto].
  - split; [|auto]. split; [intros _|auto]. right. destruct (d_without d) as [|s n]; [congruence|]. exists s. apply I2. left. reflexivity.
  - split; [|discriminate]. split; [discriminate|]. intros [H|(s & Hs & Es)]; [contradiction|]. destruct (C2 s Hs Es) as (s' & H & _). rewrite En in H. destruct H.
Qed.

(** *** the pairs of the global unifier *)
Lemma pairs_without_ok l : forall p, pairs_without raw ap l = Ok p -> forall c a, In (c, a) p -> c = ap /\ exists s, In s l /\ raw ap s = Ok a.
Proof.
  induction l as [|s l IH]; intros p E c a H; cbn in E; [injection E as <-; destruct H|]. apply out_ok in E. destruct E as (m & Em & E). apply out_ok in E. destruct E as (r & Er & E).
  injection E as <-. destruct H as [H|H].
  - injection H as <- <-. split; [reflexivity|]. exists s. split; [left; reflexivity|exact Em].
  - destruct (IH r Er c a H) as (H1 & s' & H2 & H3). split; [exact H1|]. exists s'. split; [right; exact H2|exact H3].
Qed.
Lemma pairs_with_ok w : forall u p, pairs_with raw ap w u = Ok p -> forall c a, In (c, a) p ->
  exists i r s, nth_error w i = Some r /\ nth_error u i = Some s /\ raw ap r = Ok c /\ raw ap s = Ok a.
Proof.
  induction w as [|x w IH]; intros u p E c a H; cbn in E; [injection E as <-; destruct H|]. destruct u as [|y u]; [discriminate|].
  apply out_ok in E. destruct E as (a' & Ea & E). apply out_ok in E. destruct E as (c' & Ec & E). apply out_ok in E. destruct E as (q & Eq & E). injection E as <-. destruct H as [H|H].
  - injection H as <- <-. exists 0%nat, x, y. auto.
  - destruct (IH u q Eq c a H) as (i & r & s & H1 & H2 & H3). exists (S i), r, s. auto.
Qed.
Theorem manage_pairs found l f rp : faithful rs l -> manage found l f = Ok (Some rp) -> forall c a, In (c, a) (rp_pairs rp) ->
  (l = [] /\ c = ap /\ a = ap) \/ exists s r, In s l /\ rs s = Ok r /\ raw ap s = Ok a /\ ((r = [] /\ c = ap) \/ (r <> [] /\ raw ap r = Ok c)).
Proof.
  intros F E c a H. apply manage_cases in E. destruct E as (d & Ed & E). pose proof (dispatch_lists rs l d Ed) as [(_ & I1 & _) (_ & I2 & _)].
  destruct (dispatch_pairs rs l d F Ed) as (P & _ & Iu).
  destruct E as [(-> & E)|[(p & Nl & Nn & Ep & E)|(x & p & Nl & En & Ex & Ep & E)]]; injection E as ->; cbn [rp_pairs] in H.
  - left. destruct H as [H|[]]. injection H as <- <-. auto.
  - right. destruct (pairs_without_ok _ _ Ep c a H) as (-> & s & Hs & Ea). exists s, []. destruct (I2 s Hs) as [H1 H2]. split; [exact H1|]. split; [exact H2|]. split; [exact Ea|]. left. split; reflexivity.
  - right. destruct (pairs_with_ok _ _ _ Ep c a H) as (i & r & s & H1 & H2 & H3 & H4). exists s, r. split; [apply Iu, (nth_error_In _ _ H2)|].
    split; [apply (P i r s H1 H2)|]. split; [exact H4|]. right. split; [apply (I1 r), (nth_error_In _ _ H1)|exact H3].
Qed.

(** *** the formulas to introduce again *)
Theorem manage_again found l f rp : manage found l f = Ok (Some rp) -> rp_need rp = true ->
  (forall s s' r r' k k' v v', In s l -> In s' l -> rs s = Ok r -> rs s' = Ok r' -> In (MTerm k v) r -> In (MTerm k' v') r' -> m_index k = m_index k' -> m_formula k = m_formula k') ->
  sorted_set (fun i => exists s r k v, In s l /\ rs s = Ok r /\ In (MTerm k v) r /\ m_formula k = i) (rp_again rp).
Proof.
  intros E N Q. apply manage_cases in E. destruct E as (d & Ed & E). pose proof (dispatch_lists rs l d Ed) as [(_ & I1 & C1) (_ & I2 & _)].
  destruct E as [(-> & E)|[(p & Nl & Nn & Ep & E)|(x & p & Nl & En & Ex & Ep & E)]]; injection E as ->; try discriminate N. cbn [rp_again].
  destruct (sending_ok _ _ _ _ _ _ _ Ex) as (_ & _ & _ & H4 & H5). split; [apply sort_sorted, H5; constructor|]. intros i. rewrite sort_in, H4. split.
  - intros [[]|(r & k & v & Hr & Hk & Ei)]. destruct (I1 r Hr) as (_ & s & Hs & Es). exists s, r, k, v. auto.
  - intros (s & r & k & v & Hs & Es & Hk & Ei). right. destruct (C1 s r Hs Es) as (r' & Hr' & Sr); [intros ->; destruct Hk|].
    destruct (I1 r' Hr') as (_ & s' & Hs' & Es'). destruct (pair_in _ _ _ _ Sr Hk) as ([|k' v'] & Hk' & B); [destruct B|]. destruct B as [B _].
    exists r', k', v'. split; [exact Hr'|]. split; [exact Hk'|]. rewrite <- Ei. symmetry. apply (Q s s' r r' k k' v v'); auto.
Qed.
End Manage.

(** ** The meaning of the answer *)
Lemma restrict_ok ar n fe s mm r : okS ar s -> solved s -> restrict fe (add_unif n fe) s mm = Ok r -> okS ar r.
Proof.
  intros Os Ss E. unfold restrict in E. destruct (rounds (S (List.length s)) s (mkR mm [] [])) as [st|] eqn:Er; [|discriminate].
  destruct (rounds_inv s mm Ss _ _ _ (inv0 s mm) Er) as [I H].
  pose proof (okS_incl ar s Os (kept st) (i_kept _ _ _ I) (i_kn _ _ _ I)) as Ok1.
  pose proof (okS_incl ar s Os (reo st) (i_reo _ _ _ I) (i_rn _ _ _ I)) as Ok2.
  pose proof (elim_out_ok ar fe _ (reorganize_ok ar _ Ok2)) as Q.
  destruct (elim_out fe (reorganize (reo st))) as [e| | |]; try discriminate. cbn in *.
  destruct (merge fe (add_unif n fe) (kept st) e) as [m| | |] eqn:Em; try discriminate. cbn in E.
  destruct (is_failure m) eqn:Fm; [discriminate|]. injection E as <-.
  destruct Q as [Q|(Oe & _)]; [rewrite (merge_failure_r ar fe _ _ _ _ Ok1 Q Em) in Fm; discriminate|].
  pose proof (merge_safe ar fe n _ _ Ok1 Oe) as G. rewrite Em in G. cbn in G. destruct G as [G|G]; [congruence|exact G].
Qed.
Lemma restrict_mixed_ok n fe s mm r : (forall x i f v, ~ In (MTy x i f v) s) -> restrict_mixed fe (add_unif n fe) s mm = Ok r ->
  restrict fe (add_unif n fe) (binds s) mm = Ok (binds r) /\ r = mixed_terms (binds r).
Proof.
  intros T E. unfold restrict_mixed in E. change (term_part s) with (binds s) in E. apply out_ok in E. destruct E as (m & Em & E).
  assert (F : filter (fun x => match x with MTy _ _ _ _ => true | _ => false end) s = []).
  { clear - T. induction s as [|[x i f v|k v] s IH]; cbn; [reflexivity|exfalso; eapply T; left; reflexivity|]. apply IH. intros x i f w H. apply (T x i f w). right. exact H. }
  rewrite F, app_nil_r in E. injection E as <-. unfold mixed_terms. rewrite binds_terms. auto.
Qed.
Lemma tev_agree A (v v' : Z -> dom A) t : (forall i, In i (t_metas t) -> v i = v' i) -> tev A v t = tev A v' t.
Proof.
  induction t as [i|p tys l IH|i n|m] using term_ind'; cbn; intros H; try reflexivity; [|apply H; left; reflexivity].
  f_equal. apply map_ext_in. intros t Ht. rewrite Forall_forall in IH. apply IH; [exact Ht|]. intros i Hi. apply H. apply in_flat_map. exists t. auto.
Qed.
Lemma solves_agree A (v v' : Z -> dom A) s : (forall i, occurs s i -> v i = v' i) -> solves A v (binds s) -> solves A v' (binds s).
Proof.
  intros H S k t Hin. assert (I : In (MTerm k t) s).
  { apply in_flat_map in Hin. destruct Hin as ([|k' t'] & Hb & E); [destruct E|]. destruct E as [E|[]]. injection E as <- <-. exact Hb. }
  rewrite <- (H (m_index k)); [|exists k, t; auto]. rewrite <- (tev_agree A v v' t); [apply S, Hin|]. intros i Hi. apply H. exists k, t. auto.
Qed.

Section Leaf.
Variable ar : signature.
Variables n fe : nat.
Variable mm : list meta.
Variable applied : saf.
Variable l : list subst.
Notation ap := (fst applied).
Notation mm' := (mm ++ metas_of_subst ap).
Notation rs := (fun s => restrict_mixed fe (add_unif n fe) s mm').
Hypothesis Sane : forall s, In s l -> sane ar n fe mm' s.

Lemma extends s r A (v : Z -> dom A) : In s l -> rs s = Ok r -> solves A v (binds r) -> solves A v (binds ap) -> closable mm ap l A v.
Proof.
  intros Hs Er Hr Ha. destruct (Sane s Hs) as (T & Os & Ss & NS & NL). apply restrict_mixed_ok in Er; [|exact T]. destruct Er as [Er _].
  destruct (restrict_keeps ar n fe (binds s) mm' (binds r) Os Ss NS NL Er A v Hr) as (v' & Ag & Hv). exists s, v'. split; [exact Hs|]. split.
  - intros m Hm. apply Ag. apply in_or_app. auto.
  - split; [exact Hv|]. apply (solves_agree A v v'); [|exact Ha]. intros i Hi. apply metas_ok in Hi. apply in_map_iff in Hi. destruct Hi as (m & <- & Hm). apply Ag, in_or_app. auto.
Qed.
Theorem leaf_by_itself found f rp : leaf n fe mm applied found l f = Ok (Some rp) -> rp_need rp = false -> l <> [] ->
  forall A v, solves A v (binds ap) -> closable mm ap l A v.
Proof.
  intros E Nd Nl A v Ha. apply manage_answers in E. destruct E as (rp' & E & H & _). injection E as <-. apply H in Nd. destruct Nd as [->|(s & Hs & Es)]; [congruence|].
  apply (extends s [] A v Hs Es); [intros k t []|exact Ha].
Qed.

Hypothesis Oa : okS ar (binds ap).
Hypothesis Kept : forall s r, In s l -> rs s = Ok r -> merge fe (add_unif_s true n fe) (binds r) (binds ap) <> Out.

Lemma merged s r f t : In s l -> rs s = Ok r -> merge_saf (merge_mixed n fe) (r, [f]) applied = Ok t ->
  forall A v, (solves A v (binds (fst t)) -> solves A v (binds r) /\ solves A v (binds ap)) /\
    (injective A -> solves A v (binds r) -> solves A v (binds ap) -> solves A v (binds (fst t))).
Proof.
  intros Hs Er E A v. unfold merge_saf in E. assert (N : saf_empty (r, [f]) = false) by (destruct r; reflexivity). rewrite N in E.
  destruct (saf_empty applied) eqn:Ea.
  - injection E as <-. cbn [fst]. assert (Z : ap = []) by (destruct applied as [[|] [|]]; cbn in *; congruence). rewrite Z. cbn. split; [|auto]. intros H. split; [exact H|]. intros k u [].
  - apply out_ok in E. destruct E as (m & Em & E). injection E as <-. cbn [fst] in *. apply merge_mixed_ok in Em. destruct Em as [Em F].
    destruct (Sane s Hs) as (T & Os & Ss & _ & _). pose proof (Kept s r Hs Er) as K. apply restrict_mixed_ok in Er; [|exact T]. destruct Er as [Er _].
    pose proof (restrict_ok ar n fe _ _ _ Os Ss Er) as Or. split.
    + apply (merge_sound ar fe n _ _ _ Or Oa K Em F A v).
    + intros Inj H1 H2. apply (merge_general ar n fe _ _ _ Or Oa Em F A v Inj H1 H2).
Qed.
Theorem leaf_sent f rp : leaf n fe mm applied [] l f = Ok (Some rp) -> rp_need rp = true ->
  forall t, In t (rp_substs rp) -> forall A v, solves A v (binds (fst t)) -> solves A v (binds ap) /\ closable mm ap l A v.
Proof.
  intros E Nd t Ht A v Hv. apply manage_cases in E. destruct E as (d & Ed & E). pose proof (dispatch_lists rs l d Ed) as [(_ & I1 & C1) _].
  destruct E as [(_ & E)|[(p & _ & _ & Ep & E)|(x & p & Nl & En & Ex & Ep & E)]]; injection E as ->; try discriminate Nd. cbn [rp_substs] in Ht.
  unfold remove_empty in Ht. apply filter_In in Ht. destruct Ht as [Ht _]. pose proof Ex as Ex'. apply sending_ok in Ex'. destruct Ex' as (H1 & _).
  destruct (H1 t Ht) as [[]|(r & Hr & Er)]. destruct (I1 r Hr) as (_ & s & Hs & Es).
  destruct (merged s r f t Hs Es Er A v) as [M _]. destruct (M Hv) as [M1 M2]. split; [exact M2|]. apply (extends s r A v Hs Es M1 M2).
Qed.
Theorem leaf_complete found f rp : leaf n fe mm applied found l f = Ok (Some rp) -> rp_need rp = true ->
  (forall s r, In s l -> rs s = Ok r -> merge_mixed n fe r ap <> Ok []) ->
  forall s, In s l -> forall A v, injective A -> typeless A -> solves A v (binds s) -> solves A v (binds ap) ->
  exists t, In t (rp_substs rp) /\ solves A v (binds (fst t)).
Proof.
  intros E Nd NE s Hs A v Inj TA Sv Sa. apply manage_cases in E. destruct E as (d & Ed & E). pose proof (dispatch_lists rs l d Ed) as [(_ & I1 & C1) (_ & _ & C2)].
  destruct E as [(_ & E)|[(p & _ & _ & Ep & E)|(x & p & Nl & En & Ex & Ep & E)]]; injection E as ->; try discriminate Nd. cbn [rp_substs].
  destruct (dispatch_inv rs l [] _ _ Ed) as (_ & _ & All); [split; [constructor|split; [intros ? []|intros ? ? []]]|split; [constructor|split; intros ? []]|].
  destruct (All s Hs) as (r & Er). assert (Nr : r <> []) by (intros ->; destruct (C2 s Hs Er) as (? & H & _); rewrite En in H; destruct H).
  destruct (C1 s r Hs Er Nr) as (r' & Hr' & Sr). destruct (I1 r' Hr') as (Nr' & s' & Hs' & Er').
  pose proof Ex as Ex'. apply sending_ok in Ex'. destruct Ex' as (_ & _ & H3 & _). destruct (H3 r' Hr') as (t & t' & Et & Ht' & Eq).
  assert (Sr' : solves A v (binds r')).
  { apply (solves_same A v r r' TA Sr). destruct (Sane s Hs) as (T & Os & Ss & _ & _). apply restrict_mixed_ok in Er; [|exact T]. destruct Er as [Er _].
    apply (restrict_invents_nothing ar n fe _ _ _ Os Ss Er A v Inj Sv). }
  exists t'. split.
  - apply filter_In. split; [exact Ht'|]. destruct (fst t') eqn:Ef; [|reflexivity]. exfalso. pose proof (bindings_nil _ (bindings_sym _ _ Eq)) as E0.
    destruct r' as [|b0 r0]; [congruence|]. unfold merge_saf in Et. cbn [saf_empty] in Et. destruct (saf_empty applied).
    + injection Et as <-. discriminate E0.
    + apply out_ok in Et. destruct Et as (m & Em & Et). injection Et as <-. cbn in E0. subst m. apply (NE s' _ Hs' Er' Em).
  - apply (solves_same A v (fst t) (fst t') TA (bindings_sym _ _ Eq)). apply (merged s' r' f t Hs' Er' Et A v); assumption.
Qed.
End Leaf.
