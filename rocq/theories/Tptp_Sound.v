(** A list of steps that the checker of [Tptp_Spec] accepts proves the conjecture from the axioms. *)
From Coq Require Import ZArith List Bool String Lia Classical.
From Verif Require Import Ast_Model Ast_Proofs Sem_Spec Sem_Proofs Occ_Spec Free_Spec Free_Proofs Rules_Proofs Unif_Model GsTerm_Spec GsProof_Model GsProof_Spec GsProof_Sound Tptp_Model Tptp_Spec Tptp_Order Tptp_Rules.
Import ListNotations.
Open Scope list_scope.
Open Scope Z_scope.

(** ** Instances *)
Section Inst.
Variables (i : Z) (u : term).
Hypothesis Uv : t_vars u = [].
Hypothesis Ut : t_tyvars u = [].
Lemma vinst_ev I (v : val I) t : ev v (vinst i u t) = ev (set_bv v i (ev v u)) t.
Proof.
  induction t as [p|p tys l IH|j n|m] using term_ind'; cbn; [reflexivity| |unfold Sem_Spec.upd; destruct (j =? i); reflexivity|reflexivity]. f_equal; [apply map_ext; intros t; symmetry; apply evty_set_bv|].
  rewrite map_map. apply map_ext_in. intros a Ha. rewrite Forall_forall in IH. apply IH, Ha.
Qed.
Lemma fvinst_holds f : ~ In i (map tv_index (f_binders f)) -> forall I (v : val I), holds (fvinst i u f) v <-> holds f (set_bv v i (ev v u)).
Proof.
  assert (Q : forall vs g, ~ In i (map tv_index (vs ++ f_binders g)) -> (forall x, In x vs -> tv_index x <> i /\ ~ In (tv_index x) (t_vars u) /\ ~ In (tv_name x) (t_tyvars u)) /\ ~ In i (map tv_index (f_binders g))).
  { intros vs g N. rewrite map_app in N. split; [|intros H; apply N, in_or_app; right; exact H]. intros x Hx. rewrite Uv, Ut. split; [|split; intros []]. intros E. apply N, in_or_app. left. rewrite <- E. apply in_map, Hx. }
  assert (L : forall l, Forall (fun f => ~ In i (map tv_index (f_binders f)) -> forall I (v : val I), holds (fvinst i u f) v <-> holds f (set_bv v i (ev v u))) l ->
    ~ In i (map tv_index (flat_map f_binders l)) -> forall I (v : val I), Forall (fun f => holds (fvinst i u f) v <-> holds f (set_bv v i (ev v u))) l).
  { intros l H N I v. apply Forall_forall. intros g Hg. rewrite Forall_forall in H. apply H; [exact Hg|]. intros K. apply N. apply in_map_iff in K. destruct K as (x & <- & Hx). apply in_map. apply in_flat_map. eauto. }
  induction f using form_ind'; intros N I v; cbn [fvinst f_binders] in *.
  - destruct (Q _ _ N) as [A B]. exact (proj1 (quant_step i u f (fvinst i u f) vs A (IHf B I) v)).
  - destruct (Q _ _ N) as [A B]. exact (proj2 (quant_step i u f (fvinst i u f) vs A (IHf B I) v)).
  - cbn. specialize (L fs H N I v). clear - L. induction L as [|f0 fs Hf L IH]; cbn; [reflexivity|]. rewrite Hf, IH. reflexivity.
  - cbn. specialize (L fs H N I v). clear - L. induction L as [|f0 fs Hf L IH]; cbn; [reflexivity|]. rewrite Hf, IH. reflexivity.
  - rewrite map_app, in_app_iff in N. cbn. rewrite IHf1, IHf2 by tauto. reflexivity.
  - rewrite map_app, in_app_iff in N. cbn. rewrite IHf1, IHf2 by tauto. reflexivity.
  - cbn. rewrite IHf by exact N. reflexivity.
  - cbn. rewrite map_map. replace (map (evty (set_bv v i (ev v u))) tys) with (map (evty v) tys) by (apply map_ext; intros t; symmetry; apply evty_set_bv).
    replace (map (fun x => ev v (vinst i u x)) args) with (map (ev (set_bv v i (ev v u))) args) by (apply map_ext; intros t; symmetry; apply vinst_ev). reflexivity.
  - reflexivity.
  - reflexivity.
Qed.
End Inst.
Lemma may_inst_ok x vs b u : may_inst x vs b u = true -> is_ttype (tv_ty x) = false /\ t_vars u = [] /\ t_tyvars u = [] /\ ~ In (tv_index x) (map tv_index (vs ++ f_binders b)).
Proof.
  unfold may_inst. rewrite !andb_true_iff, !negb_true_iff. intros ((A & B) & C). split; [exact A|]. destruct (t_vars u), (t_tyvars u); try discriminate. split; [reflexivity|]. split; [reflexivity|].
  intros H. rewrite <- not_true_iff_false in C. apply C, existsb_exists. exists (tv_index x). split; [exact H|apply Z.eqb_refl].
Qed.
Lemma inst_all_holds x vs b u I (v : val I) : may_inst x vs b u = true -> (holds (inst_all x vs b u) v <-> holds (All 0 vs b) (set_bv v (tv_index x) (ev v u))).
Proof.
  intros M. destruct (may_inst_ok _ _ _ _ M) as (_ & U1 & U2 & N).
  transitivity (holds (fvinst (tv_index x) u (All 0 vs b)) v); [destruct vs; reflexivity|]. apply fvinst_holds; auto.
Qed.
Lemma inst_ex_holds x vs b u I (v : val I) : may_inst x vs b u = true -> (holds (inst_ex x vs b u) v <-> holds (Ex 0 vs b) (set_bv v (tv_index x) (ev v u))).
Proof.
  intros M. destruct (may_inst_ok _ _ _ _ M) as (_ & U1 & U2 & N).
  transitivity (holds (fvinst (tv_index x) u (Ex 0 vs b)) v); [destruct vs; reflexivity|]. apply fvinst_holds; auto.
Qed.

(** ** New constants *)
(** the constant means [d] *)
Definition const (I : interp) (c : Z) (d : D I) : Z -> list (T I) -> list (D I) -> D I := fun s ts ds => if s =? c then d else fn I s ts ds.
Section Const.
Variables (I : interp) (c : Z) (d : D I).
Let J := refn I (const I c d).
Notation "^ v" := (revalF (const I c d) v) (at level 5).
Lemma const_evty (v : val I) t : @evty J ^v t = @evty I v t.
Proof.
  induction t using ty_ind'; cbn; try reflexivity.
  - f_equal. apply map_ext_in. intros a Ha. rewrite Forall_forall in H. apply H, Ha.
  - f_equal. apply map_ext_in. intros a Ha. rewrite Forall_forall in H. apply H, Ha.
  - f_equal; assumption.
  - f_equal; assumption.
Qed.
Lemma const_ev (v : val I) t : (forall p, In p (t_syms t) -> id_index p <> c) -> @ev J ^v t = @ev I v t.
Proof.
  induction t as [p|p tys l IH|j n|m] using term_ind'; intros H; cbn; try reflexivity.
  - unfold const. destruct (Z.eqb_spec (id_index p) c) as [E|]; [destruct (H p (or_introl eq_refl) E)|reflexivity].
  - unfold const. destruct (Z.eqb_spec (id_index p) c) as [E|]; [destruct (H p (or_introl eq_refl) E)|]. f_equal.
    + apply map_ext. intros t. apply const_evty.
    + apply map_ext_in. intros a Ha. rewrite Forall_forall in IH. apply IH; [exact Ha|]. intros q Hq. apply H. right. apply in_flat_map. eauto.
Qed.
Lemma const_vars f vs : (forall v : val I, holds f v <-> @holds J f ^v) -> forall v : val I,
  (forall_vars vs (holds f) v <-> @forall_vars J vs (holds f) ^v) /\ (exists_vars vs (holds f) v <-> @exists_vars J vs (holds f) ^v).
Proof.
  intros H. induction vs as [|x vs IH]; intros v; cbn; [split; apply H|]. destruct (is_ttype (tv_ty x)).
  - split; split.
    + intros K t. apply (proj1 (IH (set_tbv v (tv_name x) t))), K.
    + intros K t. apply (proj1 (IH (set_tbv v (tv_name x) t))), K.
    + intros [t K]. exists t. apply (proj2 (IH (set_tbv v (tv_name x) t))), K.
    + intros [t K]. exists t. apply (proj2 (IH (set_tbv v (tv_name x) t))), K.
  - split; split.
    + intros K t. apply (proj1 (IH (set_bv v (tv_index x) t))), K.
    + intros K t. apply (proj1 (IH (set_bv v (tv_index x) t))), K.
    + intros [t K]. exists t. apply (proj2 (IH (set_bv v (tv_index x) t))), K.
    + intros [t K]. exists t. apply (proj2 (IH (set_bv v (tv_index x) t))), K.
Qed.
Lemma const_holds f : (forall p, In p (f_syms f) -> id_index p <> c) -> forall v : val I, holds f v <-> @holds J f ^v.
Proof.
  assert (L : forall l, Forall (fun f => (forall p, In p (f_syms f) -> id_index p <> c) -> forall v : val I, holds f v <-> @holds J f ^v) l ->
    (forall p, In p (flat_map f_syms l) -> id_index p <> c) -> forall v : val I, Forall (fun f => holds f v <-> @holds J f ^v) l).
  { intros l H N v. apply Forall_forall. intros g Hg. rewrite Forall_forall in H. apply H; [exact Hg|]. intros p Hp. apply N, in_flat_map. eauto. }
  unfold f_syms in *. induction f using form_ind'; intros N v; cbn [f_collect] in *.
  - apply const_vars. auto.
  - apply const_vars. auto.
  - cbn. specialize (L fs H N v). clear - L. induction L as [|f0 fs Hf L IH]; cbn; [reflexivity|]. rewrite Hf, IH. reflexivity.
  - cbn. specialize (L fs H N v). clear - L. induction L as [|f0 fs Hf L IH]; cbn; [reflexivity|]. rewrite Hf, IH. reflexivity.
  - cbn. rewrite (IHf1 (fun p Hp => N p (in_or_app _ _ _ (or_introl Hp))) v), (IHf2 (fun p Hp => N p (in_or_app _ _ _ (or_intror Hp))) v). reflexivity.
  - cbn. rewrite (IHf1 (fun p Hp => N p (in_or_app _ _ _ (or_introl Hp))) v), (IHf2 (fun p Hp => N p (in_or_app _ _ _ (or_intror Hp))) v). reflexivity.
  - cbn. rewrite (IHf N v). reflexivity.
  - cbn. rewrite (map_ext _ _ (const_evty v)). rewrite (map_ext_in (@ev J ^v) (@ev I v)); [reflexivity|]. intros a Ha. apply const_ev. intros q Hq. apply N, in_flat_map. eauto.
  - reflexivity.
  - reflexivity.
Qed.
End Const.
Lemma new_constant_out u fs : new_constant_in u fs = true -> exists c, u = Fun c [] [] /\ forall f p, In f fs -> In p (f_syms f) -> id_index p <> id_index c.
Proof.
  destruct u as [|c [|] [|]| |]; try discriminate. cbn. intros H. exists c. split; [reflexivity|]. intros f p Hf Hp. rewrite forallb_forall in H. specialize (H p). rewrite andb_true_iff, !negb_true_iff in H.
  destruct H as [_ H]; [apply in_flat_map; eauto|]. apply Z.eqb_neq, H.
Qed.

(** ** Sequents *)
Definition all_hold {I} (l : list form) (v : val I) : Prop := forall f, In f l -> holds f v.
Definition some_hold {I} (l : list form) (v : val I) : Prop := exists f, In f l /\ holds f v.
(** in every interpretation of the axioms *)
Definition entails (axs : list form) (q : sq) : Prop := forall I (v : val I), all_hold axs v -> all_hold (fst q) v -> some_hold (snd q) v.
Lemma same_holds f g I (v : val I) : same f g -> (holds f v <-> holds g v).
Proof. intros S. apply form_eqb_equiv, S. Qed.
Lemma within_all l m I (v : val I) : within l m = true -> all_hold m v -> all_hold l v.
Proof. intros W H f Hf. apply within_cov in W. destruct (W f Hf) as (h & Hh & S). apply (same_holds h f I v S), H, Hh. Qed.
Lemma within_some l m I (v : val I) : within l m = true -> some_hold l v -> some_hold m v.
Proof. intros W (f & Hf & K). apply within_cov in W. destruct (W f Hf) as (h & Hh & S). exists h. split; [exact Hh|]. apply (same_holds h f I v S), K. Qed.
Lemma mem_holds f m I (v : val I) : mem f m = true -> all_hold m v -> holds f v.
Proof. intros M H. apply mem_avail in M. destruct M as (h & Hh & S). apply (same_holds h f I v S), H, Hh. Qed.
Lemma all_app l m I (v : val I) : all_hold l v -> all_hold m v -> all_hold (l ++ m) v.
Proof. intros A B f Hf. apply in_app_iff in Hf. destruct Hf; auto. Qed.

Lemma premise_ok axs l r extra p I (v : val I) : entails axs p -> within (fst p) (extra ++ l) && within (snd p) r = true ->
  all_hold axs v -> all_hold l v -> all_hold extra v -> some_hold r v.
Proof.
  intros Hp W A L X. apply andb_true_iff in W. destruct W as [W1 W2]. apply (within_some _ _ _ _ W2). apply (Hp I v A). apply (within_all _ _ _ _ W1). apply all_app; assumption.
Qed.
Lemma parts_ok rl f cs I (v : val I) : parts rl f = Some cs -> holds f v -> exists c, In c cs /\ all_hold c v.
Proof.
  assert (ONE : forall g : form, holds g v -> all_hold [g] v) by (intros g Hg x [<-|[]]; exact Hg).
  assert (TWO : forall g h : form, holds g v -> holds h v -> all_hold [g; h] v) by (intros g h Hg Hh x [<-|[<-|[]]]; assumption).
  intros P H. destruct f as [| |k fs|k fs|k f1 f2|k f1 f2|k f| | |]; try discriminate; cbn in P.
  - destruct (rl =? "leftOr")%string; [|discriminate]. injection P as <-. cbn in H. apply fold_or_exists in H. destruct H as (g & Hg & H). exists [g]. split; [apply (in_map (fun a => [a])), Hg|apply ONE, H].
  - destruct (rl =? "leftAnd")%string; [|discriminate]. injection P as <-. cbn in H. exists fs. split; [left; reflexivity|]. intros g Hg. apply (proj1 (fold_and_forall _ _) H g Hg).
  - destruct (rl =? "leftIff")%string; [|discriminate]. injection P as <-. cbn in H. eexists. split; [left; reflexivity|]. apply TWO; cbn; tauto.
  - destruct (rl =? "leftImp2")%string; [|discriminate]. injection P as <-. cbn in H. destruct (classic (holds f1 v)) as [A|A].
    + exists [f2]. split; [right; left; reflexivity|apply ONE; auto].
    + exists [neg f1]. split; [left; reflexivity|apply ONE; exact A].
  - destruct f as [| |j fs|j fs|j f1 f2|j f1 f2|j f| | |]; try discriminate; cbn in H.
    + destruct (rl =? "leftNotOr")%string; [|discriminate]. injection P as <-. eexists. split; [left; reflexivity|]. intros g Hg. apply in_map_iff in Hg. destruct Hg as (a & <- & Ha). cbn. intros K. apply H. apply fold_or_exists. eauto.
    + destruct (rl =? "leftNotAnd")%string; [|discriminate]. injection P as <-. apply NNPP. intros K. apply H. apply fold_and_forall. intros a Ha. apply NNPP. intros Na. apply K. exists [neg a]. split; [apply (in_map (fun a => [neg a])), Ha|apply ONE; exact Na].
    + destruct (rl =? "leftNotIff")%string; [|discriminate]. injection P as <-. destruct (classic (holds f1 v -> holds f2 v)) as [A|A].
      * exists [neg (Imp 0 f2 f1)]. split; [right; left; reflexivity|]. apply ONE. cbn. tauto.
      * exists [neg (Imp 0 f1 f2)]. split; [left; reflexivity|]. apply ONE. exact A.
    + destruct (rl =? "leftNotImplies")%string; [|discriminate]. injection P as <-. eexists. split; [left; reflexivity|]. apply TWO; [apply NNPP; tauto|cbn; tauto].
    + destruct (rl =? "leftNotNot")%string; [|discriminate]. injection P as <-. eexists. split; [left; reflexivity|]. apply ONE. apply NNPP, H.
Qed.
(** a universal rule keeps the interpretation *)
Lemma quantified_gamma rl f u g I (v : val I) : quantified rl f u = Some g -> is_delta_rule rl = false -> holds f v -> holds g v.
Proof.
  intros Q N H. destruct f as [k vs f|k vs f| | | | |k f| | |]; try discriminate; cbn in Q.
  - destruct vs as [|x vs]; [discriminate|]. destruct (rl =? "leftForall")%string; [|discriminate]. cbn [andb] in Q. destruct (may_inst x vs f u) eqn:M; [|discriminate]. injection Q as <-.
    apply (inst_all_holds _ _ _ _ _ _ M). cbn in H. destruct (may_inst_ok _ _ _ _ M) as (E & _). rewrite E in H. apply H.
  - destruct vs as [|x vs]; [discriminate|]. unfold is_delta_rule in N. destruct (rl =? "leftExists")%string; discriminate.
  - destruct f as [j vs f|j vs f| | | | | | | |]; try discriminate.
    + destruct vs as [|x vs]; [discriminate|]. unfold is_delta_rule in N. destruct (rl =? "leftNotAll")%string; [|discriminate]. rewrite orb_true_r in N. discriminate.
    + destruct vs as [|x vs]; [discriminate|]. destruct (rl =? "leftNotEx")%string; [|discriminate]. cbn [andb] in Q. destruct (may_inst x vs f u) eqn:M; [|discriminate]. injection Q as <-. cbn. intros K.
      apply (inst_ex_holds _ _ _ _ _ _ M) in K. apply H. cbn. destruct (may_inst_ok _ _ _ _ M) as (E & _). rewrite E. eexists. exact K.
Qed.
(** an existential rule gives a meaning to the constant *)
Lemma quantified_delta rl f c g I (v : val I) : quantified rl f (Fun c [] []) = Some g -> is_delta_rule rl = true -> (forall p, In p (f_syms f) -> id_index p <> id_index c) ->
  holds f v -> exists d, holds g (revalF (const I (id_index c) d) v).
Proof.
  intros Q D Fr H. assert (EV : forall d, ev (revalF (const I (id_index c) d) v) (Fun c [] []) = d) by (intros d; cbn; unfold const; rewrite Z.eqb_refl; reflexivity).
  destruct f as [k vs f|k vs f| | | | |k f| | |]; try discriminate; cbn in Q.
  - destruct vs as [|x vs]; [discriminate|]. unfold is_delta_rule in D. destruct (String.eqb_spec rl "leftForall") as [->|]; discriminate.
  - destruct vs as [|x vs]; [discriminate|]. destruct (rl =? "leftExists")%string; [|discriminate]. cbn [andb] in Q. destruct (may_inst x vs f (Fun c [] [])) eqn:M; [|discriminate]. injection Q as <-.
    cbn in H. destruct (may_inst_ok _ _ _ _ M) as (E & _). rewrite E in H. destruct H as [d H]. exists d. apply (inst_ex_holds _ _ _ _ _ _ M). rewrite EV.
    apply (const_holds I (id_index c) d (Ex 0 vs f) Fr (set_bv v (tv_index x) d)). exact H.
  - destruct f as [j vs f|j vs f| | | | | | | |]; try discriminate.
    + destruct vs as [|x vs]; [discriminate|]. destruct (rl =? "leftNotAll")%string; [|discriminate]. cbn [andb] in Q. destruct (may_inst x vs f (Fun c [] [])) eqn:M; [|discriminate]. injection Q as <-.
      cbn in H. destruct (may_inst_ok _ _ _ _ M) as (E & _). rewrite E in H. apply not_all_ex_not in H. destruct H as [d H]. exists d. cbn. intros K. apply (inst_all_holds _ _ _ _ _ _ M) in K. rewrite EV in K.
      apply H. apply (const_holds I (id_index c) d (All 0 vs f) Fr (set_bv v (tv_index x) d)). exact K.
    + destruct vs as [|x vs]; [discriminate|]. unfold is_delta_rule in D. destruct (String.eqb_spec rl "leftNotEx") as [->|]; discriminate.
Qed.
Lemma rule_sound axs s ps (l := t_left s) (r := t_right s) : (forall p, In p ps -> entails axs p) -> rule_ok s ps = true -> new_to s axs = true -> entails axs (l, r).
Proof.
  intros Hps R F I v A L. cbn [fst snd] in *. unfold rule_ok in R. cbv zeta in R. change (t_left s) with l in R. change (t_right s) with r in R. clearbody l r. destruct (t_pos s) as [i|].
  2:{ destruct ps; [|discriminate]. apply andb_true_iff in R. destruct R as [_ R]. apply existsb_exists in R. destruct R as (f & Hf & M). destruct (mem_holds _ _ _ _ M L (L f Hf)). }
  destruct (t_rule s =? "cut")%string.
  { destruct ps as [|p [|q [|]]]; try discriminate. destruct (nth_error (snd p) i) as [a|]; [|discriminate]. rewrite !andb_true_iff in R. destruct R as (((R1 & R2) & R3) & R4).
    pose proof (within_some _ _ _ _ R2 (Hps p (or_introl eq_refl) I v A (within_all _ _ _ _ R1 L))) as (g & [<-|Hg] & K); [|exists g; auto].
    apply (within_some _ _ _ _ R4). apply (Hps q (or_intror (or_introl eq_refl)) I v A). apply (within_all _ _ _ _ R3). intros x [<-|Hx]; auto. }
  destruct (t_rule s =? "rightNot")%string.
  { destruct (nth_error r i) as [g|] eqn:G; [|discriminate]. destruct g as [| | | | | |j a| | |]; try discriminate. destruct ps as [|p [|]]; try discriminate. destruct (classic (holds a v)) as [Ha|Ha].
    - apply (premise_ok axs l r [a] p); auto; [apply Hps; left; reflexivity|]. intros x [<-|[]]. exact Ha.
    - exists (Not j a). split; [eapply nth_error_In, G|exact Ha]. }
  destruct (nth_error l i) as [f|] eqn:G; [|discriminate]. apply nth_error_In in G. pose proof (L f G) as Hf.
  destruct (t_rule s =? "hyp")%string.
  { destruct ps; [|discriminate]. apply mem_avail in R. destruct R as (h & Hh & S). exists h. split; [exact Hh|]. apply (same_holds h f I v S), Hf. }
  destruct (t_rule s =? "leftHyp")%string.
  { destruct ps; [|discriminate]. destruct (mem_holds _ _ _ _ R L Hf). }
  destruct (t_rule s =? "leftWeaken")%string.
  { destruct ps as [|p [|]]; try discriminate. apply andb_true_iff in R. destruct R as [R1 R2]. apply (within_some _ _ _ _ R2). apply (Hps p (or_introl eq_refl) I v A). apply (within_all _ _ _ _ R1).
    intros x Hx. apply L. clear - Hx. revert i Hx. generalize l. induction l0 as [|y m IH]; intros [|i] Hx; cbn in Hx; auto; [right; exact Hx|]. destruct Hx as [->|Hx]; [left; reflexivity|right; eauto]. }
  destruct (t_term s) as [u|] eqn:Et.
  - destruct (quantified (t_rule s) f u) as [g|] eqn:Q; [|discriminate]. destruct ps as [|p [|]]; try discriminate. apply andb_true_iff in R. destruct R as [R1 R2].
    destruct (is_delta_rule (t_rule s)) eqn:D.
    + cbn [negb orb] in R2. unfold new_to in F. rewrite D, Et in F. cbn [negb orb] in F. destruct (new_constant_out _ _ R2) as (c & -> & Fr). destruct (new_constant_out _ _ F) as (c' & E' & Fa). injection E' as <-.
      assert (FF : forall x, In x (axs ++ l ++ r) -> forall p, In p (f_syms x) -> id_index p <> id_index c).
      { intros x Hx q Hq. apply in_app_iff in Hx. destruct Hx as [Hx|Hx]; [eapply Fa|eapply Fr]; eauto. }
      pose proof (FF f ltac:(rewrite !in_app_iff; auto)) as Ff. destruct (quantified_delta _ _ _ _ _ _ Q D Ff Hf) as [d Hg].
      assert (K : some_hold r (revalF (const I (id_index c) d) v)).
      { apply (premise_ok axs l r [g] p); auto; [apply Hps; left; reflexivity| | |].
        - intros x Hx. apply (const_holds I (id_index c) d x (FF x ltac:(rewrite !in_app_iff; auto)) v), A, Hx.
        - intros x Hx. apply (const_holds I (id_index c) d x (FF x ltac:(rewrite !in_app_iff; auto)) v), L, Hx.
        - intros x [<-|[]]. exact Hg. }
      destruct K as (x & Hx & K). exists x. split; [exact Hx|]. apply (const_holds I (id_index c) d x (FF x ltac:(rewrite !in_app_iff; auto)) v), K.
    + apply (premise_ok axs l r [g] p); auto; [apply Hps; left; reflexivity|]. intros x [<-|[]]. eapply quantified_gamma; eauto.
  - destruct (parts (t_rule s) f) as [cs|] eqn:P; [|discriminate]. apply andb_true_iff in R. destruct R as [R1 R2]. apply Nat.eqb_eq in R1.
    destruct (parts_ok _ _ _ I v P Hf) as (c & Hc & Kc). rewrite forallb_forall in R2.
    assert (Z : exists p, In (c, p) (combine cs ps)).
    { clear - Hc R1. revert R1. generalize ps. induction cs as [|x cs IH]; intros [|p qs] E; try discriminate; [destruct Hc|]. destruct Hc as [->|Hc]; [exists p; left; reflexivity|]. destruct (IH Hc qs) as [q Hq]; [injection E as E; exact E|]. exists q. right. exact Hq. }
    destruct Z as [p Hp]. specialize (R2 _ Hp). apply in_combine_r in Hp. apply (premise_ok axs l r c p); auto.
Qed.

(** ** Whole derivations *)
Lemma find_seq_app a b n : In n (map fst a) -> exists q, find_seq (a ++ b) n = Some q /\ In (n, q) a.
Proof.
  unfold find_seq. induction a as [|[m q] a IH]; intros H; [destruct H|]. cbn [app find fst]. destruct (sid_eq_dec m n) as [->|Ne].
  - exists q. split; [reflexivity|left; reflexivity].
  - destruct H as [H|H]; [cbn in H; congruence|]. destruct (IH H) as (q' & E & K). exists q'. split; [exact E|right; exact K].
Qed.
Lemma find_all_app a b ns ps : (forall n, In n ns -> In n (map fst a)) -> find_all (a ++ b) ns = Some ps -> forall p, In p ps -> exists n, In (n, p) a.
Proof.
  revert ps. induction ns as [|n ns IH]; intros ps H E p Hp; cbn in E; [injection E as <-; destruct Hp|].
  destruct (find_seq_app a b n (H n (or_introl eq_refl))) as (q & Eq & Hq). rewrite Eq in E. destruct (find_all (a ++ b) ns) as [qs|] eqn:Ea; [|discriminate]. injection E as <-.
  destruct Hp as [<-|Hp]; [eauto|]. eapply IH; eauto. intros m Hm. apply H. right. exact Hm.
Qed.
Lemma seqs_sound ls : derivation ls = true -> forall a b, ls = a ++ b -> forall n q, In (n, q) (seqs a) -> entails (axioms_of ls) q.
Proof.
  intros D. unfold derivation in D. apply andb_true_iff in D. destruct D as [O S]. rewrite forallb_forall in S.
  intros a. induction a as [|x a IH] using rev_ind; intros b E n q H; [destruct H|].
  unfold seqs in H. rewrite flat_map_app in H. apply in_app_iff in H. rewrite <- app_assoc in E. destruct H as [H|H]; [eapply (IH ([x] ++ b)); eauto|].
  cbn in H. rewrite app_nil_r in H. assert (Hx : In x ls) by (rewrite E; apply in_or_app; right; left; reflexivity).
  destruct x as [m f|f|s|t|]; try contradiction; destruct H as [H|[]]; injection H as <- <-.
  - intros I v A _. exists f. split; [left; reflexivity|]. apply A. unfold axioms_of. apply in_flat_map. exists (LAxiom m f). split; [exact Hx|left; reflexivity].
  - specialize (S _ Hx). cbn in S. unfold step_ok in S. destruct (find_all (seqs ls) (t_prem s)) as [ps|] eqn:Ef; [|discriminate]. apply andb_true_iff in S. destruct S as [S1 S2].
    apply (rule_sound (axioms_of ls) s ps); [|exact S1|exact S2].
    intros p Hp. rewrite E in O. rewrite ordered_app in O. apply andb_true_iff in O. destruct O as [_ O]. cbn [app ordered] in O. rewrite !andb_true_iff in O. destruct O as ((_ & O) & _). rewrite forallb_forall in O.
      rewrite E in Ef. unfold seqs in Ef. rewrite flat_map_app in Ef. destruct (find_all_app (seqs a) _ _ _ ltac:(intros m Hm; specialize (O m Hm); apply named_in in O; rewrite app_nil_r in O; exact O) Ef p Hp) as (m & Hm).
      eapply (IH ([LStep s] ++ b)); eauto.
Qed.
Theorem derivation_sound ls c : derivation ls = true -> concludes ls c -> forall I (v : val I), all_hold (axioms_of ls) v -> holds c v.
Proof.
  intros D (_ & l & s & E & Le & Ri) I v A.
  assert (K : In (t_name s, (t_left s, t_right s)) (seqs ls)) by (rewrite E; unfold seqs; rewrite flat_map_app; apply in_or_app; right; left; reflexivity).
  destruct (seqs_sound ls D ls [] ltac:(rewrite app_nil_r; reflexivity) _ _ K I v A) as (f & Hf & H); [cbn; rewrite Le; intros f []|]. cbn in Hf. rewrite Ri in Hf. destruct Hf as [<-|[]]. exact H.
Qed.
