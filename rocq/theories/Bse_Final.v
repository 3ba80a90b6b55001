(** The answers of the equality reasoning: soundness of the runs without the two defects, and these runs among the real ones. *)
From Coq Require Import ZArith List Bool String Lia.
From Verif Require Import Ast_Model Ast_Proofs Sem_Spec Subst_Model Subst_Proofs Unif_Model Unif_Spec UnifLoss_Model UnifRun_Proofs UnifLoss_Proofs
  UnifTree_Model UnifTree_Spec UnifTree_Proofs UnifTree_Final Lpo_Model Bse_Model Bse_Spec Bse_Proofs.
Import ListNotations.
Open Scope list_scope.
Open Scope Z_scope.

Lemma skipn_incl {T} n (l : list T) : incl (skipn n l) l.
Proof. intros x H. rewrite <- (firstn_skipn n l). apply in_app_iff. right. exact H. Qed.
Lemma tev_msubst A v k u t : v k = tev A v u -> tev A v (msubst k u t) = tev A v t.
Proof.
  intros H. induction t as [i|p tys l IH|i n|m] using term_ind'; try reflexivity.
  - cbn. f_equal. rewrite map_map. apply map_ext_in. intros a Ha. rewrite Forall_forall in IH. apply IH, Ha.
  - cbn. destruct (m_index m =? k) eqn:E; [|reflexivity]. apply Z.eqb_eq in E. rewrite E. symmetry. exact H.
Qed.

Section Sound.
Variable ar : signature.
Hypothesis D : distinct_names ar.
Variable name_id : string -> ident.
Variable query : node -> item -> out (list (item * substs)).
Hypothesis Hq : forall fs k q l, make_tree name_id fs = Some k -> query k q = Ok l -> forall f s, In (f, s) l -> In f fs.
Variable add : term -> term -> substs -> out substs.
Hypothesis Hadd : add_ok ar True add.

Theorem answers_good :
  (forall ep last b l, answer name_id query add kept ep last b l -> goodP ar ep -> goodA ar ep l) /\
  (forall ep last b l, rules name_id query add kept ep last b l -> goodP ar ep -> goodA ar ep l) /\
  (forall ep rs b l, managed name_id query add kept ep rs b l -> goodP ar ep ->
     (forall u, In u rs -> rule_ok ar (p_E ep) u /\ rule_at ep u) -> goodA ar ep l) /\
  (forall ep u b l, child name_id query add kept ep u b l -> goodP ar ep -> rule_ok ar (p_E ep) u -> rule_at ep u -> kept u = true -> goodA ar ep l).
Proof.
  assert (Hc : forall ep last u, goodP ar ep -> checked add ep last = Ok u -> goodA ar ep u).
  { intros ep [i|] u G H s Hs; cbn in H; [injection H as <-; destruct Hs|]. destruct (check_unif_good ar add Hadd ep u G H s Hs) as (O & N & Q).
    split; [exact O|]. split; [exact N|]. intros A v Hv _. apply Q, Hv. }
  apply answer_mutind.
  - intros ep last u H _ G. apply (Hc ep last u G H).
  - intros ep last u b l H _ _ IH G s Hs. apply in_app_iff in Hs. destruct Hs as [Hs|Hs]; [apply (Hc ep last u G H s Hs)|apply (IH G s Hs)].
  - intros ep last rs l Hr _ IH G. apply (IH G). intros u Hu. destruct (right_rules_ok ar D name_id query Hq ep rs G Hr u Hu) as (R & At & _). auto.
  - intros ep last rs rs' b l _ _ _ Hl _ IH G. apply (IH G). intros u Hu. destruct G as (WE & _). unfold left_rules in Hl.
    destruct (left_rules_ok ar D name_id query Hq (p_E ep) WE _ _ _ (skipn_incl _ _) Hl u Hu) as (R & L & At).
    split; [exact R|]. unfold rule_at. rewrite L. exact At.
  - intros ep rs u l Hu Hk _ IH G HR s Hs. apply (in_dedup l [] s) in Hs. destruct Hs as [[]|Hs]. destruct (HR u Hu) as [R At]. apply (IH G R At Hk s Hs).
  - intros ep rs ls _ _ _ _ s [].
  - intros ep u _ _ _ _ _ s [].
  - intros ep u ep' last b l Ha _ IH G R At Hk s Hs. destruct (apply_rule_good ar add Hadd ep u ep' last G R At Ha) as (G' & N & Q).
    destruct (IH G' s Hs) as (O & N' & S). split; [exact O|]. split; [intros A w Hw; apply N, N', Hw|].
    intros A v Hv He. destruct (Q A v (N' A v Hv) He) as [He' Hgo]. apply (Hgo Hk). apply (S A v Hv He').
Qed.

(** *** Several goals *)
Variable fe : nat.
Lemma apply_all_good s : forall t, (forall k u, In (k, u) s -> well ar u) -> well ar t ->
  well ar (apply_all s t) /\ forall A v, solves A v s -> tev A v (apply_all s t) = tev A v t.
Proof.
  unfold apply_all. induction s as [|[k u] s IH]; intros t Ws Wt; [auto|]. cbn [fold_left fst snd].
  rewrite apply_subst_on_term_msubst. assert (Wu : well ar u) by (apply (Ws k u); left; reflexivity).
  destruct (IH (msubst (m_index k) u t)) as [I1 I2]; [intros k' u' H; apply (Ws k' u'); right; exact H|apply well_msubst; assumption|].
  split; [exact I1|]. intros A v Hv. rewrite I2 by (intros k' u' H; apply Hv; right; exact H). apply tev_msubst. apply Hv. left. reflexivity.
Qed.
Definition okP (ep : problem) : Prop := wellE ar (p_E ep) /\ well ar (p_s ep) /\ well ar (p_t ep) /\ p_c ep = empty_c.
Lemma okP_good ep : okP ep -> goodP ar ep.
Proof. intros (H1 & H2 & H3 & H4). split; [exact H1|]. split; [exact H2|]. split; [exact H3|]. rewrite H4. apply goodC_empty. Qed.
Lemma apply_problem_ok s ep : okS ar s -> okP ep -> okP (apply_problem s ep).
Proof.
  intros [_ O] (WE & Ws & Wt & _). assert (Q : forall k u, In (k, u) s -> well ar u) by (intros k u H; apply (O k u H)).
  split; [|split; [apply (apply_all_good s _ Q Ws)|split; [apply (apply_all_good s _ Q Wt)|reflexivity]]].
  intros a b H. cbn in H. apply in_map_iff in H. destruct H as ([x y] & E & Hin). cbn in E. injection E as <- <-. destruct (WE x y Hin).
  split; apply (apply_all_good s _ Q); assumption.
Qed.
Definition goodG (ep : problem) (s : substs) : Prop := okS ar s /\ solution (p_E ep) (p_s ep) (p_t ep) s.
Lemma each_good ep sl l : each name_id query add fe kept ep sl l -> okP ep -> Forall (okS ar) sl ->
  forall m, In m l -> okS ar m /\ solution (p_E ep) (p_s ep) (p_t ep) m /\ exists s, In s sl /\ entails m s.
Proof.
  induction 1 as [|s sl b l ms res Ha Hm He IH]; intros G O m Hin; [destruct Hin|]. inversion O as [|? ? Os Osl]; subst.
  apply in_app_iff in Hin. destruct Hin as [Hin|Hin].
  - pose proof (proj1 answers_good _ _ _ _ Ha (okP_good _ (apply_problem_ok s ep Os G))) as GA.
    assert (Q : exists e, In e l /\ merged add fe s e m).
    { clear -Hm Hin. induction Hm as [|e x l ms H1 H2 IH]; [destruct Hin|]. destruct Hin as [<-|Hin]; [exists e; split; [left|]; auto|].
      destruct (IH Hin) as (e' & H3 & H4). exists e'. split; [right|]; assumption. }
    destruct Q as (e & Hine & (Em & F & _)). destruct (GA e Hine) as (Oe & _ & Se).
    assert (Ad : add_ok ar (true = true) add).
    { intros a0 b0 s0 O0 Wa Wb. eapply safe_imp; [|apply (Hadd a0 b0 s0 O0 Wa Wb)]. intros r [Q|(Q1 & Q2)]; [auto|]. right. split; [exact Q1|]. intros _. apply Q2. exact Logic.I. }
    pose proof (merge_ok ar true fe add Ad s e Os Oe) as Q. rewrite Em in Q. cbn in Q. destruct Q as [Q|(Om & Q)]; [congruence|].
    assert (Q' : forall A w, solves A w m -> solves A w s /\ solves A w e) by (intros A w; apply (Q eq_refl)).
    split; [exact Om|]. split; [|exists s; split; [left; reflexivity|intros A w Hw; apply (Q' A w Hw)]].
    intros A v Hv HE. destruct (Q' A v Hv) as [Hs He']. destruct G as (WE & Ws & Wt & _).
    assert (Wk : forall k u, In (k, u) s -> well ar u) by (intros k u H; apply (proj2 Os k u H)).
    rewrite <- (proj2 (apply_all_good s _ Wk Ws) A v Hs), <- (proj2 (apply_all_good s _ Wk Wt) A v Hs).
    apply (Se A v He'). intros a b0 H. cbn in H. apply in_map_iff in H. destruct H as ([x y] & E & Hxy). cbn in E. injection E as <- <-.
    destruct (WE x y Hxy) as [Wx Wy]. rewrite (proj2 (apply_all_good s _ Wk Wx) A v Hs), (proj2 (apply_all_good s _ Wk Wy) A v Hs). apply HE, Hxy.
  - destruct (IH G Osl m Hin) as (H1 & H2 & s' & H3 & H4). split; [exact H1|]. split; [exact H2|]. exists s'. split; [right; exact H3|exact H4].
Qed.
Theorem goals_good eps sl res : goals name_id query add fe kept eps sl res -> Forall okP eps -> Forall (okS ar) sl ->
  forall m, In m res -> okS ar m /\ (forall ep, In ep eps -> solution (p_E ep) (p_s ep) (p_t ep) m) /\ (sl <> [] -> exists s, In s sl /\ entails m s).
Proof.
  induction 1 as [sl|ep r b l res Ha Hne Hg IH|ep r s sl l res He Hne Hg IH]; intros G O m Hin.
  - rewrite Forall_forall in O. split; [apply O, Hin|]. split; [intros ep []|]. intros _. exists m. split; [exact Hin|intros A w Hw; exact Hw].
  - inversion G as [|? ? Gep Gr]; subst. pose proof (proj1 answers_good _ _ _ _ Ha (okP_good _ Gep)) as GA.
    assert (Ol : Forall (okS ar) l) by (apply Forall_forall; intros x Hx; apply (GA x Hx)).
    destruct (IH Gr Ol m Hin) as (H1 & H2 & H3). destruct (H3 Hne) as (s & Hs & N). split; [exact H1|]. split; [|congruence].
    intros ep' [<-|H]; [|apply H2, H]. intros A v Hv HE. destruct (GA s Hs) as (_ & _ & S). apply (S A v (N A v Hv) HE).
  - inversion G as [|? ? Gep Gr]; subst. pose proof (each_good ep (s :: sl) l He Gep O) as GA.
    assert (Ol : Forall (okS ar) l) by (apply Forall_forall; intros x Hx; apply (GA x Hx)).
    destruct (IH Gr Ol m Hin) as (H1 & H2 & H3). destruct (H3 Hne) as (s1 & Hs1 & N). destruct (GA s1 Hs1) as (_ & S & s2 & Hs2 & N2).
    split; [exact H1|]. split.
    + intros ep' [<-|H]; [|apply H2, H]. intros A v Hv HE. apply (S A v (N A v Hv) HE).
    + intros _. exists s2. split; [exact Hs2|]. intros A w Hw. apply N2, N, Hw.
Qed.
End Sound.

(** ** The runs above are runs of the prover *)
Section Runs.
Variable name_id : string -> ident.
Variable query : node -> item -> out (list (item * substs)).
Variables add1 add2 : term -> term -> substs -> out substs.
Hypothesis Hr : forall a b s, refines (add1 a b s) (add2 a b s).
Lemma consistent_refines k c : refines (consistent_with add1 k c) (consistent_with add2 k c).
Proof.
  unfold consistent_with. destruct (k_prec k); [apply refines_refl|]. apply refines_bind; [apply Hr|]. intros s0.
  destruct (is_failure s0); [apply refines_refl|]. destruct s0; [apply refines_refl|]. apply refines_bind; [apply Hr|]. intros s1. apply refines_refl.
Qed.
Lemma append_refines k c : refines (append_if add1 k c) (append_if add2 k c).
Proof. unfold append_if. destruct (existsb _ _); [apply refines_refl|apply consistent_refines]. Qed.
Lemma apply_rule_refines u ep : refines (apply_rule add1 u ep) (apply_rule add2 u ep).
Proof.
  unfold apply_rule. apply refines_bind; [|intros; apply refines_refl]. unfold eq_rule. apply refines_bind; [apply append_refines|].
  intros [c1|]; [|apply refines_refl]. apply refines_bind; [apply append_refines|]. intros [c2|]; [|apply refines_refl].
  apply refines_bind; [apply append_refines|]. intros; apply refines_refl.
Qed.
Lemma checked_refines ep last : refines (checked add1 ep last) (checked add2 ep last).
Proof.
  unfold checked. destruct last; [apply refines_refl|]. unfold check_unif. apply refines_bind; [apply Hr|]. intros s0.
  destruct (is_failure s0); [apply refines_refl|]. apply refines_bind; [apply Hr|]. intros; apply refines_refl.
Qed.
Lemma refines_Ok {T} (x y : out T) a : refines x y -> x = Ok a -> y = Ok a.
Proof. intros [H|H] E; congruence. Qed.
Variable keep : rule -> bool.
Notation every := (fun _ : rule => true).
Theorem runs_real :
  (forall ep last b l, answer name_id query add1 keep ep last b l -> answer name_id query add2 every ep last b l) /\
  (forall ep last b l, rules name_id query add1 keep ep last b l -> rules name_id query add2 every ep last b l) /\
  (forall ep rs b l, managed name_id query add1 keep ep rs b l -> managed name_id query add2 every ep rs b l) /\
  (forall ep u b l, child name_id query add1 keep ep u b l -> child name_id query add2 every ep u b l).
Proof.
  apply answer_mutind.
  - intros ep last u H E. apply ans_stop; [|exact E]. apply (refines_Ok _ _ _ (checked_refines ep last) H).
  - intros ep last u b l H E _ IH. apply ans_rules; [|exact E|exact IH]. apply (refines_Ok _ _ _ (checked_refines ep last) H).
  - intros. eapply rules_right; eassumption.
  - intros. eapply rules_left; eassumption.
  - intros ep rs u l Hu _ _ IH. apply (man_found _ _ _ _ ep rs u l Hu eq_refl IH).
  - intros ep rs ls _ IH. apply (man_none _ _ _ _ ep rs ls IH).
  - intros ep u H. apply child_reject. apply (refines_Ok _ _ _ (apply_rule_refines u ep) H).
  - intros ep u ep' last b l H _ IH. eapply child_next; [apply (refines_Ok _ _ _ (apply_rule_refines u ep) H)|exact IH].
Qed.
Variable fe : nat.
Lemma merged_real s e m : merged add1 fe s e m -> merged add2 fe s e m.
Proof. intros (H1 & H2 & H3). split; [|auto]. apply (refines_Ok _ _ _ (merge_refines fe add1 add2 Hr s e) H1). Qed.
Lemma each_real ep sl l : each name_id query add1 fe keep ep sl l -> each name_id query add2 fe every ep sl l.
Proof.
  induction 1 as [|s sl b l ms res Ha Hm He IH]; [constructor|]. econstructor; [apply (proj1 runs_real), Ha| |exact IH].
  clear -Hm Hr. induction Hm; constructor; auto using merged_real.
Qed.
Theorem goals_real eps sl res : goals name_id query add1 fe keep eps sl res -> goals name_id query add2 fe every eps sl res.
Proof.
  induction 1 as [sl|ep r b l res Ha Hne Hg IH|ep r s sl l res He Hne Hg IH]; [constructor| |].
  - eapply goals_first; [apply (proj1 runs_real), Ha|exact Hne|exact IH].
  - eapply goals_next; [apply each_real, He|exact Hne|exact IH].
Qed.
End Runs.

(** ** With the unification of the prover *)
Lemma query_members name_id n fe fs k q l : make_tree name_id fs = Some k -> unify_real name_id n fe k q = Ok l -> forall f s, In (f, s) l -> In f fs.
Proof. intros T E f s H. apply (proj1 (search_direct name_id _ _ fs k q l T E) f s H). Qed.
Lemma strict_ok ar n fe : add_ok ar True (add_unif_s true n fe).
Proof.
  intros a b s O Wa Wb. eapply safe_imp; [|apply (add_s_ok ar true n fe a b s O Wa Wb)]. intros r [H|(H1 & _ & H2)]; [auto|]. right. split; [exact H1|].
  intros _. apply H2. reflexivity.
Qed.
Theorem step_sound ar name_id n fe ep rs u ep' last : distinct_names ar -> goodP ar ep ->
  right_rules name_id (unify_real name_id n fe) ep = Ok rs \/ (exists i, left_rules name_id (unify_real name_id n fe) ep i = Ok rs) -> In u rs ->
  apply_rule (add_unif_s true n fe) u ep = Ok (Some (ep', last)) ->
  goodP ar ep' /\ entails (c_sub (p_c ep')) (c_sub (p_c ep)) /\
  forall A v, solves A v (c_sub (p_c ep')) -> eqs A v (p_E ep) -> eqs A v (p_E ep') /\
    (kept u = true -> tev A v (p_s ep') = tev A v (p_t ep') -> tev A v (p_s ep) = tev A v (p_t ep)).
Proof.
  intros D G Hr Hu Ha. assert (R : rule_ok ar (p_E ep) u /\ rule_at ep u).
  { destruct Hr as [Hr|[i Hr]].
    - destruct (right_rules_ok ar D name_id _ (query_members name_id n fe) ep rs G Hr u Hu) as (R & At & _). auto.
    - destruct (left_rules_ok ar D name_id _ (query_members name_id n fe) (p_E ep) (proj1 G) _ _ _ (skipn_incl _ _) Hr u Hu) as (R & L & At).
      split; [exact R|]. unfold rule_at. rewrite L. exact At. }
  destruct R as [R At]. apply (apply_rule_good ar _ (strict_ok ar n fe) ep u ep' last G R At Ha).
Qed.
Theorem answer_sound ar name_id n fe E s t b l : distinct_names ar -> wellE ar E -> well ar s -> well ar t ->
  answer name_id (unify_real name_id n fe) (add_unif_s true n fe) kept (mkEP E s t empty_c) None b l ->
  forall sg, In sg l -> solution E s t sg.
Proof.
  intros D WE Ws Wt H sg Hin.
  apply (proj1 (answers_good ar D name_id _ (query_members name_id n fe) _ (strict_ok ar n fe)) _ _ _ _ H); [|exact Hin].
  split; [exact WE|]. split; [exact Ws|]. split; [exact Wt|]. apply goodC_empty.
Qed.
Theorem goals_sound ar name_id n fe E gs l : distinct_names ar -> wellE ar E -> wellE ar gs ->
  goals name_id (unify_real name_id n fe) (add_unif_s true n fe) fe kept (problems E gs) [] l ->
  forall sg, In sg l -> forall s t, In (s, t) gs -> solution E s t sg.
Proof.
  intros D WE Wg H sg Hin s t Hst.
  assert (G : Forall (okP ar) (problems E gs)).
  { apply Forall_forall. intros ep Hep. unfold problems in Hep. apply in_map_iff in Hep. destruct Hep as ([x y] & <- & Hxy). destruct (Wg x y Hxy).
    split; [exact WE|]. split; [assumption|]. split; [assumption|reflexivity]. }
  destruct (goals_good ar D name_id _ (query_members name_id n fe) _ (strict_ok ar n fe) fe _ _ _ H G (Forall_nil _) sg Hin) as (_ & Q & _).
  apply (Q (mkEP E s t empty_c)). unfold problems. apply in_map_iff. exists (s, t). split; [reflexivity|exact Hst].
Qed.
Theorem strict_runs name_id n fe :
  (forall ep last b l, answer name_id (unify_real name_id n fe) (add_unif_s true n fe) kept ep last b l ->
     answer name_id (unify_real name_id n fe) (add_unif n fe) (fun _ => true) ep last b l) /\
  (forall eps sl l, goals name_id (unify_real name_id n fe) (add_unif_s true n fe) fe kept eps sl l ->
     goals name_id (unify_real name_id n fe) (add_unif n fe) fe (fun _ => true) eps sl l).
Proof. split; [apply (runs_real name_id _ _ _ (strict_refines n fe) kept)|intros eps sl l; apply (goals_real name_id _ _ _ (strict_refines n fe) kept fe)]. Qed.
