(** The machine of [Rocq_Spec] accepts only valid statements. *)
From Coq Require Import ZArith List Bool String Lia Classical.
From Verif Require Import Ast_Model Ast_Proofs Sem_Spec Sem_Proofs Occ_Spec Free_Spec GsTerm_Spec GsProof_Model GsProof_Spec Tptp_Model Tptp_Spec Tptp_Rules Tptp_Sound Rocq_Model Rocq_Spec.
Import ListNotations.
Open Scope list_scope.
Open Scope Z_scope.

Section Sound.
Variables (id_eq : Z) (cong : list form -> bool) (globals : list (ident * nat)).
(** what congruence refutes has no model where the equality is the equality *)
Hypothesis Hcong : forall l, cong l = true -> forall I (v : val I), real_eq id_eq I -> all_hold l v -> False.
Notation exec := (exec cong globals).
Notation run := (run cong globals).
Definition facts (g : goal) : list form := map snd (g_hyps g).
Definition valid (g : goal) : Prop := forall I (v : val I), real_eq id_eq I -> all_hold (facts g) v -> holds (g_concl g) v.
Definition fits (g : goal) : Prop :=
  (forall f, In f (g_concl g :: facts g) -> below (g_next g) f) /\ (forall c, In c (g_vars g) -> id_index c < g_next g) /\ (forall p n, In (p, n) globals -> id_index p < g_next g).

Lemma hyp_in g n f : hyp g n = Some f -> In f (facts g).
Proof.
  unfold hyp, facts. destruct (find (fun x => Nat.eqb (fst x) n) (g_hyps g)) as [x|] eqn:E; [|discriminate]. intros H. injection H as <-. apply find_some in E. apply in_map, E.
Qed.
Lemma intro_facts ns : forall fs g g', intro_all ns fs g = Some g' -> g_vars g' = g_vars g /\ g_next g' = g_next g /\ g_concl g' = g_concl g /\ forall f, In f (facts g') <-> In f fs \/ In f (facts g).
Proof.
  induction ns as [|n ns IH]; intros [|f fs] g g' E; try discriminate; cbn in E.
  - injection E as <-. repeat (split; [reflexivity|]). intros f. cbn. tauto.
  - destruct (hyp g n); [discriminate|]. destruct (IH _ _ _ E) as (A & B & C & F). repeat (split; [assumption|]). intros h. rewrite F. cbn. intuition.
Qed.
Lemma intro_ok ns fs g g' : intro_all ns fs g = Some g' -> fits g -> (forall f, In f fs -> below (g_next g) f) ->
  fits g' /\ (valid g' -> forall I (v : val I), real_eq id_eq I -> all_hold fs v -> all_hold (facts g) v -> holds (g_concl g) v).
Proof.
  intros E (F1 & F2 & F3) B. destruct (intro_facts _ _ _ _ E) as (Ev & En & Ec & Ef). unfold fits, valid. rewrite Ev, En, Ec. split.
  - split; [|split; assumption]. intros f [<-|H]; [apply F1; left; reflexivity|]. apply Ef in H. destruct H as [H|H]; [apply B, H|apply F1; right; exact H].
  - intros V I v R A C. apply V; [exact R|]. intros f H. apply Ef in H. destruct H; auto.
Qed.
Lemma branches_ok nss : forall ls g gs, branches nss ls g = Some gs -> fits g -> (forall fs f, In fs ls -> In f fs -> below (g_next g) f) ->
  Forall fits gs /\ (Forall valid gs -> forall fs, In fs ls -> forall I (v : val I), real_eq id_eq I -> all_hold fs v -> all_hold (facts g) v -> holds (g_concl g) v).
Proof.
  induction nss as [|ns nss IH]; intros [|fs ls] g gs E F B; try discriminate; cbn in E.
  - injection E as <-. split; [constructor|]. intros _ fs [].
  - destruct (intro_all ns fs g) as [a|] eqn:Ea; [|discriminate]. destruct (branches nss ls g) as [r|] eqn:Er; [|discriminate]. injection E as <-.
    destruct (intro_ok _ _ _ _ Ea F (fun f H => B fs f (or_introl eq_refl) H)) as [A1 A2]. destruct (IH _ _ _ Er F (fun x f H => B x f (or_intror H))) as [R1 R2].
    split; [constructor; assumption|]. intros V. inversion V; subst. intros x [<-|Hx]; [apply A2; assumption|apply R2; assumption].
Qed.
Lemma below_incl n f g : incl (f_syms g) (f_syms f) -> below n f -> below n g.
Proof. intros H B p Hp. apply B, H, Hp. Qed.
Lemma as_and_ok f a b : as_and f = Some (a, b) -> (forall I (v : val I), holds f v <-> holds a v /\ holds b v) /\ incl (f_syms a) (f_syms f) /\ incl (f_syms b) (f_syms f).
Proof.
  destruct f as [| | |i [|x [|y [|z l]]]| | | | | |]; try discriminate; cbn [as_and]; intros E; injection E as <- <-; unfold f_syms.
  - split; [intros I v; cbn; tauto|]. split; cbn; intros p Hp; rewrite !in_app_iff; tauto.
  - split; [intros I v; cbn; tauto|]. split; cbn; intros p Hp; rewrite !in_app_iff in *; tauto.
Qed.
Lemma as_or_ok f a b : as_or f = Some (a, b) -> (forall I (v : val I), holds f v <-> holds a v \/ holds b v) /\ incl (f_syms a) (f_syms f) /\ incl (f_syms b) (f_syms f).
Proof.
  destruct f as [| |i [|x [|y [|z l]]]| | | | | | |]; try discriminate; cbn [as_or]; intros E; injection E as <- <-; unfold f_syms.
  - split; [intros I v; cbn; tauto|]. split; cbn; intros p Hp; rewrite !in_app_iff; tauto.
  - split; [intros I v; cbn; tauto|]. split; cbn; intros p Hp; rewrite !in_app_iff in *; tauto.
Qed.
Lemma two_hold I (v : val I) (a b : form) : holds a v -> holds b v -> all_hold [a; b] v.
Proof. intros A B x [<-|[<-|[]]]; assumption. Qed.
Lemma one_holds I (v : val I) (a : form) : holds a v -> all_hold [a] v.
Proof. intros A x [<-|[]]; assumption. Qed.
Lemma syms_imp i a b : f_syms (Imp i a b) = f_syms a ++ f_syms b. Proof. reflexivity. Qed.
Lemma syms_equ i a b : f_syms (Equ i a b) = f_syms a ++ f_syms b. Proof. reflexivity. Qed.
Lemma syms_not i a : f_syms (Not i a) = f_syms a. Proof. reflexivity. Qed.
Lemma syms_neg a : f_syms (neg a) = f_syms a. Proof. reflexivity. Qed.
Lemma alpha_lemma_ok nm f l : alpha_lemma nm f = Some l -> (forall I (v : val I), holds f v -> all_hold l v) /\ forall g, In g l -> incl (f_syms g) (f_syms f).
Proof.
  unfold alpha_lemma. destruct (nm =? "")%string.
  { destruct f as [| | | | | |i f| | |]; try discriminate. destruct f as [| | | | | |j f| | |]; try discriminate. intros E. injection E as <-. split.
    - intros I v H. apply one_holds, NNPP. exact H.
    - intros g [<-|[]]. apply incl_refl. }
  destruct (nm =? "goeland_and_s")%string.
  { destruct (as_and f) as [[a b]|] eqn:E; [|discriminate]. intros H. injection H as <-. destruct (as_and_ok _ _ _ E) as (A & B & C). split.
    - intros I v H. apply A in H. apply two_hold; tauto.
    - intros g [<-|[<-|[]]]; assumption. }
  destruct (nm =? "goeland_notor_s")%string.
  { destruct f as [| | | | | |i f| | |]; try discriminate. destruct (as_or f) as [[a b]|] eqn:E; [|discriminate]. intros H. injection H as <-. destruct (as_or_ok _ _ _ E) as (A & B & C). split.
    - intros I v H. cbn in H. rewrite A in H. apply two_hold; cbn; tauto.
    - intros g [<-|[<-|[]]]; assumption. }
  destruct (nm =? "goeland_notimply_s")%string; [|discriminate].
  destruct f as [| | | | | |i f| | |]; try discriminate. destruct f as [| | | | |j a b| | | |]; try discriminate. intros E. injection E as <-. split.
  - intros I v H. cbn in H. apply two_hold; [apply NNPP|cbn]; tauto.
  - intros g [<-|[<-|[]]]; rewrite ?syms_neg, syms_not, syms_imp; intros p Hp; apply in_or_app; tauto.
Qed.
Lemma beta_lemma_ok nm f ls : beta_lemma nm f = Some ls -> (forall I (v : val I), holds f v -> exists l, In l ls /\ all_hold l v) /\ forall l g, In l ls -> In g l -> incl (f_syms g) (f_syms f).
Proof.
  assert (P : forall l1 l2 : list form, (forall I (v : val I), holds f v -> all_hold l1 v \/ all_hold l2 v) -> forall I (v : val I), holds f v -> exists l, In l [l1; l2] /\ all_hold l v).
  { intros l1 l2 H I v Hf. destruct (H I v Hf); eexists; (split; [|eassumption]); cbn; auto. }
  assert (Q : forall l1 l2 : list form, (forall g, In g (l1 ++ l2) -> incl (f_syms g) (f_syms f)) -> forall l g, In l [l1; l2] -> In g l -> incl (f_syms g) (f_syms f)).
  { intros l1 l2 H l g [<-|[<-|[]]] Hg; apply H, in_or_app; auto. }
  unfold beta_lemma. destruct (nm =? "goeland_or_s")%string.
  { destruct (as_or f) as [[a b]|] eqn:E; [|discriminate]. intros H. injection H as <-. destruct (as_or_ok _ _ _ E) as (A & B & C). split.
    - apply P. intros I v H. apply A in H. destruct H; [left|right]; apply one_holds; assumption.
    - apply Q. intros g [<-|[<-|[]]]; assumption. }
  destruct (nm =? "goeland_notand_s")%string.
  { destruct f as [| | | | | |i f| | |]; try discriminate. destruct (as_and f) as [[a b]|] eqn:E; [|discriminate]. intros H. injection H as <-. destruct (as_and_ok _ _ _ E) as (A & B & C). split.
    - apply P. intros I v H. cbn in H. rewrite A in H. destruct (classic (holds a v)); [right|left]; apply one_holds; cbn; tauto.
    - apply Q. intros g [<-|[<-|[]]]; assumption. }
  destruct (nm =? "goeland_imply_s")%string.
  { destruct f as [| | | | |i a b| | | |]; try discriminate. intros H. injection H as <-. split.
    - apply P. intros I v H. cbn in H. destruct (classic (holds a v)); [right|left]; apply one_holds; cbn; tauto.
    - apply Q. intros g [<-|[<-|[]]]; rewrite ?syms_neg, syms_imp; intros p Hp; apply in_or_app; tauto. }
  destruct (nm =? "goeland_equiv_s")%string.
  { destruct f as [| | | |i a b| | | | |]; try discriminate. intros H. injection H as <-. split.
    - apply P. intros I v H. cbn in H. destruct (classic (holds a v)); [right|left]; apply two_hold; cbn; tauto.
    - apply Q. intros g [<-|[<-|[<-|[<-|[]]]]]; rewrite ?syms_neg, syms_equ; intros p Hp; apply in_or_app; tauto. }
  destruct (nm =? "goeland_notequiv_s")%string; [|discriminate].
  destruct f as [| | | | | |i f| | |]; try discriminate. destruct f as [| | | |j a b| | | | |]; try discriminate. intros E. injection E as <-. split.
  - apply P. intros I v H. cbn in H. destruct (classic (holds a v)); [right|left]; apply two_hold; cbn; tauto.
  - apply Q. intros g [<-|[<-|[<-|[<-|[]]]]]; rewrite ?syms_neg, syms_not, syms_equ; intros p Hp; apply in_or_app; tauto.
Qed.
(** symbols of an instance *)
Lemma vinst_syms i u t p : In p (t_syms (vinst i u t)) -> In p (t_syms t) \/ In p (t_syms u).
Proof.
  induction t as [q|q tys l IH|j n|m] using term_ind'; cbn; auto.
  - intros [H|H]; [auto|]. apply in_flat_map in H. destruct H as (x & Hx & H). apply in_map_iff in Hx. destruct Hx as (a & <- & Ha). rewrite Forall_forall in IH. destruct (IH a Ha H); [|auto]. left. right. apply in_flat_map. eauto.
  - destruct (j =? i); auto.
Qed.
Lemma fvinst_syms i u f p : In p (f_syms (fvinst i u f)) -> In p (f_syms f) \/ In p (t_syms u).
Proof.
  assert (L : forall l, Forall (fun f => In p (f_syms (fvinst i u f)) -> In p (f_syms f) \/ In p (t_syms u)) l -> In p (flat_map f_syms (map (fvinst i u) l)) -> In p (flat_map f_syms l) \/ In p (t_syms u)).
  { intros l H K. apply in_flat_map in K. destruct K as (x & Hx & K). apply in_map_iff in Hx. destruct Hx as (a & <- & Ha). rewrite Forall_forall in H. destruct (H a Ha K); [|auto]. left. apply in_flat_map. eauto. }
  unfold f_syms in *. induction f using form_ind'; cbn [fvinst f_collect]; auto.
  - rewrite !in_app_iff. tauto.
  - rewrite !in_app_iff. tauto.
  - intros H. apply in_flat_map in H. destruct H as (x & Hx & H). apply in_map_iff in Hx. destruct Hx as (a & <- & Ha). apply vinst_syms in H. destruct H; [|auto]. left. apply in_flat_map. eauto.
Qed.
Lemma quantified_syms nm f u g p : quantified nm f u = Some g -> In p (f_syms g) -> In p (f_syms f) \/ In p (t_syms u).
Proof.
  intros Q H.
  destruct f as [k vs f|k vs f| | | | |k f| | |]; try discriminate; cbn [quantified] in Q.
  - destruct vs as [|x vs]; [discriminate|]. destruct ((nm =? "leftForall")%string && may_inst x vs f u); [|discriminate]. injection Q as <-. apply (fvinst_syms (tv_index x) u f). destruct vs; exact H.
  - destruct vs as [|x vs]; [discriminate|]. destruct ((nm =? "leftExists")%string && may_inst x vs f u); [|discriminate]. injection Q as <-. apply (fvinst_syms (tv_index x) u f). destruct vs; exact H.
  - destruct f as [j vs f|j vs f| | | | | | | |]; try discriminate; destruct vs as [|x vs]; try discriminate.
    + destruct ((nm =? "leftNotAll")%string && may_inst x vs f u); [|discriminate]. injection Q as <-. apply (fvinst_syms (tv_index x) u f). destruct vs; exact H.
    + destruct ((nm =? "leftNotEx")%string && may_inst x vs f u); [|discriminate]. injection Q as <-. apply (fvinst_syms (tv_index x) u f). destruct vs; exact H.
Qed.
Lemma resolve_syms n vars : (forall c, In c vars -> id_index c < n) -> (forall p k, In (p, k) globals -> id_index p < n) ->
  forall t u, resolve globals vars t = Some u -> forall p, In p (t_syms u) -> id_index p < n.
Proof.
  intros HV HG. fix IH 1. intros [s l] u E p Hp. cbn [resolve] in E.
  destruct (find (fun c => (id_name c =? s)%string) vars) as [c|] eqn:Ec.
  - destruct l; [|discriminate]. injection E as <-. apply find_some in Ec. destruct Hp as [<-|[]]. apply HV, Ec.
  - destruct (find (fun x => (id_name (fst x) =? s)%string) globals) as [[q k]|] eqn:Eq; [|discriminate]. destruct (Nat.eqb (List.length l) k); [|discriminate].
    match type of E with match ?X with _ => _ end = _ => destruct X as [l'|] eqn:El; [|discriminate] end. injection E as <-. apply find_some in Eq. destruct Hp as [<-|Hp]; [eapply HG, Eq|].
    revert l' El Hp. induction l as [|a l IHl]; intros l' El Hp; [injection El as <-; destruct Hp|].
    destruct (resolve globals vars a) as [a'|] eqn:Ea; [|discriminate]. match type of El with match ?X with _ => _ end = _ => destruct X as [r|] eqn:Er; [|discriminate] end. injection El as <-.
    cbn in Hp. apply in_app_iff in Hp. destruct Hp as [Hp|Hp]; [exact (IH a a' Ea p Hp)|exact (IHl r eq_refl Hp)].
Qed.
Lemma fits_false g : fits g -> forall f, In f (facts g) -> below (g_next g) f.
Proof. intros (F & _) f H. apply F. right. exact H. Qed.
Lemma delta_ok nm h x ns g f r new : is_delta_rule nm = true -> fits g -> is_false (g_concl g) = true -> hyp g h = Some f ->
  quantified nm f (Fun (mkId (g_next g) x) [] []) = Some r -> intro_all ns [r] (with_var x g) = Some new -> fits new /\ (valid new -> valid g).
Proof.
  intros D F C Hh Q E. pose proof (hyp_in _ _ _ Hh) as Hf. destruct (g_concl g) as [| | | | | | | | |ci] eqn:Ec; try discriminate.
  assert (F' : fits (with_var x g)).
  { destruct F as (F1 & F2 & F3). split; [|split]; cbn [with_var g_next g_vars facts g_hyps g_concl].
    - intros f' H p Hp. specialize (F1 f' H p Hp). lia.
    - intros c [<-|H]; [cbn; lia|]. specialize (F2 c H). lia.
    - intros p n H. specialize (F3 p n H). lia. }
  destruct (intro_ok _ _ _ _ E F') as [A B].
  { intros g' [<-|[]] p Hp. cbn. destruct (quantified_syms _ _ _ _ _ Q Hp) as [K|[<-|[]]]; [|cbn; lia]. pose proof (fits_false g F f Hf p K). lia. }
  split; [exact A|]. intros V I v R H. specialize (B V). rewrite Ec. cbn.
  assert (Fr : forall g' p, In g' (facts g) -> In p (f_syms g') -> id_index p <> g_next g) by (intros g' p Hg Hp; pose proof (fits_false g F g' Hg p Hp); lia).
  destruct (quantified_delta nm f (mkId (g_next g) x) r I v Q D (fun p Hp => Fr f p Hf Hp) (H f Hf)) as [d K].
  specialize (B (refn I (const I (g_next g) d)) (revalF (const I (g_next g) d) v) R (one_holds _ _ _ K)). cbn [with_var g_concl facts g_hyps] in B. rewrite Ec in B. apply B.
  intros g' Hg. apply (const_holds I (g_next g) d g' (fun p Hp => Fr g' p Hg Hp) v), H, Hg.
Qed.
Lemma gamma_ok nm h u ns g f r new : is_delta_rule nm = false -> fits g -> is_false (g_concl g) = true -> hyp g h = Some f -> (forall p, In p (t_syms u) -> id_index p < g_next g) ->
  quantified nm f u = Some r -> intro_all ns [r] g = Some new -> fits new /\ (valid new -> valid g).
Proof.
  intros D F C Hh U Q E. pose proof (hyp_in _ _ _ Hh) as Hf. destruct (intro_ok _ _ _ _ E F) as [A B].
  { intros g' [<-|[]] p Hp. destruct (quantified_syms _ _ _ _ _ Q Hp) as [K|K]; [|exact (U p K)]. exact (fits_false g F f Hf p K). }
  split; [exact A|]. intros V I v R H. apply (B V I v R); [|exact H]. apply one_holds. exact (quantified_gamma nm f u r I v Q D (H f Hf)).
Qed.
Lemma auto_ok l : auto_closes l = true -> forall I (v : val I), all_hold l v -> False.
Proof.
  intros A I v H. apply existsb_exists in A. destruct A as (f & Hf & A). pose proof (H f Hf) as K.
  assert (M : mem (neg f) l = true -> False) by (intros M; exact (mem_holds _ _ _ _ M H K)).
  destruct f as [| | | | | |i f| | |]; auto. destruct f; auto; exact (K Logic.I).
Qed.
Lemma intros_ok ns : forall g g', intros ns g = Some g' -> fits g -> fits g' /\ (valid g' -> valid g).
Proof.
  induction ns as [|n ns IH]; intros g g' E F; cbn in E; [injection E as <-; auto|]. destruct (hyp g n); [discriminate|].
  destruct F as (F1 & F2 & F3). destruct (g_concl g) as [| | | | |i a b|i a| | |] eqn:Ec; try discriminate.
  - destruct (IH _ _ E) as [A B].
    { split; [|split; assumption]. cbn [g_concl facts g_hyps map snd g_next]. intros f [<-|[<-|H]].
      - eapply below_incl; [|apply F1; left; exact eq_refl]. rewrite syms_imp. apply incl_appr, incl_refl.
      - eapply below_incl; [|apply F1; left; exact eq_refl]. rewrite syms_imp. apply incl_appl, incl_refl.
      - apply F1. right. exact H. }
    split; [exact A|]. intros V I v R H. rewrite Ec. cbn. intros K. apply (B V I v R). intros f [<-|Hf]; [exact K|apply H, Hf].
  - destruct (IH _ _ E) as [A B].
    { split; [|split; assumption]. cbn [g_concl facts g_hyps map snd g_next]. intros f [<-|[<-|H]].
      - intros p [].
      - eapply below_incl; [|apply F1; left; exact eq_refl]. apply incl_refl.
      - apply F1. right. exact H. }
    split; [exact A|]. intros V I v R H. rewrite Ec. cbn. intros K. apply (B V I v R). intros f [<-|Hf]; [exact K|apply H, Hf].
Qed.
Lemma one_some o l : one o = Some l -> exists g, o = Some g /\ l = [g].
Proof. destruct o; cbn; [|discriminate]. intros E. injection E as <-. eauto. Qed.
Lemma exec_ok t g new : exec t g = Some new -> fits g -> Forall fits new /\ (Forall valid new -> valid g).
Proof.
  assert (ONE : forall x, fits x /\ (valid x -> valid g) -> Forall fits [x] /\ (Forall valid [x] -> valid g)).
  { intros x [A B]. split; [constructor; [exact A|constructor]|]. intros V. inversion V. auto. }
  intros E F. unfold Rocq_Spec.exec in E. destruct t as [ns|lm h ns|lm h nss|h x ns|h x ns|h u ns|h u ns| | |x|h|i h|].
  { apply one_some in E. destruct E as (g' & E & ->). apply ONE. eapply intros_ok; eauto. }
  all: destruct (is_false (g_concl g)) eqn:Fc; try discriminate; cbn [exec_false] in E.
  - destruct (hyp g h) as [f|] eqn:Eh; [|discriminate]. pose proof (hyp_in _ _ _ Eh) as Hf. destruct (alpha_lemma lm f) as [l|] eqn:El; [|discriminate]. apply one_some in E. destruct E as (g' & E & ->). apply ONE.
    destruct (alpha_lemma_ok _ _ _ El) as [A B]. destruct (intro_ok _ _ _ _ E F) as [P Q]; [intros f' Hf'; exact (below_incl _ _ _ (B f' Hf') (fits_false g F f Hf))|]. split; [exact P|]. intros V I v R H. apply (Q V I v R); auto.
  - destruct (hyp g h) as [f|] eqn:Eh; [|discriminate]. pose proof (hyp_in _ _ _ Eh) as Hf. destruct (beta_lemma lm f) as [ls|] eqn:El; [|discriminate].
    destruct (beta_lemma_ok _ _ _ El) as [A B]. destruct (branches_ok _ _ _ _ E F) as [P Q]; [intros fs f' Hfs Hf'; exact (below_incl _ _ _ (B fs f' Hfs Hf') (fits_false g F f Hf))|]. split; [exact P|].
    intros V I v R H. destruct (A I v (H f Hf)) as (l & Hl & K). apply (Q V l Hl I v R); auto.
  - destruct (hyp g h) as [f|] eqn:Eh; [|discriminate]. destruct (existsb (named x) (g_vars g)); [discriminate|]. destruct (quantified _ f _) as [r|] eqn:Eq; [|discriminate]. apply one_some in E. destruct E as (g' & E & ->). apply ONE. eapply (delta_ok "leftNotAll"); eauto.
  - destruct (hyp g h) as [f|] eqn:Eh; [|discriminate]. destruct (existsb (named x) (g_vars g)); [discriminate|]. destruct (quantified _ f _) as [r|] eqn:Eq; [|discriminate]. apply one_some in E. destruct E as (g' & E & ->). apply ONE. eapply (delta_ok "leftExists"); eauto.
  - destruct (hyp g h) as [f|] eqn:Eh; [|discriminate]. destruct (resolve globals (g_vars g) u) as [u'|] eqn:Eu; [|discriminate]. destruct (quantified _ f _) as [r|] eqn:Eq; [|discriminate]. apply one_some in E. destruct E as (g' & E & ->). apply ONE. eapply (gamma_ok "leftForall"); eauto. destruct F as (_ & F2 & F3). exact (resolve_syms _ _ F2 F3 _ _ Eu).
  - destruct (hyp g h) as [f|] eqn:Eh; [|discriminate]. destruct (resolve globals (g_vars g) u) as [u'|] eqn:Eu; [|discriminate]. destruct (quantified _ f _) as [r|] eqn:Eq; [|discriminate]. apply one_some in E. destruct E as (g' & E & ->). apply ONE. eapply (gamma_ok "leftNotEx"); eauto. destruct F as (_ & F2 & F3). exact (resolve_syms _ _ F2 F3 _ _ Eu).
  - destruct (auto_closes (map snd (g_hyps g))) eqn:A; [|discriminate]. injection E as <-. split; [constructor|]. intros _ I v R H. destruct (auto_ok _ A I v H).
  - destruct (cong (map snd (g_hyps g))) eqn:A; [|discriminate]. injection E as <-. split; [constructor|]. intros _ I v R H. destruct (Hcong _ A I v R H).
  - destruct (find (named x) (g_vars g)) as [c|]; [|discriminate]. destruct (existsb _ (g_hyps g)); [discriminate|]. injection E as <-. apply ONE. split; [|intros V; exact V].
    destruct F as (F1 & F2 & F3). split; [exact F1|]. split; [|exact F3]. intros c' H. apply F2. cbn in H. apply filter_In in H. apply H.
  - destruct (hyp g h) as [f|] eqn:Eh; [|discriminate]. injection E as <-. apply ONE.
    assert (S : forall f', In f' (map snd (filter (fun y => negb (Nat.eqb (fst y) h)) (g_hyps g))) -> In f' (facts g)).
    { intros f' H. apply in_map_iff in H. destruct H as (y & <- & H). apply filter_In in H. apply in_map, H. }
    destruct F as (F1 & F2 & F3). split.
    + split; [|split; assumption]. intros f' [H|H]; [apply F1; left; exact H|apply F1; right; apply S, H].
    + intros V I v R H. apply (V I v R). intros f' Hf'. apply H, S, Hf'.
Qed.
Lemma run_ok ts : forall gs, run ts gs = Some [] -> Forall fits gs -> Forall valid gs.
Proof.
  induction ts as [|t ts IH]; intros gs E F; [injection E as ->; constructor|].
  assert (GO : match gs with [] => None | g :: gs => match exec t g with Some new => run ts (new ++ gs) | None => None end end = Some [] -> Forall valid gs).
  { intros K. destruct gs as [|g gs]; [constructor|]. destruct (exec t g) as [new|] eqn:En; [|discriminate]. inversion F as [|? ? F1 F2]; subst. destruct (exec_ok _ _ _ En F1) as [A B].
    pose proof (IH _ K ltac:(apply Forall_app; split; assumption)) as V. apply Forall_app in V. destruct V as [V1 V2]. constructor; auto. }
  destruct t; try exact (GO E). exact (IH gs E F).
Qed.
Theorem accepted_valid base st ts : (forall p n, In (p, n) globals -> id_index p < base) -> below base st -> accepted cong globals base st ts ->
  forall I (v : val I), real_eq id_eq I -> holds st v.
Proof.
  intros G B A I v R. pose proof (run_ok ts _ A) as H. assert (F : Forall fits [mkGoal [] [] base st]).
  { constructor; [|constructor]. split; [|split; [intros c []|exact G]]. intros f [<-|[]]. exact B. }
  specialize (H F). inversion H as [|? ? V _]; subst. apply (V I v R). intros f [].
Qed.
End Sound.

(** ** The statement *)
Lemma chain_holds l c I (v : val I) : holds (imp_chain l c) v <-> (all_hold l v -> holds c v).
Proof.
  induction l as [|a l IH]; cbn.
  - split; [auto|]. intros H. apply H. intros f [].
  - rewrite IH. split.
    + intros H A. apply H; [apply A; left; reflexivity|]. intros f Hf. apply A. right. exact Hf.
    + intros H A B. apply H. intros f [<-|Hf]; auto.
Qed.
Lemma main_begins s axs c k f : begins s axs c k -> target_form s = Unif_Model.Ok f -> main_formula f = Unif_Model.Ok (axs, c).
Proof.
  unfold target_form. intros H E. inversion H as [? i ? T|? j ? i ? ? r Ne T K]; subst; unfold target in T; rewrite T in E; injection E as <-; cbn; [reflexivity|].
  rewrite last_last. rewrite removelast_last. reflexivity.
Qed.
Lemma rocq_statement id_eq registered s st ts axs c k : begins s axs c k -> rocq id_eq registered s = Unif_Model.Ok (st, ts) -> st = imp_chain (axs ++ registered) (neg (neg c)).
Proof.
  intros B E. unfold rocq in E. destruct (target_form s) as [f| | |] eqn:Ef; try discriminate. cbn [Unif_Model.bind] in E. rewrite (main_begins _ _ _ _ _ B Ef) in E. cbn [Unif_Model.bind] in E.
  match type of E with Unif_Model.bind ?X _ = _ => destruct X as [k'| | |]; try discriminate end. cbn [Unif_Model.bind] in E.
  match type of E with Unif_Model.bind ?X _ = _ => destruct X as [p| | |]; try discriminate end. cbn [Unif_Model.bind] in E. injection E as <- _. reflexivity.
Qed.
Theorem rocq_sound id_eq cong globals base registered s st ts axs c k :
  (forall l, cong l = true -> forall I (v : val I), real_eq id_eq I -> (forall f, In f l -> holds f v) -> False) ->
  (forall p n, In (p, n) globals -> id_index p < base) -> below base st ->
  begins s axs c k -> rocq id_eq registered s = Unif_Model.Ok (st, ts) -> accepted cong globals base st ts ->
  forall I (v : val I), real_eq id_eq I -> (forall f, In f (axs ++ registered) -> holds f v) -> holds c v.
Proof.
  intros Hc G B Be E A I v R H. pose proof (accepted_valid id_eq cong globals Hc base st ts G B A I v R) as V. rewrite (rocq_statement _ _ _ _ _ _ _ _ Be E) in V. apply chain_holds in V; [|exact H]. apply NNPP. exact V.
Qed.
(** the lemmas of the preamble: context.go:181-249 *)
Lemma preamble_lemmas :
  (forall P : Prop, P -> (~ P -> False)) /\ (~ True -> False) /\
  (forall P Q : Prop, (P -> (Q -> False)) -> (P /\ Q -> False)) /\
  (forall P Q : Prop, (P -> False) -> (Q -> False) -> (P \/ Q -> False)) /\
  (forall P Q : Prop, (~ P -> False) -> (Q -> False) -> ((P -> Q) -> False)) /\
  (forall P Q : Prop, (~ P -> ~ Q -> False) -> (P -> Q -> False) -> ((P <-> Q) -> False)) /\
  (forall P Q : Prop, (~ P -> False) -> (~ Q -> False) -> (~ (P /\ Q) -> False)) /\
  (forall P Q : Prop, (~ P -> ~ Q -> False) -> (~ (P \/ Q) -> False)) /\
  (forall P Q : Prop, (P -> ~ Q -> False) -> (~ (P -> Q) -> False)) /\
  (forall P Q : Prop, (~ P -> Q -> False) -> (P -> ~ Q -> False) -> (~ (P <-> Q) -> False)) /\
  (forall (T : Type) (P : T -> Prop), (forall z : T, P z -> False) -> ((exists x : T, P x) -> False)) /\
  (forall (T : Type) (P : T -> Prop) (t : T), (P t -> False) -> ((forall x : T, P x) -> False)) /\
  (forall (T : Type) (P : T -> Prop) (t : T), (~ P t -> False) -> (~ (exists x : T, P x) -> False)) /\
  (forall (T : Type) (P : T -> Prop), (forall z : T, ~ P z -> False) -> (~ (forall x : T, P x) -> False)).
Proof. repeat split; try tauto; try firstorder. apply H0. intro x. apply NNPP. exact (H x). Qed.
