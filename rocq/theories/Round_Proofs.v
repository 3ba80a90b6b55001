(** A round of answers in a tree of processes (C142, C143). *)
From Coq Require Import ZArith List Bool Lia.
From Verif Require Import Ast_Model Occ_Spec Sem_Spec Ast_Proofs Unif_Model Unif_Spec UnifLoss_Model Unif_Final UnifMgu_Proofs Closure_Model Dmt_Model Select_Model Select_Spec Select_Proofs Select_Final
  GlobUnif_Model Restrict_Model Restrict_Spec Restrict_Proofs Restrict_Final Leaf_Model Leaf_Spec Leaf_Proofs Leaf_Final Up_Model Up_Spec Up_Proofs Round_Model Round_Spec.
Import ListNotations.
Open Scope list_scope.
Open Scope Z_scope.

Section Ind.
Variable P : proc -> Prop.
Hypothesis HL : forall mm ap l f, P (PLeaf mm ap l f).
Hypothesis HN : forall mm ap cur again ch, Forall P ch -> P (PNode mm ap cur again ch).
Hypothesis HK : forall p s, P p -> P (PKept p s).
Fixpoint proc_induction (p : proc) : P p :=
  match p with
  | PLeaf mm ap l f => HL mm ap l f
  | PNode mm ap cur again ch =>
    HN mm ap cur again ch ((fix go l : Forall P l := match l with [] => Forall_nil P | c :: r => Forall_cons c (proc_induction c) (go r) end) ch)
  | PKept p s => HK p s (proc_induction p)
  end.
End Ind.
Lemma all_and {X} (Q : X -> Prop) l : fold_right and True (map Q l) <-> Forall Q l.
Proof. induction l as [|x l IH]; cbn; [split; constructor|]. rewrite IH. split; [intros [? ?]; constructor; auto|intros H; inversion H; auto]. Qed.

Lemma answers_ok ask ch : forall l, all_answers ask ch = Ok (Some l) -> Forall2 (fun c a => ask c = Ok (Some (an_substs a)) /\ an_closed a = true) ch l.
Proof.
  induction ch as [|c ch IH]; intros l E; cbn in E; [injection E as <-; constructor|]. apply out_ok in E. destruct E as (x & Ex & E). destruct x as [s|]; [|discriminate].
  apply out_ok in E. destruct E as (y & Ey & E). destruct y as [r|]; [|discriminate]. injection E as <-. constructor; [split; [exact Ex|reflexivity]|]. exact (IH r Ey).
Qed.

Section Round.
Variable ar : signature.
Variables n fe : nat.
Variable A : alg.
Hypothesis TA : typeless A.

(** what a process says of itself to its father *)
Definition told (p : proc) (l : list saf) : Prop :=
  (l = [] -> forall v, closes A p v) /\ forall t, In t l -> forall v, solves A v (binds (fst t)) -> closes A p v.

Lemma leaf_told mm ap l f rp : good_leaf ar n fe mm ap l -> leaf n fe mm ap [] l f = Ok (Some rp) -> told (PLeaf mm ap l f) (rp_substs rp).
Proof.
  intros (Sn & Oa & Kp) E. assert (Itself : rp_substs rp = remove_empty [ap] -> rp_need rp = false -> told (PLeaf mm ap l f) (rp_substs rp)).
  { intros Es Nd. assert (C : forall v, solves A v (binds (fst ap)) -> closes A (PLeaf mm ap l f) v).
    { intros v Sv. destruct l as [|s l]; [left; auto|]. right. apply (leaf_by_itself ar n fe mm ap (s :: l) Sn [] f rp E Nd); [discriminate|exact Sv]. }
    rewrite Es. unfold remove_empty. cbn [filter]. destruct ap as [[|b a] fl]; cbn [fst]; split.
    - intros _ v. apply C. intros k t [].
    - intros t [].
    - discriminate.
    - intros t [<-|[]] v Sv. apply C, Sv. }
  pose proof E as E0. apply manage_cases in E. destruct E as (d & Ed & E). pose proof (dispatch_lists _ l d Ed) as [(_ & I1 & C1) _].
  destruct E as [(_ & E)|[(p & _ & _ & Ep & E)|(x & p & Nl & En & Ex & Ep & E)]]; injection E as ->; [apply Itself; reflexivity|apply Itself; reflexivity|].
  cbn [rp_substs] in *. clear Itself. split.
  - intros Em v. right. pose proof Ex as Ex'. apply sending_ok in Ex'. destruct Ex' as (_ & _ & H3 & _).
    assert (W : exists r, In r (d_with d)).
    { destruct l as [|s l]; [congruence|]. destruct (dispatch_inv _ (s :: l) [] _ _ Ed) as (_ & _ & All); [split; [constructor|split; [intros ? []|intros ? ? []]]|split; [constructor|split; intros ? []]|].
      pose proof (dispatch_lists _ (s :: l) d Ed) as [_ (_ & _ & C2)]. destruct (All s (or_introl eq_refl)) as (r & Er).
      destruct (C1 s r (or_introl eq_refl) Er) as (r' & Hr' & _); [|eauto]. intros ->. destruct (C2 s (or_introl eq_refl) Er) as (? & H & _). rewrite En in H. destruct H. }
    destruct W as (r & Hr). destruct (I1 r Hr) as (_ & s & Hs & Es). destruct (H3 r Hr) as (t & t' & Et & Ht' & Eq).
    assert (Zt : fst t = []).
    { destruct (fst t') as [|b q] eqn:Ft; [inversion Eq; reflexivity|]. assert (H : In t' (remove_empty (fst x))) by (unfold remove_empty; apply filter_In; split; [exact Ht'|rewrite Ft; reflexivity]).
      rewrite Em in H. destruct H. }
    destruct (merged ar n fe mm ap l Sn Oa Kp s r f t Hs Es Et A v) as [M _]. destruct M as [M1 M2]; [rewrite Zt; intros k u []|].
    exact (extends ar n fe mm ap l Sn s r A v Hs Es M1 M2).
  - intros t Ht v Sv. right. apply (leaf_sent ar n fe mm ap l Sn Oa Kp f _ E0 eq_refl t Ht A v Sv).
Qed.

Lemma node_told mm ap cur again ch l r : Forall2 (fun c a => told c (an_substs a)) ch l -> good_node ar n fe mm ap cur l ->
  node_answer n fe mm ap cur again l = Ok (Some r) -> told (PNode mm ap cur again ch) r.
Proof.
  intros F (Sa & N & A2 & D & C & Cl) E. unfold node_answer in E. apply out_ok in E. destruct E as ([v q] & Ev & E). destruct v; try discriminate.
  - apply out_ok in E. destruct E as (x & Ex & E). destruct x as [st|]; [|discriminate]. injection E as <-.
    destruct (itself_all_closed _ _ l q Ev) as [_ Z]. assert (K : forall v, (forall t, In t (up_substs st) -> solves A v (binds (fst t))) -> closes A (PNode mm ap cur again ch) v).
    { intros v Sv. destruct (itself_keeps ar n fe mm ap cur again st Sa Ex A v Sv) as (v' & Ag & S). exists v'. split; [exact Ag|]. split; [exact S|]. apply all_and.
      clear - F Z. induction F as [|c a ch l Hc F IH]; [constructor|]. inversion Z as [|? ? [_ Za] Z']; subst. constructor; [|exact (IH Z')]. apply Hc, Za. }
    pose proof Ex as Ex'. apply itself_ok in Ex'. destruct Ex' as (c & _ & [[_ G]|(_ & st' & G & _ & _ & G1 & G2)]); [discriminate|]. injection G as <-. split.
    + intros Em v. apply K. rewrite Em. intros t [].
    + intros t Ht v Sv. apply K. destruct c as [|b c]; [rewrite G1 in Ht by reflexivity; destruct Ht|]. rewrite G2 in * by discriminate. destruct Ht as [<-|[]]. intros t [<-|[]]. exact Sv.
  - apply out_ok in E. destruct E as (st & Est & E). injection E as <-. destruct (Cl q Ev) as [Nq Cq].
    assert (K : forall s c v, In s q -> seen (restrict_mixed fe (add_unif n fe)) (merge_mixed n fe) mm ap s c -> solves A v (binds c) -> closes A (PNode mm ap cur again ch) v).
    { intros s c v Hs Hc Sv. destruct (see_honest ar n fe mm ap q Cq s c A v Hs Hc Sv) as (v' & Ag & S1 & S2). exists v'. split; [exact Ag|]. split; [exact S2|]. apply all_and.
      pose proof (node_closes_all ar n fe cur l q N A2 D C Ev s Hs) as G. clear - F G S1 TA. assert (G' : forall a, In a l -> an_substs a <> [] -> exists t, In t (an_substs a) /\ solves A v' (binds (fst t))).
      { intros a Ha Na. destruct (G a Ha Na) as (t & Ht & Ct). exists t. split; [exact Ht|]. exact (Ct A v' TA S1). }
      clear G. induction F as [|c a ch l Hc F IH]; [constructor|]. constructor; [|apply IH; intros a' Ha'; apply G'; right; exact Ha'].
      destruct (an_substs a) as [|u us] eqn:Ea; [apply Hc; reflexivity|]. destruct (G' a (or_introl eq_refl)) as (t & Ht & St); [rewrite Ea; discriminate|]. rewrite Ea in Ht. exact (proj2 Hc t Ht v' St). }
    destruct (pass_up_ok _ _ _ _ _ _ _ Est) as ((_ & H1 & _) & _ & T & Need). split.
    + intros Em v. destruct q as [|s q]; [congruence|]. destruct (T s (or_introl eq_refl)) as (c & Hc). apply (K s c v (or_introl eq_refl) Hc).
      assert (Zc : c = []); [|rewrite Zc; intros k t []]. destruct (pass_up_ok _ _ _ _ _ _ _ Est) as ((_ & _ & H2) & _). destruct c as [|b c]; [reflexivity|].
      destruct (H2 s (b :: c) (or_introl eq_refl) Hc) as (e & He & _); [discriminate|]. rewrite Em in He. destruct He.
    + intros t Ht v Sv. destruct (H1 t Ht) as (_ & (s & Hs & Hc) & _). exact (K s _ v Hs Hc Sv).
Qed.

Lemma kept_ok s l t : kept s l = Some t -> fst t = fst s /\ exists e, In e l /\ same_bindings (fst s) (fst e).
Proof.
  unfold kept. assert (G : forall l acc, fold_left (fun acc e => if same_subst (fst e) (fst s) then Some (add_formulas s (snd e)) else acc) l acc = Some t ->
    acc = Some t \/ (fst t = fst s /\ exists e, In e l /\ same_bindings (fst s) (fst e))).
  { clear l. induction l as [|e l IH]; intros acc E; cbn in E; [auto|]. destruct (IH _ E) as [H|(H1 & e' & He & H2)]; [|right; split; [exact H1|exists e'; split; [right; exact He|exact H2]]].
    destruct (same_subst (fst e) (fst s)) eqn:S; [|auto]. right. injection H as <-. split; [reflexivity|]. exists e. split; [left; reflexivity|]. apply bindings_sym, subst_eqb, S. }
  intros E. destruct (G l None E) as [H|H]; [discriminate|exact H].
Qed.
Theorem round_told p : good ar n fe p -> forall l, report n fe p = Ok (Some l) -> told p l.
Proof.
  induction p as [mm ap l f|mm ap cur again ch IH|p s IH] using proc_induction; intros G r E; cbn [report] in E; apply out_ok in E; destruct E as (x & Ex & E).
  - destruct x as [rp|]; [|discriminate]. injection E as <-. exact (leaf_told mm ap l f rp G Ex).
  - destruct x as [l|]; [|discriminate]. cbn [good] in G. destruct G as [Gc Gn]. apply all_and in Gc. apply (node_told mm ap cur again ch l r); [|exact (Gn l Ex)|exact E].
    apply answers_ok in Ex. clear - IH Gc Ex. induction Ex as [|c a ch l [Hc _] F IHF]; [constructor|]. inversion IH; inversion Gc; subst. constructor; auto.
  - destruct x as [l|]; [|discriminate]. destruct (kept s l) as [t|] eqn:Ek; [|discriminate]. injection E as <-. split; [discriminate|]. intros t' [<-|[]] v Sv.
    destruct (kept_ok s l t Ek) as (Et & e & He & Se). apply (proj2 (IH G l Ex) e He v). rewrite Et in Sv. exact (solves_same A v (fst s) (fst e) TA Se Sv).
Qed.
End Round.

(** *** the root: it has no father, so no metavariable of a father *)
Lemma round_none s st b : rel st = [] -> round s st b = (st, b).
Proof.
  intros R. revert b. induction s as [|[k t] s IH]; intros b; cbn [round]; [reflexivity|]. unfold one. rewrite R. cbn [mem existsb].
  destruct t; cbn; rewrite orb_false_r; apply IH.
Qed.
Lemma restrict_none n fe s r : restrict_mixed fe (add_unif n fe) s [] = Ok r -> (forall x i f v, ~ In (MTy x i f v) s) -> r = [].
Proof.
  intros E T. apply restrict_mixed_ok in E; [|exact T]. destruct E as [E Er]. unfold restrict in E. cbn [rounds] in E. rewrite round_none in E by reflexivity. cbn in E.
  apply out_ok in E. destruct E as (e & Ee & E). assert (Z : e = []). { destruct fe; cbn in Ee; congruence. } subst e. cbn in E. rewrite Er. injection E as <-. reflexivity.
Qed.
Theorem root_empty ar n fe ap cur again ch l : good ar n fe (PNode [] ap cur again ch) -> report n fe (PNode [] ap cur again ch) = Ok (Some l) -> l = [].
Proof.
  intros [_ G] E. cbn [report] in E. apply out_ok in E. destruct E as (x & Ex & E). destruct x as [a|]; [|discriminate]. destruct (G a Ex) as (Sa & _ & _ & _ & _ & Cl).
  unfold node_answer in E. apply out_ok in E. destruct E as ([v q] & Ev & E). destruct v; try discriminate.
  - apply out_ok in E. destruct E as (y & Ey & E). destruct y as [st|]; [|discriminate]. injection E as <-. apply itself_ok in Ey.
    destruct Ey as (c & Ec & [[_ H]|(_ & st' & H & _ & _ & H1 & _)]); [discriminate|]. injection H as <-. apply H1. apply (restrict_none n fe _ _ Ec). exact (proj1 Sa).
  - apply out_ok in E. destruct E as (st & Est & E). injection E as <-. destruct (Cl q Ev) as [_ [_ Cq]]. destruct (pass_up_ok _ _ _ _ _ _ _ Est) as ((_ & H1 & _) & _).
    destruct (up_substs st) as [|t r]; [reflexivity|]. destruct (H1 t (or_introl eq_refl)) as (Nt & (s & Hs & m & Em & Ec) & _). destruct (Cq s Hs) as (_ & _ & Sm).
    destruct (Nt (restrict_none n fe _ _ Ec (proj1 (Sm m Em)))).
Qed.
Theorem root_closes ar n fe ap cur again ch l : good ar n fe (PNode [] ap cur again ch) -> report n fe (PNode [] ap cur again ch) = Ok (Some l) ->
  l = [] /\ forall A, typeless A -> forall v, closes A (PNode [] ap cur again ch) v.
Proof.
  intros G E. pose proof (root_empty _ _ _ _ _ _ _ _ G E) as ->. split; [reflexivity|]. intros A TA. exact (proj1 (round_told ar n fe A TA _ G _ E) eq_refl).
Qed.
