(** C17: the formula assembled from the statements. *)
From Coq Require Import ZArith List Bool String Lia.
From Verif Require Import Ast_Model Problem_Model Sem_Spec Occ_Spec Rename_Spec Problem_Spec
  Ast_Proofs Sem_Proofs Rename_Proofs Rename_Final.
Import ListNotations.
Open Scope Z_scope.

Section StmtInd.
Variable P : stmt -> Prop.
Hypothesis H1 : forall f, P (SAxiom f).
Hypothesis H2 : forall f, P (SConjecture f).
Hypothesis H3 : forall f, P (SNegConjecture f).
Hypothesis H4 : forall b, P (SType b).
Hypothesis H5 : P SUnknown.
Hypothesis H6 : P (SInclude None).
Hypothesis H7 : forall b l, Forall P l -> P (SInclude (Some (b, l))).
Fixpoint stmt_ind' (s : stmt) : P s :=
  match s with
  | SAxiom f => H1 f | SConjecture f => H2 f | SNegConjecture f => H3 f | SType b => H4 b | SUnknown => H5
  | SInclude None => H6
  | SInclude (Some (b, l)) => H7 b l
     ((fix go (l : list stmt) : Forall P l :=
        match l with [] => Forall_nil _ | x :: r => Forall_cons x (stmt_ind' x) (go r) end) l)
  end.
End StmtInd.

Lemma drawn_mono g g' f : step g g' -> drawn_from g f -> drawn_from g' f.
Proof.
  intros [S1 S2] (A & B & C). split; [|split].
  - intros i Hi. apply A in Hi. lia.
  - intros s Hs. apply reg_known, S2, reg_known, B, Hs.
  - intros x Hx. destruct (C x Hx) as (C1 & C2 & C3). split; [lia|]. split; auto.
    apply reg_known, S2, reg_known, C2.
Qed.
Lemma step_tr a b c : step a b -> step b c -> step a c.
Proof. intros [A B] [C E]. split; [lia|auto]. Qed.

Lemma rename_good g0 g f : good_form g0 f -> step g0 g -> clean g ->
  exists f' g', rename_variables f g = Some (f', g') /\ equiv f f' /\ step g g' /\ clean g'.
Proof.
  intros (A & B & C & E) S CL. apply (drawn_mono _ _ _ S) in A.
  assert (NC : no_name_clash g (map tv_name (f_binders f))).
  { apply clean_no_clash; auto. intros s Hs. apply in_map_iff in Hs as (x & <- & Hx); auto. }
  destruct (rename_main f g A B C NC) as (f' & g' & R & O).
  destruct (rename_clean f g A B C CL E) as (f2 & g2 & R2 & _ & _ & _ & _ & CL2).
  rewrite R in R2. injection R2 as <- <-.
  exists f', g'. destruct O as (_ & O2 & O3 & _). auto.
Qed.

Definition means {I} (p : pstate) (v : val I) : Prop :=
  Forall (fun f => holds f v) (and_list p) /\
  match neg_conj p with Some c => holds c v | None => True end.

Lemma idx_step g : step g (snd (maker_index_formula g)) /\ (clean g -> clean (snd (maker_index_formula g))).
Proof. split; [split; [simpl; lia|auto]|auto]. Qed.

Lemma holds_and i fs I (v : val I) : holds (And i fs) v <-> Forall (fun f => holds f v) fs.
Proof.
  cbn. induction fs as [|a r IH]; simpl; split; auto; intros H.
  - destruct H as [? ?]. constructor; auto. apply IH; auto.
  - inversion H; subst. split; auto. apply IH; auto.
Qed.
Lemma flatten_and1_holds f I (v : val I) : Forall (fun f => holds f v) (flatten_and1 f) <-> holds f v.
Proof.
  induction f using form_ind'; try (simpl; split; [intros X; inversion X; auto|constructor; auto]; fail).
  rewrite holds_and. simpl. induction H as [|a r Ha Hr IH]; simpl; [split; constructor|].
  rewrite Forall_app, Ha, IH. split; [intros [? ?]; constructor; auto|intros X; inversion X; auto].
Qed.
Lemma flatten_and_holds fs I (v : val I) :
  Forall (fun f => holds f v) (flatten_and fs) <-> Forall (fun f => holds f v) fs.
Proof.
  induction fs as [|a r IH]; simpl; [split; constructor|].
  unfold flatten_and in *; simpl. rewrite Forall_app, flatten_and1_holds, IH.
  split; [intros [? ?]; constructor; auto|intros X; inversion X; auto].
Qed.

Lemma finish_ok p : let '(fo, g') := p_finish p in
  step (p_gen p) g' /\ (clean (p_gen p) -> clean g') /\
  (fo = None <-> and_list p = [] /\ neg_conj p = None) /\
  forall I (v : val I), means p v <-> match fo with Some f => holds f v | None => True end.
Proof.
  unfold p_finish. destruct (neg_conj p) as [c|] eqn:EC; destruct (and_list p) as [|a l] eqn:EL; cbn -[holds flatten_and].
  - split; [apply step_refl|]. split; auto. split; [split; [discriminate|intros [_ E]; discriminate]|].
    intros I v. unfold means. rewrite EC, EL. intuition.
  - split; [apply idx_step|]. split; [apply idx_step|]. split; [split; [discriminate|intros [E _]; discriminate]|].
    intros I v. unfold means. rewrite EC, EL, holds_and, Forall_app, flatten_and_holds.
    split; [intros [? ?]; split; auto|intros [? X]; split; auto; inversion X; auto].
  - split; [apply step_refl|]. split; auto. split; [split; auto|].
    intros I v. unfold means. rewrite EC, EL. intuition.
  - split; [apply idx_step|]. split; [apply idx_step|]. split; [split; [discriminate|intros [E _]; discriminate]|].
    intros I v. unfold means. rewrite EC, EL, holds_and. intuition.
Qed.

Definition step_ok (g0 : gen) (s : stmt) : Prop :=
  forall p, good_stmt g0 s -> clean (p_gen p) -> step g0 (p_gen p) ->
  (is_conjecture s = true -> neg_conj p = None) ->
  exists p', p_step s p = Some p' /\ clean (p_gen p') /\ step (p_gen p) (p_gen p') /\
   (forall I (v : val I), means p' v <-> means p v /\ counter v s) /\
   (neg_conj p' = None <-> neg_conj p = None /\ is_conjecture s = false) /\
   ((and_list p' = [] /\ neg_conj p' = None) <-> (and_list p = [] /\ neg_conj p = None) /\ has_form s = false) /\
   conj_found p' = conj_found p || has_conj s /\ typed p' = typed p.

Lemma p_run_ok g0 l : Forall (step_ok g0) l -> forall p,
  fold_right (fun s P => good_stmt g0 s /\ P) True l -> clean (p_gen p) -> step g0 (p_gen p) ->
  (List.length (filter is_conjecture l) <= match neg_conj p with None => 1 | Some _ => 0 end)%nat ->
  exists p', p_run l p = Some p' /\ clean (p_gen p') /\ step (p_gen p) (p_gen p') /\
   (forall I (v : val I), means p' v <-> means p v /\ countermodel v l) /\
   ((and_list p' = [] /\ neg_conj p' = None) <-> (and_list p = [] /\ neg_conj p = None) /\ existsb has_form l = false) /\
   conj_found p' = conj_found p || existsb has_conj l /\ typed p' = typed p.
Proof.
  induction 1 as [|s r Hs Hr IH]; intros p G CL ST LEN.
  - exists p. simpl. split; auto. split; auto. split; [apply step_refl|]. split; [intuition|]. split; [intuition|].
    rewrite orb_false_r; auto.
  - destruct G as [G1 G2]. simpl in LEN.
    assert (NC : is_conjecture s = true -> neg_conj p = None).
    { intros E. rewrite E in LEN. simpl in LEN. destruct (neg_conj p); auto. lia. }
    destruct (Hs p G1 CL ST NC) as (p1 & E1 & CL1 & ST1 & M1 & N1 & Em1 & C1 & T1).
    destruct (IH p1 G2 CL1 (step_tr _ _ _ ST ST1)) as (p2 & E2 & CL2 & ST2 & M2 & Em2 & C2 & T2).
    { destruct (is_conjecture s) eqn:Ei; simpl in LEN.
      - destruct (neg_conj p); [lia|]. lia.
      - destruct (neg_conj p) eqn:Ep; [lia|]. assert (X : neg_conj p1 = None) by (apply N1; auto). rewrite X; auto. }
    exists p2. simpl. rewrite E1. split; auto. split; auto. split; [eapply step_tr; eauto|]. split.
    + intros I v. rewrite M2, M1. unfold countermodel; simpl. intuition.
    + split; [|split; [rewrite C2, C1, orb_assoc; auto|congruence]].
      rewrite Em2, Em1, orb_false_iff. intuition.
Qed.

Lemma p_step_include b l p : p_step (SInclude (Some (b, l))) p =
  match p_run l (mkP [] None false (p_gen p) (conj_found p)) with
  | None => None
  | Some q => let '(fo, g') := p_finish q in
      Some (mkP (match fo with Some f => and_list p ++ [f] | None => and_list p end)
                (neg_conj p) (typed p || typed q) g' (conj_found q))
  end.
Proof. reflexivity. Qed.

Lemma app_nil_inv {A} (l : list A) x : l ++ [x] = [] <-> False.
Proof. split; [destruct l; discriminate|contradiction]. Qed.

Lemma all_step_ok g0 s : step_ok g0 s.
Proof.
  induction s using stmt_ind'; intros p G CL ST NC.
  - destruct f as [f|]; [|contradiction]. cbn in *. unfold do_axiom.
    destruct (rename_good g0 (p_gen p) f G ST CL) as (f' & g' & R & E & S' & CL').
    rewrite R. eexists; split; [reflexivity|]. cbn. split; auto. split; auto. split.
    + intros I v. unfold means; cbn. rewrite Forall_app, (E I v).
      split; [intros [[A X] B]; inversion X; auto|intros [[A B] X]; auto].
    + split; [intuition|]. split; [rewrite app_nil_inv; intuition; discriminate|]. rewrite orb_false_r; auto.
  - destruct f as [f|]; [|contradiction]. cbn in *. rewrite (NC eq_refl).
    destruct (rename_good g0 (p_gen p) f G ST CL) as (f' & g' & R & E & S' & CL').
    rewrite R. eexists; split; [reflexivity|]. cbn. split; [apply idx_step in CL'; exact CL'|].
    split; [exact (step_tr _ _ _ S' (proj1 (idx_step g')))|]. split.
    + intros I v. unfold means; cbn. rewrite (E I v), (NC eq_refl). intuition.
    + split; [intuition; discriminate|]. split; [intuition; discriminate|]. rewrite orb_true_r; auto.
  - destruct f as [f|]; [|contradiction]. cbn in *. rewrite (NC eq_refl).
    destruct (rename_good g0 (p_gen p) f G ST CL) as (f' & g' & R & E & S' & CL').
    rewrite R. eexists; split; [reflexivity|]. cbn. split; auto. split; auto. split.
    + intros I v. unfold means; cbn. rewrite (E I v), (NC eq_refl). intuition.
    + split; [intuition; discriminate|]. split; [intuition; discriminate|]. rewrite orb_true_r; auto.
  - cbn in G. subst b. exists p. split; [reflexivity|]. split; auto. split; [apply step_refl|]. cbn.
    split; [intuition|]. split; [intuition|]. split; [intuition|]. rewrite orb_false_r; auto.
  - contradiction.
  - contradiction.
  - cbn in G. destruct G as [G LEN].
    destruct (p_run_ok g0 l H (mkP [] None false (p_gen p) (conj_found p)) G CL ST LEN)
      as (q & E & CLq & STq & Mq & Emq & Cq & Tq).
    rewrite p_step_include, E. cbn in STq, Emq, Cq, Tq.
    pose proof (finish_ok q) as F. destruct (p_finish q) as [fo g'].
    destruct F as (F1 & F2 & F3 & F4).
    eexists; split; [reflexivity|]. cbn -[counter has_form].
    split; auto. split; [eapply step_tr; eauto|]. split; [|split; [|split; [|split]]].
    + intros I v. unfold means at 1; cbn -[counter].
      change (counter v (SInclude (Some (b, l)))) with (countermodel v l).
      assert (X : countermodel v l <-> match fo with Some f => holds f v | None => True end).
      { rewrite <- F4, Mq. unfold means at 1; cbn. intuition. }
      rewrite X. unfold means. destruct fo as [f|]; [rewrite Forall_app|].
      * split; [intros [[A Y] B]; inversion Y; auto|intros [[A B] Y]; auto].
      * intuition.
    + intuition.
    + change (has_form (SInclude (Some (b, l)))) with (existsb has_form l).
      destruct fo as [f|].
      * rewrite app_nil_inv. destruct (existsb has_form l) eqn:EX; [intuition; discriminate|].
        assert (Y : Some f = None) by (apply F3, Emq; auto). discriminate.
      * assert (Y : existsb has_form l = false) by (apply Emq, F3; auto). intuition.
    + exact Cq.
    + rewrite Tq, orb_false_r; auto.
Qed.

(** C17 *)
Lemma assembled_ok g l : clean g -> good_file g l ->
  exists fo, statement_list_to_formula l g = Some (fo, false, existsb has_conj l) /\
  (fo = None <-> existsb has_form l = false) /\
  (forall f, fo = Some f -> forall I (v : val I), holds f v <-> countermodel v l).
Proof.
  intros CL [G LEN].
  assert (FA : Forall (step_ok g) l) by (apply Forall_forall; intros; apply all_step_ok).
  destruct (p_run_ok g l FA (mkP [] None false g false) G CL (step_refl g) LEN) as (q & E & CLq & STq & Mq & Emq & Cq & Tq).
  unfold statement_list_to_formula. rewrite E.
  pose proof (finish_ok q) as F. destruct (p_finish q) as [fo g']. cbn [fst].
  destruct F as (F1 & F2 & F3 & F4). exists fo. cbn in *.
  rewrite Cq, Tq. split; auto. split; [rewrite F3, Emq; intuition|].
  intros f -> I v. rewrite <- F4, Mq. unfold means; cbn. intuition.
Qed.

(** two conjectures in the same list of statements *)
Lemma p_run_two l p : neg_conj p <> None -> existsb is_conjecture l = true -> p_run l p = None.
Proof.
  revert p. induction l as [|s r IH]; intros p N E; simpl in E; [discriminate|].
  simpl. destruct (is_conjecture s) eqn:Es.
  - destruct s; try discriminate; cbn; destruct (neg_conj p); auto; contradiction.
  - destruct (p_step s p) as [p'|] eqn:Ep; auto. apply IH; auto.
    assert (X : neg_conj p' = neg_conj p).
    { destruct s as [[f|]|?|?|[|]| |[[b l']|]]; try discriminate.
      - cbn in Ep. unfold do_axiom in Ep. destruct (rename_variables f (p_gen p)) as [[? ?]|]; inversion Ep; auto.
      - cbn in Ep. inversion Ep; auto.
      - rewrite p_step_include in Ep. destruct (p_run l' _) as [q|]; [|discriminate].
        destruct (p_finish q). inversion Ep; auto. }
    congruence.
Qed.
Lemma second_conjecture l1 s l2 g : is_conjecture s = true -> existsb is_conjecture l2 = true ->
  statement_list_to_formula (l1 ++ s :: l2) g = None.
Proof.
  intros Es E2. unfold statement_list_to_formula.
  assert (X : forall p, p_run (l1 ++ s :: l2) p = None).
  { induction l1 as [|a r IH]; intros p; simpl.
    - destruct (p_step s p) as [p'|] eqn:Ep; auto. apply p_run_two; auto.
      destruct s; try discriminate; cbn in Ep; destruct (neg_conj p); try discriminate;
      destruct f as [f|]; try discriminate; destruct (rename_variables f (p_gen p)) as [[? ?]|]; try discriminate;
      inversion Ep; discriminate.
    - destruct (p_step a p); auto. }
  rewrite X; auto.
Qed.

(** *** counterexamples *)
(** axiom ! [Z] : p(Z,Z), conjecture ! [X7] : ! [X] : p(X,X7) *)
Definition gProb : gen :=
  snd (maker_var "X" (snd (maker_var "X7" (snd (maker_var "Z" (snd (maker_id "p" (snd (maker_id "=" gen0))))))))).
Definition axProb : form := All 3 [mkTV "Z" 2 iTy] (Pred 4 (mkId 1 "p") [] [Var 2 "Z"; Var 2 "Z"]).
Definition cjProb : form := All 1 [mkTV "X7" 3 iTy] (All 0 [mkTV "X" 4 iTy]
  (Pred 2 (mkId 1 "p") [] [Var 4 "X"; Var 3 "X7"])).
Lemma prob_ok : drawn_from gProb axProb /\ sorted_use axProb /\ f_noid axProb /\
  drawn_from gProb cjProb /\ sorted_use cjProb /\ f_noid cjProb.
Proof.
  split; [|split; [|split; [|split; [|split]]]].
  - split; [|split].
    + simpl. intros i [<-|[<-|[]]]; reflexivity.
    + simpl. intros s [].
    + simpl. intros x [<-|[]]; (split; [reflexivity|split; [|intros []]]); eexists; reflexivity.
  - simpl. repeat split; try (constructor; simpl; auto; try constructor; fail). intros x [<-|[]]; simpl; auto.
  - intros b. simpl. intros [<-|[<-|[]]]; reflexivity.
  - split; [|split].
    + simpl. intros i [<-|[<-|[]]]; reflexivity.
    + simpl. intros s [].
    + simpl. intros x [<-|[<-|[]]]; (split; [reflexivity|split; [|intros []]]); eexists; reflexivity.
  - simpl. repeat split; try (constructor; simpl; auto; try constructor; fail);
    intros x [<-|[]]; simpl; auto.
  - intros b. simpl. intros [<-|[<-|[]]]; reflexivity.
Qed.
Lemma assembled_wrong : exists f,
  statement_list_to_formula [SAxiom (Some axProb); SConjecture (Some cjProb)] gProb = Some (Some f, false, true) /\
  (exists I (v : val I), countermodel v [SAxiom (Some axProb); SConjecture (Some cjProb)]) /\
  (forall I (v : val I), ~ holds f v).
Proof.
  eexists. split; [vm_compute; reflexivity|]. split.
  - exists eqI, eqV. cbn. split; [intros d; reflexivity|]. split; auto.
    intros H. specialize (H true false). cbn in H. discriminate.
  - intros I v. cbn. intros (A & B & _). apply B. intros d d'. cbn. apply (A d).
Qed.

(** a conjecture in an included file and another one in the main file are both accepted *)
Definition two_conj : list stmt :=
  [SInclude (Some (false, [SConjecture (Some (Bot 0))])); SConjecture (Some (Top 1))].
Lemma two_conjectures_accepted : exists f, statement_list_to_formula two_conj gen0 = Some (Some f, false, true).
Proof. eexists. vm_compute. reflexivity. Qed.

(** whether included files are typed is never reported *)
Lemma typed_lost : exists f, statement_list_to_formula [SInclude (Some (true, [SAxiom (Some (Top 0))]))] gen0 = Some (Some f, false, false).
Proof. eexists. vm_compute. reflexivity. Qed.
