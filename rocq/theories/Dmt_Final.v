(** C43 and C45 from the axioms to the rewritten literal. *)
From Coq Require Import ZArith List Bool String Lia.
From Verif Require Import Ast_Model Ast_Proofs Sem_Spec Occ_Spec Free_Spec Rules_Model Rules_Spec
  Inst_Proofs Tableau_Proofs Unif_Spec Unif_Model UnifTree_Model Closure_Spec Restrict_Spec Dmt_Model Dmt_Spec Dmt_Proofs DmtRewrite_Proofs.
Import ListNotations.
Open Scope list_scope.
Open Scope Z_scope.

(** the rules have an atom on the left and no term identifier on the right *)
Definition shaped (l : list (form * form)) : Prop := Forall (fun r => atomic (fst r) /\ f_noid (snd r)) l.
Definition dshaped (d : dmt) : Prop := shaped (d_pos d) /\ shaped (d_neg d).
Lemma remove_neg_lit a : literal a -> atomic (remove_neg a).
Proof. intros [f H|i f H]; destruct H; cbn; constructor. Qed.
Lemma add_pos_shaped a c d : literal a -> f_noid c -> dshaped d -> dshaped (add_pos a c d).
Proof.
  intros A N [H1 H2]. split; [|exact H2]. apply Forall_app. split; [exact H1|]. constructor; [|constructor]. split; [apply remove_neg_lit, A|exact N].
Qed.
Lemma add_neg_shaped a c d : literal a -> f_noid c -> dshaped d -> dshaped (add_neg a c d).
Proof.
  intros A N [H1 H2]. split; [exact H1|]. apply Forall_app. split; [exact H2|]. constructor; [|constructor]. split; [apply remove_neg_lit, A|exact N].
Qed.
Lemma equ_shaped eqi a b d g r d' g' : f_noid a -> f_noid b -> dshaped d -> rules_of_equ eqi a b d g = Ok (r, d', g') -> dshaped d'.
Proof.
  intros Na Nb S E. unfold rules_of_equ in E. destruct (is_atomic a) eqn:Aa, (is_atomic b) eqn:Ab; cbn [Bool.eqb] in E;
    try (injection E as <- <- <-; exact S; fail).
  - destruct (is_equality_pred eqi a) as [[]|]; try discriminate; [injection E as <- <- <-; exact S|]. apply atomic_lit in Aa.
    unfold add_equ, maker_not in E. cbn in E. destruct (is_not a); injection E as <- <- <-;
      apply add_neg_shaped; auto; apply add_pos_shaped; auto.
  - destruct (is_equality_pred eqi b) as [[]|]; try discriminate; [injection E as <- <- <-; exact S|]. apply atomic_lit in Ab.
    unfold add_equ, maker_not in E. cbn in E. destruct (is_not b); injection E as <- <- <-;
      apply add_neg_shaped; auto; apply add_pos_shaped; auto.
Qed.
Lemma from_negated_lit a p : pred_from_negated a = Some p -> literal p.
Proof. intros E. destruct a as [| | | | | |i f| | |]; try discriminate. destruct f; try discriminate. injection E as <-. constructor. constructor. Qed.
Lemma imp_shaped eqi a b d g r d' g' : f_noid a -> f_noid b -> dshaped d -> rules_of_imp eqi a b d g = Ok (r, d', g') -> dshaped d'.
Proof.
  intros Na Nb S E. unfold rules_of_imp in E. destruct (negb (is_atomic a) && negb (is_atomic b)); [injection E as <- <- <-; exact S|].
  destruct (is_equality_pred eqi a) as [[]|]; try discriminate; [injection E as <- <- <-; exact S|].
  match type of E with bind ?x _ = _ => set (X := x) in E; assert (SX : forall y, X = Ok y -> dshaped y) end.
  { subst X. intros y. destruct (is_atomic a) eqn:Aa; [|intros K; injection K as <-; exact S]. apply atomic_lit in Aa.
    destruct (is_pred a); [intros K; injection K as <-; apply add_pos_shaped; auto|].
    destruct (pred_from_negated a) eqn:P; [|discriminate]. intros K; injection K as <-. apply add_neg_shaped; auto. eapply from_negated_lit, P. }
  destruct X as [y| | |]; try discriminate. specialize (SX y eq_refl). cbn [bind] in E. destruct (is_atomic b) eqn:Ab; [|injection E as <- <- <-; exact SX].
  apply atomic_lit in Ab. destruct (is_equality_pred eqi b) as [[]|]; try discriminate; [injection E as <- <- <-; exact SX|].
  unfold maker_not in E. cbn in E. destruct (is_pred b); [injection E as <- <- <-; apply add_neg_shaped; auto|].
  destruct (pred_from_negated b) eqn:P; [|discriminate]. injection E as <- <- <-. apply add_pos_shaped; auto. eapply from_negated_lit, P.
Qed.
Lemma register_shaped eqi pol ax d g r d' g' : f_noid ax -> binds ax -> dshaped d -> register eqi pol ax d g = Ok (r, d', g') -> dshaped d'.
Proof.
  intros N B S E. unfold register in E. destruct (inst_total (Datatypes.S (prefix ax)) ax g N B ltac:(lia)) as (f & g1 & E1 & _ & Nf). rewrite E1 in E. cbn [bind] in E.
  destruct f as [| | | |i a b|i a b| | | |]; try (injection E as <- <- <-; exact S).
  - apply noid_two in Nf. destruct Nf. eapply equ_shaped; [| | |exact E]; auto.
  - apply noid_two in Nf. destruct Nf. destruct pol; [|injection E as <- <- <-; exact S]. eapply imp_shaped; [| | |exact E]; auto.
Qed.
Lemma register_all_shaped eqi pol axs : forall d g l d' g', Forall (wff g) axs -> Forall untyped axs -> Forall binds axs -> dshaped d ->
  register_all eqi pol axs d g = Ok (l, d', g') -> dshaped d'.
Proof.
  induction axs as [|ax r IH]; intros d g l d' g' W U B S E; cbn [register_all] in E; [injection E as <- <- <-; exact S|].
  inversion W; inversion U; inversion B; subst. destruct (register eqi pol ax d g) as [[[c d1] g1]| | |] eqn:E1; try discriminate. cbn [bind] in E.
  destruct (register_all eqi pol r d1 g1) as [[[l2 d2] g2]| | |] eqn:E2; try discriminate. cbn [bind] in E. injection E as <- <- <-.
  destruct (register_valid eqi pol ax d g c d1 g1 (mkInterp unit unit (fun _ _ _ => tt) (fun _ _ _ => True) (fun _ _ => tt) (fun _ => tt) (fun _ => tt) (fun _ _ => tt) (fun _ _ => tt))) as (L & _); auto.
  refine (IH d1 g1 l2 d2 g2 _ _ _ _ E2); auto.
  - apply (Forall_impl (P := wff g)); [|assumption]. intros f Hf. exact (wff_mono _ _ _ L Hf).
  - eapply register_shaped; [| | |exact E1]; auto. apply (wf_noid g). assumption.
Qed.
Lemma shaped_for d lit : dshaped d -> shaped (rules_for d lit).
Proof. intros [H1 H2]. destruct lit; assumption. Qed.
Lemma valid_for I d lit r : valid I d -> In r (rules_for d lit) -> rule_valid I (match lit with Not _ _ => false | _ => true end) r.
Proof. intros [H1 H2]. destruct lit; auto. Qed.

(** from the axioms to the candidates *)
Theorem modulo name_id ty_arity n fe (ar : signature) eqi pol axs rest d g g' lit l :
  Forall (wff g) axs -> Forall untyped axs -> Forall binds axs -> register_all eqi pol axs dmt0 g = Ok (rest, d, g') ->
  Forall (first_order ar) (map fst (rules_for d lit)) -> first_order ar lit -> monomorphic ar ty_arity -> keys_apart key (rules_for d lit) ->
  rewrite_strict name_id ty_arity n fe d lit <> Out -> rewrite_real name_id ty_arity n fe d lit = Ok l ->
  forall ix s c, In (ix, (s, c)) l -> (ix = -1 /\ s = failure /\ c = lit) \/
    exists a r sg, rewritten n fe (rules_for d lit) lit ix s c a r sg /\
      (linear_for sg (snd r) ->
       (forall k t, In (k, t) sg -> ~ In (m_index k) (f_metas c)) /\
       (direct_relevant (lit_metas lit) sg -> forall I (v : val I), Forall (true_in I) axs -> satisfies v s -> holds lit v -> holds c v)).
Proof.
  intros W U B E Hf Fl HM KA NO El ix s c Hin.
  assert (Sh : shaped (rules_for d lit)).
  { apply shaped_for. eapply register_all_shaped; [exact W|exact U|exact B| |exact E]. split; constructor. }
  assert (At : Forall atomic (map fst (rules_for d lit))).
  { apply Forall_forall. intros a Ha. apply in_map_iff in Ha. destruct Ha as (r & <- & Hr). unfold shaped in Sh. rewrite Forall_forall in Sh. apply Sh, Hr. }
  destruct (rewrite_inv name_id ty_arity n fe ar d lit l At Hf Fl HM NO El ix s c Hin) as [H|(a & r & sg & R)]; [left; exact H|right].
  exists a, r, sg. split; [exact R|]. intros L.
  assert (Nr : f_noid (snd r)). { unfold shaped in Sh. rewrite Forall_forall in Sh. apply Sh, (rw_rule _ _ _ _ _ _ _ _ _ _ R). }
  assert (Fa : first_order ar a). { rewrite Forall_forall in Hf. apply Hf, (rw_atom _ _ _ _ _ _ _ _ _ _ R). }
  assert (Fl' : first_order ar (atom_of lit)).
  { pose proof (rw_unified _ _ _ _ _ _ _ _ _ _ R) as Un. destruct lit as [| | | | | |j f| | |]; try exact Fl. destruct f; first [exact Fl|exact Logic.I|destruct a; destruct Un]. }
  split; [apply (rewritten_complete n fe ar _ _ _ _ _ _ _ _ R Fa Fl' Nr L)|].
  intros DR I v T Sv Hl. apply (rewritten_sound n fe ar _ _ _ _ _ _ _ _ R Fa Fl KA Nr L DR I v); auto.
  apply (valid_for I d). 2: apply (rw_rule _ _ _ _ _ _ _ _ _ _ R).
  destruct (register_all_valid eqi pol axs dmt0 g rest d g' I W U B E) as (_ & V & _). apply V; [|exact T]. split; intros r0 [].
Qed.
Lemma valid0 I : valid I dmt0. Proof. split; intros r []. Qed.
Theorem register_rules eqi pol axs g rest d g' I : Forall (wff g) axs -> Forall untyped axs -> Forall binds axs ->
  register_all eqi pol axs dmt0 g = Ok (rest, d, g') -> Forall (true_in I) axs -> rules_valid I (d_pos d) (d_neg d).
Proof.
  intros W U B E T. destruct (register_all_valid eqi pol axs dmt0 g rest d g' I W U B E) as (_ & V & _). apply V; [apply valid0|exact T].
Qed.
Theorem register_same_models eqi pol axs g rest d g' I : Forall (wff g) axs -> Forall untyped axs -> Forall binds axs ->
  register_all eqi pol axs dmt0 g = Ok (rest, d, g') -> Forall (fun ax => ~ dropped eqi (matrix ax)) axs ->
  (rules_valid I (d_pos d) (d_neg d) /\ Forall (true_in I) rest <-> Forall (true_in I) axs).
Proof.
  intros W U B E ND. destruct (register_all_valid eqi pol axs dmt0 g rest d g' I W U B E) as (_ & V & K). split.
  - intros [H1 H2]. apply (K ND H1 H2).
  - intros T. apply V; [apply valid0|exact T].
Qed.
