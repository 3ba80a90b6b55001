(** C144 and C145 with the leaves that search again on a branch to which substitutions were applied. *)
From Coq Require Import ZArith List Bool String Lia.
From Verif Require Import LibSet_Model Ast_Model Occ_Spec Rules_Model Expand_Model Sem_Spec Ast_Proofs Tableau_Spec Expand_Spec Expand_Final Unif_Model Unif_Spec UnifLoss_Model Unif_Final Closure_Model Closure_Spec Closure_Proofs Closure_Final
  Dmt_Model Select_Model Select_Spec Select_Proofs Select_Final GlobUnif_Model Restrict_Model Restrict_Spec Leaf_Model Leaf_Spec Leaf_Final Up_Model Up_Spec Round_Model Round_Proofs Round_Final Verdict_Spec Verdict_Proofs
  Apply_Model Apply_Spec Apply_Proofs VerdictApply_Spec.
From Verif Require Round_Spec.
From Verif Require Import Tableau_Spec Closure_Spec Closure_Proofs.
Import ListNotations.
Open Scope list_scope.
Open Scope Z_scope.

(** *** the readings *)
Lemma emb_ground w g : ssubst w (emb g) = emb g.
Proof.
  revert g. fix IH 1. intros [p l|i|i]; cbn; try reflexivity. f_equal. rewrite map_map. induction l as [|a l IHl]; cbn; [reflexivity|]. rewrite (IH a), IHl. reflexivity.
Qed.
Lemma reading_more w L L' : (forall i, In i L -> In i L') -> extends (reading w L') (reading w L).
Proof.
  intros H k t Hk. unfold reading in Hk. apply in_map_iff in Hk. destruct Hk as (i & E & Hi). injection E as <- <-. rewrite emb_ground. cbn. rewrite (reading_assoc w L' i (H i Hi)). apply same_term_refl.
Qed.
Lemma reading_extends ar w s L : (forall k t, In (k, t) s -> well ar t) -> (forall k t, In (k, t) s -> w (m_index k) = tev ground w t) ->
  (forall k t i, In (k, t) s -> i = m_index k \/ In i (t_metas t) -> In i L) -> extends (reading w L) s.
Proof.
  intros W S H k t Hk. cbn [ssubst]. rewrite (reading_assoc w L _ (H k t _ Hk (or_introl eq_refl))). rewrite (S k t Hk). apply (emb_same ar); [exact (W k t Hk)|]. intros i Hi. exact (H k t i Hk (or_intror Hi)).
Qed.
Definition idx (s : list (meta * term)) : list Z := flat_map (fun b => m_index (fst b) :: t_metas (snd b)) s.
Lemma idx_in s k t i : In (k, t) s -> i = m_index k \/ In i (t_metas t) -> In i (idx s).
Proof. intros H Hi. apply in_flat_map. exists (k, t). split; [exact H|]. destruct Hi as [->|Hi]; [left; reflexivity|right; exact Hi]. Qed.
Lemma closes_more eqi w L L' b : (forall i, In i L -> In i L') -> closes eqi (reading w L) b -> closes eqi (reading w L') b.
Proof. intros H. apply closes_extends, reading_more, H. Qed.

(** *** the substitutions handed to the leaf *)
Lemma merged_solves ar n fe ap s m : okS ar (binds (fst ap)) -> okS ar (binds (fst s)) -> merge fe (add_unif_s true n fe) (binds (fst ap)) (binds (fst s)) <> Out ->
  merge_saf (merge_mixed n fe) ap s = Ok m -> consequence (fst m) (fst ap) /\ consequence (fst m) (fst s).
Proof.
  intros O1 O2 N. apply (merge_saf_ent (merge_mixed n fe) consequence ap s m consequence_entailment). intros r E. apply merge_mixed_ok in E. destruct E as [E F].
  split; intros A w _ S; destruct (merge_sound ar fe n _ _ _ O1 O2 N E F A w S); assumption.
Qed.
Lemma handed_closes ar n fe same eqi w st ap st' ap' : handed ar n fe same st ap st' ap' -> solves ground w (binds (fst ap')) ->
  forall L, closes eqi (reading w L) (branch_of st') -> exists L', closes eqi (reading w L') (branch_of st).
Proof.
  induction 1 as [|st1 ap1 s st2 ap2 H IH E P O1 O2 N]; intros S L C; [exists L; exact C|]. unfold apply_substitution in E.
  destruct (merge_saf (merge_mixed n fe) ap1 s) as [m| | |] eqn:Em; try discriminate. injection E as <- <-. destruct (merged_solves ar n fe ap1 s m O1 O2 N Em) as [M1 M2].
  apply (IH (M1 ground w ground_typeless S) (L ++ idx (binds (fst s)))). apply (applied_closes same eqi _ (fst s) st1 (proj1 P)).
  - apply (reading_extends ar); [|exact (M2 ground w ground_typeless S)|intros k t i Hk Hi; apply in_or_app; right; exact (idx_in _ k t i Hk Hi)].
    intros k t Hk. destruct O2 as [_ O2]. exact (proj2 (O2 k t Hk)).
  - apply (closes_more eqi w L); [intros i Hi; apply in_or_app; auto|exact C].
Qed.

Lemma kept_closes eqi w st st1 : kept_from st st1 -> closes eqi w (branch_of st1) -> closes eqi w (branch_of st).
Proof.
  intros K [i ts H|i j ts H|i p tys args ts i' j' p' tys' args' ts' H H' E1 E2 F|i j p tys a a' ts H E S].
  - exact (cl_bot eqi w (branch_of st) i ts (K _ H)).
  - exact (cl_top eqi w (branch_of st) i j ts (K _ H)).
  - exact (cl_pair eqi w (branch_of st) i p tys args ts i' j' p' tys' args' ts' (K _ H) (K _ H') E1 E2 F).
  - exact (cl_neq eqi w (branch_of st) i j p tys a a' ts (K _ H) E S).
Qed.

Section Verdict.
Variables (eqi : Z) (name_id : string -> ident) (ty_arity : string -> nat) (n fe : nat) (same : list term -> list term -> bool).
Variable ar : signature.
Hypothesis A2 : arity ar eqi = 2%nat.
Hypothesis HM : monomorphic ar ty_arity.

Lemma branch_closed forb p w st : Round_Spec.closed_by ground w p -> works_after ar eqi name_id ty_arity n fe same forb p [st] -> exists L, closes eqi (reading w L) (branch_of st).
Proof.
  intros C W. destruct (W st (or_introl eq_refl)) as (mm & ap0 & ap & l & f & st1 & st' & Hl & Ke & Ha & Fo & K).
  destruct (leaf_closed ground w p C mm ap l f Hl) as [[Sap Cl] _].
  assert (Q : (l = [] /\ forall s, closes eqi s (branch_of st')) \/ (l <> [] /\ forall sg, In sg l -> exists s, sg = mixed_terms s /\ okS ar s /\ closes eqi s (branch_of st'))).
  { destruct K as [[NO E]|[NO E]].
    - destruct (state_sound eqi name_id ty_arity n fe same ar st' A2 HM Fo (forb st') f l NO E) as [Q|[Q1 Q2]]; [left; exact Q|right; split; [exact Q1|]]. intros sg Hsg. destruct (Q2 sg Hsg) as (s & E1 & E2 & E3). exists s. intuition.
    - destruct (again_sound eqi name_id ty_arity n fe ar st' A2 HM (fun x Hx => Fo x (in_or_app _ _ _ (or_intror Hx))) (forb st') f l NO E) as [Q|[Q1 Q2]]; [left; exact Q|right; split; [exact Q1|]].
      intros sg Hsg. destruct (Q2 sg Hsg) as (s & E1 & E2 & E3). exists s. intuition. }
  assert (D : exists L, closes eqi (reading w L) (branch_of st1)); [|destruct D as (L & D); exists L; exact (kept_closes eqi _ st st1 Ke D)].
  destruct Q as [[_ Q]|[Nl Q]]; [exact (handed_closes ar n fe same eqi w st1 ap0 st' ap Ha Sap [] (Q _))|].
  destruct Cl as [->|(sg & Hsg & S)]; [congruence|]. destruct (Q sg Hsg) as (s & -> & [_ Os] & Cs). apply (handed_closes ar n fe same eqi w st1 ap0 st' ap Ha Sap (idx s)).
  apply (closes_extends eqi _ s _); [|exact Cs]. rewrite (term_part_mixed s : binds (mixed_terms s) = s) in S. apply (reading_extends ar); [intros k t Hk; exact (proj2 (Os k t Hk))|exact S|].
  intros k t i Hk Hi. exact (idx_in s k t i Hk Hi).
Qed.
Theorem branches_closed forb p w branches : Round_Spec.closed_by ground w p -> works_after ar eqi name_id ty_arity n fe same forb p branches ->
  exists s, forall st, In st branches -> closes eqi s (branch_of st).
Proof.
  intros C W. assert (K : exists L, forall st, In st branches -> closes eqi (reading w L) (branch_of st)); [|destruct K as (L & K); exists (reading w L); exact K].
  induction branches as [|st r IH]; [exists []; intros st []|]. destruct IH as (L & IH); [intros x Hx; apply W; right; exact Hx|].
  destruct (branch_closed forb p w st C) as (L' & H); [intros x [<-|[]]; apply W; left; reflexivity|]. exists (L' ++ L). intros x [<-|Hx].
  - apply (closes_more eqi w L'); [intros i Hi; apply in_or_app; auto|exact H].
  - apply (closes_more eqi w L); [intros i Hi; apply in_or_app; auto|exact (IH x Hx)].
Qed.
Theorem after_unsat ap cur again ch l m g k f F forb : Round_Spec.good ar n fe (PNode [] ap cur again ch) -> Round_Spec.scoped (PNode [] ap cur again ch) ->
  report n fe (PNode [] ap cur again ch) = Ok (Some l) -> wf_start g f -> grows same (plant m g k f) F ->
  works_after ar eqi name_id ty_arity n fe same forb (PNode [] ap cur again ch) (fo_leaves F) ->
  forall I (v : val I), eq_refl_in eqi I -> ~ holds f v.
Proof.
  intros G Sc E W R On. destruct (round_one ar n fe ap cur again ch l G Sc E ground ground_typeless (inhabits (GI 0))) as (w & C).
  destruct (branches_closed forb _ w _ C On) as (s & H). exact (grown_unsat same m g k f F s eqi W R H).
Qed.
End Verdict.
