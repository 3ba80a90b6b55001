(** From the answer of the root process to the formula of the search (C144, C145). *)
From Coq Require Import ZArith List Bool String Lia.
From Verif Require Import LibSet_Model Ast_Model Occ_Spec Rules_Model Expand_Model Sem_Spec Ast_Proofs Tableau_Spec Expand_Spec Unif_Model Unif_Spec UnifLoss_Model Unif_Final Closure_Model Closure_Spec Closure_Proofs Closure_Final
  Dmt_Model Select_Model Select_Spec GlobUnif_Model Restrict_Model Restrict_Spec Leaf_Model Leaf_Spec Leaf_Final Up_Model Up_Spec Round_Model Round_Spec Round_Proofs Round_Final Verdict_Spec.
Import ListNotations.
Open Scope list_scope.
Open Scope Z_scope.

(** *** the algebra of the closed terms *)
Inductive gt : Type := GF (p : Z) (l : list gt) | GI (i : Z) | GV (i : Z).
Fixpoint emb (g : gt) : term :=
  match g with
  | GF p l => Fun (mkId p "") [] (map emb l)
  | GI i => TId (mkId i "")
  | GV i => Var i ""
  end.
Definition ground : alg := mkAlg gt (fun p _ l => GF p l) GI GV.
Lemma ground_typeless : typeless ground.
Proof. intros p tys tys' l. reflexivity. Qed.

Definition reading (w : Z -> gt) (l : list Z) : list (meta * term) := map (fun i => (plain_meta i, emb (w i))) l.
Lemma reading_assoc w l i : In i l -> assoc i (reading w l) = Some (emb (w i)).
Proof.
  induction l as [|j l IH]; intros H; [destruct H|]. cbn. destruct (Z.eqb_spec j i) as [->|N]; [reflexivity|]. destruct H as [H|H]; [congruence|exact (IH H)].
Qed.
Lemma emb_same ar w l t : well ar t -> (forall i, In i (t_metas t) -> In i l) -> same_term (emb (tev ground w t)) (ssubst (reading w l) t).
Proof.
  induction t as [i|p tys ts IH|i n|m] using term_ind'; intros W H; try destruct W.
  - destruct H1 as (_ & _ & W). subst tys. cbn. constructor; [reflexivity|constructor|]. rewrite map_map. clear - IH H W.
    induction IH as [|a r Ha Hr IHr]; cbn [map]; constructor.
    + apply Ha; [exact (proj1 W)|]. intros i Hi. apply H. cbn. apply in_or_app. auto.
    + apply IHr; [exact (proj2 W)|]. intros i Hi. apply H. cbn. apply in_or_app. right. exact Hi.
  - cbn. rewrite (reading_assoc w l _ (H _ (or_introl eq_refl))). apply same_term_refl.
Qed.

Lemma leaf_closed A w p : closed_by A w p -> forall mm ap l f, In (PLeaf mm ap l f) (leaves p) -> closed_by A w (PLeaf mm ap l f) /\ forall i, In i (indexes (PLeaf mm ap l f)) -> In i (indexes p).
Proof.
  induction p as [mm ap l f|mm ap cur again ch IH|p s IH] using proc_induction; intros C mm' ap' l' f' H; cbn [leaves] in H.
  - destruct H as [H|[]]. rewrite <- H. auto.
  - apply in_flat_map in H. destruct H as (c & Hc & H). destruct C as [_ C]. apply all_and in C. rewrite Forall_forall in IH, C.
    destruct (IH c Hc (C c Hc) mm' ap' l' f' H) as [H1 H2]. split; [exact H1|]. intros i Hi. cbn [indexes]. apply in_or_app. right. apply in_flat_map. exists c. auto.
  - exact (IH C mm' ap' l' f' H).
Qed.

Section Verdict.
Variables (eqi : Z) (name_id : string -> ident) (ty_arity : string -> nat) (n fe : nat) (same : list term -> list term -> bool).
Variable ar : signature.
Hypothesis A2 : arity ar eqi = 2%nat.
Hypothesis HM : monomorphic ar ty_arity.

Theorem report_finds forb p branches w : closed_by ground w p -> works_on eqi name_id ty_arity n fe same forb p branches ->
  (forall st, In st branches -> state_strict eqi name_id ty_arity n fe same st (forb st) <> Out /\
     forall x, In x (q_lf (st_q st) ++ q_atomic (st_q st)) -> first_order ar (ft_form x)) ->
  forall st, In st branches -> finds eqi name_id ty_arity n fe same (forb st) (reading w (indexes p)) st.
Proof.
  intros C W H st Hst. destruct (W st Hst) as (mm & ap & l & f & Hl & E). destruct (H st Hst) as [NO Fo]. exists f, l. split; [exact E|].
  destruct (leaf_closed ground w p C mm ap l f Hl) as [[_ Cl] In']. destruct Cl as [->|(sg & Hsg & S)]; [left; reflexivity|]. right.
  destruct (state_sound eqi name_id ty_arity n fe same ar st A2 HM Fo (forb st) f l NO E) as [[-> _]|[_ K]]; [destruct Hsg|]. destruct (K sg Hsg) as (s & -> & Os & _). exists s. split; [exact Hsg|].
  assert (B : binds (mixed_terms s) = s) by exact (term_part_mixed s). intros k t Hk. pose proof (S k t) as Sk. rewrite B in Sk. specialize (Sk Hk).
  assert (Ix : forall i, i = m_index k \/ In i (t_metas t) -> In i (indexes p)).
  { intros i Hi. apply In'. cbn [indexes]. apply in_or_app. right. apply in_flat_map. exists (mixed_terms s). split; [exact Hsg|]. unfold subst_indexes. apply in_flat_map.
    exists (MTerm k t). split; [unfold mixed_terms; apply in_map_iff; exists (k, t); auto|]. destruct Hi as [->|Hi]; [left; reflexivity|right; exact Hi]. }
  cbn [ssubst]. rewrite (reading_assoc w _ _ (Ix _ (or_introl eq_refl))). change (w (m_index k) = tev ground w t) in Sk. rewrite Sk. destruct Os as [_ Os]. apply (emb_same ar); [exact (proj2 (Os k t Hk))|].
  intros i Hi. apply Ix. auto.
Qed.

Theorem verdict_unsat ap cur again ch l m g k f F forb : good ar n fe (PNode [] ap cur again ch) -> scoped (PNode [] ap cur again ch) ->
  report n fe (PNode [] ap cur again ch) = Ok (Some l) -> wf_start g f -> grows same (plant m g k f) F ->
  works_on eqi name_id ty_arity n fe same forb (PNode [] ap cur again ch) (fo_leaves F) ->
  (forall st, In st (fo_leaves F) -> state_strict eqi name_id ty_arity n fe same st (forb st) <> Out /\
     forall x, In x (q_lf (st_q st) ++ q_atomic (st_q st)) -> first_order ar (ft_form x)) ->
  forall I (v : val I), eq_refl_in eqi I -> ~ holds f v.
Proof.
  intros G Sc E W R On H. destruct (round_one ar n fe ap cur again ch l G Sc E ground ground_typeless (inhabits (GI 0))) as (w & C).
  apply (found_unsat eqi name_id ty_arity n fe same ar m g k f F (reading w (indexes (PNode [] ap cur again ch))) forb W R A2 HM).
  intros st Hst. split; [exact (report_finds forb _ _ w C On H st Hst)|exact (H st Hst)].
Qed.
End Verdict.
