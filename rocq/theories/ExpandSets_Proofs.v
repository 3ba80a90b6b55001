(** The sets of metavariables of a branch, as the program computes them. *)
From Coq Require Import ZArith List Bool.
From Verif Require Import LibSet_Model Ast_Model Problem_Model Rules_Model Sem_Spec Occ_Spec Free_Spec Rules_Spec Skolem_Spec
  Tableau_Spec Ast_Proofs Expand_Model.
Import ListNotations.
Open Scope Z_scope.

Lemma cpy_union_ok s s' : mok s -> mok s' -> exists u, mset_union (nodeCpy s) (nodeCpy s') = Some u /\ mok u /\
  forall m, has u m <-> has s m \/ has s' m.
Proof.
  intros O O'. destruct (mcpy_ok _ O) as [C H]. destruct (mcpy_ok _ O') as [C' H'].
  destruct (munion_ok _ _ C C') as (u & E & Ou & Hu). exists u. split; [exact E|]. split; [exact Ou|].
  intros m. rewrite Hu, H, H'. tauto.
Qed.
Lemma add_meta_ok mc m : mok mc -> exists mc', add_meta mc m = Some mc' /\ mok mc' /\
  forall n, has mc' n <-> has mc n \/ exists m', m = Some m' /\ m_index n = m_index m'.
Proof.
  intros O. destruct (mcpy_ok _ O) as [C H]. unfold add_meta. destruct m as [m|].
  - destruct (msingleton_ok m) as (s & E & Os & Hs). rewrite E. destruct (munion_ok _ _ C Os) as (u & Eu & Ou & Hu).
    exists u. split; [exact Eu|]. split; [exact Ou|]. intros n. rewrite Hu, H, Hs. split.
    + intros [K|K]; [auto|]. right. exists m. auto.
    + intros [K|(m' & K & L)]; [auto|]. injection K as <-. auto.
  - exists (nodeCpy mc). split; [reflexivity|]. split; [exact C|]. intros n. rewrite H. split; [auto|].
    intros [K|(m' & K & _)]; [auto|discriminate].
Qed.
Lemma add_meta_mok mc m mc' : mok mc -> add_meta mc m = Some mc' -> mok mc'.
Proof. intros O E. destruct (add_meta_ok mc m O) as (u & Eu & Ou & _). congruence. Qed.

Section Steps.
Variable same : list term -> list term -> bool.
Variable may : meta -> form -> Prop.
Lemma ts_beta_union g s l1 b l2 x yss g' fss mm' : In x (br_forms b) -> disjunctive (ft_form x) ->
  apply_beta x g = (yss, g') -> Forall2 (fun ys fs => incl fs (ys ++ br_forms b)) yss fss ->
  mok (br_mm b) -> mok (br_mc b) -> mset_union (nodeCpy (br_mm b)) (nodeCpy (br_mc b)) = Some mm' ->
  tab_step same may (mkTab g s (l1 ++ b :: l2)) (mkTab g' s (l1 ++ map (fun fs => mkBr fs mm' Leaf) fss ++ l2)).
Proof.
  intros Hx Hd E F O1 O2 Eu. destruct (cpy_union_ok _ _ O1 O2) as (u & E' & Ou & Hu). assert (u = mm') as -> by congruence.
  eapply ts_beta; eauto.
Qed.
Lemma ts_gamma_add g s l1 b l2 x index y m g' fs mc' : In x (br_forms b) -> universal (ft_form x) ->
  apply_gamma x index g = Some (y, m, g') -> incl fs (y :: br_forms b) -> mok (br_mc b) ->
  add_meta (br_mc b) m = Some mc' ->
  tab_step same may (mkTab g s (l1 ++ b :: l2)) (mkTab g' s (l1 ++ mkBr fs (br_mm b) mc' :: l2)).
Proof.
  intros Hx Hd E F O Eu. destruct (add_meta_ok _ m O) as (u & E' & Ou & Hu). assert (u = mc') as -> by congruence.
  eapply ts_gamma; eauto.
Qed.
End Steps.
