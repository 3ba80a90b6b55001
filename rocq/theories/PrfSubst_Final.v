(** From the proof with metavariables to the sequent proof (C105). *)
From Coq Require Import ZArith List Bool Lia.
From Verif Require Import Ast_Model Sem_Spec Subst_Model Unif_Model GsTerm_Spec GsTerm_Proofs GsProof_Model GsProof_Spec GsProof_Fresh PrfSubst_Model PrfSubst_Spec PrfSubst_Proofs.
Import ListNotations.
Open Scope list_scope.
Open Scope Z_scope.

Lemma subst_depth s : forall p, depth (subst_step s p) = depth p.
Proof.
  fix IH 1. intros [f d i n rs cs]. cbn [subst_step depth]. f_equal. f_equal. revert cs. fix IHs 1. intros [|c cs]; [reflexivity|]. cbn [map]. f_equal; [|apply IHs]. f_equal.
  clear IHs. revert c. fix IHc 1. intros [|p c]; [reflexivity|]. cbn [map]. f_equal; [apply IH|apply IHc].
Qed.
Lemma subst_pdepth s l : pdepth (subst_proof s l) = pdepth l.
Proof. unfold pdepth, subst_proof. rewrite map_map. f_equal. apply map_ext. apply subst_depth. Qed.
Theorem final_gs3 empty_eq preinner s first rest n :
  vtab s fresh_delta [ps_form first] (first :: rest) -> (forall f, in_proof f (first :: rest) -> stays_linear s f) ->
  (forall fs, generated fs (first :: rest) -> distinct (map (full_form s) fs)) -> (pdepth (first :: rest) < n)%nat ->
  exists sq, make_gs3 empty_eq preinner n None (fst (final_proof s (first :: rest))) = Ok sq /\ gs3 [full_form s (ps_form first)] sq.
Proof.
  intros T L D N. pose proof (final_exact s fresh_delta [ps_form first] (first :: rest) fresh_antitone T L D) as K. cbn [map] in K.
  assert (E : exists first' rest', fst (final_proof s (first :: rest)) = first' :: rest' /\ ps_form first' = full_form s (ps_form first) /\ pdepth (first' :: rest') = pdepth (first :: rest)).
  { destruct s as [|b s]; [exists first, rest; auto|]. exists (subst_step (b :: s) first), (subst_proof (b :: s) rest). split; [reflexivity|]. split.
    - rewrite subst_form. apply linear_full, L, In_form. left. reflexivity.
    - apply (subst_pdepth (b :: s) (first :: rest)). }
  destruct E as (first' & rest' & E & Ef & Ed). rewrite E in *. rewrite <- Ef in *. rewrite <- Ed in N.
  destruct (fresh_total empty_eq preinner None first' rest' n K N) as (sq & Eq). exists sq. split; [exact Eq|]. exact (fresh_replay empty_eq preinner None first' rest' n sq K Eq).
Qed.
