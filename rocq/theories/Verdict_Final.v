(** From the answer of the root process to the problem (C145). *)
From Coq Require Import ZArith List Bool String.
From Verif Require Import LibSet_Model Ast_Model Occ_Spec Rules_Model Expand_Model Sem_Spec Tableau_Spec Rename_Spec Expand_Spec Unif_Model Unif_Spec Closure_Model Closure_Spec Closure_Proofs Closure_Final
  Elab_Model Elab_Spec Elab_Final E2e_Model E2e_Spec E2e_Final E2e_Sound
  Dmt_Model Select_Model GlobUnif_Model Restrict_Model Leaf_Model Up_Model Round_Model Verdict_Spec Verdict_Proofs.
From Verif Require Round_Spec Round_Final.
Import ListNotations.
Open Scope Z_scope.

Theorem verdict_proved fl check kappa decls l g l' b g1 f cj g2 eqi name_id ty_arity n fe same ar m k F forb ap cur again ch sent :
  to_internal_syntax fl (file decls l) g = EOk (l', b, g1) -> tab_ok g -> Rename_Spec.clean g -> apart g ->
  lookup "="%string (idTable g) = Some eqi ->
  plain_problem kappa decls l -> (forall r f, In (CSForm r f) l' -> f_tyvars f = []) ->
  presearch fl check (file decls l) g = Loaded f cj g2 -> grows same (plant m g2 k f) F ->
  arity ar eqi = 2%nat -> monomorphic ar ty_arity ->
  Round_Spec.good ar n fe (PNode [] ap cur again ch) -> Round_Spec.scoped (PNode [] ap cur again ch) ->
  report n fe (PNode [] ap cur again ch) = Ok (Some sent) ->
  works_on eqi name_id ty_arity n fe same forb (PNode [] ap cur again ch) (fo_leaves F) ->
  (forall st, In st (fo_leaves F) -> state_strict eqi name_id ty_arity n fe same st (forb st) <> Out /\
     forall x, In x (q_lf (st_q st) ++ q_atomic (st_q st)) -> first_order ar (ft_form x)) ->
  forall (DD TT : Type) (d0 : DD) (t0 : TT) (N : ninterp DD TT) env, defined_untyped N -> (forall ts d, npr N "="%string ts [d; d]) ->
  entailed N (sig_tysym (initial_context ++ decls)) l env.
Proof.
  intros H T1 T2 T3 Leq P V L Gr Aeq Mo G Sc E On Hs DD TT d0 t0 N env U Q.
  destruct (Round_Final.round_one ar n fe ap cur again ch sent G Sc E ground ground_typeless (inhabits (GI 0))) as (w & C).
  apply (problem_proved fl check kappa decls l g l' b g1 f cj g2 eqi name_id ty_arity n fe same ar m k F
    (reading w (Round_Spec.indexes (PNode [] ap cur again ch))) forb H T1 T2 T3 Leq P V L Gr Aeq Mo); auto.
  intros st Hst. split; [exact (report_finds eqi name_id ty_arity n fe same ar Aeq Mo forb _ _ w C On Hs st Hst)|exact (Hs st Hst)].
Qed.
