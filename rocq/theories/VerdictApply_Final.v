(** C145 with the leaves that search again on a branch to which substitutions were applied. *)
From Coq Require Import ZArith List Bool String.
From Verif Require Import LibSet_Model Ast_Model Occ_Spec Rules_Model Expand_Model Sem_Spec Tableau_Spec Rename_Spec Expand_Spec Unif_Model Unif_Spec Closure_Model Closure_Spec Closure_Proofs Closure_Final
  Elab_Model Elab_Spec Elab_Final E2e_Model E2e_Spec E2e_Final E2e_Sound
  Dmt_Model Select_Model GlobUnif_Model Leaf_Model Up_Model Round_Model Verdict_Spec Verdict_Proofs VerdictApply_Spec VerdictApply_Proofs.
From Verif Require Round_Spec.
Import ListNotations.
Open Scope Z_scope.

Theorem after_proved fl check kappa decls l g l' b g1 f cj g2 eqi name_id ty_arity n fe same ar m k F forb ap cur again ch sent :
  to_internal_syntax fl (file decls l) g = EOk (l', b, g1) -> tab_ok g -> Rename_Spec.clean g -> apart g ->
  lookup "="%string (idTable g) = Some eqi ->
  plain_problem kappa decls l -> (forall r f, In (CSForm r f) l' -> f_tyvars f = []) ->
  presearch fl check (file decls l) g = Loaded f cj g2 -> grows same (plant m g2 k f) F ->
  arity ar eqi = 2%nat -> monomorphic ar ty_arity ->
  Round_Spec.good ar n fe (PNode [] ap cur again ch) -> Round_Spec.scoped (PNode [] ap cur again ch) ->
  report n fe (PNode [] ap cur again ch) = Ok (Some sent) ->
  works_after ar eqi name_id ty_arity n fe same forb (PNode [] ap cur again ch) (fo_leaves F) ->
  forall (DD TT : Type) (d0 : DD) (t0 : TT) (N : ninterp DD TT) env, defined_untyped N -> (forall ts d, npr N "="%string ts [d; d]) ->
  entailed N (sig_tysym (initial_context ++ decls)) l env.
Proof.
  intros H T1 T2 T3 Leq P V L Gr Aeq Mo G Sc E On DD TT d0 t0 N env U Q.
  apply entailed_of; [apply P|].
  destruct (loaded_ok fl check kappa decls l g l' b g1 H T1 T2 T3 P V) as (f' & g2' & L' & W & T' & X & S).
  rewrite L in L'. destruct (b && negb (check f'))%bool; [discriminate|]. injection L' as <- _ <-.
  destruct (interp_of_names N g1 T') as (fnI & prI & M).
  specialize (M (fun _ => t0) (fun _ => t0) (fun _ _ => t0) (fun _ _ => t0)).
  set (I := mkInterp DD TT fnI prI (ntc N) (fun _ => t0) (fun _ => t0) (fun _ _ => t0) (fun _ _ => t0)) in M.
  pose (v := @mkVal I (fun _ => d0) (fun _ => d0) (fun _ => t0) (fun _ _ => t0)).
  intros Rf. apply (after_unsat eqi name_id ty_arity n fe same ar Aeq Mo ap cur again ch sent m g2 k f F forb G Sc E W Gr On I v).
  - intros ts d. apply (proj1 M "="%string eqi); auto. apply (proj1 X), Leq.
  - apply (S I N v env M U), Rf.
Qed.
