(** C144, C145 when substitutions are handed back to the branches. *)
From Coq Require Import ZArith String List Bool.
From Verif Require Import LibSet_Model Ast_Model Rules_Model Expand_Model Sem_Spec Occ_Spec Tableau_Spec Rename_Spec Expand_Spec
  Skolem_Witness Tableau_Witness Expand_Witness UnifTree_Witness Closure_Witness
  Unif_Model Unif_Spec Closure_Model Closure_Spec Closure_Proofs Closure_Final Elab_Model Elab_Spec Elab_Final
  E2e_Model E2e_Spec E2e_Final E2e_Witness
  Dmt_Model Select_Model GlobUnif_Model Restrict_Model Leaf_Model Up_Model Round_Model Round_Spec Verdict_Spec Verdict_Proofs Verdict_Witness Verdict_Case
  VerdictApply_Spec VerdictApply_Proofs VerdictApply_Final VerdictApply_Witness VerdictApply_Case.
Import ListNotations.
Open Scope list_scope.
Open Scope Z_scope.

(** C144 (partial): as C144_partial, and a leaf may search again on its branch after the substitutions of its father are applied to it.
    Missing: as in C142 (more than two children that ask) and C55; the rules applied to the branch after a substitution. *)
Theorem C144_applied_partial : forall eqi name_id ty_arity n fe same ar, arity ar eqi = 2%nat -> monomorphic ar ty_arity ->
  forall ap cur again ch l m g k f F forb, good ar n fe (PNode [] ap cur again ch) -> scoped (PNode [] ap cur again ch) ->
  report n fe (PNode [] ap cur again ch) = Ok (Some l) -> wf_start g f -> grows same (plant m g k f) F ->
  works_after ar eqi name_id ty_arity n fe same forb (PNode [] ap cur again ch) (fo_leaves F) ->
  forall I (v : val I), eq_refl_in eqi I -> ~ holds f v.
Proof. exact after_unsat. Qed.
Print Assumptions C144_applied_partial.
(** (! [X] : ((q(X,c) & q(b,X)) | p(c,c,X))) & ~ p(c,c,b) & ~ q(c,c) & ~ q(b,b): nothing is closed in the first round; X := b is
    handed back, the second branch had sent it and the first one closes with it *)
Example C144_applied_case : forall k, wf_start gS zF /\ grows same0 (plant 5 gS k zF) (zF_end k) /\ List.length (fo_leaves (zF_end k)) = 2%nat /\
  arity car 0 = 2%nat /\ monomorphic car mono0 /\
  report 30 30 (PNode [] nothing nothing [] [on cc (Pred 5 qP [] [xm; cc]); on bb z_p]) = Ok None /\
  works_after car 0 nid mono0 30 30 same0 (fun _ => []) z_root (fo_leaves (zF_end k)) /\
  good car 30 30 z_root /\ scoped z_root /\ report 30 30 z_root = Ok (Some []).
Proof.
  intros k. split; [exact zF_start|]. split; [exact (run_grows 4 (plant 5 gS k zF))|]. split; [rewrite zF_leaves_ok; reflexivity|]. split; [reflexivity|]. split; [exact car_mono|].
  split; [exact z_first|]. split; [exact (z_works k)|]. split; [exact z_good|]. split; [exact z_scoped|exact z_report].
Qed.

(** C145 (partial): as C145_partial, with the same leaves.  Missing: as in C144_applied_partial and C130. *)
Theorem C145_applied_partial : forall fl check kappa decls l g l' b g1 f cj g2 eqi name_id ty_arity n fe same ar m k F forb ap cur again ch sent,
  to_internal_syntax fl (file decls l) g = EOk (l', b, g1) -> tab_ok g -> Rename_Spec.clean g -> apart g ->
  lookup "="%string (idTable g) = Some eqi ->
  plain_problem kappa decls l -> (forall r f, In (CSForm r f) l' -> f_tyvars f = []) ->
  presearch fl check (file decls l) g = Loaded f cj g2 -> grows same (plant m g2 k f) F ->
  arity ar eqi = 2%nat -> monomorphic ar ty_arity ->
  good ar n fe (PNode [] ap cur again ch) -> scoped (PNode [] ap cur again ch) -> report n fe (PNode [] ap cur again ch) = Ok (Some sent) ->
  works_after ar eqi name_id ty_arity n fe same forb (PNode [] ap cur again ch) (fo_leaves F) ->
  forall (DD TT : Type) (d0 : DD) (t0 : TT) (N : ninterp DD TT) env, defined_untyped N -> (forall ts d, npr N "="%string ts [d; d]) ->
  entailed N (sig_tysym (initial_context ++ decls)) l env.
Proof. exact after_proved. Qed.
Print Assumptions C145_applied_partial.
(** the problem of C145_case, X := b handed back *)
Example C145_applied_case : forall k,
  to_internal_syntax true (file e_decls v_problem) init_tables = EOk v_elab /\ plain_problem v_kappa e_decls v_problem /\
  (forall r f, In (CSForm r f) (fst (fst v_elab)) -> f_tyvars f = []) /\
  presearch true (fun _ => true) (file e_decls v_problem) init_tables = Loaded v_f true v_g /\
  grows same0 (plant 5 v_g k v_f) (v_end k) /\ List.length (fo_leaves (v_end k)) = 2%nat /\ arity v_ar 0 = 2%nat /\ monomorphic v_ar mono0 /\
  good v_ar 30 30 y_root /\ scoped y_root /\ report 30 30 y_root = Ok (Some []) /\
  works_after v_ar 0 nid mono0 30 30 same0 (fun _ => []) y_root (fo_leaves (v_end k)).
Proof.
  intros k. split; [exact v_elab_ok|]. split; [exact v_plain|]. split; [exact v_untyped|]. split; [exact v_loads|]. split; [exact (run_grows 3 (plant 5 v_g k v_f))|].
  split; [rewrite v_leaves_ok; reflexivity|]. split; [reflexivity|]. split; [exact v_mono|]. split; [exact y_good|]. split; [exact y_scoped|]. split; [exact y_report|exact (y_works k)].
Qed.
