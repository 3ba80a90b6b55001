(** C144, C145: what the answer of the root process says of the formula and of the problem. *)
From Coq Require Import ZArith String List Bool.
From Verif Require Import LibSet_Model Ast_Model Rules_Model Expand_Model Sem_Spec Occ_Spec Tableau_Spec Rename_Spec Expand_Spec
  Skolem_Witness Tableau_Witness Expand_Witness UnifTree_Witness Closure_Witness
  Unif_Model Unif_Spec Closure_Model Closure_Spec Closure_Proofs Closure_Final Elab_Model Elab_Spec Elab_Final
  E2e_Model E2e_Spec E2e_Final E2e_Sound E2e_Witness
  Dmt_Model Select_Model GlobUnif_Model Restrict_Model Leaf_Model Up_Model Round_Model Round_Spec Verdict_Spec Verdict_Proofs Verdict_Final Verdict_Witness Verdict_Case.
Import ListNotations.
Open Scope list_scope.
Open Scope Z_scope.

(** C144 refuted: a formula that has a model, its three branches, a leaf as it should be on each, and a root that reports that all
    is closed. *)
Theorem C144_refuted : forall k, exists f F ch ar, wf_start gS f /\ grows same0 (plant 5 gS k f) F /\ arity ar 0 = 2%nat /\ monomorphic ar mono0 /\
  works_on 0 nid mono0 30 30 same0 (fun _ => []) (PNode [] ([], []) ([], []) [] ch) (fo_leaves F) /\
  (forall st, In st (fo_leaves F) -> state_strict 0 nid mono0 30 30 same0 st [] <> Out /\
     forall x, In x (q_lf (st_q st) ++ q_atomic (st_q st)) -> first_order ar (ft_form x)) /\
  (forall c, In c ch -> good ar 30 30 c) /\ scoped (PNode [] ([], []) ([], []) [] ch) /\
  report 30 30 (PNode [] ([], []) ([], []) [] ch) = Ok (Some []) /\
  exists I (v : val I), eq_refl_in 0 I /\ holds f v.
Proof.
  exact (fun k => ex_intro _ rF (ex_intro _ (rF_end k) (ex_intro _ r_ch (ex_intro _ car (conj rF_start (conj (run_grows 3 (plant 5 gS k rF)) (conj eq_refl (conj car_mono
    (conj (r_works k) (conj (r_side k) (conj r_leaves (conj r_scoped (conj r_report (ex_intro _ boolR (ex_intro _ valR rF_sat))))))))))))))).
Qed.
Print Assumptions C144_refuted.
(** C144 (partial): when the root of a tree of processes, of any depth, reports that all is closed, and each branch grown from the formula
    has a leaf of the tree working on it, the formula has no model.  Missing: as in C142 (more than two children that ask)
    and C55 (types, equality reasoning, the runs which lose a binding); the branches to which a substitution is applied (C144_applied_partial). *)
Theorem C144_partial : forall eqi name_id ty_arity n fe same ar, arity ar eqi = 2%nat -> monomorphic ar ty_arity ->
  forall ap cur again ch l m g k f F forb, good ar n fe (PNode [] ap cur again ch) -> scoped (PNode [] ap cur again ch) ->
  report n fe (PNode [] ap cur again ch) = Ok (Some l) -> wf_start g f -> grows same (plant m g k f) F ->
  works_on eqi name_id ty_arity n fe same forb (PNode [] ap cur again ch) (fo_leaves F) ->
  (forall st, In st (fo_leaves F) -> state_strict eqi name_id ty_arity n fe same st (forb st) <> Out /\
     forall x, In x (q_lf (st_q st) ++ q_atomic (st_q st)) -> first_order ar (ft_form x)) ->
  forall I (v : val I), eq_refl_in eqi I -> ~ holds f v.
Proof. exact verdict_unsat. Qed.
Print Assumptions C144_partial.
(** (! [X] : (p(c,c,X) | q(X,g(X)))) & ~ p(c,c,b) & ~ q(b,g(b)): two branches, two leaves, one root *)
Example C144_case : forall k, wf_start gS uF /\ grows same0 (plant 5 gS k uF) (uF_end k) /\ List.length (fo_leaves (uF_end k)) = 2%nat /\ arity car 0 = 2%nat /\ monomorphic car mono0 /\
  works_on 0 nid mono0 30 30 same0 (fun _ => []) u_root (fo_leaves (uF_end k)) /\
  (forall st, In st (fo_leaves (uF_end k)) -> state_strict 0 nid mono0 30 30 same0 st [] <> Out /\
     forall x, In x (q_lf (st_q st) ++ q_atomic (st_q st)) -> first_order car (ft_form x)) /\
  good car 30 30 u_root /\ scoped u_root /\ report 30 30 u_root = Ok (Some []).
Proof.
  intros k. split; [exact uF_start|]. split; [exact (run_grows 3 (plant 5 gS k uF))|]. split; [rewrite uF_leaves_ok; reflexivity|]. split; [reflexivity|]. split; [exact car_mono|].
  split; [exact (u_works k)|]. split; [exact (u_side k)|]. split; [exact u_good|]. split; [exact u_scoped|exact u_report].
Qed.

(** C145 (partial): when the root of the processes reports that all is closed, the conjecture of the parsed problem holds wherever its
    axioms do.  Missing: as in C144 and C130. *)
Theorem C145_partial : forall fl check kappa decls l g l' b g1 f cj g2 eqi name_id ty_arity n fe same ar m k F forb ap cur again ch sent,
  to_internal_syntax fl (file decls l) g = EOk (l', b, g1) -> tab_ok g -> Rename_Spec.clean g -> apart g ->
  lookup "="%string (idTable g) = Some eqi ->
  plain_problem kappa decls l -> (forall r f, In (CSForm r f) l' -> f_tyvars f = []) ->
  presearch fl check (file decls l) g = Loaded f cj g2 -> grows same (plant m g2 k f) F ->
  arity ar eqi = 2%nat -> monomorphic ar ty_arity ->
  good ar n fe (PNode [] ap cur again ch) -> scoped (PNode [] ap cur again ch) -> report n fe (PNode [] ap cur again ch) = Ok (Some sent) ->
  works_on eqi name_id ty_arity n fe same forb (PNode [] ap cur again ch) (fo_leaves F) ->
  (forall st, In st (fo_leaves F) -> state_strict eqi name_id ty_arity n fe same st (forb st) <> Out /\
     forall x, In x (q_lf (st_q st) ++ q_atomic (st_q st)) -> first_order ar (ft_form x)) ->
  forall (DD TT : Type) (d0 : DD) (t0 : TT) (N : ninterp DD TT) env, defined_untyped N -> (forall ts d, npr N "="%string ts [d; d]) ->
  entailed N (sig_tysym (initial_context ++ decls)) l env.
Proof. exact verdict_proved. Qed.
Print Assumptions C145_partial.
(** ~ q(b), ! [X] : (p(X) | q(X)); conjecture p(b) *)
Example C145_case : forall k,
  to_internal_syntax true (file e_decls v_problem) init_tables = EOk v_elab /\ plain_problem v_kappa e_decls v_problem /\
  (forall r f, In (CSForm r f) (fst (fst v_elab)) -> f_tyvars f = []) /\
  presearch true (fun _ => true) (file e_decls v_problem) init_tables = Loaded v_f true v_g /\
  grows same0 (plant 5 v_g k v_f) (v_end k) /\ List.length (fo_leaves (v_end k)) = 2%nat /\ arity v_ar 0 = 2%nat /\ monomorphic v_ar mono0 /\
  good v_ar 30 30 v_root /\ scoped v_root /\ report 30 30 v_root = Ok (Some []) /\
  works_on 0 nid mono0 30 30 same0 (fun _ => []) v_root (fo_leaves (v_end k)) /\
  forall st, In st (fo_leaves (v_end k)) -> state_strict 0 nid mono0 30 30 same0 st [] <> Out /\
    forall x, In x (q_lf (st_q st) ++ q_atomic (st_q st)) -> first_order v_ar (ft_form x).
Proof.
  intros k. split; [exact v_elab_ok|]. split; [exact v_plain|]. split; [exact v_untyped|]. split; [exact v_loads|]. split; [exact (run_grows 3 (plant 5 v_g k v_f))|].
  split; [rewrite v_leaves_ok; reflexivity|]. split; [reflexivity|]. split; [exact v_mono|]. split; [exact v_good|]. split; [exact v_scoped|]. split; [exact v_report|].
  split; [exact (v_works k)|exact (v_side k)].
Qed.
