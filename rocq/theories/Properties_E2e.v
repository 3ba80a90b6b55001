(** C130, C131. *)
From Coq Require Import ZArith String List Bool.
From Verif Require Import LibSet_Model Ast_Model Rules_Model Expand_Model Sem_Spec Occ_Spec Tableau_Spec Rename_Spec Expand_Spec
  Tableau_Witness Expand_Witness UnifTree_Witness Closure_Witness
  Unif_Model Unif_Spec Closure_Model Closure_Spec Closure_Proofs Closure_Final Elab_Model Elab_Spec Elab_Final
  E2e_Model E2e_Spec E2e_Final E2e_Sound E2e_Witness.
Import ListNotations.
Open Scope Z_scope.
Open Scope list_scope.

(** C130: the formula given to the search is closed, binds each variable once, and its models are the counter-models of the parsed
    problem.  Missing: [include] statements, quantified types, variables whose name ends with a digit, the module dmt. *)
Theorem C130_partial :
  forall fl check kappa decls l g l' b g1,
  to_internal_syntax fl (file decls l) g = EOk (l', b, g1) -> tab_ok g -> Rename_Spec.clean g -> apart g ->
  plain_problem kappa decls l -> (forall r f, In (CSForm r f) l' -> f_tyvars f = []) ->
  exists f g2,
    presearch fl check (file decls l) g = (if b && negb (check f) then Stopped else Loaded f (existsb is_goal l) g2) /\
    wf_start g2 f /\ tab_ok g1 /\ tab_ext g g1 /\
    forall (I : interp) (N : ninterp (D I) (T I)) (v : val I) env, matches I N g1 -> defined_untyped N ->
      (holds f v <-> refutes N (sig_tysym (initial_context ++ decls)) l env).
Proof. exact loaded_ok. Qed.
Print Assumptions C130_partial.
(** the tables the program starts with *)
Theorem C130_start : tab_ok init_tables /\ Rename_Spec.clean init_tables /\ apart init_tables /\ lookup "="%string (idTable init_tables) = Some 0.
Proof. exact e_tables. Qed.
Print Assumptions C130_start.
Example C130_case :
  to_internal_syntax true (file e_decls e_problem) init_tables = EOk e_elab /\ plain_problem e_kappa e_decls e_problem /\
  (forall r f, In (CSForm r f) (fst (fst e_elab)) -> f_tyvars f = []) /\
  presearch true (fun _ => true) (file e_decls e_problem) init_tables = Loaded e_f true e_g /\
  presearch true (fun _ => false) (file e_decls e_problem) init_tables = Stopped /\
  forall env, refutes e_N (sig_tysym (initial_context ++ e_decls)) (tl e_problem) env.
Proof.
  split; [vm_compute; reflexivity|]. split; [exact e_plain|]. split; [exact e_untyped|]. split; [vm_compute; reflexivity|].
  split; [vm_compute; reflexivity|exact e_refutes].
Qed.

(** C131: when the search closes every branch under one substitution, no interpretation refutes the parsed problem: where the
    axioms hold the conjecture holds.  Missing: as in C130 and C55 (types, equality reasoning, the runs which lose a binding). *)
Theorem C131_partial :
  forall fl check kappa decls l g l' b g1 f cj g2 eqi name_id ty_arity n fe same ar m k F s forb,
  to_internal_syntax fl (file decls l) g = EOk (l', b, g1) -> tab_ok g -> Rename_Spec.clean g -> apart g ->
  lookup "="%string (idTable g) = Some eqi ->
  plain_problem kappa decls l -> (forall r f, In (CSForm r f) l' -> f_tyvars f = []) ->
  presearch fl check (file decls l) g = Loaded f cj g2 -> grows same (plant m g2 k f) F ->
  arity ar eqi = 2%nat -> monomorphic ar ty_arity ->
  (forall st, In st (fo_leaves F) -> finds eqi name_id ty_arity n fe same (forb st) s st /\
     state_strict eqi name_id ty_arity n fe same st (forb st) <> Out /\
     forall x, In x (q_lf (st_q st) ++ q_atomic (st_q st)) -> first_order ar (ft_form x)) ->
  forall (DD TT : Type) (d0 : DD) (t0 : TT) (N : ninterp DD TT) env, defined_untyped N -> (forall ts d, npr N "="%string ts [d; d]) ->
  ~ refutes N (sig_tysym (initial_context ++ decls)) l env /\ entailed N (sig_tysym (initial_context ++ decls)) l env.
Proof. exact problem_proved. Qed.
Print Assumptions C131_partial.
Example C131_case : forall k, grows same0 (plant 5 e_g k e_f) (e_end k) /\ fo_leaves (e_end k) = e_leaves /\
  List.length e_leaves = 2%nat /\ arity e_ar 0 = 2%nat /\ monomorphic e_ar mono0 /\
  forall st, In st (fo_leaves (e_end k)) -> finds 0 nid mono0 30 30 same0 [] e_S st /\ state_strict 0 nid mono0 30 30 same0 st [] <> Out /\
    forall x, In x (q_lf (st_q st) ++ q_atomic (st_q st)) -> first_order e_ar (ft_form x).
Proof.
  exact (fun k => conj (run_grows 4 (plant 5 e_g k e_f)) (conj (e_leaves_ok k) (conj eq_refl (conj eq_refl (conj e_mono (e_finds k)))))).
Qed.
