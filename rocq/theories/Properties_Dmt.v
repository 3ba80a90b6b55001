(** C43, C44, C45, C56: deduction modulo. *)
From Coq Require Import ZArith List Bool String.
From Verif Require Import Ast_Model Sem_Spec Occ_Spec Free_Spec Rules_Model Rules_Spec Skolem_Witness Unif_Model Unif_Spec UnifTree_Model
  Closure_Spec Restrict_Spec Dmt_Model Dmt_Spec Dmt_Proofs DmtRewrite_Proofs Dmt_Final Dmt_Witness.
From Verif Require Bse_Spec.
Import ListNotations.
Open Scope list_scope.
Open Scope Z_scope.

(** C43 (partial): the rules of the registered axioms hold in every model of the axioms, each in its polarity.  What is
    partial in C43 is the rewriting (C43_rewrite_partial) and the axioms over type variables. *)
Theorem C43_rules_partial :
  forall eqi pol axs g rest d g' I, Forall (wff g) axs -> Forall untyped axs -> Forall binds axs ->
  register_all eqi pol axs dmt0 g = Ok (rest, d, g') -> Forall (true_in I) axs -> rules_valid I (d_pos d) (d_neg d).
Proof. exact register_rules. Qed.
Print Assumptions C43_rules_partial.
(** C43 refuted: with the axiom ! [X] : (p(X) => q(f(X,X))) the literal p(c) is rewritten to q(f(c,X)), where X is the
    metavariable of the rule: it is not a consequence. *)
Theorem C43_rewrite_refuted :
  exists (ar : signature) name_id ty_arity n fe eqi pol ax d g g' lit l ix s c,
    wff g ax /\ untyped ax /\ binds ax /\ register_all eqi pol [ax] dmt0 g = Ok ([], d, g') /\
    Forall (first_order ar) (map fst (rules_for d lit)) /\ first_order ar lit /\ monomorphic ar ty_arity /\
    rewrite_strict name_id ty_arity n fe d lit <> Out /\ rewrite_real name_id ty_arity n fe d lit = Ok l /\ In (ix, (s, c)) l /\
    exists I (v : val I), true_in I ax /\ satisfies v s /\ holds lit v /\ ~ holds c v.
Proof.
  exists dar, nid, mono0, 30%nat, 30%nat, 0, true, axN, (fst dN), gS, (snd dN), litN, [(3, ([], cN))], 3, [], cN.
  exact (conj (proj1 axN_ok) (conj (proj1 (proj2 axN_ok)) (conj (proj2 (proj2 axN_ok)) (conj allN (conj (proj1 dN_fo) (conj (proj2 dN_fo) (conj dar_mono
    (conj (proj1 runN) (conj (proj2 runN) (conj (or_introl eq_refl)
      (ex_intro _ boolN (ex_intro _ valN (conj axN_true (conj satN litN_true)))))))))))))).
Qed.
Print Assumptions C43_rewrite_refuted.
(** C43 and C45 (partial), from the axioms to the candidates: each is the literal itself, or comes from a rule whose atom
    the substitution [sg] unifies with the literal.  If no metavariable of [sg] occurs twice in an argument of the
    right-hand side, none is left in the candidate; if moreover the literal is not bound to a metavariable of the rule
    that nothing else of the literal shows, the candidate follows from the axioms, the literal and the substitution that
    is returned.  Missing: the repeated metavariables (refuted), printed names that collide, type arguments, and runs
    in which unification drops an equation. *)
Theorem C43_rewrite_partial :
  forall name_id ty_arity n fe (ar : signature) eqi pol axs rest d g g' lit l,
  Forall (wff g) axs -> Forall untyped axs -> Forall binds axs -> register_all eqi pol axs dmt0 g = Ok (rest, d, g') ->
  Forall (first_order ar) (map fst (rules_for d lit)) -> first_order ar lit -> monomorphic ar ty_arity -> keys_apart key (rules_for d lit) ->
  rewrite_strict name_id ty_arity n fe d lit <> Out -> rewrite_real name_id ty_arity n fe d lit = Ok l ->
  forall ix s c, In (ix, (s, c)) l -> (ix = -1 /\ s = failure /\ c = lit) \/
    exists a r sg, rewritten n fe (rules_for d lit) lit ix s c a r sg /\
      (linear_for sg (snd r) ->
       (forall k t, In (k, t) sg -> ~ In (m_index k) (f_metas c)) /\
       (direct_relevant (lit_metas lit) sg -> forall I (v : val I), Forall (true_in I) axs -> satisfies v s -> holds lit v -> holds c v)).
Proof. exact modulo. Qed.
Print Assumptions C43_rewrite_partial.
(** ! [X,Y] : (r(X,g(Y)) <=> (q(X) & p(f(Y,X)))) rewrites ~ r(c,g(W)) to ~ (q(c) & p(f(W,c))) *)
Example C43_rewrite_case :
  (wff gS axG /\ untyped axG /\ binds axG) /\ register_all 0 false [axG] dmt0 gS = Ok ([], fst dG, snd dG) /\
  (Forall (first_order dar) (map fst (rules_for (fst dG) litG)) /\ first_order dar litG) /\ monomorphic dar mono0 /\ keys_apart key (rules_for (fst dG) litG) /\
  (rewrite_strict nid mono0 30 30 (fst dG) litG <> Out /\ rewrite_real nid mono0 30 30 (fst dG) litG = Ok [(3, ([], bG cc (Meta mW)))]) /\
  rewritten 30 30 (rules_for (fst dG) litG) litG 3 [] (bG cc (Meta mW)) aG (aG, bG (Meta mX30) (Meta mY31)) sG /\
  (linear_for sG (bG (Meta mX30) (Meta mY31)) /\ direct_relevant (lit_metas litG) sG) /\ (true_in boolG axG /\ holds litG valG).
Proof. exact (conj axG_ok (conj allG (conj dG_fo (conj dar_mono (conj dG_apart (conj runG (conj rewG (conj linG axG_true)))))))). Qed.
(** C43 (partial): the two conditions on the rule hold when names are told apart by what is printed, and when the match
    binds every metavariable of the atom of the rule. *)
Theorem C43_apart_partial :
  forall (ar : signature) rules, Bse_Spec.distinct_names ar -> Forall (fun r => pred (fst r) /\ first_order ar (fst r)) rules -> keys_apart key rules.
Proof. exact ok_keys_apart. Qed.
Print Assumptions C43_apart_partial.
Theorem C43_bound_partial :
  forall n fe (ar : signature) rules lit ix s c a r sg, rewritten n fe rules lit ix s c a r sg ->
  first_order ar a -> first_order ar (atom_of lit) -> (forall b, In b (flat_map t_metas (atom_args a)) -> In b (keys sg)) ->
  direct_relevant (lit_metas lit) sg.
Proof. exact bound_direct. Qed.
Print Assumptions C43_bound_partial.
Example C43_bound_case :
  rewritten 30 30 (rules_for (fst dG) litG) litG 3 [] (bG cc (Meta mW)) aG (aG, bG (Meta mX30) (Meta mY31)) sG /\
  forall b, In b (flat_map t_metas (atom_args aG)) -> In b (keys sG).
Proof. exact (conj rewG (fun b H => H)). Qed.

(** C44 refuted: three axioms on which the registration panics. *)
Theorem C44_register_refuted :
  register 0 true badNot dmt0 gS = Crash /\ register 0 true badTop dmt0 gS = Crash /\ forall b, register 0 b badEqu dmt0 gS = Crash.
Proof. exact bad_crash. Qed.
Print Assumptions C44_register_refuted.
(** C44 (partial): the exact set of the axioms on which it does: on all the others it returns. *)
Theorem C44_register_partial :
  forall eqi pol ax d g, f_noid ax -> binds ax ->
  match register eqi pol ax d g with
  | Crash => bad eqi pol (matrix ax) | Ok _ => ~ bad eqi pol (matrix ax) | _ => False end.
Proof. exact register_crash. Qed.
Print Assumptions C44_register_partial.
Example C44_case : (f_noid axG /\ binds axG /\ ~ bad 0 false (matrix axG)) /\ f_noid badNot /\ binds badNot.
Proof. exact (conj good_ok badNot_noid). Qed.

(** C45 refuted: the same rule p(X) --> q(f(X,X)): the metavariable X is bound by the match, and it is left in the result. *)
Theorem C45_instance_refuted :
  exists n fe rules lit ix s c a r sg k t, rewritten n fe rules lit ix s c a r sg /\ In (k, t) sg /\ In (m_index k) (f_metas c).
Proof.
  exists 30%nat, 30%nat, (rules_for (fst dN) litN), litN, 3, [], cN, aN, (aN, bN), sN, mX30, cc.
  exact (conj rewN (conj (or_introl eq_refl) (or_introl eq_refl))).
Qed.
Print Assumptions C45_instance_refuted.
(** C45 (partial): not when no metavariable of the match occurs twice in an argument of the right-hand side. *)
Theorem C45_instance_partial :
  forall n fe (ar : signature) rules lit ix s c a r sg, rewritten n fe rules lit ix s c a r sg ->
  first_order ar a -> first_order ar (atom_of lit) -> f_noid (snd r) -> linear_for sg (snd r) ->
  forall k t, In (k, t) sg -> ~ In (m_index k) (f_metas c).
Proof. exact rewritten_complete. Qed.
Print Assumptions C45_instance_partial.
Example C45_case : rewritten 30 30 (rules_for (fst dG) litG) litG 3 [] (bG cc (Meta mW)) aG (aG, bG (Meta mX30) (Meta mY31)) sG /\
  linear_for sG (bG (Meta mX30) (Meta mY31)).
Proof. exact (conj rewG (proj1 linG)). Qed.

(** C56 refuted: the axiom (a & b) => c = g(c) is consumed in polarized mode, and nothing of it is left. *)
Theorem C56_consumed_refuted :
  exists eqi pol ax g d g', wff g ax /\ untyped ax /\ binds ax /\ register_all eqi pol [ax] dmt0 g = Ok ([], d, g') /\ d_pos d = [] /\ d_neg d = [] /\
  exists I, ~ true_in I ax.
Proof.
  exists 0, true, axD, gS, (mkDmt [] [] [axD]), gS.
  exact (conj (proj1 axD_ok) (conj (proj1 (proj2 axD_ok)) (conj (proj2 (proj2 axD_ok)) (conj regD (conj eq_refl (conj eq_refl (ex_intro _ boolD axD_false))))))).
Qed.
Print Assumptions C56_consumed_refuted.
(** C56 (partial): these implications to an equality from a non-literal are the only ones; else the axioms that are left
    and the rules together have exactly the models of the axioms. *)
Theorem C56_consumed_partial :
  forall eqi pol axs g rest d g' I, Forall (wff g) axs -> Forall untyped axs -> Forall binds axs ->
  register_all eqi pol axs dmt0 g = Ok (rest, d, g') -> Forall (fun ax => ~ dropped eqi (matrix ax)) axs ->
  (rules_valid I (d_pos d) (d_neg d) /\ Forall (true_in I) rest <-> Forall (true_in I) axs).
Proof. exact register_same_models. Qed.
Print Assumptions C56_consumed_partial.
Example C56_case :
  (wff gS axN /\ untyped axN /\ binds axN) /\ (wff gS axG /\ untyped axG /\ binds axG) /\ Forall (fun ax => ~ dropped 0 (matrix ax)) [axN; axG] /\
  exists d g, register_all 0 true [axN; axG] dmt0 gS = Ok ([], d, g) /\ List.length (d_pos d) = 2%nat /\ List.length (d_neg d) = 2%nat.
Proof. exact (conj axN_ok (conj axG_ok (conj axN_kept regNG))). Qed.
