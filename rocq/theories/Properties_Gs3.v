(** C50, C51, C57: the sequent proof made from the proof of the search (Mods/gs3). *)
From Coq Require Import ZArith List Bool String Relations.
From Verif Require Import Ast_Model Sem_Spec Occ_Spec Subst_Model Rules_Model Unif_Model GsGraph_Model GsGraph_Spec GsGraph_Proofs GsGraph_Witness
  GsTerm_Model GsTerm_Spec GsTerm_Proofs GsTerm_Witness.
Import ListNotations.
Open Scope list_scope.
Open Scope Z_scope.

(** C50 refuted: after AddVertex u, AddEdge u u crashes, and so does a search from u. *)
Theorem C50_crash_refuted :
  exists u : nat, run Nat.eqb make_graph [AddVertex u; AddEdge u u] = Crash /\
  (do g <- run Nat.eqb make_graph [AddVertex u]; search Nat.eqb g [u]) = Crash.
Proof. exact (ex_intro _ 1%nat (conj bare_edge bare_search)). Qed.
Print Assumptions C50_crash_refuted.
(** C50 refuted: an edge added twice survives the cleaning of its target. *)
Theorem C50_clean_refuted :
  exists (ops : list (op nat)) s x l, no_bare_vertex ops /\ (do g <- run Nat.eqb make_graph ops; search Nat.eqb g s) = Ok l /\
  In x l /\ ~ reachable ops s x.
Proof.
  refine (ex_intro _ twice (ex_intro _ [1%nat] (ex_intro _ 2%nat (ex_intro _ [1; 2]%nat (conj _ (conj twice_search (conj _ twice_unreachable))))))); [|cbn; auto].
  intros u H. cbn in H. repeat destruct H as [H|H]; try discriminate. contradiction.
Qed.
Print Assumptions C50_clean_refuted.
(** C50 (partial): when no vertex is added alone, and no edge is added while it is there or nothing is ever cleaned, the
    calls do not crash and the vertices reported are exactly those with a path of recorded edges from a source.
    Missing: the vertices added alone (AddVertex) and the edges added twice and cleaned, both refuted above. *)
Theorem C50_reachability_partial :
  forall T (deep_equal : T -> T -> bool), (forall x y, deep_equal x y = true <-> x = y) ->
  forall ops, no_bare_vertex ops -> once ops \/ never_cleaned ops ->
  exists g, run deep_equal make_graph ops = Ok g /\
  forall sources, exists l, search deep_equal g sources = Ok l /\ forall x, In x l <-> reachable ops sources x.
Proof. exact reachability. Qed.
Print Assumptions C50_reachability_partial.
Example C50_case : no_bare_vertex ops /\ once ops /\ (do g <- run Nat.eqb make_graph ops; search Nat.eqb g [1; 9]%nat) = Ok [1; 2; 4; 6]%nat.
Proof. exact (conj ops_no_bare (conj ops_once ops_search)). Qed.

(** C51: from a quantified formula and its instance by [u], the term recovered is [u] when the variable occurs, and there is
    none otherwise. *)
Theorem C51_gamma : forall f v body u r, gamma_instance f v body u r ->
  (In (tv_index v) (f_vars body) -> gamma_term f r = Ok (Some u)) /\ (~ In (tv_index v) (f_vars body) -> gamma_term f r = Ok None).
Proof. exact gamma_recovered. Qed.
Print Assumptions C51_gamma.
Theorem C51_delta : forall f v body u r, delta_instance f v body u r ->
  (In (tv_index v) (f_vars body) -> delta_term f r = Ok (Some u)) /\ (~ In (tv_index v) (f_vars body) -> delta_term f r = Ok None).
Proof. exact delta_recovered. Qed.
Print Assumptions C51_delta.
Example C51_case : gamma_instance nex tx body2 (Meta mx) nex_r /\ In (tv_index tx) (f_vars body2) /\ gamma_term nex nex_r = Ok (Some (Meta mx)) /\
  delta_instance ex tx (p1 X) sk (p1 sk) /\ delta_term ex (p1 sk) = Ok (Some sk).
Proof. exact (conj nex_instance (conj nex_occurs (conj nex_term (conj ex_instance ex_term)))). Qed.
(** C51: the gamma and delta rules of the search make such instances. *)
Theorem C51_gamma_rule : forall x index g y m g' v rest body, gamma_of (ft_form x) (v :: rest) body -> ~ In (tv_index v) (f_funs body) ->
  apply_gamma x index g = Some (y, Some m, g') -> gamma_instance (ft_form x) v body (Meta m) (ft_form y).
Proof. exact gamma_rule. Qed.
Print Assumptions C51_gamma_rule.
Theorem C51_delta_rule : forall s x mm mc g y s' g' v rest body, delta_of (ft_form x) (v :: rest) body -> ~ In (tv_index v) (f_funs body) ->
  is_ttype (tv_ty v) = false -> apply_delta s x mm mc g = Some (y, s', g') ->
  exists sym args, delta_instance (ft_form x) v body (Fun sym [] args) (ft_form y).
Proof. exact delta_rule. Qed.
Print Assumptions C51_delta_rule.
Example C51_rule_case :
  gamma_of nex [tx; ty'] body2 /\ ~ In (tv_index tx) (f_funs body2) /\
  apply_gamma (mkFat nex []) 0 g0 = Some (mkFat nex_r [Meta mx], Some mx, mkGen 51 52 50 [] [] [("X"%string, 1)]) /\
  delta_of ex [tx] (p1 X) /\ exists s g, apply_delta all0 (mkFat ex []) LibSet_Model.Leaf LibSet_Model.Leaf g0 = Some (mkFat (p1 sk) [], s, g).
Proof. exact (conj (or_intror (ex_intro _ 1 (ex_intro _ 2 eq_refl))) (conj nex_funs (conj nex_rule (conj (or_introl (ex_intro _ 1 eq_refl)) ex_rule)))). Qed.

(** C57 refuted: forall x, p(f(x,x)) is instantiated by X and the final substitution is X := a.  Applied to the instance it
    gives p(f(a,X)), where the translation finds two terms for x: it raises an anomaly. *)
Theorem C57_final_refuted :
  exists x index g y m g' s, apply_gamma x index g = Some (y, Some m, g') /\ s = [MTerm m a] /\
  gamma_term (apply_substs_on_form s (ft_form x)) (apply_substs_on_form s (ft_form y)) = Crash.
Proof. exact (ex_intro _ _ (ex_intro _ _ (ex_intro _ _ (ex_intro _ _ (ex_intro _ _ (ex_intro _ _ (ex_intro _ sa (conj allf_rule (conj eq_refl allf_crash))))))))). Qed.
Print Assumptions C57_final_refuted.
(** C57 (partial): when no metavariable is replaced that occurs twice in an argument of an atom, what is recovered from the
    substituted formulas is the substituted term.
    Missing: the other metavariables (refuted above). *)
Theorem C57_gamma_partial : forall s f v body u r, gamma_instance f v body u r -> avoids (tv_index v) s -> stays_linear s f -> stays_linear s r ->
  (In (tv_index v) (f_vars body) -> gamma_term (apply_substs_on_form s f) (apply_substs_on_form s r) = Ok (Some (full_term s u))) /\
  (~ In (tv_index v) (f_vars body) -> gamma_term (apply_substs_on_form s f) (apply_substs_on_form s r) = Ok None).
Proof. exact gamma_final. Qed.
Print Assumptions C57_gamma_partial.
Theorem C57_delta_partial : forall s f v body u r, delta_instance f v body u r -> avoids (tv_index v) s -> stays_linear s f -> stays_linear s r ->
  (In (tv_index v) (f_vars body) -> delta_term (apply_substs_on_form s f) (apply_substs_on_form s r) = Ok (Some (full_term s u))) /\
  (~ In (tv_index v) (f_vars body) -> delta_term (apply_substs_on_form s f) (apply_substs_on_form s r) = Ok None).
Proof. exact delta_final. Qed.
Print Assumptions C57_delta_partial.
Example C57_case : gamma_instance nex tx body2 (Meta mx) nex_r /\ avoids (tv_index tx) sa /\ stays_linear sa nex /\ stays_linear sa nex_r /\
  gamma_term (apply_substs_on_form sa nex) (apply_substs_on_form sa nex_r) = Ok (Some a).
Proof. exact (conj nex_instance (conj nex_avoids (conj (proj1 nex_linear) (conj (proj2 nex_linear) nex_final)))). Qed.
