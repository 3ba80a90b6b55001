(** C24: soundness of closed tableaux. *)
From Coq Require Import ZArith List Bool String.
From Verif Require Import LibSet_Model Ast_Model Problem_Model Rules_Model Sem_Spec Occ_Spec Free_Spec Rules_Spec Skolem_Spec
  Tableau_Spec Skolem_Witness Tableau_Proofs Tableau_Witness.
Import ListNotations.
Open Scope Z_scope.

(** C24 (partial): from a closed formula without quantification on types, if any sequence of rules on any
    branches (and of replacements of metavariables that occur at most once in each argument) ends with
    branches that one substitution closes, the formula has no model in which "=" is reflexive.
    Missing: types and repeated metavariables (both false, see below), equality reasoning, deduction
    modulo. *)
Theorem C24_closed_tableau_partial :
  forall same g k f t s eqi, wf_start g f -> tab_steps same linear_in (start g k f) t ->
  (forall b, In b (tb_branches t) -> closes eqi s b) ->
  forall I (v : val I), eq_refl_in eqi I -> ~ holds f v.
Proof. exact closed_tableau_unsat. Qed.
Print Assumptions C24_closed_tableau_partial.

(** Derivations with each rule, for each Skolemization: one that closes two branches with two bindings,
    one where a metavariable is replaced. *)
Example C24_hypotheses_met :
  (forall k, wf_start gS wF /\ exists t s, tab_steps same0 linear_in (start gS k wF) t /\ (List.length (tb_branches t) = 2)%nat /\
     forall b, In b (tb_branches t) -> closes 0 s b) /\
  (forall k, wf_start gS iF /\ exists t, tab_steps same0 linear_in (start gS k iF) t /\ tb_branches t <> [] /\
     forall b, In b (tb_branches t) -> closes 0 [] b).
Proof. exact (conj (fun k => conj wF_start (wF_closed k)) (fun k => conj iF_start (iF_closed k))). Qed.

(** C24 refuted for types: a satisfiable formula has a closed tableau. *)
Theorem C24_types_refuted :
  forall k, exists t, tab_steps same0 linear_in (start gS k tF) t /\ tb_branches t <> [] /\
  (forall b, In b (tb_branches t) -> closes 0 [] b) /\
  wff gS tF /\ f_metas tF = [] /\ f_tymetas tF = [] /\
  exists I (v : val I), eq_refl_in 0 I /\ holds tF v.
Proof. exact types_close. Qed.
Print Assumptions C24_types_refuted.

(** C24 refuted for repeated metavariables: ReplaceMetaByTerm replaces X by a in p(f(X,X)) once, giving
    p(f(a,X)), which closes with ~p(f(a,b)) for X = b. *)
Theorem C24_replacement_refuted :
  forall k, exists t s, tab_steps same0 (fun _ _ => True) (start gS k nF) t /\ tb_branches t <> [] /\
  (forall b, In b (tb_branches t) -> closes 0 s b) /\ wf_start gS nF /\
  exists I (v : val I), eq_refl_in 0 I /\ holds nF v.
Proof. exact replace_close. Qed.
Print Assumptions C24_replacement_refuted.
