(** C40, C41: the ordering of terms. *)
From Coq Require Import ZArith List Bool String.
From Verif Require Import Ast_Model Sem_Spec Unif_Spec Lpo_Model Lpo_Spec Lpo_Proofs Lpo_Final Lpo_Witness.
Import ListNotations.
Open Scope Z_scope.

(** [ordered s t o]: compareLPO answers "comparable" with the order o (1 less, 0 equal, -1 greater). *)

(** C40 refuted: two distinct constants that compare equal; they differ in their type argument. *)
Theorem C40_refuted :
  exists ar s t, ground ar s /\ ground ar t /\ ordered s t 0 /\ ~ same_term s t.
Proof.
  exact (ex_intro _ war2 (ex_intro _ c_int (ex_intro _ c_rat (conj (proj1 (proj2 c_types)) (conj (proj1 (proj2 (proj2 c_types)))
    (conj (proj1 c_types) (proj2 (proj2 (proj2 c_types))))))))).
Qed.
Print Assumptions C40_refuted.
(** C40 refuted: symbols are ordered by name, so the order descends for ever when there are infinitely many symbols. *)
Theorem C40_descent_refuted :
  exists ar, ~ well_founded (fun s t => ground ar s /\ ordered s t 1).
Proof. exact (ex_intro _ (fun _ => 0%nat) descent_infinite). Qed.
Print Assumptions C40_descent_refuted.
(** C40 (partial): on ground terms of fixed arities the comparison is total, antisymmetric and transitive, equality is equality without
    the types, subterms are smaller and contexts are monotone.  Missing: the types (refuted above). *)
Theorem C40_order_partial :
  forall ar s t, ground ar s -> ground ar t ->
  (ordered s t 1 \/ ordered s t 0 \/ ordered s t (-1)) /\
  (forall o o', ordered s t o -> ordered s t o' -> o = o') /\
  (forall o, ordered s t o -> ordered t s (- o)) /\
  (ordered s t 0 <-> shape s = shape t) /\
  (forall u, ground ar u -> ordered s t 1 -> ordered t u 1 -> ordered s u 1).
Proof.
  exact (fun ar s t Hs Ht => conj (ordered_total ar s t Hs Ht) (conj (ordered_fun s t) (conj (fun o => ordered_sym ar s t o Hs Ht)
    (conj (ordered_equal ar s t Hs Ht) (fun u Hu => ordered_trans ar s t u Hs Ht Hu))))).
Qed.
Print Assumptions C40_order_partial.
Theorem C40_subterm :
  forall ar p tys l t, ground ar (Fun p tys l) -> In t l -> ordered t (Fun p tys l) 1.
Proof. exact ordered_sub. Qed.
Print Assumptions C40_subterm.
Theorem C40_monotone :
  forall ar p tys pre s t post, ground ar (Fun p tys (pre ++ s :: post)) -> ground ar t -> ordered s t 1 ->
  ordered (Fun p tys (pre ++ s :: post)) (Fun p tys (pre ++ t :: post)) 1.
Proof. exact ordered_mono. Qed.
Print Assumptions C40_monotone.
(** there is no infinite descent over finitely many symbols; missing: refuted above *)
Theorem C40_well_founded_partial :
  forall ar F, well_founded (fun s t => ground ar s /\ incl (symbols (shape s)) F /\ ordered s t 1).
Proof. exact ordered_wf. Qed.
Print Assumptions C40_well_founded_partial.
(** the comparison is the lexicographic path ordering *)
Theorem C40_is_lpo :
  forall ar s t, ground ar s -> ground ar t ->
  (ordered s t 1 <-> less (shape s) (shape t)) /\ (ordered s t (-1) <-> less (shape t) (shape s)).
Proof. exact (fun ar s t Hs Ht => conj (ordered_less ar s t Hs Ht) (ordered_more ar s t Hs Ht)). Qed.
Print Assumptions C40_is_lpo.
Example C40_case : ground war2 s1 /\ ground war2 t1 /\ ordered s1 t1 1 /\ ~ same_term s1 t1.
Proof.
  exact (conj (proj1 s1_ground) (conj (proj2 s1_ground) (conj s1_less (fun H => Bool.diff_false_true
    (proj2 (Ast_Proofs.term_eqb_reflect s1 t1) H))))).
Qed.

(** C41: the order reported for open terms holds for all their ground instances, and the comparison does not fail. *)
Theorem C41 :
  forall ar w s t o, proper ar s -> proper ar t -> (forall i, ground ar (w i)) ->
  ordered s t o -> ordered (tsub w s) (tsub w t) o.
Proof. exact ordered_inst. Qed.
Print Assumptions C41.
(** it holds for all instances, ground or not, in the lexicographic path ordering *)
Theorem C41_instances :
  forall w s t o, ordered s t o ->
  (o = 1 /\ less (shape (tsub w s)) (shape (tsub w t))) \/ (o = 0 /\ shape (tsub w s) = shape (tsub w t)) \/
  (o = -1 /\ less (shape (tsub w t)) (shape (tsub w s))).
Proof. exact order_inst. Qed.
Print Assumptions C41_instances.
Theorem C41_no_crash :
  forall ar s t, proper ar s -> proper ar t -> exists x, compare s t = Some x.
Proof. exact compare_some. Qed.
Print Assumptions C41_no_crash.
(** an ordering or equality constraint that checkLPO decides has the decided value on all instances *)
Theorem C41_constraints :
  forall k b, check_lpo k = Some (b, true) -> forall w,
  (if k_prec k then less (shape (tsub w (k_left k))) (shape (tsub w (k_right k)))
   else shape (tsub w (k_left k)) = shape (tsub w (k_right k))) <-> b = true.
Proof. exact check_decides. Qed.
Print Assumptions C41_constraints.
Example C41_case :
  proper war2 s2 /\ proper war2 t2 /\ ordered s2 t2 1 /\ check_lpo (mkConstr true s2 t2) = Some (true, true) /\
  check_lpo (mkConstr true t2 s2) = Some (false, true) /\ (exists n, compare (mX 0) (mX 1) = Some (mkCmp 1 false n)).
Proof. exact (conj (proj1 s2_proper) (conj (proj2 s2_proper) (conj s2_less (conj eq_refl (conj eq_refl xy_open))))). Qed.
Example C41_overloaded : compare (Fun ia [] []) (Fun ia [] [tb]) = None.
Proof. exact overloaded. Qed.
