(** Property theorems for src/Lib (sets and parallel reduction). *)
From Coq Require Import ZArith List Bool.
From Verif Require Import LibSet_Model LibSet_Spec LibSet_Proofs LibSetHeap_Model LibSetHeap_Proofs
  Par_Model Par_Proofs LibSet_Witness.
Import ListNotations.
Open Scope Z_scope.

(** C01: every set program computes the finite set it denotes, without panic. *)
Theorem C01_set_refines_finite_set :
  forall (A : Type) (eqb ltb : A -> A -> bool), Lawful eqb ltb -> forall e : sexp A,
  exists t, run eqb ltb e = Some t /\
  (forall x, find eqb ltb t x = true <-> den eqb e x) /\
  NoDupE eqb (elements t) /\
  (forall x, den eqb e x <-> exists y, In y (elements t) /\ eqb x y = true) /\
  cardinal t = Z.of_nat (length (elements t)) /\
  (set_isEmpty t = true <-> forall x, ~ den eqb e x) /\
  (forall e' t', run eqb ltb e' = Some t' ->
     (set_disjoint eqb ltb t t' = true <-> forall x, ~ (den eqb e x /\ den eqb e' x))).
Proof. exact (fun A eqb ltb L e => set_refines eqb ltb L e). Qed.
Print Assumptions C01_set_refines_finite_set.

(** C01: the functional model is what the pointer-based code computes on a linear handle. *)
Theorem C01_heap_insert_refines_functional :
  forall (A : Type) (eqb ltb : A -> A -> bool) (t : tree A) h p fp x t' fuel,
  repr h p t fp -> insert eqb ltb t x = Some t' -> (depth t < fuel)%nat ->
  exists h' p' fp', hinsert eqb ltb fuel h p x = Ok (h', p') /\ repr h' p' t' fp' /\ grown h fp h' fp'.
Proof. exact (fun A eqb ltb => hinsert_ok eqb ltb). Qed.
Print Assumptions C01_heap_insert_refines_functional.

Example C01_hypotheses_met : Lawful Z.eqb Z.ltb.
Proof. exact Z_lawful. Qed.
Example C01_concrete : exists t, run Z.eqb Z.ltb wit_prog' = Some t /\ elements t = [3; 9; 5].
Proof. exact wit_prog_runs0. Qed.

(** C02: sets built by Add, Singleton, Union, Inter are balanced with logarithmic height.
    Missing: Remove/Diff, for which the claim is false (next theorem). *)
Theorem C02_set_balanced_partial :
  forall (A : Type) (eqb ltb : A -> A -> bool) (e : sexp A) t,
  grow_only e = true -> run eqb ltb e = Some t ->
  balanced t /\ height t = theight t /\ 2 ^ theight t <= (cardinal t + 1) * (cardinal t + 1).
Proof. exact (fun A => @balanced_grow A). Qed.
Print Assumptions C02_set_balanced_partial.
Example C02_hypotheses_met : grow_only (SAdd SEmpty [5; 2; 6]) = true /\
  exists t, run Z.eqb Z.ltb (SAdd SEmpty [5; 2; 6]) = Some t.
Proof. exact wit_grow. Qed.

(** C02 refuted: one Remove on a balanced set of eight elements unbalances it. *)
Theorem C02_remove_unbalances_refuted :
  exists (e : sexp Z) (x : Z) t t', grow_only e = true /\
    run Z.eqb Z.ltb e = Some t /\ balanced t /\
    run Z.eqb Z.ltb (SRemove e x) = Some t' /\ ~ balanced t'.
Proof. exact remove_unbalances. Qed.
Print Assumptions C02_remove_unbalances_refuted.

(** C03 (contents part, proved): a copy denotes the same set and every later program on it is
    correct and panic-free; this is C01 read at programs containing SCopy. *)
Theorem C03_copy_contents_partial :
  forall (A : Type) (eqb ltb : A -> A -> bool), Lawful eqb ltb -> forall (e : sexp A) t,
  run eqb ltb e = Some t ->
  elements (nodeCpy t) = elements t /\
  (forall x, find eqb ltb (nodeCpy t) x = find eqb ltb t x) /\
  (forall vs, exists t', run eqb ltb (SAdd (SCopy e) vs) = Some t' /\
     forall x, find eqb ltb t' x = true <-> (find eqb ltb t x = true \/ exists y, In y vs /\ eqb x y = true)) /\
  (forall v, exists t', run eqb ltb (SRemove (SCopy e) v) = Some t' /\
     forall x, find eqb ltb t' x = true <-> (find eqb ltb t x = true /\ eqb x v = false)).
Proof. exact (fun A eqb ltb L => copy_contents eqb ltb L). Qed.
Print Assumptions C03_copy_contents_partial.

(** C03 refuted (balance part): copying loses the heights, so growing a copied set unbalances
    it although no element is ever removed. *)
Theorem C03_copy_balance_refuted :
  exists (e : sexp Z) t, run Z.eqb Z.ltb e = Some t /\ ~ balanced t /\ height t <> theight t /\
    (forall e', In e' (subprograms e) -> match e' with SRemove _ _ => False | SDiff _ _ => False | _ => True end).
Proof. exact copy_unbalances. Qed.
Print Assumptions C03_copy_balance_refuted.

(** C04 refuted: after Add through one handle, an older handle to the same set loses an element. *)
Theorem C04_old_handle_changes_refuted :
  exists (h0 : heap Z) (p0 : ptr) (h1 : heap Z) (p1 : ptr),
    hadd Z.eqb Z.ltb 10 [] None [1; 2] = Ok (h0, p0) /\
    hfind Z.eqb Z.ltb 10 h0 p0 2 = Ok true /\
    hadd Z.eqb Z.ltb 10 h0 p0 [3] = Ok (h1, p1) /\
    hfind Z.eqb Z.ltb 10 h1 p0 2 = Ok false.
Proof. exact old_handle_loses. Qed.
Print Assumptions C04_old_handle_changes_refuted.

(** C04, the other direction also fails: an older handle gains elements added later. *)
Theorem C04_old_handle_gains_refuted :
  exists (h0 : heap Z) (p0 : ptr) (h1 : heap Z) (p1 : ptr),
    hadd Z.eqb Z.ltb 10 [] None [1] = Ok (h0, p0) /\
    hfind Z.eqb Z.ltb 10 h0 p0 2 = Ok false /\
    hadd Z.eqb Z.ltb 10 h0 p0 [2] = Ok (h1, p1) /\
    hfind Z.eqb Z.ltb 10 h1 p0 2 = Ok true.
Proof. exact old_handle_gains. Qed.
Print Assumptions C04_old_handle_gains_refuted.

(** C04, what does hold: insertion never touches cells outside the tree it works on, so handles
    to disjoint trees (for example a Copy) are unaffected. *)
Theorem C04_disjoint_handles_unaffected_partial :
  forall (A : Type) (eqb ltb : A -> A -> bool) (t u : tree A) h p fp q fq x t' fuel,
  repr h p t fp -> repr h q u fq -> (forall b, In b fp -> ~ In b fq) ->
  insert eqb ltb t x = Some t' -> (depth t < fuel)%nat ->
  exists h' p', hinsert eqb ltb fuel h p x = Ok (h', p') /\ repr h' q u fq.
Proof. exact (fun A eqb ltb => disjoint_unaffected eqb ltb). Qed.
Print Assumptions C04_disjoint_handles_unaffected_partial.

(** C05 refuted, in the strongest form: Filter returns the empty set whatever the input. *)
Theorem C05_filter_always_empty_refuted :
  forall (A : Type) (eqb ltb : A -> A -> bool) (p : A -> bool) (t : tree A),
  set_filter eqb ltb p t = Leaf.
Proof. exact (fun A eqb ltb => filter_empty eqb ltb). Qed.
Print Assumptions C05_filter_always_empty_refuted.
Theorem C05_filter_refuted :
  exists t x, run Z.eqb Z.ltb (SSingleton 1) = Some t /\ find Z.eqb Z.ltb t x = true /\
    find Z.eqb Z.ltb (set_filter Z.eqb Z.ltb (fun _ => true) t) x = false.
Proof. exact filter_witness. Qed.
Print Assumptions C05_filter_refuted.

(** C06: every complete run of the reduction gives the same value; every run stops. *)
Theorem C06_parallel_reduction_schedule_independent :
  forall (T : Type) (f : T -> T -> T) (e : T),
  (forall x y z, f x (f y z) = f (f x y) z) -> (forall x y, f x y = f y x) ->
  forall vals s, psteps f (pinit e vals) s -> (forall s', ~ pstep f s s') ->
  s = ([], fold_left f vals e).
Proof. exact (fun T f e A C => par_result f e A C). Qed.
Print Assumptions C06_parallel_reduction_schedule_independent.
Theorem C06_parallel_reduction_terminates :
  forall (T : Type) (f : T -> T -> T) (e : T) vals n s, pcount f n (pinit e vals) s -> (n <= length vals)%nat.
Proof. exact (fun T f e => par_terminates f e). Qed.
Print Assumptions C06_parallel_reduction_terminates.
Example C06_hypotheses_met :
  (forall x y z, andb x (andb y z) = andb (andb x y) z) /\ (forall x y, andb x y = andb y x) /\
  psteps andb (pinit true [true; false]) ([], false).
Proof. exact par_witness. Qed.
