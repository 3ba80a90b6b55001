(** The equality reasoning by reduction to SAT: C90 to C95. *)
From Coq Require Import ZArith String List Bool.
From Verif Require Import Ast_Model Unif_Model Unif_Spec Bse_Spec SatEq_Model SatEq_Spec SatEqMain_Proofs SatEq_Witness.
Import ListNotations.
Open Scope list_scope.
Open Scope nat_scope.

(** C90: no call fails, and the classes are the closure of the merges *)
Theorem C90_classes l : valid_ops 0 l -> exists h, run_ops l [] = Ok h /\
  forall a b, a < List.length h -> b < List.length h -> (root h a = root h b <-> linked (merges l) a b).
Proof. exact (classes_linked l). Qed.
Print Assumptions C90_classes.
(** what representative() returns is [root], and it moves no class *)
Theorem C90_find h x : earlier h -> x < List.length h -> exists h', find (S (List.length h)) h x = Ok (root h x, h') /\ List.length h' = List.length h /\
  forall y, y < List.length h -> root h' y = root h y.
Proof. exact (find_reads h x). Qed.
Print Assumptions C90_find.
(** the merge used by the rest of the model gives the representatives of the one of the code *)
Theorem C90_union h a b : earlier h -> a < List.length h -> b < List.length h -> exists h', union_full h a b = Ok h' /\ List.length h' = List.length (union h a b) /\
  forall z, z < List.length h -> root h' z = root (union h a b) z.
Proof. exact (union_agrees h a b). Qed.
Print Assumptions C90_union.
Example C90_case : valid_ops 0 old_ops /\ run_ops old_ops [] = Ok old /\ root old 1 = root old 3 /\ root old 0 <> root old 4 /\ linked (merges old_ops) 1 3.
Proof.
  split; [exact old_valid|]. split; [exact old_run|]. split; [reflexivity|]. split; [discriminate|]. apply lk_sym, lk_pair. vm_compute. auto.
Qed.

(** C91 is false: type arguments are not compared, and a symbol with two numbers of arguments makes the reasoning panic *)
Theorem C91_types_refuted : exists es gs h pb, load es gs [] new_problem = Ok (h, pb) /\ has_trivial h pb = true /\ ~ some_solved es [] gs.
Proof. destruct types_trivial as (h & pb & A & B). exists [], [[(nil_of "a", nil_of "b")]], h, pb. exact (conj A (conj B types_unsolved)). Qed.
Print Assumptions C91_types_refuted.
Theorem C91_arity_refuted : exists es gs, load es gs [] new_problem = Crash.
Proof. exact (ex_intro _ _ (ex_intro _ _ arity_crash)). Qed.
Print Assumptions C91_arity_refuted.
Theorem C91_partial ar es gs h : earlier h -> well_problem ar es gs ->
  exists h' pb cs, load es gs h new_problem = Ok (h', pb) /\ all_clauses h' pb false = Ok cs /\ (has_trivial h' pb = true -> some_solved es [] gs).
Proof. exact (trivial_right ar es gs h). Qed.
Print Assumptions C91_partial.
Example C91_case : earlier old /\ well_problem ground_sig gr_es [[(a, c)]; [(f (f a), f d); (b, a)]] /\
  exists h pb, load gr_es [[(a, c)]; [(f (f a), f d); (b, a)]] old new_problem = Ok (h, pb) /\ has_trivial h pb = true.
Proof.
  split; [exact earlier_old|]. split; [split; repeat constructor|]. eexists. eexists. split; [vm_compute; reflexivity|]. vm_compute. reflexivity.
Qed.

(** C92 is false: when a = b is added after f(a) = c and f(b) = d, the classes of f(a) and f(b) are not merged *)
Theorem C92_refuted : exists es gs h, earlier h /\ well_problem ground_sig es gs /\
  (forall sat choice, exists h' pb', reason sat choice es gs h new_problem = Ok (None, h', pb')) /\ exists g, In g gs /\ goal_solved es [] g.
Proof. exists up_es, up_gs, old. exact (conj earlier_old (conj up_well (conj up_none (ex_intro _ _ (conj (or_introl eq_refl) up_solved))))). Qed.
Print Assumptions C92_refuted.
(** complete when no application was left apart *)
Theorem C92_closed_partial ar sat choice es gs h h0 p0 h' pb' : (forall m, ~ known ar m) -> earlier h -> well_problem ar es gs ->
  load es [] h new_problem = Ok (h0, p0) -> closed_classes h0 p0 ->
  reason sat choice es gs h new_problem = Ok (None, h', pb') -> forall g, In g gs -> ~ goal_solved es [] g.
Proof. exact (ground_found ar sat choice es gs h h0 p0 h' pb'). Qed.
Print Assumptions C92_closed_partial.
(** assumptions between constants only: the problem is decided *)
Theorem C92_atoms_partial ar sat choice es gs h : (forall m, ~ known ar m) -> earlier h -> well_problem ar es gs ->
  Forall (fun e => atom (fst e) /\ atom (snd e)) es ->
  exists r h' pb', reason sat choice es gs h new_problem = Ok (r, h', pb') /\
    (r = Some [[]] /\ some_solved es [] gs \/ r = None /\ forall g, In g gs -> ~ goal_solved es [] g).
Proof. exact (ground_decided ar sat choice es gs h). Qed.
Print Assumptions C92_atoms_partial.
Example C92_case : (forall m, ~ known ground_sig m) /\ earlier old /\ well_problem ground_sig gr_es [[(f c, a)]] /\
  (exists h0 p0, load gr_es [] old new_problem = Ok (h0, p0) /\ closed_classes h0 p0) /\
  (forall sat choice, exists h' pb', reason sat choice gr_es [[(f c, a)]] old new_problem = Ok (None, h', pb')).
Proof.
  split; [auto|]. split; [exact earlier_old|]. split; [split; repeat constructor|]. split; [exact gr_closed|exact gr_none].
Qed.
Example C92_atoms_case sat choice : exists h' pb', reason sat choice [(a, b); (c, d)] [[(f a, f c)]; [(f (f b), f (f a)); (d, c)]] old new_problem = Ok (Some [[]], h', pb') /\
  Forall (fun e => atom (fst e) /\ atom (snd e)) [(a, b); (c, d)].
Proof. eexists. eexists. split; [vm_compute; reflexivity|]. repeat constructor. Qed.

(** C93 is false: for f(a) = b, a satisfying assignment binds X to a and calls f(X) = c solved *)
Theorem C93_refuted : exists es gs h sat sg h' pb, earlier h /\ well_problem meta_sig es gs /\ sound_solver sat /\
  reason sat first_choice es gs h new_problem = Ok (Some [sg], h', pb) /\ ~ some_solved es sg gs.
Proof.
  destruct bad_answer as (h' & pb & E). exists bad_es, bad_gs, old, (try_truth (bad_truth false)), [(mx, a)], h', pb.
  exact (conj earlier_old (conj bad_well (conj (try_sound _) (conj E bad_unsolved)))).
Qed.
Print Assumptions C93_refuted.
(** with the test that the second term is in the second class, or when the applications of each symbol are in one class *)
Theorem C93_partial ar only truth choice es gs h h' pb cs sg : chooses choice -> earlier h -> well_problem ar es gs -> gs <> [] ->
  load es gs h new_problem = Ok (h', pb) -> only = true \/ single_classes h' pb ->
  all_clauses h' pb only = Ok cs -> sat_all truth cs -> gather h' pb truth choice = Ok sg -> some_solved es sg gs.
Proof. exact (read_solves ar only truth choice es gs h h' pb cs sg). Qed.
Print Assumptions C93_partial.
Example C93_case : chooses first_choice /\ earlier old /\ well_problem meta_sig bad_es good_gs /\
  let h := fst (loaded bad_es good_gs) in let pb := snd (loaded bad_es good_gs) in
  load bad_es good_gs old new_problem = Ok (h, pb) /\ (exists cs, all_clauses h pb true = Ok cs /\ sat_all (bad_truth true) cs) /\
  gather h pb (bad_truth true) first_choice = Ok [(mx, a)].
Proof.
  exact (conj first_chooses (conj earlier_old (conj good_well (conj good_load (conj (ex_intro _ _ (conj (good_clauses true) (good_sat true))) good_read))))).
Qed.
Example C93_single_case : well_problem meta_sig bad_es one_gs /\
  let h := fst (loaded bad_es one_gs) in let pb := snd (loaded bad_es one_gs) in
  load bad_es one_gs old new_problem = Ok (h, pb) /\ single_classes h pb /\ (exists cs, all_clauses h pb false = Ok cs /\ sat_all one_truth cs) /\
  gather h pb one_truth first_choice = Ok [(mx, f a)].
Proof.
  exact (conj one_well (conj one_load (conj one_single (conj (ex_intro _ _ (conj one_clauses one_sat)) one_read)))).
Qed.

(** C94: the reading of the assignment ends, never fails, and its bindings have a common solution *)
Theorem C94_read ar truth choice es gs h h' pb cs : chooses choice -> earlier h -> well_problem ar es gs ->
  load es gs h new_problem = Ok (h', pb) -> all_clauses h' pb false = Ok cs -> sat_all truth cs ->
  (forall c, In c (classes pb) -> exists t, translate h' pb truth choice (S (List.length (classes pb))) c = Ok t) /\
  exists sg, gather h' pb truth choice = Ok sg /\ exists u, unifies u sg.
Proof. exact (read_satisfiable ar truth choice es gs h h' pb cs). Qed.
Print Assumptions C94_read.
Theorem C94_reason ar sat choice es gs h : sound_solver sat -> chooses choice -> earlier h -> well_problem ar es gs ->
  exists r h' pb, reason sat choice es gs h new_problem = Ok (r, h', pb) /\ forall l sg, r = Some l -> In sg l -> exists u, unifies u sg.
Proof. exact (reason_answers ar sat choice es gs h). Qed.
Print Assumptions C94_reason.
(** the bindings may still form a cycle *)
Example C94_case : sound_solver (try_truth cyc_truth) /\ chooses first_choice /\ earlier old /\ well_problem meta_sig [] cyc_gs /\
  exists h pb, reason (try_truth cyc_truth) first_choice [] cyc_gs old new_problem = Ok (Some [[(mx, Y); (my, X)]], h, pb).
Proof. exact (conj (try_sound _) (conj first_chooses (conj earlier_old (conj cyc_well cyc_answer)))). Qed.

(** C95 is false: an assumption of one branch solves the goal of the other *)
Theorem C95_refuted : exists es gs es1 hf pf h1 p1, load es gs [] new_problem = Ok (hf, pf) /\ load es1 [] hf pf = Ok (h1, p1) /\
  forall sat choice, solve sat choice hf pf = Ok None /\ solve sat choice h1 pf = Ok (Some [[]]).
Proof.
  destruct (copy_changes (fun _ => None) first_choice) as (hf & pf & h1 & p1 & A & B & _). exists [], [[(SatEq_Witness.a, SatEq_Witness.b)]], [(SatEq_Witness.a, SatEq_Witness.b)], hf, pf, h1, p1.
  split; [exact A|]. split; [exact B|]. intros sat choice. destruct (copy_changes sat choice) as (hf' & pf' & h1' & p1' & A' & B' & C).
  rewrite A in A'. injection A' as <- <-. rewrite B in B'. injection B' as <- <-. exact C.
Qed.
Print Assumptions C95_refuted.
(** goals of another branch change no answer *)
Theorem C95_goals_partial ar sat choice es gs gs' h hf pf h1 p1 : earlier h -> well_problem ar es gs -> load es gs h new_problem = Ok (hf, pf) ->
  load [] gs' hf pf = Ok (h1, p1) -> solve sat choice h1 pf = solve sat choice hf pf.
Proof. exact (goals_apart ar sat choice es gs gs' h hf pf h1 p1). Qed.
Print Assumptions C95_goals_partial.
Example C95_case : earlier old /\ well_problem meta_sig bad_es good_gs /\
  load bad_es good_gs old new_problem = Ok (fst (loaded bad_es good_gs), snd (loaded bad_es good_gs)) /\
  exists h1 p1, load [] [[(f (f X), d)]] (fst (loaded bad_es good_gs)) (snd (loaded bad_es good_gs)) = Ok (h1, p1).
Proof. exact (conj earlier_old (conj good_well (conj good_load copy_case))). Qed.
