(** Property theorems for the concurrent generators and counters. *)
From Coq Require Import ZArith List Bool String Permutation.
From Verif Require Import Ast_Model Conc_Model Conc_Spec Conc_Proofs.
Import ListNotations.
Open Scope Z_scope.

(** C07: for every number of goroutines, every program of creation calls, every schedule and every
    starting state, newly created identifiers, variables and metavariables have pairwise distinct
    indices never drawn before; the same for type metavariables and for formula indices. *)
Theorem C07_fresh_indices :
  forall g0 progs sched, let st := mrun sched (minit g0 progs) in
  NoDup (created_terms (m_log st)) /\ NoDup (created_tymetas (m_log st)) /\ NoDup (created_forms (m_log st)) /\
  (forall i, In i (created_terms (m_log st)) -> cpt_term g0 <= i) /\
  (forall i, In i (created_tymetas (m_log st)) -> count_meta g0 <= i) /\
  (forall i, In i (created_forms (m_log st)) -> cpt_formula g0 <= i).
Proof. exact fresh_indices. Qed.
Print Assumptions C07_fresh_indices.
Example C07_concrete :
  m_log (mrun [0; 1; 1; 0; 0; 1]%nat (minit gen0 [[CMeta "X"; CNewId "sko"]; [CMeta "X"; CForm]])) =
  [RMeta "X" 0 0; RMeta "X" 1 0; RId "sko" 2 true; RForm 0].
Proof. reflexivity. Qed.

(** C08 (partial): in every interleaving different names get different indices, and identifiers
    never share an index with variables. *)
Theorem C08_different_names_partial :
  forall g0 progs sched, gen_ok g0 ->
  let l := m_log (mrun sched (minit g0 progs)) in
  (forall s s' i, In (s, i) (ids_returned l) -> In (s', i) (ids_returned l) -> s = s') /\
  (forall s s' i, In (s, i) (vars_returned l) -> In (s', i) (vars_returned l) -> s = s') /\
  (forall s s' i, In (s, i) (ids_returned l) -> In (s', i) (vars_returned l) -> False).
Proof. exact different_names. Qed.
Print Assumptions C08_different_names_partial.
Example C08_hypotheses_met : gen_ok (snd (maker_id "=" gen0)).
Proof. exact (gen_ok_id "=" gen0 (conj (fun s i (h : In (s, i) []) => match h with end)
   (conj (fun s i (h : In (s, i) []) => match h with end)
   (conj (fun s s' i (h : In (s, i) []) => match h with end)
   (conj (fun s s' i (h : In (s, i) []) => match h with end)
         (fun s s' i (h : In (s, i) []) => match h with end)))))). Qed.

(** C08 (partial): a name already known when the goroutines start (as all names of the problem
    are) keeps its index in every interleaving. *)
Theorem C08_known_name_partial :
  forall g0 progs sched s i0, lookup s (idTable g0) = Some i0 ->
  (forall prog c, In prog progs -> In c prog -> asks_new_id s c = false) ->
  forall i, In (s, i) (ids_returned (m_log (mrun sched (minit g0 progs)))) -> i = i0.
Proof. exact known_name_stable. Qed.
Print Assumptions C08_known_name_partial.

(** C08 (partial): a name asked for by one goroutine only always gets the same index. *)
Theorem C08_one_asker_partial :
  forall g0 progs sched s t0,
  (forall prog c, In prog progs -> In c prog -> asks_new_id s c = false) ->
  (forall t prog c, nth_error progs t = Some prog -> t <> t0 -> In c prog -> asks_id s c = false) ->
  forall i j, In (s, i) (ids_returned (m_log (mrun sched (minit g0 progs)))) ->
              In (s, j) (ids_returned (m_log (mrun sched (minit g0 progs)))) -> i = j.
Proof. exact one_asker_stable. Qed.
Print Assumptions C08_one_asker_partial.
Example C08_one_asker_concrete :
  ids_returned (m_log (mrun [0; 1; 0; 0; 1]%nat (minit gen0 [[CId "f"; CId "f"]; [CId "g"]]))) =
  [("f", 0); ("f", 0); ("g", 1)]%string.
Proof. reflexivity. Qed.

(** C08 refuted: two goroutines asking for the same new name get two different symbols. *)
Theorem C08_same_name_refuted :
  exists sched progs s i j,
  (forall prog c, In prog progs -> In c prog -> asks_new_id s c = false) /\
  In (s, i) (ids_returned (m_log (mrun sched (minit gen0 progs)))) /\
  In (s, j) (ids_returned (m_log (mrun sched (minit gen0 progs)))) /\ i <> j.
Proof.
  destruct same_name_race as (i & j & A & B & C).
  exists [0; 1; 0; 1]%nat, [[CId "f"]; [CId "f"]], "f"%string, i, j.
  split; [|exact (conj A (conj B C))].
  intros prog c [<-|[<-|[]]] [<-|[]]; reflexivity.
Qed.
Print Assumptions C08_same_name_refuted.

(** C09 (partial): the numbers one goroutine receives are pairwise distinct in every schedule. *)
Theorem C09_per_goroutine_partial :
  forall c calls sched th, In th (n_threads (nrun sched (ninit c calls))) ->
  NoDup (n_got th) /\ forall v, In v (n_got th) -> c < v.
Proof. exact node_per_goroutine. Qed.
Print Assumptions C09_per_goroutine_partial.
(** C09 (partial): if calls do not overlap, all numbers are pairwise distinct. *)
Theorem C09_no_overlap_partial :
  forall c calls l, NoDup (n_all (nrun (atomic_sched l) (ninit c calls))).
Proof. exact node_atomic. Qed.
Print Assumptions C09_no_overlap_partial.
Example C09_concrete : n_all (nrun (atomic_sched [0; 1; 0]%nat) (ninit 0 [2; 1]%nat)) = [1; 3; 2].
Proof. reflexivity. Qed.
(** C09 refuted: two overlapping calls return the same number. *)
Theorem C09_unique_refuted :
  exists sched calls, ~ NoDup (n_all (nrun sched (ninit 0 calls))).
Proof.
  exists [0; 1; 0; 1]%nat, [1; 1]%nat. rewrite node_race. intros H. inversion H as [|? ? N _]. apply N; left; reflexivity.
Qed.
Print Assumptions C09_unique_refuted.

(** C10 (partial): in every schedule no task is lost or duplicated, and when all goroutines have
    finished every added task has been run exactly once. *)
Theorem C10_each_task_once_partial :
  forall c progs sched, let st := trun sched (tinit c progs) in
  Permutation (t_done st ++ q_tasks st ++ pending (t_threads st)) (List.concat progs) /\
  (t_finished st -> Permutation (t_done st) (List.concat progs)).
Proof. exact tasks_once. Qed.
Print Assumptions C10_each_task_once_partial.
(** C10 (partial): with one goroutine the counter is exact and the callback fires when it reaches zero. *)
Theorem C10_single_goroutine_partial :
  forall c prog sched, let st := trun sched (tinit c [prog]) in
  t_finished st -> t_done st = prog /\ (t_counter st, t_fired st) = seq_counter c O prog.
Proof. exact single_goroutine. Qed.
Print Assumptions C10_single_goroutine_partial.
Example C10_concrete :
  let st := trun (repeat 0%nat 15) (tinit 0 [[(0%nat, TInc); (1%nat, TDec)]]) in
  t_finished st /\ (t_counter st, t_fired st) = (0, 1%nat).
Proof. split; [intros p prog [H|[]]; injection H as <- <-; split; reflexivity|reflexivity]. Qed.
(** C10 refuted: two tasks execute at the same time. *)
Theorem C10_one_at_a_time_refuted :
  exists sched progs, let st := trun sched (tinit 0 progs) in
  (2 <= List.length (filter executing (t_threads st)))%nat.
Proof. exists [0; 0; 0; 1; 1; 1]%nat, [[(0, TInc)]; [(1, TInc)]]%nat. cbn. auto. Qed.
Print Assumptions C10_one_at_a_time_refuted.
(** C10 refuted: two increments of a SyncCounter leave it at 1. *)
Theorem C10_counter_refuted :
  exists sched progs, let st := trun sched (tinit 0 progs) in
  t_finished st /\ t_counter st <> fst (seq_counter 0 O (t_done st)).
Proof.
  exists [0; 0; 0; 1; 1; 1; 0; 1; 0; 1; 0; 1]%nat, [[(0, TInc)]; [(1, TInc)]]%nat.
  destruct increment_lost as [A B]. split; [exact A|]. rewrite B. cbn. discriminate.
Qed.
Print Assumptions C10_counter_refuted.
