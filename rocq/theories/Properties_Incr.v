(** The incremental search: C84 to C89. *)
From Coq Require Import ZArith String List Bool.
From Verif Require Import LibSet_Model Ast_Model Problem_Model Rules_Model Sem_Spec Occ_Spec Free_Spec Rules_Spec Tableau_Spec Skolem_Witness
  Unif_Model Unif_Spec UnifTree_Model UnifTree_Witness Closure_Model Closure_Spec Expand_Spec Expand_Proofs Closure_Witness
  Incr_Model Incr_Spec IncrSub_Proofs IncrTree_Proofs IncrSound_Proofs IncrClose_Proofs IncrEnd_Proofs IncrOpen_Proofs IncrGamma_Proofs IncrList_Proofs Incr_Witness.
Import ListNotations.
Open Scope list_scope.
Open Scope Z_scope.

(** C84 is false: the substitutions of two branches are merged though no term satisfies both *)
Theorem C84_merge_refuted : exists g k f sched w s, wf_start g f /\ run_real nid mono0 30 30 sched (first_world g k f) = Ok w /\
  w_tasks w = [] /\ answer w = Ok true /\ chosen w = Ok (Some s) /\ satisfiable f.
Proof.
  destruct cyc_valid as (s & A & B & C). exists gS, Outer, cyc, cyc_sched, cyc_end, s.
  exact (conj cyc_start (conj cyc_run (conj A (conj B (conj C cyc_sat))))).
Qed.
Print Assumptions C84_merge_refuted.
(** and a branch closed without a substitution lets the others close each with its own *)
Theorem C84_joker_refuted : exists g k f sched w, wf_start g f /\ run_real nid mono0 30 30 sched (first_world g k f) = Ok w /\
  w_tasks w = [] /\ answer w = Ok true /\ chosen w = Ok None /\ satisfiable f.
Proof.
  destruct jok_valid as (A & B & C). exists gS, Outer, jok, jok_sched, jok_end.
  exact (conj jok_start (conj jok_run (conj A (conj B (conj C jok_sat))))).
Qed.
Print Assumptions C84_joker_refuted.
(** a substitution that closes all the leaves of the tree at any time, whatever the unification *)
Theorem C84_closed_partial name_id ty_arity add comp g k f sched w t : wf_start g f ->
  run name_id ty_arity add comp sched (first_world g k f) = Ok w -> closed_below t w 0 -> unsat f.
Proof. exact (closed_unsat name_id ty_arity add comp g k f sched w t). Qed.
Print Assumptions C84_closed_partial.
(** a substitution that satisfies one of those of each leaf *)
Theorem C84_leaves_partial name_id ty_arity n fe ar g k f sched w t : monomorphic ar ty_arity -> wf_start g f ->
  run_strict name_id ty_arity n fe sched (first_world g k f) <> Out -> run_real name_id ty_arity n fe sched (first_world g k f) = Ok w ->
  world_fo ar w -> (forall j m, leaf_of w 0 j m -> n_closed m = true /\ exists s, In s (n_subs m) /\ satisfies t s) -> unsat f.
Proof. exact (leaves_unsat name_id ty_arity n fe ar g k f sched w t). Qed.
Print Assumptions C84_leaves_partial.
(** formulas without quantifiers *)
Theorem C84_ground_partial ar name_id ty_arity n fe g k f sched w : monomorphic ar ty_arity -> nometa ar -> wf_start g f -> propositional ar f ->
  run_strict name_id ty_arity n fe sched (first_world g k f) <> Out -> run_real name_id ty_arity n fe sched (first_world g k f) = Ok w ->
  answer w = Ok true -> unsat f.
Proof. exact (prop_unsat ar name_id ty_arity n fe g k f sched w). Qed.
Print Assumptions C84_ground_partial.
Example C84_case : unsat one /\ unsat guns.
Proof.
  destruct one_case as (M & W & NO & E & FO & _ & _ & C & S). split.
  - exact (chosen_unsat nid mono0 30 30 sI gS Outer one (repeat 0%nat 6) one_end sXa tOne M W NO E FO C S).
  - destruct guns_case as (NO' & E' & _ & A).
    exact (C84_ground_partial sG nid mono0 30 30 gS Outer guns (repeat 0%nat 4) guns_end sG_mono sG_nometa guns_start guns_prop NO' E' A).
Qed.

(** C85 is false: VALID without a substitution, and none closes the tree *)
Theorem C85_refuted : exists g k f sched w, wf_start g f /\ run_real nid mono0 30 30 sched (first_world g k f) = Ok w /\
  w_tasks w = [] /\ answer w = Ok true /\ chosen w = Ok None /\ forall t, ~ closed_below t w 0.
Proof.
  destruct jok_valid as (A & B & C). exists gS, Outer, jok, jok_sched, jok_end.
  exact (conj jok_start (conj jok_run (conj A (conj B (conj C (fun t => sat_not_closed jok_sched jok jok_end t jok_start jok_sat jok_run)))))).
Qed.
Print Assumptions C85_refuted.
Theorem C85_partial name_id ty_arity n fe ar g k f sched w s : monomorphic ar ty_arity ->
  run_strict name_id ty_arity n fe sched (first_world g k f) <> Out -> run_real name_id ty_arity n fe sched (first_world g k f) = Ok w ->
  world_fo ar w -> chosen w = Ok (Some s) -> functional s /\ forall t, satisfies t s -> closed_below t w 0.
Proof. exact (chosen_good name_id ty_arity n fe ar g k f sched w s). Qed.
Print Assumptions C85_partial.
Example C85_case : closed_below tOne one_end 0.
Proof.
  destruct one_case as (M & W & NO & E & FO & _ & _ & C & S).
  exact (proj2 (C85_partial nid mono0 30 30 sI gS Outer one (repeat 0%nat 6) one_end sXa M NO E FO C) tOne S).
Qed.

(** C86 is false in both directions *)
Theorem C86_merged_refuted : exists s o x, functional s /\ functional o /\ build s o = Some x /\ forall t, ~ (satisfies t s /\ satisfies t o).
Proof.
  destruct merged_cycle as (x & B).
  exact (ex_intro _ sXfY (ex_intro _ sYfX (ex_intro _ x (conj (single_functional _ _) (conj (single_functional _ _) (conj B cycle_none)))))).
Qed.
Print Assumptions C86_merged_refuted.
Theorem C86_rejected_refuted : exists s o t, functional s /\ functional o /\ build s o = None /\ satisfies t s /\ satisfies t o.
Proof.
  destruct not_merged as (B & t & S).
  exact (ex_intro _ sXfY (ex_intro _ sXfa (ex_intro _ t (conj (single_functional _ _) (conj (single_functional _ _) (conj B S)))))).
Qed.
Print Assumptions C86_rejected_refuted.
(** the merge has the solutions of both, and there is none exactly when a metavariable is bound to different terms *)
Theorem C86_merge_partial s o x t : functional s -> functional o -> build s o = Some x ->
  functional x /\ (satisfies t x <-> satisfies t s /\ satisfies t o).
Proof. exact (fun Fs Fo B => conj (build_functional s o x Fs Fo B) (build_satisfies s o x t Fs Fo B)). Qed.
Print Assumptions C86_merge_partial.
Theorem C86_none_partial s o : functional o -> (build s o = None <-> disagree s o).
Proof. exact (build_none s o). Qed.
Print Assumptions C86_none_partial.
(** the substitutions kept for two branches are the merges, none of them lost *)
Theorem C86_lists_partial l r : (forall e, In e l -> functional e) -> (forall e, In e r -> functional e) ->
  (forall s o x, In s l -> In o r -> build s o = Some x -> exists e, In e (compat_between l r) /\ forall t, satisfies t e <-> satisfies t x) /\
  (forall e, In e (compat_between l r) -> exists s o, In s l /\ In o r /\ build s o = Some e).
Proof. exact (merges_listed l r). Qed.
Print Assumptions C86_lists_partial.
Example C86_lists_case : compat_between [sXa; sXfa] [Sub []; sYb; sXa] =
  [sXa; Sub [(mX, Some aT); (mY, Some bT)]; sXfa; Sub (every sXfa ++ [(mY, Some bT)])].
Proof. vm_compute. reflexivity. Qed.
Example C86_case : build sXa sYb = Some (Sub [(mX, Some aT); (mY, Some bT)]) /\ functional sXa /\ functional sYb /\ disagree sXa sXfa.
Proof. exact merge_case. Qed.

(** C87 is false: the universal formula of the root is at no node below it *)
Theorem C87_refuted : exists g k f sched w n x, run_real nid mono0 30 30 sched (first_world g k f) = Ok w /\ w_tasks w = [] /\
  node_at w 0 n /\ mg_gamma (n_mgr n) = [x] /\ n_children n <> [] /\
  forall j m, j <> 0%nat -> node_at w j m -> ~ available (ft_form x) (n_mgr m).
Proof.
  destruct two_once as (A & _ & B & C & D & E).
  exact (ex_intro _ gS (ex_intro _ Outer (ex_intro _ two (ex_intro _ (repeat 0%nat 7) (ex_intro _ two_end (ex_intro _ two_root (ex_intro _ (mkFat two [])
    (conj two_run (conj A (conj B (conj C (conj D E)))))))))))).
Qed.
Print Assumptions C87_refuted.
(** in no run: the list of the formulas to reintroduce stays empty *)
Theorem C87_never_partial name_id ty_arity add comp g k f sched w i n :
  run name_id ty_arity add comp sched (first_world g k f) = Ok w -> node_at w i n -> mg_reintro (n_mgr n) = [] /\ mg_metas (n_mgr n) = [].
Proof. exact (never name_id ty_arity add comp g k f sched w i n). Qed.
Print Assumptions C87_never_partial.
(** were it filled, a formula used least would be taken, and counted once more below *)
Theorem C87_list_partial m s g a : mg_gamma m = [] -> (forall x c, In (x, c) (mg_reintro m) -> universal (ft_form x)) ->
  apply_reintro m s g = Ok (Some a) ->
  exists l1 c l2, mg_reintro m = l1 ++ (ap_rule a, c) :: l2 /\ (forall y c', In (y, c') (mg_reintro m) -> c <= c') /\
    ap_new a <> [] /\ forall mg, In mg (ap_new a) -> mg_reintro mg = l1 ++ (ap_rule a, c + 1) :: l2.
Proof. exact (reintro_least m s g a). Qed.
Print Assumptions C87_list_partial.
Example C87_case : exists a, apply_reintro listed (mkSko Outer 0 []) gS = Ok (Some a) /\ ap_rule a = uB /\
  map mg_reintro (ap_new a) = [[(uA, 2); (uB, 2); (uA, 1)]].
Proof. exact listed_case. Qed.

(** C88 is false: a formula of which two instances are needed *)
Theorem C88_refuted : exists g k f sched w, wf_start g f /\ run_real nid mono0 30 30 sched (first_world g k f) = Ok w /\
  w_tasks w = [] /\ answer w = Ok false /\ unsat f.
Proof.
  destruct two_once as (A & B & _).
  exact (ex_intro _ gS (ex_intro _ Outer (ex_intro _ two (ex_intro _ (repeat 0%nat 7) (ex_intro _ two_end
    (conj two_start (conj two_run (conj A (conj B two_unsat))))))))).
Qed.
Print Assumptions C88_refuted.
Theorem C88_ground_partial ar name_id ty_arity n fe g k f sched w : monomorphic ar ty_arity -> nometa ar -> propositional ar f ->
  run_strict name_id ty_arity n fe sched (first_world g k f) <> Out -> run_real name_id ty_arity n fe sched (first_world g k f) = Ok w ->
  w_tasks w = [] -> answer w = Ok false -> satisfiable f.
Proof. exact (open_satisfiable ar name_id ty_arity n fe g k f sched w). Qed.
Print Assumptions C88_ground_partial.
Example C88_case : satisfiable gsat.
Proof.
  destruct gsat_case as (NO & E & NT & A).
  exact (C88_ground_partial sG nid mono0 30 30 gS Outer gsat (repeat 0%nat 4) gsat_end sG_mono sG_nometa gsat_prop NO E NT A).
Qed.

(** C89: every order of the goroutines *)
Theorem C89_bound name_id ty_arity add comp g k f sched w : run name_id ty_arity add comp sched (first_world g k f) = Ok w ->
  (List.length sched <= bound f)%nat.
Proof. exact (run_bound name_id ty_arity add comp g k f sched w). Qed.
Print Assumptions C89_bound.
Theorem C89_total name_id ty_arity add comp g k f sched w i : f_noid f -> binds f ->
  run name_id ty_arity add comp sched (first_world g k f) = Ok w -> (i < List.length (w_tasks w))%nat ->
  (exists w', step name_id ty_arity add comp i w = Ok w') \/
  exists j n, node_at w j n /\ n_children n = [] /\ forall r, try_closure name_id ty_arity add comp (n_mgr n) <> Ok r.
Proof. exact (run_total name_id ty_arity add comp g k f sched w i). Qed.
Print Assumptions C89_total.
(** so, when the unification answers, the search comes to an end *)
Theorem C89_ends name_id ty_arity add comp g k f : f_noid f -> binds f ->
  (forall sched w j n, run name_id ty_arity add comp sched (first_world g k f) = Ok w -> node_at w j n ->
     exists r, try_closure name_id ty_arity add comp (n_mgr n) = Ok r) ->
  exists sched w, run name_id ty_arity add comp sched (first_world g k f) = Ok w /\ w_tasks w = [] /\ (List.length sched <= bound f)%nat.
Proof.
  exact (fun N B T => match run_ends name_id ty_arity add comp g k f N B T with
    ex_intro _ s (ex_intro _ w (conj E F)) => ex_intro _ s (ex_intro _ w (conj E (conj F (run_bound name_id ty_arity add comp g k f s w E)))) end).
Qed.
Print Assumptions C89_ends.
Example C89_case : f_noid jok /\ binds jok /\ real jok_sched (first_world gS Outer jok) = Ok jok_end /\ w_tasks jok_end = [] /\
  step nid mono0 (add_unif 30 30) (compute 30 (add_unif 30 30)) 0 (first_world gS Outer gsat) <> Fail.
Proof.
  split; [intros b Hb; cbn in Hb; repeat (destruct Hb as [<-|Hb]; [reflexivity|]); destruct Hb|]. split; [cbn; repeat split; discriminate|].
  split; [exact jok_run|]. split; [reflexivity|]. vm_compute. discriminate.
Qed.
