(** Properties of the tableau rules and of the top level of the search: C18 to C22, C25, C26, C29. *)
From Coq Require Import ZArith List Bool String Permutation.
From Verif Require Import LibSet_Model Ast_Model Problem_Model Rules_Model Result_Model Sem_Spec Occ_Spec Rules_Spec Free_Spec
  Rules_Proofs Inst_Proofs.
Import ListNotations.
Open Scope Z_scope.

(** C18: a finished run prints exactly one status, and it is the one of the table. *)
Theorem C18_status :
  forall fuel proof conj onestep step bound out res k,
  search fuel proof conj onestep step bound = Some (out, res, k) ->
  res = step k /\
  exists s, out = [s] /\
  (s = "Theorem"%string <-> step k = true /\ conj = true) /\
  (s = "Unsatisfiable"%string <-> step k = true /\ conj = false) /\
  (s = "CounterSatisfiable"%string <-> step k = false /\ conj = true) /\
  (s = "Satisfiable"%string <-> step k = false /\ conj = false).
Proof. exact search_status. Qed.
Print Assumptions C18_status.
(** a run where limits 3 and 6 fail and limit 12 closes *)
Example C18_hypotheses_met :
  search 10 true true false (fun k => 10 <? k) 3 = Some (["Theorem"%string], true, 12).
Proof. reflexivity. Qed.

(** C18: the limit is doubled until the search closes; a verdict "open" is only given by a run that is
    asked to do one step or has a bound that is not positive. *)
Theorem C18_deepening :
  forall fuel proof conj onestep step bound out res k,
  search fuel proof conj onestep step bound = Some (out, res, k) ->
  exists n, k = bound * 2 ^ Z.of_nat n /\
  (forall m, (m < n)%nat -> step (bound * 2 ^ Z.of_nat m) = false) /\
  (res = false -> onestep = true \/ bound <= 0).
Proof. exact search_deepening. Qed.
Print Assumptions C18_deepening.

(** C19 *)
Theorem C19_families :
  forall f,
  (kind_of_rule f = KAtomic <-> literal f) /\ (kind_of_rule f = KAlpha <-> conjunctive f) /\
  (kind_of_rule f = KBeta <-> disjunctive f) /\ (kind_of_rule f = KDelta <-> existential f) /\
  (kind_of_rule f = KGamma <-> universal f).
Proof. exact kind_families. Qed.
Print Assumptions C19_families.
Example C19_case : kind_of_rule (Not 1 (Equ 2 (Top 3) (Bot 4))) = KBeta /\ disjunctive (Not 1 (Equ 2 (Top 3) (Bot 4))).
Proof. split; [reflexivity|constructor]. Qed.

(** C20 *)
Theorem C20_alpha :
  forall same x g I (v : val I), conjunctive (ft_form x) ->
  (holds (ft_form x) v <-> all_hold (fst (apply_alpha same x g)) v).
Proof. exact alpha_ok. Qed.
Print Assumptions C20_alpha.

(** C21 *)
Theorem C21_beta :
  forall x g I (v : val I), disjunctive (ft_form x) ->
  (holds (ft_form x) v <-> exists b, In b (fst (apply_beta x g)) /\ all_hold b v).
Proof. exact (beta_ok (fun _ _ => true)). Qed.
Print Assumptions C21_beta.

Definition pA : form := Pred 10 (mkId 0 "p") [] [].
Definition qA : form := Pred 11 (mkId 1 "q") [] [].
Example C20_hypotheses_met : conjunctive (Not 1 (Imp 2 pA qA)) /\
  List.length (fst (apply_alpha (fun _ _ => true) (mkFat (Not 1 (Imp 2 pA qA)) []) gen0)) = 2%nat.
Proof. split; [constructor|reflexivity]. Qed.
Example C21_hypotheses_met : disjunctive (Not 1 (Equ 2 pA qA)) /\
  map (@List.length fat) (fst (apply_beta (mkFat (Not 1 (Equ 2 pA qA)) []) gen0)) = [2; 2]%nat.
Proof. split; [constructor|reflexivity]. Qed.

(** C22: the instance follows from the universal formula whatever the value of the new metavariable,
    which is fresh; conversely the universal formula follows from all instances. *)
Theorem C22_gamma :
  forall x index g, universal (ft_form x) -> wff g (ft_form x) ->
  (forall s i, In (s, i) (f_tymetas (ft_form x)) -> i < count_meta g) ->
  head_var (ft_form x) <> None ->
  exists y m g', apply_gamma x index g = Some (y, m, g') /\
    (forall I (w : val I), holds (ft_form x) w -> holds (ft_form y) w) /\
    match m with
    | Some m => ~ In (m_index m) (f_metas (ft_form x)) /\
                forall I (w : val I), (forall d, holds (ft_form y) (set_mv w (m_index m) d)) -> holds (ft_form x) w
    | None => exists s i, ~ In (s, i) (f_tymetas (ft_form x)) /\
                forall I (w : val I), (forall t, holds (ft_form y) (set_tmv w s i t)) -> holds (ft_form x) w
    end.
Proof. exact gamma_sound. Qed.
Print Assumptions C22_gamma.
Definition fG : form :=
  Not 1 (Ex 2 [mkTV "X" 20 (TyConstr "$i" []); mkTV "Y" 21 (TyConstr "$i" [])]
    (Pred 3 (mkId 5 "p") [] [Var 20 "X"; Var 21 "Y"])).
Definition gG : gen := mkGen 30 40 0 [] [] [].
Example C22_hypotheses_met : universal fG /\ head_var fG <> None /\ wff gG fG /\
  match apply_gamma (mkFat fG []) 0 gG with
  | Some (y, Some m, _) => m_index m = 30 /\ f_metas (ft_form y) = [30] /\ map tv_index (f_binders (ft_form y)) = [21]
  | _ => False
  end.
Proof.
  split; [constructor|]. split; [discriminate|]. split; [|vm_compute; auto].
  constructor; vm_compute; auto.
  - intros b [<-|[<-|[]]]; reflexivity.
  - repeat constructor; cbn; intuition discriminate.
  - repeat constructor; cbn; intuition discriminate.
  - intros i [[]|[[]|[<-|[<-|[]]]]]; reflexivity.
Qed.

(** C25 (partial): after a list is dispatched each queue holds formulas of its family only, every formula
    is in the queue of its family up to the equality used by the program, nothing else is added, and
    GetAllForms returns exactly the content of the queues.  Missing: multiplicities (false, below). *)
Theorem C25_dispatch_partial :
  forall same l q, (forall l, same l l = true) -> sorted_queues q ->
  let q' := fold_left (fun q x => dispatch same x q) l q in
  sorted_queues q' /\
  (forall x, In x l -> fl_contains same (queue_of (ft_form x) q') x = true) /\
  (forall x, in_queues x q' -> in_queues x q \/ In x l) /\
  (forall x, In x (all_forms same q') -> in_queues x q') /\
  (forall x, in_queues x q' -> fl_contains same (all_forms same q') x = true).
Proof. exact dispatch_summary. Qed.
Print Assumptions C25_dispatch_partial.
Example C25_hypotheses_met :
  let q := fold_left (fun q x => dispatch (fun _ _ => true) x q) [mkFat pA []; mkFat (And 1 [pA; qA]) []] (mkQ [] [] [] [] [] []) in
  (forall l : list term, (fun _ _ => true) l l = true) /\ sorted_queues (mkQ [] [] [] [] [] []) /\
  List.length (q_atomic q) = 1%nat /\ List.length (q_alpha q) = 1%nat.
Proof. vm_compute. repeat split; intros ? []. Qed.

(** C25 refuted for multiplicities: the same formula dispatched twice is kept once. *)
Theorem C25_multiset_refuted :
  exists x, let q := fold_left (fun q x => dispatch (fun _ _ => true) x q) [x; x] (mkQ [] [] [] [] [] []) in
  List.length (all_forms (fun _ _ => true) q) = 1%nat.
Proof. exact (ex_intro _ (mkFat pA []) eq_refl). Qed.
Print Assumptions C25_multiset_refuted.

(** C26 (partial): as long as no formula is registered in between, any number of reintroductions can be
    done, counters that differ by at most one keep doing so, and each formula is selected again after
    at most [gap] calls.  Missing: formulas registered later (false, below). *)
Theorem C26_fair_partial :
  forall lim l, l <> [] -> Forall (fun x => 0 <= x) l ->
  (forall n, exists p l2, calls lim l p l2 /\ List.length p = n) /\
  (forall p l2, calls lim l p l2 ->
     (within_one l -> within_one l2) /\
     (forall j c, nth_error l j = Some c -> gap c l <= Z.of_nat (List.length p) -> In j p)).
Proof. exact calls_summary. Qed.
Print Assumptions C26_fair_partial.
Example C26_hypotheses_met : Forall (fun x => 0 <= x) [1; 1; 2] /\ within_one [1; 1; 2] /\ gap 2 [1; 1; 2] = 5.
Proof.
  split; [repeat constructor; discriminate|]. split; [|reflexivity].
  intros a b [<-|[<-|[<-|[]]]] [<-|[<-|[<-|[]]]]; discriminate.
Qed.
(** C26 refuted: a formula registered late is two behind. *)
Theorem C26_within_one_refuted :
  exists l p l', calls 5 [1] p l /\ l' = register l /\ ~ within_one l'.
Proof. exact late_registration. Qed.
Print Assumptions C26_within_one_refuted.
(** C26 refuted: when a formula is registered before each call, the first one is never selected again,
    whatever the number of calls. *)
Theorem C26_starvation_refuted :
  forall n, exists l p, starve n [2] = Some (l, p) /\ List.length p = n /\ ~ In 0%nat p.
Proof. exact starvation. Qed.
Print Assumptions C26_starvation_refuted.

(** C29 (partial): the chosen one and the rest are exactly the candidates; a free candidate is chosen when
    there is one that is not the last.  Missing: a free candidate in last position (false, below). *)
Theorem C29_choose_partial :
  forall A (mother : A -> bool) l r, l <> [] ->
  exists s rest, choose_subst mother l r = Some (s, rest) /\ Permutation l (s :: rest) /\
  ((exists j t, (j < List.length l - 1)%nat /\ nth_error l j = Some t /\ mother t = false) -> mother s = false).
Proof. exact @choose_subst_ok. Qed.
Print Assumptions C29_choose_partial.
Example C29_hypotheses_met : choose_subst (Nat.eqb 0) [0; 1; 0]%nat 0 = Some (1, [0; 0])%nat.
Proof. reflexivity. Qed.
(** C29 refuted: the last candidate is never examined. *)
Theorem C29_last_refuted :
  exists (mother : nat -> bool) l r s rest, choose_subst mother l r = Some (s, rest) /\
  existsb (fun x => negb (mother x)) l = true /\ mother s = true.
Proof. exact choose_last_missed. Qed.
Print Assumptions C29_last_refuted.
