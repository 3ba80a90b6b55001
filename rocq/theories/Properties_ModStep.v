(** Claims C132-C135: the rewriting of literals inside the search. *)
From Coq Require Import String ZArith List Bool.
From Verif Require Import LibSet_Model Ast_Model Ast_Proofs Sem_Spec Free_Spec Rules_Model Rules_Spec Skolem_Witness Tableau_Witness Expand_Model Unif_Model Unif_Spec UnifRun_Proofs
  Restrict_Spec Closure_Spec Dmt_Model Dmt_Spec Dmt_Proofs DmtRewrite_Proofs Dmt_Final Dmt_Witness GsProof_Model ModStep_Model ModStep_Spec ModStep_Proofs ModStep_Final ModStep_Witness.
Import ListNotations.
Open Scope list_scope.
Open Scope Z_scope.

(** ** C132: a rewriting step keeps the other literals of the branch *)
(** The rules come from an axiom, the literals are examined by the code in order; the branch had no model,
    the one of the child has a model of the axiom: the first literal is gone. *)
Theorem C132_refuted :
  exists axs rest d g g' l0 l w x, register_all 0 false axs dmt0 g = Ok (rest, d, g') /\
    rewrite_node same0 (rewrite_real nid mono0 30 30 d) false true l0 = Ok (Some (Rewriting l w)) /\
    In x (q_lf (la_q l0)) /\ x <> rs_formula (wa_step w) /\ ~ present same0 x (formulas (la_q l)) /\
    (forall I (v : val I), ~ all_hold (formulas (la_q l0)) v) /\
    exists I (v : val I), Forall (true_in I) axs /\ all_hold (formulas (la_q l)) v /\ la_msg l = ([], []).
Proof.
  exists [axG], [], (fst dG), gS, (snd dG), (fresh_call [pc; rc; npc]), (mkLaunch qL false ([], [])), (mkWait qL true [] (mkRs (t0 rc) (t0 cG) 3)), (t0 pc).
  split; [exact allG|]. split; [exact lost_run|]. split; [left; reflexivity|]. split; [discriminate|]. split; [apply lost_gone|]. split; [exact lost_before|].
  exists boolL, valL. split; [constructor; [apply lost_after|constructor]|]. split; [apply lost_after|reflexivity].
Qed.
Print Assumptions C132_refuted.
(** Without a rewriting nothing is lost: the step that follows receives the formulas as if there were no
    rules. With one, every formula is kept but the rewritten literal and the literals before it that the
    rules do not rewrite and that were not stored before. *)
Theorem C132_partial same rw post loaded l0 a : (forall l, same l l = true) -> rewrite_node same rw post loaded l0 = Ok (Some a) ->
  match a with
  | EmptyStep q =>
    (forall x, In x (q_lf (la_q l0)) -> literal (ft_form x) -> present same x (q_atomic (la_q l0)) \/ not_rewritable rw (ft_form x)) /\
    exists q', receive same (q_lf (la_q l0)) (la_q l0) = Some q' /\ forall bt m, sort_new same true loaded bt m q = Some (q', [])
  | Rewriting l w => exists before f after ix s c alts,
    (forall x, In x (before ++ f :: after) <-> In x (q_lf (la_q l0)) /\ literal (ft_form x)) /\
    rw (ft_form f) = Ok ((ix, (s, c)) :: alts) /\ is_failure s = false /\ ~ present same f (q_atomic (la_q l0)) /\
    q_lf (la_q l) = after ++ [mkFat c (ft_terms f)] /\ la_msg l = (match s with [] => ([], []) | _ => (s, [c]) end) /\ la_bt l = false /\
    (forall x, In x (old (la_q l0)) -> In x (old (la_q l))) /\
    (forall x, In x (q_lf (la_q l0)) -> ~ literal (ft_form x) -> present same x (old (la_q l))) /\
    (forall x, In x before -> present same x (q_atomic (la_q l)) \/ not_rewritable rw (ft_form x)) /\
    (forall x, In x (old (la_q l)) -> In x (formulas (la_q l0)))
  end.
Proof. exact (fun H => kept same H rw post loaded l0 a). Qed.
Print Assumptions C132_partial.
Example C132_case : (forall l, same0 l l = true) /\
  rewrite_node same0 rwG false true (fresh_call [rc; npc; pc]) = Ok (Some (Rewriting (mkLaunch (wa_q rewC) false ([], [])) rewC)) /\
  rewrite_node same0 rwG false true (fresh_call [pc; cG; npc]) = Ok (Some (EmptyStep (mkQ (map t0 [pc; cG; npc]) [] [t0 cG] [] [] []))).
Proof. split; [reflexivity|]. split; [exact first_run|exact none_run]. Qed.
(** which literals are offered to the rules *)
Theorem C132_offered same post loaded bt m q q' dmt : (forall l, same l l = true) -> sort_new same post loaded bt m q = Some (q', dmt) ->
  (forall x, In x dmt -> In x (q_lf q) /\ literal (ft_form x)) /\
  (forall x, In x (q_lf q) -> literal (ft_form x) ->
     if negb post && loaded && (negb bt || msg_empty m) then In x dmt else present same x (q_atomic q')).
Proof. exact (fun H => offered same H post loaded bt m q q' dmt). Qed.
Print Assumptions C132_offered.
Example C132_offered_case : sort_new same0 false true false ([], []) (mkQ (map t0 [pc; cG; npc]) [] [] [] [] []) =
    Some (mkQ (map t0 [pc; cG; npc]) [] [t0 cG] [] [] [], [t0 pc; t0 npc]) /\
  sort_new same0 true true false ([], []) (mkQ (map t0 [pc; cG; npc]) [] [] [] [] []) =
    Some (mkQ (map t0 [pc; cG; npc]) [t0 pc; t0 npc] [t0 cG] [] [] [], []).
Proof. split; vm_compute; reflexivity. Qed.

(** ** C133: a rewriting step is sound modulo the axioms of the rules *)
(** Missing: rules whose variables occur more than once in the rewritten side, as in C43. *)
Theorem C133_partial same name_id ty_arity n fe (ar : signature) eqi pol axs rest d g g' atoms q l w k ls :
  Forall (wff g) axs -> Forall untyped axs -> Forall binds axs -> register_all eqi pol axs dmt0 g = Ok (rest, d, g') -> monomorphic ar ty_arity ->
  (forall x, In x atoms -> let lit := ft_form x in
     Forall (first_order ar) (map fst (rules_for d lit)) /\ first_order ar lit /\ keys_apart key (rules_for d lit) /\ rewrite_strict name_id ty_arity n fe d lit <> Out) ->
  manage same (rewrite_real name_id ty_arity n fe d) atoms q = Ok (Rewriting l w) -> tries k w = Ok ls ->
  forall l' w', In (l', w') ((l, w) :: ls) ->
    let lit := ft_form (rs_formula (wa_step w')) in let c := ft_form (rs_result (wa_step w')) in
    (rs_id (wa_step w') = -1 /\ fst (la_msg l') = failure /\ c = lit) \/
    exists a r sg, rewritten n fe (rules_for d lit) lit (rs_id (wa_step w')) (fst (la_msg l')) c a r sg /\
      (linear_for sg (snd r) -> direct_relevant (lit_metas lit) sg ->
       forall I (v : val I), Forall (true_in I) axs -> satisfies v (fst (la_msg l')) ->
         all_hold atoms v -> all_hold (old q) v -> all_hold (formulas (la_q l')) v).
Proof. exact (sound same name_id ty_arity n fe ar eqi pol axs rest d g g' atoms q l w k ls). Qed.
Print Assumptions C133_partial.
Example C133_case : Forall (wff gS) [axG] /\ register_all 0 false [axG] dmt0 gS = Ok ([], fst dG, snd dG) /\
  (forall x, In x [t0 litG] -> let lit := ft_form x in
    Forall (first_order dar) (map fst (rules_for (fst dG) lit)) /\ first_order dar lit /\ keys_apart key (rules_for (fst dG) lit) /\ rewrite_strict nid mono0 30 30 (fst dG) lit <> Out) /\
  manage same0 (rewrite_real nid mono0 30 30 (fst dG)) [t0 litG] (mkQ [t0 litG] [] [] [] [] []) = Ok (Rewriting (mkLaunch (wa_q wG) false ([], [])) wG) /\ tries 1 wG = Ok [] /\
  rewritten 30 30 (rules_for (fst dG) litG) litG 3 [] (bG cc (Meta mW)) aG (aG, bG (Meta mX30) (Meta mY31)) sG /\
  linear_for sG (bG (Meta mX30) (Meta mY31)) /\ direct_relevant (lit_metas litG) sG /\
  true_in boolG axG /\ satisfies valG [] /\ all_hold [t0 litG] valG.
Proof.
  split; [constructor; [apply axG_ok|constructor]|]. split; [exact allG|]. split; [exact stepG_hyps|]. split; [apply stepG|]. split; [apply stepG|].
  split; [exact rewG|]. split; [apply linG|]. split; [apply linG|]. split; [apply axG_true|]. split; apply stepG_holds.
Qed.

(** ** C134: the candidates are tried one after the other, in the same way *)
(** The alternatives are searched without rewriting: here a child launched on backtracking stops with
    nothing to do, though the rules rewrite its literal r(c,c) and the branch has no model of the axioms. *)
Theorem C134_refuted :
  exists axs rest d g g' l0 l w k ls l' w' x, register_all 0 true axs dmt0 g = Ok (rest, d, g') /\
    let rw := rewrite_real nid mono0 30 30 d in
    rewrite_node same0 rw false true l0 = Ok (Some (Rewriting l w)) /\ tries k w = Ok ls /\ In (l', w') ls /\
    In x (q_lf (la_q l)) /\ In x (q_lf (la_q l')) /\ rewritable rw (ft_form x) /\
    (exists l1 w1, rewrite_node same0 rw false true l = Ok (Some (Rewriting l1 w1)) /\ rs_formula (wa_step w1) = x) /\
    rewrite_node same0 rw false true l' = Ok None /\
    (exists q', sort_new same0 false true (la_bt l') (la_msg l') (la_q l') = Some (q', []) /\ In x (q_atomic q') /\
       forall n s g, apply_rules same0 (mkSt n q' [] Leaf Leaf) s g = Some Sat) /\
    forall I (v : val I), Forall (true_in I) axs -> ~ all_hold (formulas (la_q l')) v.
Proof.
  exists [axA; axB; axC], [], (fst dT), gS, (snd dT), (fresh_call [pc; rcc]), (mkLaunch (qT qc) false ([], [])), (waitT qc 3 [c1; c2; c3]), 4%nat.
  exists [(againT qg, waitT qg 3 [c2; c3]); (againT qc, waitT qc 6 [c3]); (againT qg, waitT qg 6 [])], (againT qg), (waitT qg 3 [c2; c3]), (t0 rcc).
  split; [exact regT|]. cbv zeta. split; [exact runT|]. split; [exact triesT|]. split; [left; reflexivity|]. split; [left; reflexivity|]. split; [left; reflexivity|].
  split; [exact rccT|]. split; [exact firstT|]. split; [apply (againT_run qg); right; reflexivity|]. split; [|exact againT_unsat].
  exists (qT2 qg). split; [apply (againT_run qg); right; reflexivity|]. split; [left; reflexivity|apply (againT_run qg); right; reflexivity].
Qed.
Print Assumptions C134_refuted.
(** Each candidate is launched once, in the order of the rules, with the same other formulas and its own
    substitution; the node records the literal, the candidate and its number. *)
Theorem C134_partial same rw atoms q l w : manage same rw atoms q = Ok (Rewriting l w) ->
  exists before f after cs ls,
    atoms = before ++ f :: after /\ rw (ft_form f) = Ok cs /\ tries (List.length cs) w = Ok ls /\
    Forall2 (fun c lw => launched q after f c (fst lw) /\
      wa_step (snd lw) = mkRs f (mkFat (snd (snd c)) (ft_terms f)) (fst c)) cs ((l, w) :: ls).
Proof. exact (candidates same rw atoms q l w). Qed.
Print Assumptions C134_partial.
Example C134_case : manage same0 rwT [t0 pc; t0 rcc] (la_q (fresh_call [pc; rcc])) = Ok (Rewriting (mkLaunch (qT qc) false ([], [])) (waitT qc 3 [c1; c2; c3])) /\
  tries 4 (waitT qc 3 [c1; c2; c3]) = Ok [(againT qg, waitT qg 3 [c2; c3]); (againT qc, waitT qc 6 [c3]); (againT qg, waitT qg 6 [])].
Proof. split; [exact manageT|exact triesT]. Qed.
(** no child launched on backtracking offers a literal to the rules, whatever its substitution makes of its
    formulas, and its literals are stored *)
Theorem C134_never same rw atoms q l w n ls : (forall l, same l l = true) -> manage same rw atoms q = Ok (Rewriting l w) -> tries n w = Ok ls ->
  forall l' w', In (l', w') ls -> forall loaded q1,
    match sort_new same false loaded (la_bt l') (la_msg l') q1 with
    | Some (q2, dmt) => dmt = [] /\ forall x, In x (q_lf q1) -> literal (ft_form x) -> present same x (q_atomic q2)
    | None => True
    end.
Proof. exact (fun H => never same H rw atoms q l w n ls). Qed.
Print Assumptions C134_never.
(** and a stored literal is never offered again *)
Theorem C134_stored same rw atoms q : (forall x, In x atoms -> present same x (q_atomic q)) -> manage same rw atoms q = Ok (EmptyStep q).
Proof. exact (skipped same rw atoms q). Qed.
Print Assumptions C134_stored.
Example C134_stored_case : (forall x, In x [t0 rcc] -> present same0 x (q_atomic (qT2 qg))) /\ rewritable rwT rcc.
Proof. split; [|exact rccT]. intros x [<-|[]]. exists (t0 rcc). split; [left; reflexivity|reflexivity]. Qed.

(** ** C135: the recorded step names the axiom it uses *)
(** The number recorded for the step is the one of another axiom: sequent.go:304 takes p(c) => q(c) to justify
    the step from p(c) to q(g(c)). *)
Theorem C135_refuted :
  exists axs rest d g g' l0 l w k ls l' w' i h, register_all 0 true axs dmt0 g = Ok (rest, d, g') /\
    rewrite_node same0 (rewrite_real nid mono0 30 30 d) false true l0 = Ok (Some (Rewriting l w)) /\ tries k w = Ok ls /\ In (l', w') ls /\
    rewritten_with (rs_id (wa_step w')) axs = Ok i /\ nth_error axs i = Some h /\ fst (la_msg l') = [] /\
    exists I (v : val I), true_in I h /\ holds (ft_form (rs_formula (wa_step w'))) v /\ ~ holds (ft_form (rs_result (wa_step w'))) v.
Proof.
  exists [axA; axB; axC], [], (fst dT), gS, (snd dT), (fresh_call [pc; rcc]), (mkLaunch (qT qc) false ([], [])), (waitT qc 3 [c1; c2; c3]), 4%nat.
  exists [(againT qg, waitT qg 3 [c2; c3]); (againT qc, waitT qc 6 [c3]); (againT qg, waitT qg 6 [])], (againT qg), (waitT qg 3 [c2; c3]), 0%nat, axA.
  split; [exact regT|]. split; [exact runT|]. split; [exact triesT|]. split; [left; reflexivity|]. split; [apply wrongT|]. split; [reflexivity|]. split; [reflexivity|].
  exists boolT, valT. exact wrongT_sem.
Qed.
Print Assumptions C135_refuted.
(** The recorded step is one the rules offer: its literal is of the branch, its result is a candidate with the
    recorded number, and the child is launched with that result last. *)
Theorem C135_partial same rw atoms q l w n ls : manage same rw atoms q = Ok (Rewriting l w) -> tries n w = Ok ls ->
  forall l' w', In (l', w') ((l, w) :: ls) ->
  exists after cs s, In (rs_formula (wa_step w')) atoms /\ rw (ft_form (rs_formula (wa_step w'))) = Ok cs /\
    In (rs_id (wa_step w'), (s, ft_form (rs_result (wa_step w')))) cs /\ ft_terms (rs_result (wa_step w')) = ft_terms (rs_formula (wa_step w')) /\
    q_lf (la_q l') = after ++ [rs_result (wa_step w')] /\ fst (la_msg l') = s /\ same_old (la_q l') q.
Proof. exact (recorded same rw atoms q l w n ls). Qed.
Print Assumptions C135_partial.
Example C135_case : manage same0 rwT [t0 pc; t0 rcc] (la_q (fresh_call [pc; rcc])) = Ok (Rewriting (mkLaunch (qT qc) false ([], [])) (waitT qc 3 [c1; c2; c3])) /\
  tries 4 (waitT qc 3 [c1; c2; c3]) = Ok [(againT qg, waitT qg 3 [c2; c3]); (againT qc, waitT qc 6 [c3]); (againT qg, waitT qg 6 [])] /\ rs_id (wa_step (waitT qc 6 [c3])) = 6.
Proof. split; [exact manageT|]. split; [exact triesT|reflexivity]. Qed.
