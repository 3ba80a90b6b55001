(** Concrete cases for C132-C135. *)
From Coq Require Import ZArith List Bool String.
From Verif Require Import LibSet_Model Ast_Model Ast_Proofs Sem_Spec Occ_Spec Free_Spec Rules_Model Rules_Spec Skolem_Witness Tableau_Witness Expand_Model
  Unif_Model Unif_Spec UnifRun_Proofs UnifTree_Model Closure_Model Closure_Spec Restrict_Spec Dmt_Model Dmt_Spec Dmt_Proofs DmtRewrite_Proofs Dmt_Witness
  GsProof_Model ModStep_Model ModStep_Spec.
Import ListNotations.
Open Scope list_scope.
Open Scope Z_scope.

Definition t0 (f : form) : fat := mkFat f [].
Definition fresh_call (l : list form) : launch := mkLaunch (mkQ (map t0 l) [] [] [] [] []) false ([], []).

(** *** p(c), r(c,g(c)), ~ p(c) with ! [X,Y] : (r(X,g(Y)) <=> (q(X) & p(f(Y,X)))) *)
Definition rwG : form -> out (list candidate) := rewrite_real nid mono0 30 30 (fst dG).
Definition pc : form := Pred 50 pI [] [cc].
Definition rc : form := Pred 51 rI [] [cc; gg cc].
Definition npc : form := Not 52 (Pred 53 pI [] [cc]).
Definition cG : form := And 4 [Pred 5 qI [] [cc]; Pred 6 pI [] [ff cc cc]].
Definition qL : queues := mkQ [t0 npc; t0 cG] [] [] [] [] [].
Lemma lost_run : rewrite_node same0 rwG false true (fresh_call [pc; rc; npc]) =
  Ok (Some (Rewriting (mkLaunch qL false ([], [])) (mkWait qL true [] (mkRs (t0 rc) (t0 cG) 3)))).
Proof. vm_compute. reflexivity. Qed.
Lemma lost_before I (v : val I) : ~ all_hold (formulas (la_q (fresh_call [pc; rc; npc]))) v.
Proof. intros H. apply (H (t0 npc)); [right; right; left; reflexivity|]. exact (H (t0 pc) (or_introl eq_refl)). Qed.
(** p holds of false only; f is false, c is true; r and q hold *)
Definition boolL : interp := mkInterp bool bool (fun s _ _ => if s =? 3 then false else true)
  (fun s _ ds => if s =? 1 then match ds with [x] => x = false | _ => False end else True)
  (fun _ _ => true) (fun _ => true) (fun _ => true) (fun _ _ => true) (fun _ _ => true).
Definition valL : val boolL := @mkVal boolL (fun _ => true) (fun _ => false) (fun _ => true) (fun _ _ => true).
Lemma lost_after : true_in boolL axG /\ all_hold (formulas qL) valL.
Proof.
  split; [intros w d e; cbn; repeat split|]. intros x [<-|[<-|[]]]; cbn; [discriminate|repeat split; auto].
Qed.
Lemma lost_gone : ~ present same0 (t0 pc) (formulas qL) /\ not_rewritable rwG pc.
Proof.
  split; [intros (y & [<-|[<-|[]]] & E); discriminate E|]. exists (-1), failure, pc, []. split; vm_compute; reflexivity.
Qed.
(** every literal is rewritten, or only the first: nothing lost *)
Definition rewC : waiting := mkWait (mkQ [t0 npc; t0 pc; t0 cG] [] [] [] [] []) true [] (mkRs (t0 rc) (t0 cG) 3).
Lemma first_run : rewrite_node same0 rwG false true (fresh_call [rc; npc; pc]) = Ok (Some (Rewriting (mkLaunch (wa_q rewC) false ([], [])) rewC)).
Proof. vm_compute. reflexivity. Qed.
Lemma none_run : rewrite_node same0 rwG false true (fresh_call [pc; cG; npc]) =
  Ok (Some (EmptyStep (mkQ (map t0 [pc; cG; npc]) [] [t0 cG] [] [] []))).
Proof. vm_compute. reflexivity. Qed.

(** *** the step with ~ r(c,g(W)) *)
Definition wG : waiting := mkWait (mkQ [t0 (bG cc (Meta mW))] [] [] [] [] []) true [] (mkRs (t0 litG) (t0 (bG cc (Meta mW))) 3).
Lemma stepG : manage same0 rwG [t0 litG] (mkQ [t0 litG] [] [] [] [] []) = Ok (Rewriting (mkLaunch (wa_q wG) false ([], [])) wG) /\ tries 1 wG = Ok [].
Proof. split; vm_compute; reflexivity. Qed.
Lemma stepG_hyps x : In x [t0 litG] -> let lit := ft_form x in
  Forall (first_order dar) (map fst (rules_for (fst dG) lit)) /\ first_order dar lit /\ keys_apart key (rules_for (fst dG) lit) /\ rewrite_strict nid mono0 30 30 (fst dG) lit <> Out.
Proof. intros [<-|[]]. cbv zeta. change (ft_form (t0 litG)) with litG. split; [apply dG_fo|]. split; [apply dG_fo|]. split; [apply dG_apart|apply runG]. Qed.
Lemma stepG_holds : all_hold [t0 litG] valG /\ satisfies valG [].
Proof. split; [intros x [<-|[]]; apply axG_true|intros k t []]. Qed.

(** *** p(c) => q(c), p(c) => q(g(c)), r(c,c) => ~ q(g(c)): two rewritings of p(c) *)
Definition axA : form := Imp 2 (Pred 3 pI [] [cc]) (Pred 4 qI [] [cc]).
Definition axB : form := Imp 5 (Pred 6 pI [] [cc]) (Pred 7 qI [] [gg cc]).
Definition axC : form := Imp 8 (Pred 9 rI [] [cc; cc]) (Not 10 (Pred 11 qI [] [gg cc])).
Definition dT : dmt * gen := Eval vm_compute in match register_all 0 true [axA; axB; axC] dmt0 gS with Ok (_, d, g) => (d, g) | _ => (dmt0, gS) end.
Lemma regT : register_all 0 true [axA; axB; axC] dmt0 gS = Ok ([], fst dT, snd dT).
Proof. vm_compute. reflexivity. Qed.
Definition rwT : form -> out (list candidate) := rewrite_real nid mono0 30 30 (fst dT).
Definition rcc : form := Pred 60 rI [] [cc; cc].
Definition qc : form := Pred 4 qI [] [cc].
Definition qg : form := Pred 7 qI [] [gg cc].
Definition qT (c : form) : queues := mkQ [t0 rcc; t0 c] [] [] [] [] [].
Definition waitT (c : form) (i : Z) (r : list cand) : waiting := mkWait (qT c) true r (mkRs (t0 pc) (t0 c) i).
Definition c1 : cand := (3, ([], t0 qg)).
Definition c2 : cand := (6, ([], t0 qc)).
Definition c3 : cand := (6, ([], t0 qg)).
Definition againT (c : form) : launch := mkLaunch (qT c) true ([], [c]).
Lemma runT : rewrite_node same0 rwT false true (fresh_call [pc; rcc]) = Ok (Some (Rewriting (mkLaunch (qT qc) false ([], [])) (waitT qc 3 [c1; c2; c3]))).
Proof. vm_compute. reflexivity. Qed.
Lemma manageT : manage same0 rwT [t0 pc; t0 rcc] (la_q (fresh_call [pc; rcc])) = Ok (Rewriting (mkLaunch (qT qc) false ([], [])) (waitT qc 3 [c1; c2; c3])).
Proof. vm_compute. reflexivity. Qed.
Lemma triesT : tries 4 (waitT qc 3 [c1; c2; c3]) = Ok [(againT qg, waitT qg 3 [c2; c3]); (againT qc, waitT qc 6 [c3]); (againT qg, waitT qg 6 [])].
Proof. reflexivity. Qed.
(** the first child rewrites r(c,c) *)
Lemma firstT : exists l w, rewrite_node same0 rwT false true (mkLaunch (qT qc) false ([], [])) = Ok (Some (Rewriting l w)) /\ rs_formula (wa_step w) = t0 rcc.
Proof. eexists. eexists. split; [vm_compute; reflexivity|reflexivity]. Qed.
Lemma rccT : rewritable rwT rcc.
Proof. eexists. eexists. eexists. eexists. split; vm_compute; reflexivity. Qed.
(** the others do not; nothing is left to do *)
Definition qT2 (c : form) : queues := mkQ [t0 rcc; t0 c] [t0 rcc; t0 c] [] [] [] [].
Lemma againT_run c : c = qc \/ c = qg -> rewrite_node same0 rwT false true (againT c) = Ok None /\ sort_new same0 false true true (la_msg (againT c)) (la_q (againT c)) = Some (qT2 c, []) /\ forall n s g, apply_rules same0 (mkSt n (qT2 c) [] Leaf Leaf) s g = Some Sat.
Proof. intros [-> | ->]; (split; [vm_compute; reflexivity|split; [reflexivity|intros; reflexivity]]). Qed.
Lemma againT_unsat I (v : val I) : Forall (true_in I) [axA; axB; axC] -> ~ all_hold (formulas (la_q (againT qg))) v.
Proof.
  intros T H. inversion T as [|? ? _ T2]; subst. inversion T2 as [|? ? _ T3]; subst. inversion T3 as [|? ? T4 _]; subst.
  specialize (T4 v). cbn in T4. apply T4; [exact (H (t0 rcc) (or_introl eq_refl))|exact (H (t0 qg) (or_intror (or_introl eq_refl)))].
Qed.
(** the axiom of the recorded number: p(c) => q(c), for a step from p(c) to q(g(c)); q holds of c, not of g(c) *)
Lemma wrongT : rewritten_with 3 [axA; axB; axC] = Ok 0%nat /\ rewritten_with 6 [axA; axB; axC] = Ok 1%nat. Proof. split; reflexivity. Qed.
Definition boolT : interp := mkInterp bool bool (fun s _ _ => if s =? 5 then false else true)
  (fun s _ ds => match ds with [x] => x = true | _ => False end)
  (fun _ _ => true) (fun _ => true) (fun _ => true) (fun _ _ => true) (fun _ _ => true).
Definition valT : val boolT := @mkVal boolT (fun _ => true) (fun _ => false) (fun _ => true) (fun _ _ => true).
Lemma wrongT_sem : true_in boolT axA /\ holds pc valT /\ ~ holds qg valT.
Proof. split; [intros v _; reflexivity|]. cbn. split; [reflexivity|discriminate]. Qed.
Lemma axT_ok : Forall (wff gS) [axA; axB; axC] /\ Forall untyped [axA; axB; axC] /\ Forall binds [axA; axB; axC].
Proof.
  split; [repeat (apply Forall_cons; [apply wffb_ok; reflexivity|]); constructor|]. split; repeat (apply Forall_cons; [first [exact Logic.I | intros x Hx; cbn in Hx; intuition (subst; reflexivity)]|]); constructor.
Qed.
