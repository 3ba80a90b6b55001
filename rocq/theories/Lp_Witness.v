(** Scripts that are good, and scripts that are not (C124 to C129). *)
From Coq Require Import ZArith List Bool String Lia.
From Verif Require Import Ast_Model Ast_Proofs Sem_Spec Occ_Spec Rules_Proofs Unif_Model GsTerm_Spec GsProof_Model GsProof_Spec GsProof_Witness Tptp_Model Tptp_Witness Rocq_Spec Rocq_Witness
  Lp_Model Lp_Spec Lp_Proofs Lp_Final.
Import ListNotations.
Open Scope string_scope.
Open Scope list_scope.
Open Scope Z_scope.

Ltac at_hand := match goal with |- available _ ?f => exists f; split; [cbn; auto 12|apply form_eqb_refl] end.

(** ** A proof with all the kinds of rules *)
Lemma good_conjecture : has_conjecture (And 0 G0). Proof. exists [ax1; ax2], 0, Tptp_Witness.goal. reflexivity. Qed.
Lemma good_printed : printed_well [And 0 G0] good_root.
Proof.
  eapply W_alpha; [reflexivity|at_hand|apply (A_and 0)|]. repeat constructor. cbn [app].
  eapply W_quant with (f := ax2); [reflexivity|at_hand|exists 2; reflexivity|discriminate|]. repeat constructor. cbn [app].
  eapply W_quant with (f := ax1); [reflexivity|at_hand|exists 1; reflexivity|discriminate|]. repeat constructor. cbn [app].
  eapply W_quant with (f := no Tptp_Witness.goal); [reflexivity|at_hand|exists 0, 0; reflexivity|discriminate|]. repeat constructor. cbn [app].
  eapply W_beta with (f := Imp 0 (p1 sk) (q1 sk)); [reflexivity|at_hand|apply (B_imp 0)|]. repeat constructor; cbn [app]; (eapply W_close; [reflexivity|reflexivity|split; at_hand]).
Qed.
Lemma good_made : exists sc st, make_script good_root no_names = Ok (sc, st) /\ sc_var sc = 0%nat /\ counter st = 13%nat.
Proof. eexists _, _. split; [vm_compute; reflexivity|]. split; reflexivity. Qed.

(** ** The law of Peirce *)
Definition peirce : form := Imp 0 (Imp 0 (Imp 0 A0 B0) A0) A0.
Definition R1 : list form := [no peirce; Imp 0 (Imp 0 A0 B0) A0; no A0].
Definition peirce_root : sequent :=
  sq_of [no peirce] NIMP 0 None [[Imp 0 (Imp 0 A0 B0) A0; no A0]]
   [sq_of R1 IMP 1 None [[no (Imp 0 A0 B0)]; [A0]]
     [sq_of (R1 ++ [no (Imp 0 A0 B0)]) NIMP 3 None [[A0; no B0]] [sq_of (R1 ++ [no (Imp 0 A0 B0); A0; no B0]) AX 4 None [] []];
      sq_of (R1 ++ [A0]) AX 3 None [] []]].
Ltac same_lists := repeat constructor; apply form_eqb_refl.
Lemma peirce_prop : propositional [no peirce] peirce_root.
Proof.
  eapply O_alpha; [reflexivity|at_hand|apply (A_nimp 0 0)|right; reflexivity|same_lists|]. repeat constructor. cbn [app].
  eapply O_beta with (f := Imp 0 (Imp 0 A0 B0) A0); [reflexivity|at_hand|apply (B_imp 0)|reflexivity|same_lists|]. constructor; [|constructor; [|constructor]]; cbn [app].
  - eapply O_alpha with (f := no (Imp 0 A0 B0)); [reflexivity|at_hand|apply (A_nimp 0 0)|right; reflexivity|same_lists|]. repeat constructor. cbn [app].
    eapply O_close; [reflexivity|reflexivity|split; at_hand].
  - eapply O_close; [reflexivity|reflexivity|split; at_hand].
Qed.
Ltac copies := match goal with |- exists h, In h _ /\ copy _ h ?f => exists f; split; [cbn; auto 12|split; [apply form_eqb_refl|reflexivity]] end.
Ltac comps := intros g Hg; cbn in Hg; repeat destruct Hg as [<-|Hg]; try contradiction; (eexists; split; [|split; [apply form_eqb_refl|reflexivity]]; cbn; auto).
Lemma peirce_without : without_quantifiers 1 [no peirce] peirce_root.
Proof.
  eapply Q_alpha; [reflexivity|copies|apply (A_nimp 0 0)|constructor; [comps|constructor]|]. repeat constructor. cbn [app].
  eapply Q_beta with (f := Imp 0 (Imp 0 A0 B0) A0); [reflexivity|copies|apply (B_imp 0)|constructor; [comps|constructor; [comps|constructor]]|]. constructor; [|constructor; [|constructor]]; cbn [app].
  - eapply Q_alpha with (f := no (Imp 0 A0 B0)); [reflexivity|copies|apply (A_nimp 0 0)|constructor; [comps|constructor]|]. repeat constructor. cbn [app].
    eapply Q_close; [reflexivity|reflexivity|copies].
  - eapply Q_close; [reflexivity|reflexivity|copies].
Qed.
Lemma peirce_made : exists sc st, make_script peirce_root no_names = Ok (sc, st) /\
  sc_proof sc = LRule NIMP [] [Imp 0 (Imp 0 A0 B0) A0; A0] None
    [([BForm 1 (Imp 0 (Imp 0 A0 B0) A0); BForm 2 (no A0)], LRule IMP [] [Imp 0 A0 B0; A0] None
       [([BForm 3 (no (Imp 0 A0 B0))], LRule NIMP [] [A0; B0] None [([BForm 4 A0; BForm 5 (no B0)], LAxiom A0 (Some 4%nat) (Some 2%nat))] (Some 3%nat));
        ([BForm 4 A0], LAxiom A0 (Some 4%nat) (Some 2%nat))] (Some 1%nat))] (Some 0%nat).
Proof. vm_compute. eexists _, _. split; reflexivity. Qed.

(** ** A branch closed by equality *)
Definition unequal : form := no (Pred 0 (mkId 1 "=") [] [a0; a0]).
Definition unequal_root : sequent := sq_of [unequal] AX 0 None [] [].
Lemma unequal_false : forall I (v : val I), real_eq 1 I -> ~ holds unequal v.
Proof. intros I v E H. apply H. cbn. apply E. reflexivity. Qed.
Lemma unequal_script : exists sc st, make_script unequal_root no_names = Ok (sc, st) /\ ~ in_scope [(sc_var sc, Some (sc_formula sc))] (sc_proof sc).
Proof.
  eexists _, _. split; [vm_compute; reflexivity|]. cbn. intros H. inversion H as [? ? ? ? A B| | | |]; subst. destruct A as (n & g & E & _). discriminate.
Qed.

(** ** A conjunction of three formulas *)
Lemma three_script : exists sc st, make_script three_root no_names = Ok (sc, st) /\ in_scope [(sc_var sc, Some (sc_formula sc))] (sc_proof sc) /\ ~ accepted sc.
Proof.
  assert (W : printed_well [no three] three_root).
  { eapply W_alpha; [reflexivity|at_hand|apply (A_nimp 0 0)|]. repeat constructor. cbn [app]. eapply W_alpha with (f := And 0 [A0; B0; C0]); [reflexivity|at_hand|apply (A_and 0)|]. repeat constructor. cbn [app].
    eapply W_close; [reflexivity|reflexivity|split; at_hand]. }
  destruct (scope_final three_root (no three) no_names eq_refl Logic.I W R_start) as (sc & st & E & _ & S). exists sc, st. split; [exact E|]. split; [exact S|].
  vm_compute in E. injection E as <- _. intros [_ H]. cbn in H. inversion H as [| | |? ? ? ? ? ? ? _ _ _ K]; subst. inversion K as [|? ? K1 _]; subst. cbn in K1. inversion K1 as [| | |? ? ? ? ? ? ? C _ _ _]; subst. discriminate.
Qed.

(** ** No axiom proves the conjecture alone *)
Definition both : form := And 0 [A0; no A0].
Definition both_root : sequent := sq_of [both] AND 0 None [[A0; no A0]] [sq_of [both; A0; no A0] AX 1 None [] []].
Lemma both_gs3 : gs3 [both] both_root.
Proof.
  eapply P_alpha; [discriminate|apply app_here; [reflexivity|left; reflexivity]|apply (A_and 0)|reflexivity|apply among_self|reflexivity|].
  eapply P_close; [discriminate|reflexivity|apply app_here; [reflexivity|cbn; auto]| |reflexivity]. right. right. exists (no A0). split; [cbn; auto|]. left. reflexivity.
Qed.
Definition nothing : interp := mkInterp unit unit (fun _ _ _ => tt) (fun _ _ _ => False) (fun _ _ => tt) (fun _ => tt) (fun _ => tt) (fun _ _ => tt) (fun _ _ => tt).
Lemma both_script : exists sc st, make_script both_root no_names = Ok (sc, st) /\ sc_formula sc = both /\ ~ unsat (sc_statement sc).
Proof.
  eexists _, _. split; [vm_compute; reflexivity|]. split; [reflexivity|]. intros U. cbn in U. unfold unsat in U.
  assert (v : val nothing) by (constructor; intros; exact tt). apply (U nothing v). cbn. auto.
Qed.

(** ** The body of a quantifier, a symbol named as the variables *)
Definition every : form := All 0 [vx] (p1 X).
Definition every_root : sequent :=
  sq_of [And 0 [every; no (p1 a0)]] AND 0 None [[every; no (p1 a0)]]
   [sq_of [every; no (p1 a0)] ALL 0 (Some a0) [[p1 a0]] [sq_of [every; no (p1 a0); p1 a0] AX 2 None [] []]].
Lemma every_gs3 : gs3 [And 0 [every; no (p1 a0)]] every_root.
Proof.
  eapply P_alpha; [discriminate|apply app_here; [reflexivity|left; reflexivity]|apply (A_and 0)|reflexivity|apply among_self|reflexivity|].
  eapply P_gamma with (v := vx) (b := p1 X) (u := a0) (r := p1 a0); [discriminate|apply app_here; [reflexivity|cbn; auto 12]| |reflexivity|reflexivity|reflexivity|].
  { apply (G_all 0 [vx]). left. exists 0. split; reflexivity. }
  eapply P_close; [discriminate|reflexivity|apply app_here; [reflexivity|cbn; auto 12]| |reflexivity]. right. right. exists (no (p1 a0)). split; [cbn; auto 12|]. left. reflexivity.
Qed.
Definition declared_for (f : form) : list string := let c := context_of 1 (fun x => x) None f [] in fst c ++ snd c.
Lemma meant_kids d vs r ns args t kids x : all_meant 1 d vs (LRule r ns args t kids x) -> (forall f s, In f args -> In s (free_names 1 f) -> meant d (ns ++ vs) s) /\
  Forall (fun k => binders_meant 1 d vs (fst k) /\ all_meant 1 d (rev (map binder_var (fst k)) ++ vs) (snd k)) kids.
Proof. intros H. inversion H; subst. auto. Qed.
Lemma every_script : exists sc st, make_script every_root no_names = Ok (sc, st) /\ free_names 1 (sc_formula sc) = ["d"; "d"; "a"] /\
  declared_for (sc_formula sc) = ["d"; "a"] /\ ~ script_meant 1 (declared_for (sc_formula sc)) sc.
Proof.
  eexists _, _. split; [vm_compute; reflexivity|]. split; [reflexivity|]. split; [reflexivity|]. intros (_ & _ & H). cbn in H.
  apply meant_kids in H. destruct H as [_ K]. apply Forall_inv in K. destruct K as [_ K]. cbn in K. apply meant_kids in K. destruct K as [C _].
  destruct (C (p1 X) "x" (or_introl eq_refl)) as [D _]; [cbn; auto|]. cbn in D. intuition discriminate.
Qed.
Definition V0 : form := Pred 0 (mkId 23 "v0") [] [].
Definition hidden : form := Imp 0 V0 V0.
Definition hidden_root : sequent := sq_of [no hidden] NIMP 0 None [[V0; no V0]] [sq_of [no hidden; V0; no V0] AX 1 None [] []].
Lemma hidden_gs3 : gs3 [no hidden] hidden_root.
Proof.
  eapply P_alpha; [discriminate|apply app_here; [reflexivity|left; reflexivity]|apply (A_nimp 0 0)|reflexivity|apply among_self|reflexivity|].
  eapply P_close; [discriminate|reflexivity|apply app_here; [reflexivity|cbn; auto]| |reflexivity]. right. right. exists (no V0). split; [cbn; auto|]. left. reflexivity.
Qed.
Lemma hidden_without : without_quantifiers 1 [no hidden] hidden_root.
Proof.
  eapply Q_alpha; [reflexivity|copies|apply (A_nimp 0 0)|constructor; [comps|constructor]|]. repeat constructor. cbn [app]. eapply Q_close; [reflexivity|reflexivity|copies].
Qed.
Lemma hidden_script : exists sc st, make_script hidden_root no_names = Ok (sc, st) /\ ~ script_meant 1 (declared_for (sc_formula sc)) sc.
Proof.
  eexists _, _. split; [vm_compute; reflexivity|]. intros (_ & _ & H). cbn in H. apply meant_kids in H. destruct H as [C _].
  destruct (C V0 "v0" (or_introl eq_refl)) as [_ D]; [cbn; auto|]. apply D. left. reflexivity.
Qed.
Lemma peirce_names : (forall x, In x (free_names 1 (no peirce)) -> In x (f_symbols 1 (no peirce)) \/ exists m, In m (@nil meta) /\ x = (m_name m ++ "_" ++ dec (m_index m))%string) /\
  (forall x n, In x (free_names 1 (no peirce)) -> x <> var_name n).
Proof.
  split; [intros x H; left; exact H|]. intros x n H. cbn in H. unfold var_name. cbn. repeat destruct H as [<-|H]; try discriminate. contradiction.
Qed.

(** ** Proofs that stop the printer *)
Lemma drinker_stops : exists s, make_gs3 eq0 false 20 None GsProof_Witness.drinker = Ok s /\ make_script s no_names = Crash.
Proof. eexists. split; vm_compute; reflexivity. Qed.
Lemma axioms_crash : make_script axioms_root no_names = Crash. Proof. reflexivity. Qed.
Definition idle : form := All 0 [vx] (p1 a0).
Definition idle_and : form := And 0 [idle; no (p1 a0)].
Definition idle_steps : list pstep :=
 [PS idle_and 0 1 "ALPHA_AND" [[idle; no (p1 a0)]] []; PS idle 0 2 "GAMMA_FORALL" [[p1 a0]] []; PS (p1 a0) 0 3 "CLOSURE" [] []].
Lemma idle_tab : tab any_delta [idle_and] idle_steps.
Proof.
  eapply T_alpha; [cbn; auto|apply (A_and 0)|reflexivity|apply among_self| |reflexivity].
  eapply T_gamma with (v := vx) (b := p1 a0) (u := a0); [cbn; auto|apply (G_all 0 [vx]); left; exists 0; split; reflexivity|reflexivity| |reflexivity].
  apply T_close; [reflexivity|cbn; auto 10| |reflexivity]. right. right. exists (no (p1 a0)). split; [cbn; auto 10|left; reflexivity].
Qed.
Lemma idle_conjecture : has_conjecture idle_and. Proof. exists [idle], 0, (p1 a0). reflexivity. Qed.
Lemma idle_stops : exists s, make_gs3 eq0 false 20 None idle_steps = Ok s /\ make_script s no_names = Crash.
Proof. eexists. split; vm_compute; reflexivity. Qed.
