(** Proofs that are printed well, and proofs that are not (C96-C98). *)
From Coq Require Import ZArith List Bool String Lia.
From Verif Require Import Ast_Model Sem_Spec Occ_Spec Unif_Model GsTerm_Spec GsProof_Model GsProof_Spec GsProof_Witness Tptp_Model Tptp_Spec Tptp_Proofs.
Import ListNotations.
Open Scope string_scope.
Open Scope list_scope.
Open Scope Z_scope.

(** the values of the package *)
Definition goeland_I : ident := mkId 90 "Goeland_I".
Definition print (s : sequent) : out (list line * tst) := tptp 1 "sko_" (Fun goeland_I [] []) 9 s (mkTst 0 [] [] 100).
(** a sequent *)
Definition sq_of (G : list form) (r : rule) (on : nat) (t : option term) (fs : list (list form)) (ks : list sequent) : sequent :=
  Seq (G ++ [eq0]) r on 0 t fs ks gs_zero 0.
Definition A0 : form := Pred 0 (mkId 20 "a0") [] [].
Definition B0 : form := Pred 0 (mkId 21 "b0") [] [].
Definition no (f : form) : form := Not 0 f.
Definition bad (s : sequent) : Prop := exists ls st, print s = Ok (ls, st) /\ derivation ls = false.
Definition stops (s : sequent) : Prop := print s = Crash.

(** ** Printed well: two axioms, all the kinds of rules *)
Definition ax1 : form := All 1 [vx] (Imp 0 (p1 X) (q1 X)).
Definition ax2 : form := Ex 2 [vy] (p1 Y).
Definition goal : form := Ex 0 [vz] (q1 Zt).
Definition G0 : list form := [ax1; ax2; no goal].
Definition G1 : list form := G0 ++ [p1 sk].
Definition G2 : list form := G1 ++ [Imp 0 (p1 sk) (q1 sk)].
Definition G3 : list form := G2 ++ [no (q1 sk)].
Definition k5 : sequent := sq_of (G3 ++ [q1 sk]) AX 6 None [] [].
Definition k4 : sequent := sq_of (G3 ++ [no (p1 sk)]) AX 6 None [] [].
Definition k3 : sequent := sq_of G3 IMP 4 None [[no (p1 sk)]; [q1 sk]] [k4; k5].
Definition k2 : sequent := sq_of G2 NEX 2 (Some sk) [[no (q1 sk)]] [k3].
Definition k1 : sequent := sq_of G1 ALL 0 (Some sk) [[Imp 0 (p1 sk) (q1 sk)]] [k2].
Definition k0 : sequent := sq_of G0 EX 1 (Some sk) [[p1 sk]] [k1].
Definition good_root : sequent := sq_of [And 0 G0] AND 0 None [G0] [k0].
Definition is_sk (i : Z) : Prop := i = 50.

Lemma good_started : started good_root [ax1; ax2] goal k0.
Proof. eapply (St_axioms good_root 0 [ax1; ax2] 0 goal); [discriminate|reflexivity|reflexivity|reflexivity]. Qed.
Ltac avail := match goal with |- available _ ?f => exists f; split; [cbn; auto 12|apply Rules_Proofs.form_eqb_refl] end.
Lemma good_ok : ok is_sk [] ([ax1; ax2] ++ [neg goal]) k0.
Proof.
  change (ok is_sk [] G0 k0).
  eapply K_delta with (f := ax2) (v := vy) (b := p1 Y) (tys := []) (args := []) (p := mkId 50 "skolem@y@0") (r := p1 sk).
  - reflexivity.
  - avail.
  - apply (D_ex 2 [vy]). left. exists 2. split; reflexivity.
  - split; [reflexivity|]. cbn. intuition lia.
  - reflexivity.
  - intros [].
  - cbn. intuition lia.
  - reflexivity.
  - reflexivity.
  - reflexivity.
  - assert (C : forall t, Some sk = Some t -> once (Fun (mkId 50 "skolem@y@0") [] []) t) by (intros t E; injection E as <-; apply O_here).
    constructor; [exact C|]. constructor; [|constructor]. constructor; [exact C|]. constructor; [|constructor]. constructor; [cbn; discriminate|].
    constructor; [|constructor; [|constructor]]; (constructor; [cbn; discriminate|constructor]).
  - change (ok is_sk [50] G1 k1).
    eapply K_gamma with (f := ax1) (v := vx) (b := Imp 0 (p1 X) (q1 X)) (u := sk); [reflexivity|avail|apply (G_all 1 [vx]); left; exists 1; split; reflexivity|split; [reflexivity|cbn; intuition lia]|reflexivity|reflexivity| |left; reflexivity|reflexivity|reflexivity|].
    { intros p tys l E _. injection E as <- _ _. left. reflexivity. }
    change (ok is_sk [50] G2 k2).
    eapply K_gamma with (f := no goal) (v := vz) (b := q1 Zt) (u := sk); [reflexivity|avail|apply (G_nex 0 0 [vz]); right; right; left; exists 0, 0, 0; split; reflexivity|split; [reflexivity|cbn; intuition lia]|reflexivity|reflexivity| |left; reflexivity|reflexivity|reflexivity|].
    { intros p tys l E _. injection E as <- _ _. left. reflexivity. }
    change (ok is_sk [50] G3 k3).
    eapply K_beta with (f := Imp 0 (p1 sk) (q1 sk)); [reflexivity|avail|apply (B_imp 0)|discriminate| |].
    { constructor; [apply among_self|]. constructor; [apply among_self|constructor]. }
    constructor; [|constructor; [|constructor]].
    + eapply K_close with (f := no (p1 sk)); [reflexivity|reflexivity|avail| |reflexivity]. right. exists 0, (p1 sk). split; [reflexivity|avail].
    + eapply K_close with (f := q1 sk); [reflexivity|reflexivity|avail| |reflexivity]. left. split; [exact I|avail].
Qed.
Ltac old_sym := cbn; intuition (subst; cbn; (lia || discriminate || congruence)).
Lemma old_names p : (id_index p = 40 \/ id_index p = 50) -> id_name p = "skolem@y@0" -> old_symbol "sko_" 100 p.
Proof. intros H E. split; [lia|]. intros k _ H2. rewrite E in H2. cbn in H2. discriminate. Qed.
Ltac wf := split; [intros b Hb; cbn in Hb; intuition congruence|split; [cbn; unfold is_sk; intuition lia|cbn; intros p Hp; intuition (subst; apply old_names; cbn; auto)]].
Lemma good_wf : wf_seq is_sk (old_symbol "sko_" 100) good_root.
Proof.
  assert (K : forall s, s_hyps s <> [] -> (exists f, target s f /\ wf_form is_sk (old_symbol "sko_" 100) f) -> Forall (Forall (wf_form is_sk (old_symbol "sko_" 100))) (s_forms s) ->
    (s_term s = None \/ s_term s = Some sk) ->
    s_hyps s <> [] /\ (forall f, target s f -> wf_form is_sk (old_symbol "sko_" 100) f) /\ Forall (Forall (wf_form is_sk (old_symbol "sko_" 100))) (s_forms s) /\ forall t, s_term s = Some t -> wf_term is_sk (old_symbol "sko_" 100) t).
  { intros s H1 (f & H2 & H3) H4 H5. split; [exact H1|]. split; [intros g Hg; unfold target in *; congruence|]. split; [exact H4|]. intros t Ht.
    assert (t = sk) as -> by (destruct H5; congruence). split; [reflexivity|]. split; [intros i []|]. cbn. intros p [<-|[]]. apply old_names; cbn; auto. }
  assert (F : Forall (wf_form is_sk (old_symbol "sko_" 100)) ([And 0 G0; ax1; ax2; no goal; p1 sk; q1 sk; no (p1 sk); no (q1 sk); Imp 0 (p1 sk) (q1 sk)])).
  { repeat (apply Forall_cons; [wf|]). constructor. }
  rewrite Forall_forall in F.
  assert (F' : forall f, In f [And 0 G0; ax1; ax2; no goal; p1 sk; q1 sk; no (p1 sk); no (q1 sk); Imp 0 (p1 sk) (q1 sk)] -> wf_form is_sk (old_symbol "sko_" 100) f) by exact F. clear F.
  Ltac node K F' := constructor; [apply K; [discriminate|eexists; split; [reflexivity|apply F'; cbn; auto 12]|cbn; repeat (apply Forall_cons || apply Forall_nil); apply F'; cbn; auto 12|cbn; auto]|].
  node K F'. constructor; [|constructor]. node K F'. constructor; [|constructor]. node K F'. constructor; [|constructor]. node K F'. constructor; [|constructor]. node K F'.
  constructor; [|constructor; [|constructor]]; node K F'; constructor.
Qed.

(** ** Weakening: the step has fewer hypotheses than its premise *)
Definition self : form := Imp 0 A0 A0.
Definition weak_root : sequent :=
  sq_of [no self] NIMP 0 None [[A0; no A0]] [sq_of [no self; A0; no A0] W 0 None [] [sq_of [A0; no A0] AX 0 None [] []]].
Lemma app_here G s f : target s f -> In f G -> applies G s f.
Proof. intros T H. exists f. split; [exact T|]. split; [exact H|apply Rules_Proofs.form_eqb_refl]. Qed.
Lemma weak_gs3 : gs3 [no self] weak_root.
Proof.
  eapply P_alpha; [discriminate|apply app_here; [reflexivity|left; reflexivity]|apply (A_nimp 0 0)|reflexivity|apply among_self|reflexivity|].
  eapply P_weaken; [discriminate|reflexivity|reflexivity|reflexivity|apply Drop_here; reflexivity|reflexivity|].
  eapply P_close; [discriminate|reflexivity|apply app_here; [reflexivity|cbn; auto]| |reflexivity]. right. right. exists (no A0). split; [cbn; auto|]. left. reflexivity.
Qed.
Lemma weak_bad : bad weak_root.
Proof. unfold bad. vm_compute. do 2 eexists. split; reflexivity. Qed.

(** ** Closing on $false is printed as closing on two opposite formulas *)
Definition false_root : sequent := sq_of [no (Imp 0 (Bot 0) A0)] NIMP 0 None [[Bot 0; no A0]] [sq_of [no (Imp 0 (Bot 0) A0); Bot 0; no A0] AX 1 None [] []].
Lemma false_gs3 : gs3 [no (Imp 0 (Bot 0) A0)] false_root.
Proof.
  eapply P_alpha; [discriminate|apply app_here; [reflexivity|left; reflexivity]|apply (A_nimp 0 0)|reflexivity|apply among_self|reflexivity|].
  eapply P_close; [discriminate|reflexivity|apply app_here; [reflexivity|cbn; auto]| |reflexivity]. left. exists 0. reflexivity.
Qed.
Lemma false_bad : bad false_root.
Proof. unfold bad. vm_compute. do 2 eexists. split; reflexivity. Qed.

(** ** A constant of the problem is named like the first constant that is created *)
Definition sko0 : term := Fun (mkId 60 "sko_0") [] [].
Definition drinker : form := Imp 0 (p1 sko0) (Imp 0 (Ex 0 [vx] (q1 X)) (Ex 0 [vy] (q1 Y))).
Definition H1 : list form := [no drinker; p1 sko0; no (Imp 0 (Ex 0 [vx] (q1 X)) (Ex 0 [vy] (q1 Y)))].
Definition H2 : list form := H1 ++ [Ex 0 [vx] (q1 X); no (Ex 0 [vy] (q1 Y))].
Definition H3 : list form := H2 ++ [q1 sk].
Definition clash_root : sequent :=
  sq_of [no drinker] NIMP 0 None [[p1 sko0; no (Imp 0 (Ex 0 [vx] (q1 X)) (Ex 0 [vy] (q1 Y)))]]
   [sq_of H1 NIMP 2 None [[Ex 0 [vx] (q1 X); no (Ex 0 [vy] (q1 Y))]]
    [sq_of H2 EX 3 (Some sk) [[q1 sk]]
     [sq_of H3 NEX 4 (Some sk) [[no (q1 sk)]] [sq_of (H3 ++ [no (q1 sk)]) AX 5 None [] []]]]].
Ltac absent := intros f Hf; cbn in Hf; repeat (destruct Hf as [<-|Hf]; [intros C; repeat match goal with
   | K : in_form _ _ |- _ => inversion K; subst; clear K | K : In _ _ |- _ => cbn in K | K : _ \/ _ |- _ => destruct K; subst | K : False |- _ => destruct K
   | K : in_term _ _ |- _ => inversion K; subst; clear K end; discriminate|]); destruct Hf.
Lemma clash_gs3 : gs3 [no drinker] clash_root.
Proof.
  eapply P_alpha; [discriminate|apply app_here; [reflexivity|left; reflexivity]|apply (A_nimp 0 0)|reflexivity|apply among_self|reflexivity|].
  eapply P_alpha; [discriminate|apply app_here; [reflexivity|cbn; auto]|apply (A_nimp 0 0)|reflexivity|apply among_self|reflexivity|].
  eapply P_delta with (v := vx) (b := q1 X) (u := sk) (r := q1 sk); [discriminate|apply app_here; [reflexivity|cbn; auto]| |reflexivity|absent|reflexivity|reflexivity|].
  { apply (D_ex 0 [vx]). left. exists 0. split; reflexivity. }
  eapply P_gamma with (v := vy) (b := q1 Y) (u := sk) (r := no (q1 sk)); [discriminate|apply app_here; [reflexivity|cbn; auto 12]| |reflexivity|reflexivity|reflexivity|].
  { apply (G_nex 0 0 [vy]). right. right. left. exists 0, 0, 0. split; reflexivity. }
  eapply P_close; [discriminate|reflexivity|apply app_here; [reflexivity|cbn; auto 12]| |reflexivity]. right. right. exists (no (q1 sk)). split; [cbn; auto 12|]. left. reflexivity.
Qed.
Lemma clash_bad : bad clash_root.
Proof. unfold bad. vm_compute. do 2 eexists. split; reflexivity. Qed.

(** ** A Skolem term twice in a term: only the first is replaced *)
Definition ff (t u : term) : term := Fun (mkId 41 "f") [] [t; u].
Definition twice : form := Imp 0 (All 0 [vx] (p1 X)) (All 0 [vy] (p1 (ff Y Y))).
Definition T1 : list form := [no twice; All 0 [vx] (p1 X); no (All 0 [vy] (p1 (ff Y Y)))].
Definition T2 : list form := T1 ++ [no (p1 (ff sk sk))].
Definition T3 : list form := T2 ++ [p1 (ff sk sk)].
Definition twice_root : sequent :=
  sq_of [no twice] NIMP 0 None [[All 0 [vx] (p1 X); no (All 0 [vy] (p1 (ff Y Y)))]]
   [sq_of T1 NALL 2 (Some sk) [[no (p1 (ff sk sk))]] [sq_of T2 ALL 1 (Some (ff sk sk)) [[p1 (ff sk sk)]] [sq_of T3 AX 4 None [] []]]].
Lemma twice_gs3 : gs3 [no twice] twice_root.
Proof.
  eapply P_alpha; [discriminate|apply app_here; [reflexivity|left; reflexivity]|apply (A_nimp 0 0)|reflexivity|apply among_self|reflexivity|].
  eapply P_delta with (v := vy) (b := p1 (ff Y Y)) (u := sk) (r := no (p1 (ff sk sk))); [discriminate|apply app_here; [reflexivity|cbn; auto]| |reflexivity|absent|reflexivity|reflexivity|].
  { apply (D_nall 0 0 [vy]). right. right. left. exists 0, 0, 0. split; reflexivity. }
  eapply P_gamma with (v := vx) (b := p1 X) (u := ff sk sk) (r := p1 (ff sk sk)); [discriminate|apply app_here; [reflexivity|cbn; auto 12]| |reflexivity|reflexivity|reflexivity|].
  { apply (G_all 0 [vx]). left. exists 0. split; reflexivity. }
  eapply P_close; [discriminate|reflexivity|apply app_here; [reflexivity|cbn; auto 12]| |reflexivity]. right. right. exists (no (p1 (ff sk sk))). split; [cbn; auto 12|]. left. reflexivity.
Qed.
Lemma twice_bad : bad twice_root.
Proof. unfold bad. vm_compute. do 2 eexists. split; reflexivity. Qed.

(** ** Printing stops *)

(** closing on a negation against its negation *)
Definition nn : form := Imp 0 (no A0) (no A0).
Definition nn_root : sequent := sq_of [no nn] NIMP 0 None [[no A0; no (no A0)]] [sq_of [no nn; no A0; no (no A0)] AX 1 None [] []].
Lemma nn_gs3 : gs3 [no nn] nn_root.
Proof.
  eapply P_alpha; [discriminate|apply app_here; [reflexivity|left; reflexivity]|apply (A_nimp 0 0)|reflexivity|apply among_self|reflexivity|].
  eapply P_close; [discriminate|reflexivity|apply app_here; [reflexivity|cbn; auto]| |reflexivity]. right. right. exists (no (no A0)). split; [cbn; auto|]. left. reflexivity.
Qed.
Lemma nn_stops : stops nn_root.
Proof. vm_compute. reflexivity. Qed.

(** an equivalence with a negation *)
Definition eqv : form := Equ 0 (no A0) B0.
Definition eqv_c : form := Imp 0 eqv eqv.
Definition E1 : list form := [no eqv_c; eqv; no eqv].
Definition E2 (l : list form) : list form := E1 ++ l.
Definition eq_leaf (l m : list form) (i : nat) : sequent := sq_of (E2 l ++ m) AX i None [] [].
Definition eq_mid (l : list form) (i j : nat) : sequent := sq_of (E2 l) NEQU 2 None [[no (no A0); B0]; [no A0; no B0]] [eq_leaf l [no (no A0); B0] i; eq_leaf l [no A0; no B0] j].
Definition eqv_root : sequent :=
  sq_of [no eqv_c] NIMP 0 None [[eqv; no eqv]] [sq_of E1 EQU 1 None [[no (no A0); no B0]; [no A0; B0]] [eq_mid [no (no A0); no B0] 4 3; eq_mid [no A0; B0] 5 4]].
Lemma close_on G s f g : s_hyps s <> [] -> s_rule s = AX -> s_kids s = [] -> target s f -> In f G -> In g G -> same (neg f) g \/ same f (neg g) -> gs3 G s.
Proof. intros N R K T F H S. eapply P_close; [exact N|exact R|apply app_here; [exact T|exact F]| |exact K]. right. right. exists g. auto. Qed.
Lemma eqv_gs3 : gs3 [no eqv_c] eqv_root.
Proof.
  eapply P_alpha; [discriminate|apply app_here; [reflexivity|left; reflexivity]|apply (A_nimp 0 0)|reflexivity|apply among_self|reflexivity|].
  eapply P_beta; [discriminate|apply app_here; [reflexivity|cbn; auto]|apply (B_equ 0)| |discriminate|].
  { constructor; [apply among_self|]. constructor; [apply among_self|constructor]. }
  constructor; [|constructor; [|constructor]].
  - eapply P_beta; [discriminate|apply app_here; [reflexivity|cbn; auto]|apply (B_nequ 0 0)| |discriminate|].
    { constructor; [apply among_self|]. constructor; [apply among_self|constructor]. }
    constructor; [|constructor; [|constructor]].
    + eapply close_on with (f := no B0) (g := B0); [discriminate|reflexivity|reflexivity|reflexivity|cbn; auto 12|cbn; auto 12|right; reflexivity].
    + eapply close_on with (f := no (no A0)) (g := no A0); [discriminate|reflexivity|reflexivity|reflexivity|cbn; auto 12|cbn; auto 12|right; reflexivity].
  - eapply P_beta; [discriminate|apply app_here; [reflexivity|cbn; auto]|apply (B_nequ 0 0)| |discriminate|].
    { constructor; [apply among_self|]. constructor; [apply among_self|constructor]. }
    constructor; [|constructor; [|constructor]].
    + eapply close_on with (f := no (no A0)) (g := no A0); [discriminate|reflexivity|reflexivity|reflexivity|cbn; auto 12|cbn; auto 12|right; reflexivity].
    + eapply close_on with (f := B0) (g := no B0); [discriminate|reflexivity|reflexivity|reflexivity|cbn; auto 12|cbn; auto 12|left; reflexivity].
Qed.
Lemma eqv_stops : stops eqv_root.
Proof. vm_compute. reflexivity. Qed.

(** a quantifier whose variable does not occur *)
Definition vac_c : form := Imp 0 (Ex 0 [vx] (p1 a0)) (p1 a0).
Definition V1 : list form := [no vac_c; Ex 0 [vx] (p1 a0); no (p1 a0)].
Definition vac_root : sequent :=
  sq_of [no vac_c] NIMP 0 None [[Ex 0 [vx] (p1 a0); no (p1 a0)]] [sq_of V1 EX 1 None [[p1 a0]] [sq_of (V1 ++ [p1 a0]) AX 3 None [] []]].
Lemma vac_gs3 : gs3 [no vac_c] vac_root.
Proof.
  eapply P_alpha; [discriminate|apply app_here; [reflexivity|left; reflexivity]|apply (A_nimp 0 0)|reflexivity|apply among_self|reflexivity|].
  eapply P_vacuous with (v := vx) (b := p1 a0) (u := sk) (r := p1 a0); [discriminate|apply app_here; [reflexivity|cbn; auto]| |cbn; tauto|reflexivity|reflexivity|reflexivity|].
  { apply (D_ex 0 [vx]). left. exists 0. split; reflexivity. }
  eapply close_on with (f := p1 a0) (g := no (p1 a0)); [discriminate|reflexivity|reflexivity|reflexivity|cbn; auto 12|cbn; auto 12|left; reflexivity].
Qed.
Lemma vac_stops : stops vac_root.
Proof. vm_compute. reflexivity. Qed.

(** a weakening below a Skolem term *)
Definition wd_c : form := Imp 0 (Ex 0 [vx] (q1 X)) (Ex 0 [vy] (q1 Y)).
Definition W1 : list form := [no wd_c; Ex 0 [vx] (q1 X); no (Ex 0 [vy] (q1 Y))].
Definition W2 : list form := [Ex 0 [vx] (q1 X); no (Ex 0 [vy] (q1 Y)); q1 sk].
Definition wd_root : sequent :=
  sq_of [no wd_c] NIMP 0 None [[Ex 0 [vx] (q1 X); no (Ex 0 [vy] (q1 Y))]]
   [sq_of W1 EX 1 (Some sk) [[q1 sk]] [sq_of (W1 ++ [q1 sk]) W 0 None [] [sq_of W2 NEX 1 (Some sk) [[no (q1 sk)]] [sq_of (W2 ++ [no (q1 sk)]) AX 2 None [] []]]]].
Lemma wd_gs3 : gs3 [no wd_c] wd_root.
Proof.
  eapply P_alpha; [discriminate|apply app_here; [reflexivity|left; reflexivity]|apply (A_nimp 0 0)|reflexivity|apply among_self|reflexivity|].
  eapply P_delta with (v := vx) (b := q1 X) (u := sk) (r := q1 sk); [discriminate|apply app_here; [reflexivity|cbn; auto]| |reflexivity|absent|reflexivity|reflexivity|].
  { apply (D_ex 0 [vx]). left. exists 0. split; reflexivity. }
  eapply P_weaken; [discriminate|reflexivity|reflexivity|reflexivity|apply Drop_here; reflexivity|reflexivity|].
  eapply P_gamma with (v := vy) (b := q1 Y) (u := sk) (r := no (q1 sk)); [discriminate|apply app_here; [reflexivity|cbn; auto 12]| |reflexivity|reflexivity|reflexivity|].
  { apply (G_nex 0 0 [vy]). right. right. left. exists 0, 0, 0. split; reflexivity. }
  eapply close_on with (f := q1 sk) (g := no (q1 sk)); [discriminate|reflexivity|reflexivity|reflexivity|cbn; auto 12|cbn; auto 12|left; reflexivity].
Qed.
Lemma wd_stops : stops wd_root.
Proof. vm_compute. reflexivity. Qed.

(** ** A weakening of a term is not a step: its premise is missing *)
Definition forget_root : sequent :=
  sq_of [no self] NIMP 0 None [[A0; no A0]] [sq_of [no self; A0; no A0] W 0 (Some sk) [] [sq_of [no self; A0; no A0] AX 1 None [] []]].
Lemma forget_gs3 : gs3 [no self] forget_root.
Proof.
  eapply P_alpha; [discriminate|apply app_here; [reflexivity|left; reflexivity]|apply (A_nimp 0 0)|reflexivity|apply among_self|reflexivity|].
  eapply P_forget; [discriminate|reflexivity|reflexivity|reflexivity|].
  eapply close_on with (f := A0) (g := no A0); [discriminate|reflexivity|reflexivity|reflexivity|cbn; auto|cbn; auto|left; reflexivity].
Qed.
Lemma forget_unordered : exists ls st, print forget_root = Ok (ls, st) /\ ordered [] ls = false.
Proof. vm_compute. do 2 eexists. split; reflexivity. Qed.

(** ** A proof closed by equality reasoning: the target is an equality without arguments, which is not a hypothesis *)
Definition ab : form := Pred 0 (mkId 1 "=") [] [a0; Fun (mkId 42 "b") [] []].
Definition ba : form := Pred 0 (mkId 1 "=") [] [Fun (mkId 42 "b") [] []; a0].
Definition sym_c : form := Imp 0 ab ba.
Definition equality_root : sequent := sq_of [no sym_c] NIMP 0 None [[ab; no ba]] [sq_of [no sym_c; ab; no ba] AX 3 None [] []].
Lemma equality_stops : stops equality_root.
Proof. vm_compute. reflexivity. Qed.

(** ** The rest of the hypotheses *)
Lemma clash_no_weaken : every (fun k => s_rule k <> W) clash_root.
Proof. do 4 (constructor; [discriminate|]; constructor; [|constructor]). constructor; [discriminate|constructor]. Qed.
Lemma twice_no_weaken : every (fun k => s_rule k <> W) twice_root.
Proof. do 3 (constructor; [discriminate|]; constructor; [|constructor]). constructor; [discriminate|constructor]. Qed.
Lemma clash_ok : ok is_sk [] [neg drinker] clash_root.
Proof.
  eapply K_alpha; [reflexivity|avail|apply (A_nimp 0 0)|reflexivity|apply among_self|reflexivity|].
  eapply K_alpha; [reflexivity|avail|apply (A_nimp 0 0)|reflexivity|apply among_self|reflexivity|].
  eapply K_delta with (v := vx) (b := q1 X) (p := mkId 50 "skolem@y@0") (tys := []) (args := []) (r := q1 sk); [reflexivity|avail| |split; [reflexivity|cbn; intuition lia]|reflexivity|intros []|cbn; intuition lia|reflexivity|reflexivity|reflexivity| |].
  { apply (D_ex 0 [vx]). left. exists 0. split; reflexivity. }
  { constructor; [intros t E; injection E as <-; apply O_here|]. constructor; [|constructor]. constructor; [discriminate|constructor]. }
  eapply K_gamma with (v := vy) (b := q1 Y) (u := sk) (r := no (q1 sk)); [reflexivity|avail| |split; [reflexivity|cbn; intuition lia]|reflexivity|reflexivity| |left; reflexivity|reflexivity|reflexivity|].
  { apply (G_nex 0 0 [vy]). right. right. left. exists 0, 0, 0. split; reflexivity. }
  { intros p tys l E _. injection E as <- _ _. left. reflexivity. }
  eapply K_close with (f := q1 sk); [reflexivity|reflexivity|avail| |reflexivity]. left. split; [exact I|avail].
Qed.
Lemma good_rest : (seq_depth good_root < 9)%nat /\ (forall i, is_sk i -> i < 100) /\ NoDup (map form_index [ax1; ax2]) /\
  exists ls st, print good_root = Ok (ls, st) /\ derivation ls = true /\ List.length ls = 14%nat.
Proof.
  split; [vm_compute; lia|]. split; [unfold is_sk; lia|]. split; [cbn; repeat constructor; cbn; intuition lia|]. vm_compute. do 2 eexists. split; [reflexivity|]. split; reflexivity.
Qed.
Lemma good_concludes : exists ls st, print good_root = Ok (ls, st) /\ derivation ls = true /\ concludes ls goal /\ axioms_of ls = [ax1; ax2].
Proof.
  destruct good_rest as (A & B & C & _).
  destruct (tptp_good is_sk 1 "sko_" goeland_I 9 good_root [ax1; ax2] goal k0 (mkTst 0 [] [] 100) good_started good_ok good_wf A ltac:(cbn; lia) eq_refl B C) as (ls & st & E & D & X & F). eauto 7.
Qed.
Lemma eqv_closes : every (fun k => s_rule k = AX -> exists f, target k f /\ index_pos f (s_hyps k) 0 <> Crash) eqv_root.
Proof.
  assert (L : forall s f, target s f -> index_pos f (s_hyps s) 0 <> Crash -> s_kids s = [] -> every (fun k => s_rule k = AX -> exists f, target k f /\ index_pos f (s_hyps k) 0 <> Crash) s).
  { intros s f T N K. constructor; [intros _; eauto|rewrite K; constructor]. }
  constructor; [discriminate|]. constructor; [|constructor]. constructor; [discriminate|].
  constructor; [|constructor; [|constructor]]; (constructor; [discriminate|]); (constructor; [|constructor; [|constructor]]); (eapply L; [reflexivity|vm_compute; discriminate|reflexivity]).
Qed.
Lemma weak_plain : plain weak_root.
Proof. constructor; [split; [discriminate|exact I]|]. constructor; [|constructor]. constructor; [split; [discriminate|split; reflexivity]|]. constructor; [|constructor]. constructor; [split; [discriminate|reflexivity]|constructor]. Qed.
Lemma weak_target : forall j l, target weak_root (And j l) -> NoDup (map form_index l).
Proof. intros j l E. discriminate. Qed.
Lemma weak_ordered : exists ls st, print weak_root = Ok (ls, st) /\ ordered [] ls = true /\ derivation ls = false.
Proof. vm_compute. do 2 eexists. split; [reflexivity|]. split; reflexivity. Qed.
