(** Concrete cases for C43, C44, C45, C56. *)
From Coq Require Import ZArith List Bool String.
From Verif Require Import Ast_Model Ast_Proofs Sem_Spec Occ_Spec Free_Spec Rules_Model Rules_Spec Skolem_Witness Tableau_Witness
  Unif_Model Unif_Spec UnifRun_Proofs UnifTree_Model Closure_Model Closure_Spec Restrict_Spec Dmt_Model Dmt_Spec Dmt_Proofs DmtRewrite_Proofs.
Import ListNotations.
Open Scope list_scope.
Open Scope Z_scope.

Definition nid (s : string) : ident := mkId 99 s.
Definition mono0 (_ : string) : nat := O.
Definition pI : ident := mkId 1 "p".
Definition qI : ident := mkId 2 "q".
Definition ff (t u : term) : term := Fun (mkId 3 "f") [] [t; u].
Definition cc : term := Fun (mkId 4 "c") [] [].
Definition gg (t : term) : term := Fun (mkId 5 "g") [] [t].
Definition rI : ident := mkId 6 "r".
Definition xv : term := Var 20 "X".
Definition yv : term := Var 21 "Y".
(** symbols: p, q, c, g, r as below, f binary *)
Definition dar : signature :=
  mkSig (fun i => if (i =? 1)%Z then 1 else if (i =? 2)%Z then 1 else if (i =? 3)%Z then 2 else if (i =? 5)%Z then 1 else if (i =? 6)%Z then 2 else 0)%nat
    (fun m => m_ty m = iT) (fun _ => True).
Ltac welld := cbn; unfold pmeta; cbn; repeat match goal with |- _ /\ _ => split | |- True => exact I | |- _ = _ => reflexivity | |- _ <= _ => discriminate end.
Lemma dar_mono : monomorphic dar mono0.
Proof. split; [intros m E; cbn in E; rewrite E; reflexivity|reflexivity]. Qed.

(** *** ! [X] : (p(X) => q(f(X,X))), polarized, rewrites p(c) to q(f(c,X)) *)
Definition axN : form := All 1 [mkTV "X" 20 iT] (Imp 2 (Pred 3 pI [] [xv]) (Pred 4 qI [] [ff xv xv])).
Definition litN : form := Pred 9 pI [] [cc].
Definition dN : dmt * gen := Eval vm_compute in match register 0 true axN dmt0 gS with Ok (_, d, g) => (d, g) | _ => (dmt0, gS) end.
Lemma regN : register 0 true axN dmt0 gS = Ok (true, fst dN, snd dN).
Proof. vm_compute. reflexivity. Qed.
Definition mX30 : meta := mkMeta 30 0 "X" (-1) iT.
Definition aN : form := Pred 3 pI [] [Meta mX30].
Definition bN : form := Pred 4 qI [] [ff (Meta mX30) (Meta mX30)].
Definition cN : form := Pred 4 qI [] [ff cc (Meta mX30)].
Definition sN : substs := [(mX30, cc)].
Lemma axN_ok : wff gS axN /\ untyped axN /\ binds axN.
Proof.
  split; [apply wffb_ok; reflexivity|]. split; [intros x Hx; cbn in Hx; intuition (subst; reflexivity)|]. split; [discriminate|exact I].
Qed.
Lemma allN : register_all 0 true [axN] dmt0 gS = Ok ([], fst dN, snd dN).
Proof. vm_compute. reflexivity. Qed.
Lemma dN_fo : Forall (first_order dar) (map fst (rules_for (fst dN) litN)) /\ first_order dar litN.
Proof. split; [repeat constructor; welld|split; [reflexivity|welld]]. Qed.
Lemma runN : rewrite_strict nid mono0 30 30 (fst dN) litN <> Out /\ rewrite_real nid mono0 30 30 (fst dN) litN = Ok [(3, ([], cN))].
Proof. split; [vm_compute; discriminate|vm_compute; reflexivity]. Qed.
(** p and q hold of true only, f is the conjunction, c is true *)
Definition boolN : interp := mkInterp bool bool
  (fun s _ ds => if s =? 3 then match ds with [x; y] => x && y | _ => true end else true)
  (fun _ _ ds => match ds with [x] => x = true | _ => False end)
  (fun _ _ => true) (fun _ => true) (fun _ => true) (fun _ _ => true) (fun _ _ => true).
Definition valN : val boolN := @mkVal boolN (fun _ => true) (fun _ => false) (fun _ => true) (fun _ _ => true).
Lemma axN_true : true_in boolN axN.
Proof. intros w d. cbn. intros ->. reflexivity. Qed.
Lemma litN_true : holds litN valN /\ ~ holds cN valN.
Proof. cbn. split; [reflexivity|discriminate]. Qed.
Lemma satN : satisfies valN [].
Proof. intros k t []. Qed.
(** the match of the rule *)
Lemma rewN : rewritten 30 30 (rules_for (fst dN) litN) litN 3 [] cN aN (aN, bN) sN.
Proof.
  constructor.
  - left. reflexivity.
  - left. reflexivity.
  - reflexivity.
  - split; [repeat constructor; intros []|]. intros k t b [E|[]]. injection E as <- <-. intros [].
  - split; [reflexivity|]. split; [reflexivity|]. split; [reflexivity|]. constructor; [|constructor]. apply term_eqb_reflect. reflexivity.
  - intros ar' [_ F1] [_ F2]. apply well_fun in F1. apply well_fun in F2. destruct F1 as (_ & _ & _ & F1). destruct F2 as (_ & _ & _ & F2).
    inversion F1; inversion F2; subst. split; [repeat constructor; intros []|]. intros k t [E|[]]. injection E as <- <-. split; assumption.
  - vm_compute. reflexivity.
  - vm_compute. discriminate.
  - reflexivity.
  - vm_compute. reflexivity.
Qed.

(** *** ! [X,Y] : (r(X,g(Y)) <=> (q(X) & p(f(Y,X)))) rewrites ~ r(c,g(W)) to ~ (q(c) & p(f(W,c))) *)
Definition axG : form := All 1 [mkTV "X" 20 iT; mkTV "Y" 21 iT] (Equ 2 (Pred 3 rI [] [xv; gg yv]) (And 4 [Pred 5 qI [] [xv]; Pred 6 pI [] [ff yv xv]])).
Definition mW : meta := mkMeta 40 0 "W" 2 iT.
Definition litG : form := Not 8 (Pred 9 rI [] [cc; gg (Meta mW)]).
Definition dG : dmt * gen := Eval vm_compute in match register 0 false axG dmt0 gS with Ok (_, d, g) => (d, g) | _ => (dmt0, gS) end.
Definition mY31 : meta := mkMeta 31 0 "Y" (-1) iT.
Definition aG : form := Pred 3 rI [] [Meta mX30; gg (Meta mY31)].
Definition bG (x y : term) : form := Not 41 (And 4 [Pred 5 qI [] [x]; Pred 6 pI [] [ff y x]]).
Definition sG : substs := [(mX30, cc); (mY31, Meta mW)].
Lemma axG_ok : wff gS axG /\ untyped axG /\ binds axG.
Proof.
  split; [apply wffb_ok; reflexivity|]. split; [intros x Hx; cbn in Hx; intuition (subst; reflexivity)|]. split; [discriminate|exact I].
Qed.
Lemma allG : register_all 0 false [axG] dmt0 gS = Ok ([], fst dG, snd dG).
Proof. vm_compute. reflexivity. Qed.
Lemma dG_fo : Forall (first_order dar) (map fst (rules_for (fst dG) litG)) /\ first_order dar litG.
Proof. split; [repeat constructor; welld|split; [reflexivity|welld]]. Qed.
Lemma dG_apart : keys_apart key (rules_for (fst dG) litG).
Proof.
  intros r r' [<-|[]] [<-|[]] _. cbn. split; [reflexivity|]. split; [reflexivity|]. split; [reflexivity|].
  constructor; [apply term_eqb_reflect; reflexivity|]. constructor; [apply term_eqb_reflect; reflexivity|constructor].
Qed.
Lemma runG : rewrite_strict nid mono0 30 30 (fst dG) litG <> Out /\ rewrite_real nid mono0 30 30 (fst dG) litG = Ok [(3, ([], bG cc (Meta mW)))].
Proof. split; [vm_compute; discriminate|vm_compute; reflexivity]. Qed.
Lemma rewG : rewritten 30 30 (rules_for (fst dG) litG) litG 3 [] (bG cc (Meta mW)) aG (aG, bG (Meta mX30) (Meta mY31)) sG.
Proof.
  constructor.
  - left. reflexivity.
  - left. reflexivity.
  - reflexivity.
  - split; [constructor; [intros [E|[]]; discriminate E|repeat constructor; intros []]|]. intros k t b [E|[E|[]]]; injection E as <- <-; [intros []|].
    intros [<-|[]] [E|[E|[]]]; discriminate E.
  - split; [reflexivity|]. split; [reflexivity|]. split; [reflexivity|]. constructor; [apply term_eqb_reflect; reflexivity|].
    constructor; [apply term_eqb_reflect; reflexivity|constructor].
  - intros ar' [_ F1] [_ F2]. apply well_fun in F1. apply well_fun in F2. destruct F1 as (_ & _ & _ & F1). destruct F2 as (_ & _ & _ & F2).
    inversion F1 as [|? ? F3 F4]; inversion F2 as [|? ? F5 F6]; subst. inversion F4 as [|? ? F7 _]; inversion F6 as [|? ? F8 _]; subst.
    apply well_fun in F7. apply well_fun in F8. destruct F7 as (_ & _ & _ & F7). destruct F8 as (_ & _ & _ & F8). inversion F7; inversion F8; subst.
    split; [constructor; [intros [E|[]]; discriminate E|repeat constructor; intros []]|]. intros k t [E|[E|[]]]; injection E as <- <-; split; assumption.
  - vm_compute. reflexivity.
  - vm_compute. discriminate.
  - reflexivity.
  - vm_compute. reflexivity.
Qed.
Lemma linG : linear_for sG (bG (Meta mX30) (Meta mY31)) /\ direct_relevant (lit_metas litG) sG.
Proof.
  split.
  - intros k t [E|[E|[]]]; injection E as <- <-; repeat constructor.
  - intros k b [E|[E|[]]]; [discriminate E|]. injection E as <- <-. intros [E|[]]. discriminate E.
Qed.
(** a model of the axiom in which the literal holds: r never holds, nor does q *)
Definition boolG : interp := mkInterp bool bool (fun _ _ _ => true) (fun _ _ _ => False)
  (fun _ _ => true) (fun _ => true) (fun _ => true) (fun _ _ => true) (fun _ _ => true).
Definition valG : val boolG := @mkVal boolG (fun _ => true) (fun _ => false) (fun _ => true) (fun _ _ => true).
Lemma axG_true : true_in boolG axG /\ holds litG valG.
Proof. split; [intros w d e; cbn; tauto|intros []]. Qed.

(** *** axioms that make the registration panic *)
Definition p0 (i : Z) : form := Pred i (mkId 11 "a") [] [].
Definition q0 (i : Z) : form := Pred i (mkId 12 "b") [] [].
Definition badNot : form := Imp 1 (Not 2 (And 3 [p0 4; q0 5])) (Pred 6 (mkId 13 "c") [] []).
Definition badTop : form := Imp 1 (Top 2) (p0 3).
Definition badEqu : form := Equ 1 (Not 2 (Top 3)) (And 4 [p0 5; q0 6]).
Lemma bad_crash : register 0 true badNot dmt0 gS = Crash /\ register 0 true badTop dmt0 gS = Crash /\ forall b, register 0 b badEqu dmt0 gS = Crash.
Proof. split; [vm_compute; reflexivity|]. split; [vm_compute; reflexivity|]. intros []; vm_compute; reflexivity. Qed.
Lemma badNot_noid : f_noid badNot /\ binds badNot.
Proof. split; [intros b Hb; destruct Hb|exact I]. Qed.
Lemma good_ok : f_noid axG /\ binds axG /\ ~ bad 0 false (matrix axG).
Proof.
  split; [apply (wf_noid gS), axG_ok|]. split; [apply axG_ok|]. intros K. inversion K; subst; try discriminate.
  - destruct H1 as (i & c & _ & E). discriminate E.
  - destruct H3 as (i & c & _ & E). discriminate E.
Qed.

(** *** (a & b) => c = g(c), polarized: consumed, and no rule *)
Definition axD : form := Imp 1 (And 2 [p0 3; q0 4]) (Pred 5 (mkId 0 "=") [] [cc; gg cc]).
Lemma regD : register_all 0 true [axD] dmt0 gS = Ok ([], mkDmt [] [] [axD], gS).
Proof. vm_compute. reflexivity. Qed.
Lemma axD_ok : wff gS axD /\ untyped axD /\ binds axD.
Proof. split; [apply wffb_ok; reflexivity|]. split; [intros x []|exact I]. Qed.
(** a and b hold, = is the equality, c is false and g the negation *)
Definition boolD : interp := mkInterp bool bool
  (fun s _ ds => match ds with [x] => negb x | _ => false end)
  (fun s _ ds => match ds with [x; y] => x = y | _ => True end)
  (fun _ _ => true) (fun _ => true) (fun _ => true) (fun _ _ => true) (fun _ _ => true).
Definition valD : val boolD := @mkVal boolD (fun _ => true) (fun _ => false) (fun _ => true) (fun _ _ => true).
Lemma axD_false : ~ true_in boolD axD.
Proof. intros H. specialize (H valD). cbn in H. discriminate H. tauto. Qed.
(** *** axioms none of which is dropped *)
Lemma axN_kept : Forall (fun ax => ~ dropped 0 (matrix ax)) [axN; axG].
Proof.
  constructor; [|constructor; [|constructor]].
  - intros (i & a & b & E & L & _). injection E as <- <- <-. apply L. constructor. constructor.
  - intros (i & a & b & E & _). discriminate E.
Qed.
Lemma regNG : exists d g, register_all 0 true [axN; axG] dmt0 gS = Ok ([], d, g) /\ List.length (d_pos d) = 2%nat /\ List.length (d_neg d) = 2%nat.
Proof. do 2 eexists. split; [vm_compute; reflexivity|]. split; reflexivity. Qed.
