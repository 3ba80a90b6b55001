(** A problem from its statements to the closed branches:
    ! [Y] : ~ q(Y), ! [X] : (p(X) | q(X)); conjecture p(b). *)
From Coq Require Import ZArith List Bool String.
From Verif Require Import LibSet_Model Ast_Model Problem_Model Rules_Model Sem_Spec Occ_Spec Free_Spec Rules_Spec Skolem_Spec Rename_Spec
  Tableau_Spec LibSet_Proofs Ast_Proofs Skolem_Witness Tableau_Witness Expand_Model Expand_Spec Expand_Witness
  Unif_Model Unif_Spec Unif_Witness UnifTree_Model UnifTree_Witness Closure_Model Closure_Spec Closure_Proofs Closure_Final Closure_Witness
  Elab_Model Elab_Spec Elab_Final E2e_Model E2e_Spec.
Import ListNotations.
Open Scope list_scope.
Open Scope Z_scope.
Open Scope string_scope.
Open Scope list_scope.

Definition i_ : ptype := PTyFun "$i" [].
Definition e_problem : list pstmt :=
  [PSForm RAxiom (PQuant PQuantAll [("Y", i_)] (PNeg (PPred "q" [PVar "Y"])));
   PSForm RAxiom (PQuant PQuantAll [("X", i_)] (PBin PBinaryOr (PPred "p" [PVar "X"]) (PPred "q" [PVar "X"])));
   PSForm RConjecture (PPred "p" [PFun "b" [] None])].
Definition e_decls : list (string * ptype) := [("p", PTyBin PTypeMap i_ (PTyFun "$o" [])); ("b", i_)].
Definition e_kappa (s : string) : option bool := if String.eqb s "X" || String.eqb s "Y" then Some false else None.
Definition e_elab : list cstmt * bool * gen :=
  Eval vm_compute in match to_internal_syntax true (file e_decls e_problem) init_tables with EOk x => x | _ => ([], false, gen0) end.
Definition e_loaded : form * gen :=
  Eval vm_compute in match presearch true (fun _ => true) (file e_decls e_problem) init_tables with Loaded f _ g => (f, g) | _ => (Top 0, gen0) end.
Definition e_f : form := fst e_loaded.
Definition e_g : gen := snd e_loaded.
Definition e_end (k : sko_kind) : forest := run 4 (plant 5 e_g k e_f).
Definition e_leaves : list state := Eval vm_compute in fo_leaves (e_end Outer).
Lemma e_leaves_ok k : fo_leaves (e_end k) = e_leaves.
Proof. destruct k; vm_compute; reflexivity. Qed.
Definition e_X : meta := mkMeta 11 0 "X8" 1 iT.
Definition e_Y : meta := mkMeta 10 0 "Y6" 0 iT.
Definition e_b : term := Fun (mkId 2 "b") [] [].
Definition e_S : list (meta * term) := [(e_X, e_b); (e_Y, e_b)].
(** symbols: 0 (=) has two arguments, 1 and 4 (p and q) have one *)
Definition e_ar : signature :=
  mkSig (fun i => if (i =? 0)%Z then 2 else if (i =? 1)%Z then 1 else if (i =? 4)%Z then 1 else 0)%nat
    (fun m => m_ty m = iT) (fun _ => True).
Lemma e_mono : monomorphic e_ar mono0.
Proof. split; [intros m E; cbn in E; rewrite E; reflexivity|reflexivity]. Qed.
Lemma e_tables : tab_ok init_tables /\ Rename_Spec.clean init_tables /\ apart init_tables /\ lookup "=" (idTable init_tables) = Some 0.
Proof.
  split; [|split; [|split]]; [| | |reflexivity].
  - repeat split; cbn; intros.
    all: repeat match goal with H : (if ?b then _ else _) = _ |- _ => destruct b eqn:?; try discriminate end.
    all: try congruence. all: try (repeat match goal with H : Some _ = Some _ |- _ => injection H as <- end).
    all: try reflexivity. all: try discriminate. all: try (apply String.eqb_eq in Heqb; apply String.eqb_eq in Heqb0; congruence).
  - split; [discriminate|]. intros s [i H]. discriminate H.
  - intros s s' i _. cbn. discriminate.
Qed.
Lemma e_finds k : forall st, In st (fo_leaves (e_end k)) -> finds 0 nid mono0 30 30 same0 [] e_S st /\
  state_strict 0 nid mono0 30 30 same0 st [] <> Out /\
  forall x, In x (q_lf (st_q st) ++ q_atomic (st_q st)) -> first_order e_ar (ft_form x).
Proof.
  intros st H. rewrite e_leaves_ok in H. split; [|split].
  - destruct H as [<-|[<-|[]]].
    + eexists; eexists; split; [vm_compute; reflexivity|right; exists [(e_X, e_b)]; split; [left; reflexivity|]].
      intros k0 t [E|[]]; injection E as <- <-; apply term_eqb_reflect; reflexivity.
    + eexists; eexists; split; [vm_compute; reflexivity|right; exists [(e_Y, Meta e_X)]; split; [left; reflexivity|]].
      intros k0 t [E|[]]; injection E as <- <-; apply term_eqb_reflect; reflexivity.
  - destruct H as [<-|[<-|[]]]; vm_compute; discriminate.
  - intros x Hx. destruct H as [<-|[<-|[]]]; cbn in Hx; repeat (destruct Hx as [<-|Hx]; [split; [reflexivity|wellc]|]); destruct Hx.
Qed.
Ltac e_wk := vm_compute; repeat match goal with
  | |- _ /\ _ => split | |- True => exact Logic.I | |- Forall _ _ => constructor | |- _ <> _ => discriminate | |- _ -> False => discriminate
  | |- _ \/ _ => (left; reflexivity) || right | |- ex _ => eexists; split; [reflexivity|discriminate]
  | |- _ = true -> _ => intros ?; try discriminate | |- _ = _ => reflexivity end.
Lemma e_plain : plain_problem e_kappa e_decls e_problem.
Proof.
  split.
  - intros s [<-|[<-|[<-|[]]]]; reflexivity.
  - discriminate.
  - cbn. auto.
  - assert (A : forallb (fun p => match e_kappa (fst p) with None => true | _ => false end) (initial_context ++ e_decls) = true) by (vm_compute; reflexivity).
    intros s t Hin. rewrite forallb_forall in A. specialize (A _ Hin). cbn [fst] in A. destruct (e_kappa s); [discriminate|reflexivity].
  - intros s t [E|[E|[]]]; injection E as <- <-; repeat constructor.
  - intros x. unfold e_kappa. destruct (String.eqb x "X") eqn:E1; [apply String.eqb_eq in E1; subst; split; reflexivity|].
    destruct (String.eqb x "Y") eqn:E2; [apply String.eqb_eq in E2; subst; split; reflexivity|]. intros H; destruct (H eq_refl).
  - intros r f [E|[E|[E|[]]]]; injection E as <- <-; (split; [e_wk|cbn; repeat constructor; easy]).
Qed.
Lemma e_untyped : forall r f, In (CSForm r f) (fst (fst e_elab)) -> f_tyvars f = [].
Proof. intros r f [E|[E|[E|[E|[E|[]]]]]]; try discriminate; injection E as <- <-; reflexivity. Qed.
(** the conjecture is not a consequence of the second axiom alone: an interpretation of the names *)
Definition e_N : ninterp bool bool := mkN (fun _ _ _ => true) (fun s _ ds => if String.eqb s "p" then False else True) (fun _ _ => true).
Lemma e_refutes env : refutes e_N (sig_tysym (initial_context ++ e_decls)) (tl e_problem) env.
Proof.
  constructor; [intros d; right; exact Logic.I|]. constructor; [|constructor]. intros H; exact H.
Qed.
