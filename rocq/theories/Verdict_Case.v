(** A problem from its statements to the answer of the root: ~ q(b), ! [X] : (p(X) | q(X)); conjecture p(b). *)
From Coq Require Import ZArith List Bool String Lia.
From Verif Require Import LibSet_Model Ast_Model Problem_Model Rules_Model Sem_Spec Occ_Spec Free_Spec Rules_Spec Skolem_Spec Rename_Spec
  Tableau_Spec LibSet_Proofs Ast_Proofs Skolem_Witness Tableau_Witness Expand_Model Expand_Spec Expand_Witness
  Unif_Model Unif_Spec Unif_Witness UnifTree_Model UnifTree_Witness Closure_Model Closure_Spec Closure_Proofs Closure_Final Closure_Witness
  Elab_Model Elab_Spec Elab_Final E2e_Model E2e_Spec E2e_Witness
  UnifLoss_Model Dmt_Model Select_Model Select_Spec Select_Proofs Select_Final GlobUnif_Model Restrict_Model Restrict_Spec Leaf_Model Leaf_Spec Up_Model Up_Spec Round_Model Round_Spec Verdict_Spec Verdict_Witness.
Import ListNotations.
Open Scope list_scope.
Open Scope Z_scope.
Open Scope string_scope.
Open Scope list_scope.

Definition v_problem : list pstmt :=
  [PSForm RAxiom (PNeg (PPred "q" [PFun "b" [] None]));
   PSForm RAxiom (PQuant PQuantAll [("X", i_)] (PBin PBinaryOr (PPred "p" [PVar "X"]) (PPred "q" [PVar "X"])));
   PSForm RConjecture (PPred "p" [PFun "b" [] None])].
Definition v_kappa (s : string) : option bool := if String.eqb s "X" then Some false else None.
Definition v_elab : list cstmt * bool * gen :=
  Eval vm_compute in match to_internal_syntax true (file e_decls v_problem) init_tables with EOk x => x | _ => ([], false, gen0) end.
Definition v_loaded : form * gen :=
  Eval vm_compute in match presearch true (fun _ => true) (file e_decls v_problem) init_tables with Loaded f _ g => (f, g) | _ => (Top 0, gen0) end.
Definition v_f : form := fst v_loaded.
Definition v_g : gen := snd v_loaded.
Lemma v_elab_ok : to_internal_syntax true (file e_decls v_problem) init_tables = EOk v_elab.
Proof. vm_compute. reflexivity. Qed.
Lemma v_loads : presearch true (fun _ => true) (file e_decls v_problem) init_tables = Loaded v_f true v_g.
Proof. vm_compute. reflexivity. Qed.
Definition v_end (k : sko_kind) : forest := run 3 (plant 5 v_g k v_f).
Definition v_leaves : list state := Eval vm_compute in fo_leaves (v_end Outer).
Lemma v_leaves_ok k : fo_leaves (v_end k) = v_leaves.
Proof. destruct k; vm_compute; reflexivity. Qed.
Definition v_X : meta := mkMeta 7 0 "X5" 0 iT.
Definition v_ar : signature :=
  mkSig (fun i => if (i =? 0)%Z then 2 else if (i =? 1)%Z then 1 else if (i =? 3)%Z then 1 else 0)%nat
    (fun m => m_ty m = iT) (fun _ => True).
Lemma v_mono : monomorphic v_ar mono0.
Proof. split; [intros m E; cbn in E; rewrite E; reflexivity|reflexivity]. Qed.
Lemma v_plain : plain_problem v_kappa e_decls v_problem.
Proof.
  split.
  - intros s [<-|[<-|[<-|[]]]]; reflexivity.
  - discriminate.
  - cbn. auto.
  - assert (A : forallb (fun p => match v_kappa (fst p) with None => true | _ => false end) (initial_context ++ e_decls) = true) by (vm_compute; reflexivity).
    intros s t Hin. rewrite forallb_forall in A. specialize (A _ Hin). cbn [fst] in A. destruct (v_kappa s); [discriminate|reflexivity].
  - intros s t [E|[E|[]]]; injection E as <- <-; repeat constructor.
  - intros x. unfold v_kappa. destruct (String.eqb x "X") eqn:E1; [apply String.eqb_eq in E1; subst; split; reflexivity|]. intros H; destruct (H eq_refl).
  - intros r f [E|[E|[E|[]]]]; injection E as <- <-; (split; [e_wk|cbn; repeat constructor; easy]).
Qed.
Lemma v_untyped : forall r f, In (CSForm r f) (fst (fst v_elab)) -> f_tyvars f = [].
Proof. intros r f [E|[E|[E|[E|[E|[]]]]]]; try discriminate; injection E as <- <-; reflexivity. Qed.
Lemma v_side k : forall st, In st (fo_leaves (v_end k)) -> state_strict 0 nid mono0 30 30 same0 st [] <> Out /\
  forall x, In x (q_lf (st_q st) ++ q_atomic (st_q st)) -> first_order v_ar (ft_form x).
Proof.
  intros st H. rewrite v_leaves_ok in H. split.
  - destruct H as [<-|[<-|[]]]; vm_compute; discriminate.
  - intros x Hx. destruct H as [<-|[<-|[]]]; cbn in Hx; repeat (destruct Hx as [<-|Hx]; [split; [reflexivity|wellc]|]); destruct Hx.
Qed.
Definition v_s : subst := [MTerm v_X e_b].
Definition v_1 : form := Pred 3 (mkId 1 "p") [] [Meta v_X].
Definition v_2 : form := Pred 4 (mkId 3 "q") [] [Meta v_X].
Definition v_ch : list proc := [PLeaf [v_X] nothing [v_s] v_1; PLeaf [v_X] nothing [v_s] v_2].
Definition v_root : proc := PNode [] nothing nothing [] v_ch.
Definition v_sent : list answer := [mkAns true [(v_s, [v_1])]; mkAns true [(v_s, [v_2])]].
Lemma v_works k : works_on 0 nid mono0 30 30 same0 (fun _ => []) v_root (fo_leaves (v_end k)).
Proof.
  intros st H. rewrite v_leaves_ok in H. exists [v_X], nothing, [v_s]. destruct H as [<-|[<-|[]]].
  - exists v_1. split; [left; reflexivity|vm_compute; reflexivity].
  - exists v_2. split; [right; left; reflexivity|vm_compute; reflexivity].
Qed.
Lemma v_answers : all_answers (report 30 30) v_ch = Ok (Some v_sent).
Proof. vm_compute. reflexivity. Qed.
Lemma v_report : report 30 30 v_root = Ok (Some []).
Proof. vm_compute. reflexivity. Qed.
Lemma v_select : select (merge_mixed 30 30) nothing 2 (map Answer v_sent) = Ok (SubstForParent, [(v_s, [v_1; v_2])]).
Proof. vm_compute. reflexivity. Qed.
Lemma v_sane mm : mm = [] \/ mm = [v_X] -> sane v_ar 30 30 mm v_s.
Proof.
  intros [->| ->]; (split; [intros ? ? ? ? [H|[]]; discriminate H|split; [okc|split; [|split; [|vm_compute; discriminate]]]]).
  all: try (split; [vm_compute; repeat (apply NoDup_cons; [cbn; intuition lia|]); apply NoDup_nil|]; intros k t b H Hb; cbn in H; orc; cbn in *; intuition lia).
  all: intros (? & ? & ? & ? & H1 & H2 & ? & ? & ? & ? & ?); cbn in H1, H2; unfold e_b in *; intuition congruence.
Qed.
Lemma v_leaf f : good v_ar 30 30 (PLeaf [v_X] nothing [v_s] f).
Proof.
  split; [intros s [<-|[]]; apply v_sane; right; reflexivity|]. split; [split; [constructor|intros k u []]|].
  intros s r [<-|[]] E. vm_compute in E; injection E as <-; vm_compute; discriminate.
Qed.
Lemma v_node : good_node v_ar 30 30 [] nothing nothing v_sent.
Proof.
  split; [apply nothing_sane|]. split; [|split; [|split; [|split]]].
  - split; [split; [constructor|intros k t []]|]. intros a s [<-|[<-|[]]] [<-|[]]; (split; [okc|vm_compute; discriminate]).
  - apply am_one, am_one, am_nil.
  - repeat constructor.
  - left. repeat constructor; intros (s & E & S); injection E as <-; inversion S.
  - intros r E. change (List.length v_sent) with 2%nat in E. rewrite v_select in E. injection E as <-. split; [discriminate|].
    split; [split; [constructor|intros k t []]|]. intros s [<-|[]]. split; [okc|]. split; [vm_compute; discriminate|]. intros m Em. vm_compute in Em. injection Em as <-. apply v_sane; auto.
Qed.
Lemma v_good : good v_ar 30 30 v_root.
Proof.
  split; [cbn [map fold_right v_ch]; split; [apply v_leaf|split; [apply v_leaf|exact Logic.I]]|]. intros l E. rewrite v_answers in E. injection E as <-. exact v_node.
Qed.
Lemma v_scoped : scoped v_root.
Proof.
  split; [cbn; auto|]. split.
  - intros c i Hc _ [[]|[]].
  - repeat constructor; cbn in *; intuition lia.
Qed.
