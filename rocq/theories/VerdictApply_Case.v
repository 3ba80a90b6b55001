(** The problem of Verdict_Case.v when X := b is handed back: the first branch closes with it, the second one had sent it. *)
From Coq Require Import ZArith List Bool String Lia.
From Verif Require Import LibSet_Model Ast_Model Problem_Model Occ_Spec Rules_Model Expand_Model Sem_Spec Free_Spec Tableau_Spec Ast_Proofs Skolem_Witness Tableau_Witness Expand_Spec Expand_Witness
  Unif_Model Unif_Spec UnifLoss_Model Unif_Witness UnifTree_Model UnifTree_Witness Closure_Model Closure_Spec Closure_Proofs Closure_Final Closure_Witness
  Elab_Model E2e_Model E2e_Witness
  Dmt_Model Select_Model Select_Spec Select_Proofs Select_Final GlobUnif_Model Restrict_Model Restrict_Spec Leaf_Model Leaf_Spec Up_Model Up_Spec Round_Model Round_Spec Round_Proofs Verdict_Spec Verdict_Witness Verdict_Case
  Apply_Model Apply_Spec Apply_Proofs VerdictApply_Spec VerdictApply_Witness.
Import ListNotations.
Open Scope list_scope.
Open Scope Z_scope.

Definition y1 : state := Eval vm_compute in settle (hd (first_state 0 v_f) v_leaves).
Definition y1b : state := Eval vm_compute in apply_state same0 v_s y1.
Definition y_h : saf := (v_s, []).
Definition y_f : form := Not 8 (Pred 7 (mkId 1 "p") [] [e_b]).
Definition y_leaf : proc := PLeaf [v_X] y_h [[]] y_f.
Definition y_again : proc := PNode [v_X] nothing y_h [] [y_leaf].
Definition y_kept : proc := PKept (PLeaf [v_X] nothing [v_s] v_2) y_h.
Definition y_ch : list proc := [y_again; y_kept].
Definition y_root : proc := PNode [] nothing y_h [] y_ch.
Definition y_up : list answer := [mkAns true [y_h]].
Definition y_sent : list answer := [mkAns true [y_h]; mkAns true [(v_s, [v_2])]].
Lemma y_up_ok : all_answers (report 30 30) [y_leaf] = Ok (Some y_up).
Proof. vm_compute. reflexivity. Qed.
Lemma y_sent_ok : all_answers (report 30 30) y_ch = Ok (Some y_sent).
Proof. vm_compute. reflexivity. Qed.
Lemma y_report : report 30 30 y_root = Ok (Some []).
Proof. vm_compute. reflexivity. Qed.
Lemma y_just f : ~ wants y_h (mkAns true [(v_s, f)]).
Proof. intros [_ W]. apply W. exists (v_s, f). split; [reflexivity|]. apply bindings_refl. Qed.
Lemma y_up_select : select (merge_mixed 30 30) y_h 1 (map Answer y_up) = Ok (SubstForParent, [y_h]).
Proof. vm_compute. reflexivity. Qed.
Lemma y_select : select (merge_mixed 30 30) y_h 2 (map Answer y_sent) = Ok (SubstForParent, [(v_s, [v_2])]).
Proof. vm_compute. reflexivity. Qed.
Lemma y_leaf_good : good_leaf v_ar 30 30 [v_X] y_h [[]].
Proof.
  split; [intros s [<-|[]]; apply nothing_sane|]. split; [okc|]. intros s r [<-|[]] E. vm_compute in E. injection E as <-. vm_compute. discriminate.
Qed.
Lemma y_up_good : good_node v_ar 30 30 [v_X] nothing y_h y_up.
Proof.
  split; [apply nothing_sane|]. split; [|split; [|split; [|split]]].
  - split; [okc|]. intros a s [<-|[]] [<-|[]]. split; [okc|vm_compute; discriminate].
  - apply am_skip; [apply y_just|apply am_nil].
  - repeat constructor.
  - right. left. apply am_skip; [apply y_just|apply am_nil].
  - intros r E. change (List.length y_up) with 1%nat in E. rewrite y_up_select in E. injection E as <-. split; [discriminate|].
    split; [split; [constructor|intros k t []]|]. intros s [<-|[]]. split; [okc|]. split; [vm_compute; discriminate|]. intros m Em. vm_compute in Em. injection Em as <-. apply v_sane; auto.
Qed.
Lemma y_node_good : good_node v_ar 30 30 [] nothing y_h y_sent.
Proof.
  split; [apply nothing_sane|]. split; [|split; [|split; [|split]]].
  - split; [okc|]. intros a s [<-|[<-|[]]] [<-|[]]; (split; [okc|vm_compute; discriminate]).
  - apply am_skip; [apply y_just|apply am_skip; [apply y_just|apply am_nil]].
  - repeat constructor.
  - right. left. apply am_skip; [apply y_just|apply am_skip; [apply y_just|apply am_nil]].
  - intros r E. change (List.length y_sent) with 2%nat in E. rewrite y_select in E. injection E as <-. split; [discriminate|].
    split; [split; [constructor|intros k t []]|]. intros s [<-|[]]. split; [okc|]. split; [vm_compute; discriminate|]. intros m Em. vm_compute in Em. injection Em as <-. apply v_sane; auto.
Qed.
Lemma y_good : good v_ar 30 30 y_root.
Proof.
  split.
  - cbn [map fold_right y_ch]. split; [|split; [exact (v_leaf v_2)|exact Logic.I]].
    split; [cbn [map fold_right]; split; [exact y_leaf_good|exact Logic.I]|]. intros l E. rewrite y_up_ok in E. injection E as <-. exact y_up_good.
  - intros l E. rewrite y_sent_ok in E. injection E as <-. exact y_node_good.
Qed.
Lemma y_scoped : scoped y_root.
Proof.
  split; [split; [|split; [exact Logic.I|exact Logic.I]]|].
  - split; [split; [exact Logic.I|exact Logic.I]|]. split; [|repeat constructor]. intros c i [<-|[]] _ [[<-|[]]|[]]. left. reflexivity.
  - split; [intros c i Hc _ [[]|[]]|]. constructor; [|repeat constructor]. constructor; [|constructor]. cbn. intros i H1 H2. intuition lia.
Qed.
Lemma y_plain : plain_subst v_ar v_s.
Proof. split; [intros x i f u [H|[]]; discriminate|]. intros k t [H|[]]. injection H as <- <-. wellc. Qed.
Lemma y_handed : handed v_ar 30 30 same0 y1 nothing y1b y_h.
Proof.
  apply (ha_one _ _ _ _ _ _ y1 nothing y_h); [apply ha_none|vm_compute; reflexivity|exact y_plain|split; [constructor|intros k t []]|okc|vm_compute; discriminate].
Qed.
Lemma y_works k : works_after v_ar 0 nid mono0 30 30 same0 (fun _ => []) y_root (fo_leaves (v_end k)).
Proof.
  intros st H. rewrite v_leaves_ok in H. exists [v_X], nothing. destruct H as [<-|[<-|[]]].
  - exists y_h, [[]], y_f, y1, y1b. split; [left; reflexivity|]. split; [|split; [exact y_handed|split]].
    + intros x Hx. vm_compute in Hx. vm_compute. intuition.
    + intros x Hx. cbn in Hx. repeat (destruct Hx as [<-|Hx]; [split; [reflexivity|wellc]|]). destruct Hx.
    + right. split; [vm_compute; discriminate|vm_compute; reflexivity].
  - exists nothing, [v_s], v_2. eexists. eexists. split; [right; left; reflexivity|]. split; [apply incl_refl|]. split; [apply ha_none|]. split.
    + intros x Hx. cbn in Hx. repeat (destruct Hx as [<-|Hx]; [split; [reflexivity|wellc]|]). destruct Hx.
    + left. split; [vm_compute; discriminate|vm_compute; reflexivity].
Qed.
