(** A concrete search in which a branch closes after a substitution is handed back (C144). *)
From Coq Require Import ZArith List Bool String Lia.
From Verif Require Import LibSet_Model Ast_Model Problem_Model Occ_Spec Rules_Model Expand_Model Sem_Spec Free_Spec Tableau_Spec Ast_Proofs Skolem_Witness Tableau_Witness Expand_Spec Expand_Witness
  Unif_Model Unif_Spec UnifLoss_Model Unif_Witness UnifTree_Model UnifTree_Witness Closure_Model Closure_Spec Closure_Proofs Closure_Final Closure_Witness
  Dmt_Model Select_Model Select_Spec Select_Proofs Select_Final GlobUnif_Model Restrict_Model Restrict_Spec Leaf_Model Leaf_Spec Up_Model Up_Spec Round_Model Round_Spec Round_Proofs Verdict_Spec Verdict_Witness
  Apply_Model Apply_Spec Apply_Proofs VerdictApply_Spec.
Import ListNotations.
Open Scope list_scope.
Open Scope Z_scope.

(** (! [X] : ((q(X,c) & q(b,X)) | p(c,c,X))) & ~ p(c,c,b) & ~ q(c,c) & ~ q(b,b): the first branch asks X := c, the second one
    X := b; X := b is handed back, and the first branch closes with it. *)
Definition zF : form := And 1
  [All 2 [mkTV "X" 20 iT] (Or 3 [And 11 [Pred 5 qP [] [x_; cc]; Pred 12 qP [] [bb; x_]]; Pred 4 pP [] [cc; cc; x_]]);
   Not 6 (Pred 7 pP [] [cc; cc; bb]); Not 9 (Pred 10 qP [] [cc; cc]); Not 13 (Pred 14 qP [] [bb; bb])].
Definition zF_end (k : sko_kind) : forest := run 4 (plant 5 gS k zF).
Definition zF_leaves : list state := Eval vm_compute in fo_leaves (zF_end Outer).
Lemma zF_leaves_ok k : fo_leaves (zF_end k) = zF_leaves.
Proof. destruct k; vm_compute; reflexivity. Qed.
Lemma zF_start : wf_start gS zF.
Proof.
  split; [apply wffb_ok; reflexivity|]. split; [reflexivity|]. split; [reflexivity|]. intros x Hx. cbn in Hx. intuition (subst; reflexivity).
Qed.
Definition settle (st : state) : state :=
  let q := st_q st in mkSt (st_n st) (mkQ [] (q_atomic q ++ q_lf q) (q_alpha q) (q_beta q) (q_delta q) (q_gamma q)) (st_mg st) (st_mm st) (st_mc st).
Definition z1 : state := Eval vm_compute in settle (hd (first_state 0 zF) zF_leaves).
Definition z1b : state := Eval vm_compute in apply_state same0 (xs bb) z1.
(** the second round *)
Definition z_h : saf := (xs bb, []).
Definition z_f : form := Not 13 (Pred 14 qP [] [bb; bb]).
Definition z_p : form := Pred 4 pP [] [cc; cc; xm].
Definition z_leaf : proc := PLeaf [mX30] z_h [[]] z_f.
Definition z_again : proc := PNode [mX30] nothing z_h [] [z_leaf].
Definition z_ch : list proc := [z_again; PKept (on bb z_p) z_h].
Definition z_root : proc := PNode [] nothing z_h [] z_ch.
(** the first round: the root hands X := c back, then X := b *)
Lemma z_first : report 30 30 (PNode [] nothing nothing [] [on cc (Pred 5 qP [] [xm; cc]); on bb z_p]) = Ok None.
Proof. vm_compute. reflexivity. Qed.
Lemma z_first_back : select (merge_mixed 30 30) nothing 2 (map Answer [mkAns true [(xs cc, [Pred 5 qP [] [xm; cc]])]; mkAns true [(xs bb, [z_p])]])
  = Ok (SubstForChildren, [(xs cc, [Pred 5 qP [] [xm; cc]]); (xs bb, [z_p])]).
Proof. vm_compute. reflexivity. Qed.
Definition z_up : list answer := [mkAns true [z_h]].
Definition z_sent : list answer := [mkAns true [z_h]; mkAns true [(xs bb, [z_p])]].
Lemma z_up_ok : all_answers (report 30 30) [z_leaf] = Ok (Some z_up).
Proof. vm_compute. reflexivity. Qed.
Lemma z_sent_ok : all_answers (report 30 30) z_ch = Ok (Some z_sent).
Proof. vm_compute. reflexivity. Qed.
Lemma z_report : report 30 30 z_root = Ok (Some []).
Proof. vm_compute. reflexivity. Qed.
Lemma z_just f : ~ wants z_h (mkAns true [(xs bb, f)]).
Proof. intros [_ W]. apply W. exists (xs bb, f). split; [reflexivity|]. apply bindings_refl. Qed.
Lemma z_up_select : select (merge_mixed 30 30) z_h 1 (map Answer z_up) = Ok (SubstForParent, [z_h]).
Proof. vm_compute. reflexivity. Qed.
Lemma z_select : select (merge_mixed 30 30) z_h 2 (map Answer z_sent) = Ok (SubstForParent, [(xs bb, [z_p])]).
Proof. vm_compute. reflexivity. Qed.
Lemma z_leaf_good : good_leaf car 30 30 [mX30] z_h [[]].
Proof.
  split; [intros s [<-|[]]; apply nothing_sane|]. split; [okc|]. intros s r [<-|[]] E. vm_compute in E. injection E as <-. vm_compute. discriminate.
Qed.
Lemma z_up_good : good_node car 30 30 [mX30] nothing z_h z_up.
Proof.
  split; [apply nothing_sane|]. split; [|split; [|split; [|split]]].
  - split; [okc|]. intros a s [<-|[]] [<-|[]]. split; [okc|vm_compute; discriminate].
  - apply am_skip; [apply z_just|apply am_nil].
  - repeat constructor.
  - right. left. apply am_skip; [apply z_just|apply am_nil].
  - intros r E. change (List.length z_up) with 1%nat in E. rewrite z_up_select in E. injection E as <-. split; [discriminate|].
    split; [split; [constructor|intros k t []]|]. intros s [<-|[]]. split; [okc|]. split; [vm_compute; discriminate|]. intros m Em. vm_compute in Em. injection Em as <-. apply xs_sane; auto.
Qed.
Lemma z_node_good : good_node car 30 30 [] nothing z_h z_sent.
Proof.
  split; [apply nothing_sane|]. split; [|split; [|split; [|split]]].
  - split; [okc|]. intros a s [<-|[<-|[]]] [<-|[]]; (split; [okc|vm_compute; discriminate]).
  - apply am_skip; [apply z_just|apply am_skip; [apply z_just|apply am_nil]].
  - repeat constructor.
  - right. left. apply am_skip; [apply z_just|apply am_skip; [apply z_just|apply am_nil]].
  - intros r E. change (List.length z_sent) with 2%nat in E. rewrite z_select in E. injection E as <-. split; [discriminate|].
    split; [split; [constructor|intros k t []]|]. intros s [<-|[]]. split; [okc|]. split; [vm_compute; discriminate|]. intros m Em. vm_compute in Em. injection Em as <-. apply xs_sane; auto.
Qed.
Lemma z_good : good car 30 30 z_root.
Proof.
  split.
  - cbn [map fold_right z_ch]. split; [|split; [apply on_good; auto|exact Logic.I]].
    split; [cbn [map fold_right]; split; [exact z_leaf_good|exact Logic.I]|]. intros l E. rewrite z_up_ok in E. injection E as <-. exact z_up_good.
  - intros l E. rewrite z_sent_ok in E. injection E as <-. exact z_node_good.
Qed.
Lemma z_scoped : scoped z_root.
Proof.
  split; [split; [|split; [exact Logic.I|exact Logic.I]]|].
  - split; [split; [exact Logic.I|exact Logic.I]|]. split; [|repeat constructor]. intros c i [<-|[]] _ [[<-|[]]|[]]. left. reflexivity.
  - split; [intros c i Hc _ [[]|[]]|]. constructor; [|repeat constructor]. constructor; [|constructor]. cbn. intros i H1 H2. intuition lia.
Qed.
Lemma xs_plain : plain_subst car (xs bb).
Proof. split; [intros x i f u [H|[]]; discriminate|]. intros k t [H|[]]. injection H as <- <-. wellc. Qed.
Lemma z_handed : handed car 30 30 same0 z1 nothing z1b z_h.
Proof.
  apply (ha_one _ _ _ _ _ _ z1 nothing z_h); [apply ha_none|vm_compute; reflexivity|exact xs_plain|split; [constructor|intros k t []]|okc|vm_compute; discriminate].
Qed.
Lemma z_works k : works_after car 0 nid mono0 30 30 same0 (fun _ => []) z_root (fo_leaves (zF_end k)).
Proof.
  intros st H. rewrite zF_leaves_ok in H. exists [mX30], nothing. destruct H as [<-|[<-|[]]].
  - exists z_h, [[]], z_f, z1, z1b. split; [left; reflexivity|]. split; [|split; [exact z_handed|split]].
    + intros x Hx. vm_compute in Hx. vm_compute. intuition.
    + intros x Hx. cbn in Hx. repeat (destruct Hx as [<-|Hx]; [split; [reflexivity|wellc]|]). destruct Hx.
    + right. split; [vm_compute; discriminate|vm_compute; reflexivity].
  - exists nothing, [xs bb], z_p. eexists. eexists. split; [right; left; reflexivity|]. split; [apply incl_refl|]. split; [apply ha_none|]. split.
    + intros x Hx. cbn in Hx. repeat (destruct Hx as [<-|Hx]; [split; [reflexivity|wellc]|]). destruct Hx.
    + left. split; [vm_compute; discriminate|vm_compute; reflexivity].
Qed.
