(** Concrete searches, from the formula to the answer of the root. *)
From Coq Require Import ZArith List Bool String Lia.
From Verif Require Import LibSet_Model Ast_Model Problem_Model Rules_Model Sem_Spec Occ_Spec Free_Spec Rules_Spec Skolem_Spec
  Tableau_Spec LibSet_Proofs Ast_Proofs Skolem_Witness Tableau_Witness Expand_Model Expand_Spec Expand_Witness
  Unif_Model Unif_Spec UnifLoss_Model Unif_Witness UnifTree_Model UnifTree_Witness Closure_Model Closure_Spec Closure_Proofs Closure_Final Closure_Witness
  Dmt_Model Select_Model Select_Spec Select_Proofs Select_Final GlobUnif_Model Restrict_Model Restrict_Spec Restrict_Witness Leaf_Model Leaf_Spec Up_Model Up_Spec Round_Model Round_Spec Verdict_Spec.
From Verif Require Leaf_Witness Up_Witness Select_Witness Round_Witness.
Import ListNotations.
Open Scope list_scope.
Open Scope Z_scope.

Definition nothing : saf := ([], []).
(** *** a satisfiable formula: (! [X] : (p(c,c,X) | q(X,c) | q(X,b))) & ~ p(c,c,b) & ~ q(c,c) & ~ q(b,b) *)
Definition rF : form := And 1
  [All 2 [mkTV "X" 20 iT] (Or 3 [Pred 4 pP [] [cc; cc; x_]; Pred 5 qP [] [x_; cc]; Pred 11 qP [] [x_; bb]]);
   Not 6 (Pred 7 pP [] [cc; cc; bb]); Not 8 (Pred 9 qP [] [cc; cc]); Not 10 (Pred 12 qP [] [bb; bb])].
Definition rF_end (k : sko_kind) : forest := run 3 (plant 5 gS k rF).
Definition rF_leaves : list state := Eval vm_compute in fo_leaves (rF_end Outer).

Lemma rF_leaves_ok k : fo_leaves (rF_end k) = rF_leaves.
Proof. destruct k; vm_compute; reflexivity. Qed.
Lemma rF_start : wf_start gS rF.
Proof.
  split; [apply wffb_ok; reflexivity|]. split; [reflexivity|]. split; [reflexivity|]. intros x Hx. cbn in Hx. intuition (subst; reflexivity).
Qed.
(** c is false, b is true, p holds when its last argument is false, q(x,y) when x is true and y false, = is reflexive *)
Definition boolR : interp := mkInterp bool bool
  (fun s _ ds => (s =? 5))
  (fun s _ ds => if s =? 1 then match ds with [_; _; z] => z = false | _ => False end
                 else if s =? 2 then match ds with [x; y] => x && negb y = true | _ => False end else True)
  (fun _ _ => true) (fun _ => true) (fun _ => true) (fun _ _ => true) (fun _ _ => true).
Definition valR : val boolR := @mkVal boolR (fun _ => true) (fun _ => true) (fun _ => true) (fun _ _ => true).
Lemma rF_sat : eq_refl_in 0 boolR /\ holds rF valR.
Proof.
  split; [intros ts d; exact Logic.I|]. cbn. split; [|repeat split; discriminate].
  intros [|]; cbn; [right; left; reflexivity|left; reflexivity].
Qed.
(** the closing substitution X := t *)
Definition xs (t : term) : subst := [MTerm mX30 t].
Definition on (t : term) (f : form) : proc := PLeaf [mX30] nothing [xs t] f.
Definition xm : term := Meta mX30.
Definition r_ch : list proc := [on bb (Pred 4 pP [] [cc; cc; xm]); on cc (Pred 5 qP [] [xm; cc]); on bb (Pred 11 qP [] [xm; bb])].
Definition r_root : proc := PNode [] nothing nothing [] r_ch.
Lemma r_report : report 30 30 r_root = Ok (Some []).
Proof. vm_compute. reflexivity. Qed.
Lemma r_works k : works_on 0 nid mono0 30 30 same0 (fun _ => []) r_root (fo_leaves (rF_end k)).
Proof.
  intros st H. rewrite rF_leaves_ok in H. exists [mX30], nothing. destruct H as [<-|[<-|[<-|[]]]].
  - exists [xs bb], (Pred 4 pP [] [cc; cc; xm]). split; [left; reflexivity|vm_compute; reflexivity].
  - exists [xs cc], (Pred 5 qP [] [xm; cc]). split; [right; left; reflexivity|vm_compute; reflexivity].
  - exists [xs bb], (Pred 11 qP [] [xm; bb]). split; [right; right; left; reflexivity|vm_compute; reflexivity].
Qed.
Lemma r_side k : forall st, In st (fo_leaves (rF_end k)) -> state_strict 0 nid mono0 30 30 same0 st [] <> Out /\
  forall x, In x (q_lf (st_q st) ++ q_atomic (st_q st)) -> first_order car (ft_form x).
Proof.
  intros st H. rewrite rF_leaves_ok in H. split.
  - destruct H as [<-|[<-|[<-|[]]]]; vm_compute; discriminate.
  - intros x Hx. destruct H as [<-|[<-|[<-|[]]]]; cbn in Hx; repeat (destruct Hx as [<-|Hx]; [split; [reflexivity|wellc]|]); destruct Hx.
Qed.
Ltac orc := repeat match goal with H : _ \/ _ |- _ => destruct H | H : False |- _ => destruct H | H : (_, _) = (_, _) |- _ => injection H as <- <- | H : MTerm _ _ = MTerm _ _ |- _ => injection H as <- <- end.
Ltac okc := split; [vm_compute; repeat (apply NoDup_cons; [cbn; intuition lia|]); apply NoDup_nil|]; let k := fresh in let t := fresh in let H := fresh in
  intros k t H; cbn in H; orc; cbn; unfold pmeta; cbn; repeat split; try lia; auto.
Lemma xs_sane t mm : t = bb \/ t = cc -> mm = [] \/ mm = [mX30] -> sane car 30 30 mm (xs t).
Proof.
  intros [->| ->] [->| ->]; (split; [intros ? ? ? ? [H|[]]; discriminate H|split; [okc|split; [|split; [|vm_compute; discriminate]]]]).
  all: try (split; [vm_compute; repeat (apply NoDup_cons; [cbn; intuition lia|]); apply NoDup_nil|]; intros k t b H Hb; cbn in H; orc; cbn in *; intuition lia).
  all: intros (? & ? & ? & ? & H1 & H2 & ? & ? & ? & ? & ?); cbn in H1, H2; unfold bb, cc in *; intuition congruence.
Qed.
Lemma on_good t f : t = bb \/ t = cc -> good car 30 30 (on t f).
Proof.
  intros Ht. split; [intros s [<-|[]]; apply xs_sane; [exact Ht|right; reflexivity]|]. split; [split; [constructor|intros k u []]|].
  intros s r [<-|[]] E. destruct Ht as [->| ->]; vm_compute in E; injection E as <-; vm_compute; discriminate.
Qed.
Lemma r_leaves c : In c r_ch -> good car 30 30 c.
Proof. intros [<-|[<-|[<-|[]]]]; apply on_good; auto. Qed.
Lemma r_scoped : scoped r_root.
Proof.
  split; [cbn; auto|]. split.
  - intros c i Hc _ [[]|[]].
  - repeat constructor; cbn in *; intuition lia.
Qed.

(** *** an unsatisfiable formula: (! [X] : (p(c,c,X) | q(X,g(X)))) & ~ p(c,c,b) & ~ q(b,g(b)) *)
Definition u1 : form := Pred 4 pP [] [cc; cc; xm].
Definition u2 : form := Pred 5 qP [] [xm; gg xm].
Definition u_ch : list proc := [on bb u1; on bb u2].
Definition u_root : proc := PNode [] nothing nothing [] u_ch.
Definition u_sent : list answer := [mkAns true [(xs bb, [u1])]; mkAns true [(xs bb, [u2])]].
Lemma u_answers : all_answers (report 30 30) u_ch = Ok (Some u_sent).
Proof. vm_compute. reflexivity. Qed.
Lemma u_report : report 30 30 u_root = Ok (Some []).
Proof. vm_compute. reflexivity. Qed.
Lemma u_works k : works_on 0 nid mono0 30 30 same0 (fun _ => []) u_root (fo_leaves (uF_end k)).
Proof.
  intros st H. rewrite uF_leaves_ok in H. exists [mX30], nothing. destruct H as [<-|[<-|[]]].
  - exists [xs bb], u1. split; [left; reflexivity|vm_compute; reflexivity].
  - exists [xs bb], u2. split; [right; left; reflexivity|vm_compute; reflexivity].
Qed.
Lemma u_scoped : scoped u_root.
Proof.
  split; [cbn; auto|]. split.
  - intros c i Hc _ [[]|[]].
  - repeat constructor; cbn in *; intuition lia.
Qed.
Lemma u_select : select (merge_mixed 30 30) nothing 2 (map Answer u_sent) = Ok (SubstForParent, [(xs bb, [u1; u2])]).
Proof. vm_compute. reflexivity. Qed.
Lemma nothing_sane ar mm : sane ar 30 30 mm [].
Proof. split; [intros x i f v []|]. split; [split; [constructor|intros k t []]|]. split; [split; [constructor|intros k t b []]|]. split; [intros (? & ? & ? & ? & [] & _)|]. vm_compute. discriminate. Qed.
Lemma u_node : good_node car 30 30 [] nothing nothing u_sent.
Proof.
  split; [apply nothing_sane|]. split; [|split; [|split; [|split]]].
  - split; [split; [constructor|intros k t []]|]. intros a s [<-|[<-|[]]] [<-|[]]; (split; [okc|vm_compute; discriminate]).
  - apply am_one, am_one, am_nil.
  - repeat constructor.
  - left. repeat constructor; intros (s & E & S); injection E as <-; inversion S.
  - intros r E. change (List.length u_sent) with 2%nat in E. rewrite u_select in E. injection E as <-. split; [discriminate|].
    split; [split; [constructor|intros k t []]|]. intros s [<-|[]]. split; [okc|]. split; [vm_compute; discriminate|]. intros m Em. vm_compute in Em. injection Em as <-. apply xs_sane; auto.
Qed.
Lemma u_good : good car 30 30 u_root.
Proof.
  split; [cbn [map fold_right u_ch]; split; [apply on_good; auto|split; [apply on_good; auto|exact Logic.I]]|]. intros l E. rewrite u_answers in E. injection E as <-. exact u_node.
Qed.
Lemma u_side k : forall st, In st (fo_leaves (uF_end k)) -> state_strict 0 nid mono0 30 30 same0 st [] <> Out /\
  forall x, In x (q_lf (st_q st) ++ q_atomic (st_q st)) -> first_order car (ft_form x).
Proof. intros st H. exact (proj2 (uF_finds k st H)). Qed.
