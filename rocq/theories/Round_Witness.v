(** Concrete trees of processes. *)
From Coq Require Import ZArith List Bool String Lia.
From Verif Require Import Ast_Model Occ_Spec Sem_Spec Ast_Proofs Unif_Model Unif_Spec UnifLoss_Model Unif_Witness Closure_Model Dmt_Model Select_Model Select_Spec Select_Proofs Select_Final GlobUnif_Model Restrict_Model Restrict_Spec Restrict_Witness
  Leaf_Model Leaf_Spec Leaf_Proofs Leaf_Witness Up_Model Up_Spec Up_Witness Round_Model Round_Spec Round_Proofs.
From Verif Require Select_Witness.
Import ListNotations.
Open Scope list_scope.
Open Scope Z_scope.

(** *** three branches that close with X1 := a, X1 := b and X1 := a: the root, where X1 was introduced, says that all is closed *)
Definition x1 (t : term) : subst := [MTerm (mX 1) t].
Definition pl (t : term) : proc := PLeaf [mX 1] none [x1 t] f0.
Definition p_aba : proc := PNode [] none none [] [pl ka; pl kb; pl ka].
Lemma aba_report : report 30 30 p_aba = Ok (Some []).
Proof. vm_compute. reflexivity. Qed.
Lemma aba_open v : ~ closes Select_Witness.symbols p_aba v.
Proof.
  intros (v' & _ & _ & [(E & _)|(s1 & v1 & [<-|[]] & Ag1 & S1 & _)] & [(E2 & _)|(s2 & v2 & [<-|[]] & Ag2 & S2 & _)] & _); try discriminate.
  pose proof (S1 (mX 1) ka (or_introl eq_refl)) as H1. pose proof (S2 (mX 1) kb (or_introl eq_refl)) as H2.
  pose proof (Ag1 (mX 1) (or_introl eq_refl)) as G1. pose proof (Ag2 (mX 1) (or_introl eq_refl)) as G2. cbn in *. congruence.
Qed.
Lemma symbols_typeless : typeless Select_Witness.symbols.
Proof. intros p tys tys' l. reflexivity. Qed.
Lemma aba_leaves c : In c [pl ka; pl kb; pl ka] -> good war 30 30 c.
Proof.
  assert (G : forall t, t = ka \/ t = kb -> good war 30 30 (pl t)); [|intros [<-|[<-|[<-|[]]]]; apply G; auto].
  intros t [->| ->]; (split; [intros s [<-|[]]; saneb|split; [split; [constructor|intros k u []]|]]);
    intros s r [<-|[]] E; vm_compute in E; injection E as <-; vm_compute; discriminate.
Qed.

(** *** X5 is introduced under X1; the first branch closes with X1 := a or X1 := b, the others with X1 := b and X5 := a *)
Definition q_b : subst := [MTerm (mX 1) kb; MTerm (mX 5) ka].
Definition p_deep : proc := PNode [mX 1] none none [] [PLeaf [mX 1; mX 5] none [q_b] f0; PLeaf [mX 1; mX 5] none [q_b] f0].
Definition p_two : proc := PLeaf [mX 1] none [x1 ka; x1 kb] f0.
Definition p_ok : proc := PNode [] none none [] [p_two; p_deep].
Definition q_sent : list answer := [mkAns true [(q_b, [f0])]; mkAns true [(q_b, [f0])]].
Definition r_sent : list answer := [mkAns true [(x1 ka, [f0]); (x1 kb, [f0])]; mkAns true [(x1 kb, [f0])]].
Lemma deep_answers : all_answers (report 30 30) [PLeaf [mX 1; mX 5] none [q_b] f0; PLeaf [mX 1; mX 5] none [q_b] f0] = Ok (Some q_sent).
Proof. vm_compute. reflexivity. Qed.
Lemma ok_answers : all_answers (report 30 30) [p_two; p_deep] = Ok (Some r_sent).
Proof. vm_compute. reflexivity. Qed.
Lemma ok_report : report 30 30 p_ok = Ok (Some []).
Proof. vm_compute. reflexivity. Qed.
Lemma deep_select : select (merge_mixed 30 30) none 2 (map Answer q_sent) = Ok (SubstForParent, [(q_b, [f0])]).
Proof. vm_compute. reflexivity. Qed.
Lemma ok_select : select (merge_mixed 30 30) none 2 (map Answer r_sent) = Ok (SubstForParent, [(x1 kb, [f0])]).
Proof. vm_compute. reflexivity. Qed.
Lemma none_sane mm : sane war 30 30 mm [].
Proof. split; [intros x i f v []|]. split; [split; [constructor|intros k t []]|]. split; [split; [constructor|intros k t b []]|]. split; [intros (? & ? & ? & ? & [] & _)|]. vm_compute. discriminate. Qed.
Lemma leaf_deep : good_leaf war 30 30 [mX 1; mX 5] none [q_b].
Proof.
  split; [intros s [<-|[]]; saneb|]. split; [split; [constructor|intros k u []]|]. intros s r [<-|[]] E. vm_compute in E. injection E as <-. vm_compute. discriminate.
Qed.
Lemma leaf_two : good_leaf war 30 30 [mX 1] none [x1 ka; x1 kb].
Proof.
  split; [intros s [<-|[<-|[]]]; saneb|]. split; [split; [constructor|intros k u []]|]. intros s r [<-|[<-|[]]] E; vm_compute in E; injection E as <-; vm_compute; discriminate.
Qed.
Lemma deep_good : good_node war 30 30 [mX 1] none none q_sent.
Proof.
  split; [apply none_sane|]. split; [|split; [|split; [|split]]].
  - split; [split; [constructor|intros k t []]|]. intros a s [<-|[<-|[]]] [<-|[]]; (split; [okb|vm_compute; discriminate]).
  - apply am_one, am_one, am_nil.
  - repeat constructor.
  - left. repeat constructor; intros (s & E & S); injection E as <-; inversion S.
  - intros r E. change (List.length q_sent) with 2%nat in E. rewrite deep_select in E. injection E as <-. split; [discriminate|].
    split; [split; [constructor|intros k t []]|]. intros s [<-|[]]. split; [okb|]. split; [vm_compute; discriminate|]. intros m Em. injection Em as <-. saneb.
Qed.
Lemma ok_node : good_node war 30 30 [] none none r_sent.
Proof.
  split; [apply none_sane|]. split; [|split; [|split; [|split]]].
  - split; [split; [constructor|intros k t []]|]. intros a s [<-|[<-|[]]] Hs; cbn in Hs; repeat (destruct Hs as [<-|Hs]); try contradiction; (split; [okb|vm_compute; discriminate]).
  - apply am_one, am_one, am_nil.
  - constructor; [apply (Select_Witness.distinct_two (x1 ka, [f0]) (x1 kb, [f0])); reflexivity|]. repeat constructor.
  - left. repeat constructor; intros (s & E & S); try discriminate E; injection E as <-; inversion S.
  - intros r E. change (List.length r_sent) with 2%nat in E. rewrite ok_select in E. injection E as <-. split; [discriminate|].
    split; [split; [constructor|intros k t []]|]. intros s [<-|[]]. split; [okb|]. split; [vm_compute; discriminate|]. intros m Em. injection Em as <-. saneb.
Qed.
Lemma ok_good : good war 30 30 p_ok.
Proof.
  split.
  - cbn [map fold_right]. split; [exact leaf_two|]. split; [|exact I]. split; [cbn [map fold_right]; split; [exact leaf_deep|split; [exact leaf_deep|exact I]]|].
    intros l E. rewrite deep_answers in E. injection E as <-. exact deep_good.
  - intros l E. rewrite ok_answers in E. injection E as <-. exact ok_node.
Qed.
Lemma deep_all : good war 30 30 p_deep /\ report 30 30 p_deep = Ok (Some [(x1 kb, [f0])]).
Proof. split; [exact (proj1 (proj2 (proj1 ok_good)))|vm_compute; reflexivity]. Qed.
Lemma deep_scoped : scoped p_deep.
Proof.
  split; [cbn; auto|]. split.
  - intros c i Hc _ [[<-|[]]|[]]. destruct Hc as [<-|[<-|[]]]; left; reflexivity.
  - constructor; [|repeat constructor]. constructor; [|constructor]. cbn. intros i H1 H2. intuition lia.
Qed.
Lemma ok_scoped : scoped p_ok.
Proof.
  split; [split; [exact I|split; [exact deep_scoped|exact I]]|]. split.
  - intros c i Hc _ [[]|[]].
  - constructor; [|repeat constructor]. constructor; [|constructor]. cbn. intros i H1 H2. intuition lia.
Qed.

(** *** the second round, X1 := b handed back: the first branch had sent it, the other one is searched again with it and closes *)
Definition h_b : saf := (x1 kb, []).
Definition l_again : proc := PLeaf [mX 1] h_b [] f0.
Definition p_again : proc := PNode [mX 1] none h_b [] [l_again].
Definition p_back : proc := PNode [] none h_b [] [PKept p_two h_b; p_again].
Definition h_sent : list answer := [mkAns true [(x1 kb, [f0])]; mkAns true [(x1 kb, [])]].
Lemma again_answers : all_answers (report 30 30) [l_again] = Ok (Some [mkAns true [(x1 kb, [])]]).
Proof. vm_compute. reflexivity. Qed.
Lemma back_answers : all_answers (report 30 30) [PKept p_two h_b; p_again] = Ok (Some h_sent).
Proof. vm_compute. reflexivity. Qed.
Lemma back_report : report 30 30 p_back = Ok (Some []).
Proof. vm_compute. reflexivity. Qed.
Lemma h_just f : ~ wants h_b (mkAns true [(x1 kb, f)]).
Proof. intros [_ W]. apply W. exists (x1 kb, f). split; [reflexivity|]. apply bindings_refl. Qed.
Lemma again_select : select (merge_mixed 30 30) h_b 1 (map Answer [mkAns true [(x1 kb, [])]]) = Ok (SubstForParent, [(x1 kb, [])]).
Proof. vm_compute. reflexivity. Qed.
Lemma back_select : select (merge_mixed 30 30) h_b 2 (map Answer h_sent) = Ok (SubstForParent, [(x1 kb, [])]).
Proof. vm_compute. reflexivity. Qed.
Lemma again_node : good_node war 30 30 [mX 1] none h_b [mkAns true [(x1 kb, [])]].
Proof.
  split; [apply none_sane|]. split; [|split; [|split; [|split]]].
  - split; [okb|]. intros a s [<-|[]] [<-|[]]. split; [okb|vm_compute; discriminate].
  - apply am_skip; [apply h_just|apply am_nil].
  - repeat constructor.
  - right. left. apply am_skip; [apply h_just|apply am_nil].
  - intros r E. change (List.length [mkAns true [(x1 kb, [])]]) with 1%nat in E. rewrite again_select in E. injection E as <-. split; [discriminate|].
    split; [split; [constructor|intros k t []]|]. intros s [<-|[]]. split; [okb|]. split; [vm_compute; discriminate|]. intros m Em. injection Em as <-. saneb.
Qed.
Lemma back_node : good_node war 30 30 [] none h_b h_sent.
Proof.
  split; [apply none_sane|]. split; [|split; [|split; [|split]]].
  - split; [okb|]. intros a s [<-|[<-|[]]] [<-|[]]; (split; [okb|vm_compute; discriminate]).
  - apply am_skip; [apply h_just|apply am_skip; [apply h_just|apply am_nil]].
  - repeat constructor.
  - right. left. apply am_skip; [apply h_just|apply am_skip; [apply h_just|apply am_nil]].
  - intros r E. change (List.length h_sent) with 2%nat in E. rewrite back_select in E. injection E as <-. split; [discriminate|].
    split; [split; [constructor|intros k t []]|]. intros s [<-|[]]. split; [okb|]. split; [vm_compute; discriminate|]. intros m Em. injection Em as <-. saneb.
Qed.
Lemma back_good : good war 30 30 p_back.
Proof.
  split.
  - cbn [map fold_right]. split; [exact leaf_two|]. split; [|exact I]. split; [cbn [map fold_right]; split; [|exact I]|].
    + split; [intros s []|]. split; [okb|]. intros s r [].
    + intros l E. rewrite again_answers in E. injection E as <-. exact again_node.
  - intros l E. rewrite back_answers in E. injection E as <-. exact back_node.
Qed.
Lemma back_scoped : scoped p_back.
Proof.
  split; [split; [exact I|split; [|exact I]]|].
  - split; [split; [exact I|exact I]|]. split; [|repeat constructor]. intros c i [<-|[]] _ [[<-|[]]|[]]. left. reflexivity.
  - split; [intros c i Hc _ [[]|[]]|]. constructor; [|repeat constructor]. constructor; [|constructor]. cbn. intros i H1 H2. intuition lia.
Qed.
