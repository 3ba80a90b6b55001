(** Concrete decisions of a branching node. *)
From Coq Require Import ZArith List Bool String Permutation.
From Verif Require Import Ast_Model Sem_Spec Ast_Proofs Unif_Model Unif_Spec UnifLoss_Model Closure_Model Select_Model Select_Spec Select_Proofs Select_Final Unif_Witness.
Import ListNotations.
Open Scope list_scope.
Open Scope Z_scope.

Definition to (i : Z) (t : term) : saf := ([MTerm (mX i) t], []).
Definition ans (l : list saf) : answer := mkAns true l.
Definition none : saf := ([], []).
(** X1 := a, X1 := b, X1 := a, in this order and with the last two exchanged *)
Definition aba : list answer := [ans [to 1 ka]; ans [to 1 kb]; ans [to 1 ka]].
Definition aab : list answer := [ans [to 1 ka]; ans [to 1 ka]; ans [to 1 kb]].
Lemma aba_parent : select (merge_mixed 30 30) none 3 (map Answer aba) = Ok (SubstForParent, [to 1 ka]).
Proof. vm_compute. reflexivity. Qed.
Lemma aab_children : select (merge_mixed 30 30) none 3 (map Answer aab) = Ok (SubstForChildren, [to 1 ka; to 1 kb]).
Proof. vm_compute. reflexivity. Qed.
Lemma aba_aab : Permutation aba aab.
Proof. apply perm_skip, perm_swap. Qed.
Lemma distinct_one s : distinct (ans [s]).
Proof. repeat constructor. Qed.
Lemma aba_distinct : Forall distinct aba.
Proof. repeat (constructor; [apply distinct_one|]). constructor. Qed.
Definition symbols : alg := mkAlg Z (fun p _ _ => p) (fun i => i) (fun i => i).
Lemma a_not_b : ~ consequence (fst (to 1 ka)) (fst (to 1 kb)).
Proof.
  intros H. specialize (H symbols (fun _ => 10)). assert (E : (10 : Z) = 11); [|discriminate].
  refine (H _ _ (mX 1) kb (or_introl eq_refl)); [intros p tys tys' l; reflexivity|]. intros k t [E|[]]. injection E as <- <-. reflexivity.
Qed.
Lemma aba_unclosed : ~ closes_all consequence aba (to 1 ka).
Proof.
  intros H. destruct (H (ans [to 1 kb])) as (t & [<-|[]] & C); [right; left; reflexivity|discriminate|]. exact (a_not_b C).
Qed.

(** X1 := a or X1 := b for the first child, nothing for the second, X1 := b for the third *)
Definition two : list answer := [ans [to 1 ka; to 1 kb]; ans []; ans [to 1 kb]].
Definition two' : list answer := [ans [to 1 kb]; ans []; ans [to 1 ka; to 1 kb]].
(** the node works with X2 := b: X1 := a for the first child, the same for the second *)
Definition one1 : list answer := [ans [to 1 ka]; ans [to 2 kb]].
Lemma two_parent : select (merge_mixed 30 30) none 3 (map Answer two) = Ok (SubstForParent, [to 1 kb]).
Proof. vm_compute. reflexivity. Qed.
Lemma two_parent' : select (merge_mixed 30 30) none 3 (map Answer two') = Ok (SubstForParent, [to 1 kb]).
Proof. vm_compute. reflexivity. Qed.
Lemma one1_parent : select (merge_mixed 30 30) (to 2 kb) 2 (map Answer one1) = Ok (SubstForParent, [([MTerm (mX 1) ka; MTerm (mX 2) kb], [])]).
Proof. vm_compute. reflexivity. Qed.
Lemma not_wants_nil c : ~ wants c (ans []).
Proof. intros [H _]. apply H. reflexivity. Qed.
Lemma not_same (a b : saf) : same_subst (fst a) (fst b) = false -> ~ same_bindings (fst a) (fst b).
Proof. intros E H. apply subst_eqb in H. congruence. Qed.
Lemma distinct_two (s t : saf) : same_subst (fst s) (fst t) = false -> distinct (ans [s; t]).
Proof. intros E. repeat constructor. apply not_same, E. Qed.
Lemma two_most : at_most (wants none) 2 two.
Proof. apply am_one, am_skip; [apply not_wants_nil|]. apply am_one, am_nil. Qed.
Lemma two_distinct : Forall distinct two.
Proof. constructor; [apply distinct_two; reflexivity|]. constructor; [constructor|]. constructor; [apply distinct_one|constructor]. Qed.
Lemma two_no_current : Forall (fun a => ~ returns_just none a) two.
Proof. repeat constructor; intros (s & E & S); try discriminate E. injection E as <-. inversion S. Qed.
Lemma one_ok i t : 0 <= i -> well war t -> okS war (binds (fst (to i t))).
Proof. intros Hi W. split; [repeat constructor; intros []|]. intros k u [E|[]]. injection E as <- <-. split; [split; [exact Hi|exact I]|exact W]. Qed.
Lemma two_drop : no_drop war 30 30 none two.
Proof.
  split; [apply ok_nil|]. intros a s [<-|[<-|[<-|[]]]] Hs; cbn in Hs; repeat (destruct Hs as [<-|Hs]); try contradiction;
    (split; [apply one_ok; [discriminate|wellt]|vm_compute; discriminate]).
Qed.
Lemma one1_most : at_most (wants (to 2 kb)) 1 one1.
Proof. apply am_one, am_skip; [|apply am_nil]. intros [_ H]. apply H. exists (to 2 kb). split; [reflexivity|apply bindings_refl]. Qed.
Lemma one1_most2 : at_most (wants (to 2 kb)) 2 one1.
Proof. apply am_one, am_one, am_nil. Qed.
Lemma one1_distinct : Forall distinct one1.
Proof. repeat (constructor; [apply distinct_one|]). constructor. Qed.
Lemma one1_drop : no_drop war 30 30 (to 2 kb) one1.
Proof.
  split; [apply one_ok; [discriminate|wellt]|]. intros a s [<-|[<-|[]]] Hs; cbn in Hs; destruct Hs as [<-|[]];
    (split; [apply one_ok; [discriminate|wellt]|vm_compute; discriminate]).
Qed.
Lemma two_terms : forall a s, In a two -> In s (an_substs a) -> on_terms (fst s) /\ not_failure (fst s).
Proof.
  intros a s [<-|[<-|[<-|[]]]] Hs; cbn in Hs; repeat (destruct Hs as [<-|Hs]); try contradiction;
    (split; [intros b [<-|[]]; eexists; eexists; reflexivity|vm_compute; reflexivity]).
Qed.
Lemma two_perm : Permutation two two'.
Proof. unfold two, two'. etransitivity; [|apply perm_swap]. etransitivity; [apply perm_swap|]. apply perm_skip, perm_swap. Qed.
Lemma wants_one i t : wants none (ans [to i t]).
Proof. split; [discriminate|]. intros (s & E & S). injection E as <-. inversion S. Qed.
(** a child that stays open *)
Lemma open_case : select (merge_mixed 30 30) none 2 (map Answer [ans [to 1 ka]; mkAns false []]) = Ok (Opened, [to 1 ka]).
Proof. vm_compute. reflexivity. Qed.
Lemma itself_case : select (merge_mixed 30 30) none 2 (map Answer [ans []; ans []]) = Ok (CloseByItself, []).
Proof. vm_compute. reflexivity. Qed.
