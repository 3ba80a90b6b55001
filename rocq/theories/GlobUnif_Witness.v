(** Concrete unifiers of subtrees. *)
From Coq Require Import ZArith List Bool String Permutation Lia.
From Verif Require Import Ast_Model Sem_Spec Ast_Proofs Unif_Model Unif_Spec UnifLoss_Model Closure_Model Select_Model Select_Spec Select_Proofs Select_Final Select_Witness Unif_Witness GlobUnif_Model GlobUnif_Spec GlobUnif_Proofs GlobUnif_Final.
Import ListNotations.
Open Scope list_scope.
Open Scope Z_scope.

Definition mg : subst -> subst -> out (option subst) := mix 30 (add_unif 30 30).
Definition mgs : subst -> subst -> out (option subst) := mix 30 (add_unif_s true 30 30).
Definition one (i : Z) (t : term) : subst := [MTerm (mX i) t].
Definition at_leaf (s : subst) : ptree := PLeaf [(s, s)].

(** three children: X1 := a, X1 := b, X1 := a; the first two merge to nothing, and nothing is neutral *)
Definition taba : ptree := PNode [] [] [at_leaf (one 1 ka); at_leaf (one 1 kb); at_leaf (one 1 ka)].
Lemma taba_unif : tree_unif mg taba = Ok [(one 1 ka, [one 1 ka])].
Proof. vm_compute. reflexivity. Qed.
Lemma taba_open : ~ closes consequence (one 1 ka) taba.
Proof. intros (_ & _ & (c & a & [E|[]] & H) & _). injection E as <- <-. exact (a_not_b H). Qed.

(** two children, X1 := a and X2 := a or b, with X3 := a applied, and a father that chooses X2 := b *)
Definition tfine : ptree := PChosen (one 2 kb) [] (PNode (one 3 ka) [mX 3] [at_leaf (one 1 ka); PLeaf [(one 2 ka, one 2 ka); (one 2 kb, one 2 kb)]]).
Definition ufine : unifier :=
  [([MTerm (mX 3) ka; MTerm (mX 2) kb; MTerm (mX 1) ka], [[MTerm (mX 1) ka; MTerm (mX 2) kb; MTerm (mX 3) ka]])].
Lemma tfine_unif : tree_unif mg tfine = Ok ufine /\ tree_unif mgs tfine <> Out.
Proof. split; [vm_compute; reflexivity|vm_compute; discriminate]. Qed.
Lemma proper_one i t : 0 <= i -> well war t -> proper war (one i t).
Proof. exact (one_ok i t). Qed.
Lemma ka_well : well war ka. Proof. wellt. Qed.
Lemma kb_well : well war kb. Proof. wellt. Qed.
Lemma nil_proper : proper war [].
Proof. split; [constructor|]. intros k t []. Qed.
Lemma tfine_good : all_good (proper war) tfine.
Proof.
  assert (Z1 : forall i t, 0 <= i -> t = ka \/ t = kb -> proper war (one i t)) by (intros i t Hi [-> | ->]; apply proper_one; auto using ka_well, kb_well).
  cbn [tfine all_good at_leaf]. split; [apply Z1; auto; discriminate|]. split; [apply nil_proper|]. split; [apply Z1; auto; discriminate|]. split; [|split; [|exact I]].
  - intros c a [E|[]]. injection E as <- <-. split; apply Z1; auto; discriminate.
  - intros c a [E|[E|[]]]; injection E as <- <-; split; apply Z1; auto; discriminate.
Qed.
Lemma tfine_alive : alive mg tfine.
Proof.
  cbn [tfine alive at_leaf]. split; [split; [split; [discriminate|split; [discriminate|exact I]]|split]|].
  - intros us n E. assert (Q : us = [[(one 1 ka, [one 1 ka])]; [(one 2 ka, [one 2 ka]); (one 2 kb, [one 2 kb])]]) by (vm_compute in E; injection E as <-; reflexivity). subst us.
    destruct n as [|[|n]]; [vm_compute; discriminate|vm_compute; discriminate|]. rewrite (firstn_all2 _ (n := S (S (S n)))) by (cbn [List.length]; lia). vm_compute. discriminate.
  - intros us u E. assert (Q : us = [[(one 1 ka, [one 1 ka])]; [(one 2 ka, [one 2 ka]); (one 2 kb, [one 2 kb])]]) by (vm_compute in E; injection E as <-; reflexivity). subst us.
    clear E. intros E. vm_compute in E. injection E as <-. vm_compute. discriminate.
  - intros u E. vm_compute in E. injection E as <-. vm_compute. discriminate.
Qed.

(** the first key of the first child says nothing of X1 = X2 (C39): it merges with X1 := a, X2 := b, its substitution does not *)
Definition tlost : ptree :=
  PNode [] [] [PLeaf [([], [MTerm (mX 1) (Meta (mX 5)); MTerm (mX 2) (Meta (mX 5))]); (one 3 ka, one 3 ka)]; at_leaf [MTerm (mX 1) ka; MTerm (mX 2) kb]].
Definition slost : subst := [MTerm (mX 3) ka; MTerm (mX 1) ka; MTerm (mX 2) kb].
Definition ulost : unifier := [([MTerm (mX 1) ka; MTerm (mX 2) kb], []); ([MTerm (mX 1) ka; MTerm (mX 2) kb; MTerm (mX 3) ka], [slost])].
Lemma tlost_unif : tree_unif mg tlost = Ok ulost.
Proof. vm_compute. reflexivity. Qed.
Lemma sub_consequence (s t : subst) : incl (binds t) (binds s) -> consequence s t.
Proof. intros H A w _ S k u I. apply S, H, I. Qed.
Lemma tlost_closes : stored ulost [MTerm (mX 1) ka; MTerm (mX 2) kb; MTerm (mX 3) ka] slost /\ closes consequence slost tlost.
Proof.
  split; [exists [slost]; split; [right; left; reflexivity|left; reflexivity]|].
  cbn [tlost closes at_leaf]. split; [apply sub_consequence; intros x []|]. split; [|split; [|exact I]].
  - exists (one 3 ka), (one 3 ka). split; [right; left; reflexivity|]. apply sub_consequence. intros x [<-|[]]. left. reflexivity.
  - eexists _, _. split; [left; reflexivity|]. apply sub_consequence. intros x [<-|[<-|[]]]; cbn; auto.
Qed.
Lemma nil_not (s : subst) k t : In (MTerm k t) s -> t = ka \/ t = kb -> ~ consequence [] s.
Proof.
  intros I H C. assert (T : typeless symbols) by (intros p tys tys' l; reflexivity).
  assert (S : solves symbols (fun _ => 1%Z) (binds s)) by (apply (C symbols (fun _ => 1%Z) T); intros k' u []).
  assert (I' : In (k, t) (binds s)) by (apply in_flat_map; exists (MTerm k t); split; [exact I|left; reflexivity]). specialize (S k t I').
  destruct H as [-> | ->]; vm_compute in S; discriminate.
Qed.
Lemma tlost_open : get_unifier ulost = [] /\ ~ closes consequence [] tlost.
Proof.
  split; [reflexivity|]. intros (_ & _ & (c & a & [E|[]] & H) & _). injection E as <- <-. revert H. eapply nil_not; [left; reflexivity|auto].
Qed.
Definition vfine : unifier := [(one 2 ka, [one 2 ka]); (one 2 kb, [one 2 kb])].
Lemma vfine_filled : filled [(one 1 ka, [one 1 ka])] /\ filled vfine /\ realised mg [(one 1 ka, [one 1 ka])] vfine.
Proof.
  split; [|split].
  - intros k l [E|[]]. injection E as <- <-. discriminate.
  - intros k l [E|[E|[]]]; injection E as <- <-; discriminate.
  - intros k1 l1 k2 l2 m [E|[]] [F|[F|[]]]; injection E as <- <-; injection F as <- <-; intros _; eexists _, _, _; (split; [left; reflexivity|]; split; [left; reflexivity|]; vm_compute; reflexivity).
Qed.

(** X1 belongs to the node, and its binding stays in the key *)
Lemma x1_stays : prune_metas [mX 1] [(one 1 ka, [one 1 ka])] = [(one 1 ka, [one 1 ka])] /\ ~ unbinds [mX 1] [(one 1 ka, [one 1 ka])].
Proof.
  split; [reflexivity|]. intros H. apply (H (one 1 ka) (mX 1) ka) with (x := mX 1); [exists [one 1 ka]; left; reflexivity|left; reflexivity|left; reflexivity|reflexivity].
Qed.
(** the order of the answers *)
Definition ua : unifier := [(one 1 ka, [one 1 ka])].
Definition ub : unifier := [(one 1 kb, [one 1 kb])].
Lemma ua_ub : merge_list mg [ua; ub; ua] = Ok ua /\ merge_list mg [ua; ua; ub] = Ok [] /\ Permutation [ua; ub; ua] [ua; ua; ub].
Proof. split; [vm_compute; reflexivity|]. split; [vm_compute; reflexivity|]. apply perm_skip, perm_swap. Qed.
(** the father chooses X1 := b *)
Lemma ua_chosen : choose_unif mg (one 1 kb) [] ua = Ok [([], [[]])].
Proof. vm_compute. reflexivity. Qed.
Lemma ua_not : forall k s, stored ua k s -> ~ consequence [] s.
Proof. intros k s (l & [E|[]] & I). injection E as <- <-. destruct I as [<-|[]]. eapply nil_not; [left; reflexivity|auto]. Qed.
Lemma ua_vfine : commutes mg (fun s t => consequence s t /\ consequence t s) ua vfine.
Proof.
  split.
  - intros k1 k2 m (l1 & [E|[]]) (l2 & [F|[F|[]]]) _; injection E as <- <-; injection F as <- <-; eexists; vm_compute; reflexivity.
  - intros k1 s1 k2 s2 m (l1 & [E|[]] & I1) (l2 & [F|[F|[]]] & I2) H; injection E as <- <-; injection F as <- <-; destruct I1 as [<-|[]], I2 as [<-|[]];
      vm_compute in H; injection H as <-; (eexists; split; [vm_compute; reflexivity|]; split; apply sub_consequence; intros x [<-|[<-|[]]]; cbn; auto).
Qed.
Lemma ua_vfine_merges : exists r r', merge_unif mg ua vfine = Ok r /\ merge_unif mg vfine ua = Ok r' /\ r <> r' /\ r <> [].
Proof. eexists _, _. split; [vm_compute; reflexivity|]. split; [vm_compute; reflexivity|]. split; discriminate. Qed.
