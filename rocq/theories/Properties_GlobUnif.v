(** C78-C83: the substitutions that close a subtree (Core/global_unifier.go). *)
From Coq Require Import ZArith String List Bool Permutation.
From Verif Require Import Ast_Model Sem_Spec Unif_Model Unif_Spec UnifLoss_Model Closure_Model Select_Model Select_Spec Select_Witness Unif_Witness GlobUnif_Model GlobUnif_Spec GlobUnif_Proofs GlobUnif_Final GlobUnif_Witness.
Import ListNotations.
Open Scope list_scope.
Open Scope Z_scope.

(** C78 refuted: a branching node with three children, and the final substitution does not close the second one. *)
Theorem C78_final_refuted :
  exists n t u, tree_unif (mix n (add_unif n n)) t = Ok u /\ u <> [] /\ get_unifier u <> [] /\ ~ closes consequence (get_unifier u) t.
Proof.
  exists 30%nat, taba, [(one 1 ka, [one 1 ka])]. split; [exact taba_unif|]. split; [discriminate|]. split; [discriminate|exact taba_open].
Qed.
Print Assumptions C78_final_refuted.
(** C78 (partial): when no merge of the unifiers comes out empty and no merge of two substitutions drops an equation
    (C36), each substitution of the unifier closes all the leaves and does what was applied at the branching nodes. *)
Theorem C78_all_partial :
  forall ar n fe t u, all_good (proper ar) t -> alive (mix fe (add_unif n fe)) t ->
  tree_unif (mix fe (add_unif_s true n fe)) t <> Out -> tree_unif (mix fe (add_unif n fe)) t = Ok u ->
  u <> [] /\ forall k s, stored u k s -> closes consequence s t.
Proof. exact tree_closes_real. Qed.
Print Assumptions C78_all_partial.
(** C78 (partial): so does the one that is applied to the proof, when the first key of the unifier comes with one. *)
Theorem C78_final_partial :
  forall ar n fe t u, all_good (proper ar) t -> alive (mix fe (add_unif n fe)) t ->
  tree_unif (mix fe (add_unif_s true n fe)) t <> Out -> tree_unif (mix fe (add_unif n fe)) t = Ok u ->
  (forall k, ~ hd_error u = Some (k, [])) -> closes consequence (get_unifier u) t.
Proof. exact final_closes. Qed.
Print Assumptions C78_final_partial.
(** C78 (partial): the same whatever the merge, as long as what it returns does what both its arguments do. *)
Theorem C78_any_merge_partial :
  forall mg good (ent : subst -> subst -> Prop), (forall s, ent s s) -> (forall s t u, ent s t -> ent t u -> ent s u) -> merging good ent mg ->
  forall t, all_good good t -> alive mg t -> forall u, tree_unif mg t = Ok u ->
  u <> [] /\ forall k s, stored u k s -> closes ent s t.
Proof.
  exact (fun mg good ent r tr ok t G A u E => let '(conj H1 H2) := tree_closes mg good ent r tr ok t G A u E in
    conj H1 (fun k s S => proj2 (H2 s (ex_intro _ k S)))).
Qed.
Print Assumptions C78_any_merge_partial.
Example C78_case : all_good (proper war) tfine /\ alive (mix 30 (add_unif 30 30)) tfine /\
  tree_unif (mix 30 (add_unif_s true 30 30)) tfine <> Out /\ tree_unif (mix 30 (add_unif 30 30)) tfine = Ok ufine /\
  forall k, ~ hd_error ufine = Some (k, []).
Proof.
  exact (conj tfine_good (conj tfine_alive (conj (proj2 tfine_unif) (conj (proj1 tfine_unif) (fun k (H : hd_error ufine = Some (k, [])) => ltac:(discriminate H)))))).
Qed.

(** C79 refuted: a substitution of the unifier closes the whole tree, the unifier answers the empty one, which does not. *)
Theorem C79_get_refuted :
  exists n t u k s, tree_unif (mix n (add_unif n n)) t = Ok u /\ stored u k s /\ closes consequence s t /\
  get_unifier u = [] /\ ~ closes consequence (get_unifier u) t.
Proof.
  eexists 30%nat, tlost, ulost, _, slost. split; [exact tlost_unif|]. split; [exact (proj1 tlost_closes)|]. split; [exact (proj2 tlost_closes)|exact tlost_open].
Qed.
Print Assumptions C79_get_refuted.
(** C79 (partial): a unifier all of whose keys come with a substitution answers one of them.  This is so at the leaves,
    stays so when substitutions or metavariables are pruned, and stays so when two unifiers are merged if, whenever two
    keys can be merged, two of their substitutions can be too. *)
Theorem C79_get_partial : forall u, u <> [] -> filled u -> exists k, stored u k (get_unifier u).
Proof. exact filled_get. Qed.
Print Assumptions C79_get_partial.
Theorem C79_filled_partial :
  (forall l, filled (leaf_unif l)) /\ (forall mg s u r, filled u -> prune mg s u = Ok r -> filled r) /\
  (forall metas u, filled u -> filled (prune_metas metas u)) /\
  (forall mg u v r, filled u -> filled v -> realised mg u v -> merge_unif mg u v = Ok r -> filled r).
Proof. exact (conj leaf_filled (conj prune_filled (conj prune_metas_filled merge_filled))). Qed.
Print Assumptions C79_filled_partial.
Example C79_case : filled ua /\ filled vfine /\ realised (mix 30 (add_unif 30 30)) ua vfine.
Proof. exact vfine_filled. Qed.

(** C80 refuted: the binding of a metavariable of the node stays in the key. *)
Theorem C80_metas_refuted : exists metas u, metas <> [] /\ ~ unbinds metas (prune_metas metas u).
Proof. exists [mX 1], ua. split; [discriminate|]. replace (prune_metas [mX 1] ua) with ua by exact (eq_sym (proj1 x1_stays)). exact (proj2 x1_stays). Qed.
Print Assumptions C80_metas_refuted.
(** C80 (partial): nothing is ever removed: the pairs of a key and a substitution are the same before and after, and the
    keys bind none of the metavariables after only if they bound none before. *)
Theorem C80_nothing_partial :
  forall metas u, (forall k s, kept (prune_metas metas u) k s <-> kept u k s) /\
  (forall k, key u k -> exists k', key (prune_metas metas u) k' /\ same_bindings k' k) /\
  (unbinds metas (prune_metas metas u) -> unbinds metas u).
Proof. exact (fun metas u => conj (prune_metas_kept metas u) (conj (prune_metas_keys metas u) (prune_metas_unbinds metas u))). Qed.
Print Assumptions C80_nothing_partial.
Example C80_case : kept (prune_metas [mX 1] ua) (one 1 ka) (one 1 ka).
Proof. exists (one 1 ka). split; [apply Select_Proofs.bindings_refl|]. exists [one 1 ka]. split; left; reflexivity. Qed.

(** C81: merging two unifiers that are not empty keeps the merges of their pairs, all of them and no other; the keys are
    the merges of their keys. *)
Theorem C81_merge :
  forall mg u v r, u <> [] -> v <> [] -> merge_unif mg u v = Ok r -> forall k s, kept r k s <->
  exists k1 s1 k2 s2 m, stored u k1 s1 /\ stored v k2 s2 /\ mg k2 k1 = Ok (Some m) /\ same_bindings m k /\ mg s1 s2 = Ok (Some s).
Proof. exact merge_exact. Qed.
Print Assumptions C81_merge.
Theorem C81_keys :
  forall mg u v r, u <> [] -> v <> [] -> merge_unif mg u v = Ok r ->
  (forall k, key r k -> exists k1 k2, key u k1 /\ key v k2 /\ mg k2 k1 = Ok (Some k)) /\
  (forall k1 k2 m, key u k1 -> key v k2 -> mg k2 k1 = Ok (Some m) -> exists k, key r k /\ same_bindings k m).
Proof. exact merge_keys. Qed.
Print Assumptions C81_keys.
(** C81: the unifier of a leaf has all that its closure found, and nothing else. *)
Theorem C81_leaf : forall l k s, kept (leaf_unif l) k s <-> exists c, In (c, s) l /\ same_bindings c k.
Proof. exact leaf_exact. Qed.
Print Assumptions C81_leaf.
Example C81_leaf_case : leaf_unif [(one 1 ka, one 2 kb); ([], one 1 ka); (one 1 ka, one 3 ka)] = [(one 1 ka, [one 2 kb; one 3 ka]); ([], [one 1 ka])].
Proof. reflexivity. Qed.
Example C81_case : exists r r', merge_unif (mix 30 (add_unif 30 30)) ua vfine = Ok r /\ merge_unif (mix 30 (add_unif 30 30)) vfine ua = Ok r' /\ r <> r' /\ r <> [].
Proof. exact ua_vfine_merges. Qed.

(** C82 refuted: the unifiers of three children, in two orders: one substitution or none. *)
Theorem C82_order_refuted :
  exists n l l' u, Permutation l l' /\ merge_list (mix n (add_unif n n)) l = Ok u /\ u <> [] /\ merge_list (mix n (add_unif n n)) l' = Ok [].
Proof.
  exists 30%nat, [ua; ub; ua], [ua; ua; ub], ua. split; [exact (proj2 (proj2 ua_ub))|]. split; [exact (proj1 ua_ub)|]. split; [discriminate|exact (proj1 (proj2 ua_ub))].
Qed.
Print Assumptions C82_order_refuted.
(** C82 (partial): for two children the order does not matter, when it does not for the merges of their substitutions. *)
Theorem C82_two_partial :
  forall mg (eqv : subst -> subst -> Prop) u v r r', commutes mg eqv u v -> (forall s, eqv s s) ->
  merge_unif mg u v = Ok r -> merge_unif mg v u = Ok r' -> forall k s, stored r k s -> exists k' s', stored r' k' s' /\ eqv s s'.
Proof. exact merge_two. Qed.
Print Assumptions C82_two_partial.
Example C82_case : commutes (mix 30 (add_unif 30 30)) (fun s t => consequence s t /\ consequence t s) ua vfine.
Proof. exact ua_vfine. Qed.

(** C83 refuted: the substitution the father chose is compatible with none of the unifier; it then has one that does what
    none of them did. *)
Theorem C83_chosen_refuted :
  exists n chosen applied u r k s, choose_unif (mix n (add_unif n n)) chosen applied u = Ok r /\ stored r k s /\
  u <> [] /\ forall k' s', stored u k' s' -> ~ consequence s s'.
Proof.
  exists 30%nat, (one 1 kb), [], ua, [([], [[]])], [], []. split; [exact ua_chosen|]. split; [exists [[]]; split; left; reflexivity|]. split; [discriminate|exact ua_not].
Qed.
Print Assumptions C83_chosen_refuted.
(** C83 (partial): when it is compatible with one of them, what is left is what is compatible with it. *)
Theorem C83_chosen_partial :
  forall mg chosen applied u r, (exists k m, key u k /\ mg chosen k = Ok (Some m)) -> choose_unif mg chosen applied u = Ok r ->
  forall k s, stored r k s <-> stored u k s /\ exists m, mg chosen k = Ok (Some m).
Proof. exact choose_keeps. Qed.
Print Assumptions C83_chosen_partial.
Example C83_case : exists k m, key vfine k /\ mix 30 (add_unif 30 30) (one 2 kb) k = Ok (Some m).
Proof. exists (one 2 kb). eexists. split; [exists [one 2 kb]; right; left; reflexivity|vm_compute; reflexivity]. Qed.
