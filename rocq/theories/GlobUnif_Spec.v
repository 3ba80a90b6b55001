(** What the unifier of a subtree should be, independently of how it is computed (C78-C83). *)
From Coq Require Import ZArith List.
From Verif Require Import Ast_Model Sem_Spec Unif_Model Unif_Spec Closure_Model Select_Model Select_Spec GlobUnif_Model.
Import ListNotations.
Open Scope list_scope.

(** the actual substitution s is stored under the key k *)
Definition stored (u : unifier) (k s : subst) : Prop := exists l, In (k, l) u /\ In s l.
(** the same up to the way keys are written *)
Definition kept (u : unifier) (k s : subst) : Prop := exists k', same_bindings k' k /\ stored u k' s.
Definition key (u : unifier) (k : subst) : Prop := exists l, In (k, l) u.

(** C78: [ent s t]: s does what t does.  The substitution closes each leaf as one of those found there does, and does what
    was applied at each branching node. *)
Fixpoint closes (ent : subst -> subst -> Prop) (s : subst) (t : ptree) : Prop :=
  match t with
  | PLeaf l => exists c a, In (c, a) l /\ ent s a
  | PChosen _ _ t => closes ent s t
  | PNode ap _ l => ent s ap /\ (fix all (l : list ptree) : Prop := match l with [] => True | t :: r => closes ent s t /\ all r end) l
  end.
(** what the merge of two substitutions owes: the result does what both do.  [good]: the proper substitutions *)
Definition merging (good : subst -> Prop) (ent : subst -> subst -> Prop) (mg : subst -> subst -> out (option subst)) : Prop :=
  forall s t m, good s -> good t -> mg s t = Ok (Some m) -> good m /\ ent m s /\ ent m t.
(** all the substitutions of the tree are proper *)
Fixpoint all_good (good : subst -> Prop) (t : ptree) : Prop :=
  match t with
  | PLeaf l => forall c a, In (c, a) l -> good c /\ good a
  | PChosen ch ap t => good ch /\ good ap /\ all_good good t
  | PNode ap _ l => good ap /\ (fix all (l : list ptree) : Prop := match l with [] => True | t :: r => all_good good t /\ all r end) l
  end.
(** no merge comes out empty: each leaf closes, the substitution the father chose is compatible with one of those sent, and
    at each branching node what the first children found can be merged, also with what was applied there *)
Fixpoint alive (mg : subst -> subst -> out (option subst)) (t : ptree) : Prop :=
  match t with
  | PLeaf l => l <> []
  | PChosen ch _ t => alive mg t /\ forall u, tree_unif mg t = Ok u -> prune mg ch u <> Ok []
  | PNode ap _ l =>
    (fix all (l : list ptree) : Prop := match l with [] => True | t :: r => alive mg t /\ all r end) l /\
    (forall us n, trees_unif mg l = Ok us -> merge_list mg (firstn (S n) us) <> Ok []) /\
    (forall us u, trees_unif mg l = Ok us -> merge_list mg us = Ok u -> merge_unif mg u [(ap, [ap])] <> Ok [])
  end.
(** C80: the metavariables are bound by no key *)
Definition unbinds (metas : list meta) (u : unifier) : Prop :=
  forall k m v, key u k -> In (MTerm m v) k -> forall x, In x metas -> m_index x <> m_index m.
(** the substitutions of the unification algorithm: metavariables bound once, to terms with the right arities *)
Definition proper (ar : signature) (s : subst) : Prop := okS ar (binds s).
(** C79: every key comes with an actual substitution; when two keys can be merged, so can two of their substitutions *)
Definition filled (u : unifier) : Prop := forall k l, In (k, l) u -> l <> [].
Definition realised (mg : subst -> subst -> out (option subst)) (u v : unifier) : Prop :=
  forall k1 l1 k2 l2 m, In (k1, l1) u -> In (k2, l2) v -> mg k2 k1 = Ok (Some m) -> exists s1 s2 x, In s1 l1 /\ In s2 l2 /\ mg s1 s2 = Ok (Some x).
(** C82: the merges of the two unifiers do not depend on the order, up to [eqv] *)
Definition commutes (mg : subst -> subst -> out (option subst)) (eqv : subst -> subst -> Prop) (u v : unifier) : Prop :=
  (forall k1 k2 m, key u k1 -> key v k2 -> mg k2 k1 = Ok (Some m) -> exists m', mg k1 k2 = Ok (Some m')) /\
  (forall k1 s1 k2 s2 m, stored u k1 s1 -> stored v k2 s2 -> mg s1 s2 = Ok (Some m) -> exists m', mg s2 s1 = Ok (Some m') /\ eqv m m').
