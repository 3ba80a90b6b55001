(** When the processes of a tree close their branches together, independently of what they send (C142, C143). *)
From Coq Require Import ZArith List.
From Verif Require Import Ast_Model Occ_Spec Sem_Spec Unif_Model Unif_Spec UnifLoss_Model Closure_Model Select_Model Select_Spec Select_Final GlobUnif_Model Restrict_Model Restrict_Spec Leaf_Model Leaf_Spec Up_Model Up_Spec Round_Model.
Import ListNotations.
Open Scope list_scope.
Open Scope Z_scope.

(** The values [v] of the metavariables of the father close the branches under the process: there are values of the others for
    which a leaf has a closing substitution that holds, and a node has all its children closed; the substitution applied to the process holds. *)
Fixpoint closes (A : alg) (p : proc) (v : Z -> dom A) {struct p} : Prop :=
  match p with
  | PLeaf mm ap l _ => (l = [] /\ solves A v (binds (fst ap))) \/ closable mm (fst ap) l A v
  | PNode mm ap _ _ ch => exists v', agree mm v v' /\ solves A v' (binds (fst ap)) /\ fold_right and True (map (fun c => closes A c v') ch)
  | PKept p _ => closes A p v
  end.

(** What is asked of the processes: at the leaves, no equation dropped by the merges (C36) nor the restrictions (C39); at the
    nodes, in addition, what C27 asks of the answers of the children. *)
Section Good.
Variable ar : signature.
Variables n fe : nat.
Definition good_leaf (mm : list meta) (ap : saf) (l : list subst) : Prop :=
  (forall s, In s l -> sane ar n fe (mm ++ metas_of_subst (fst ap)) s) /\ okS ar (binds (fst ap)) /\
  (forall s r, In s l -> restrict_mixed fe (add_unif n fe) s (mm ++ metas_of_subst (fst ap)) = Ok r -> merge fe (add_unif_s true n fe) (binds r) (binds (fst ap)) <> Out).
Definition good_node (mm : list meta) (ap cur : saf) (l : list answer) : Prop :=
  sane ar n fe mm (fst ap) /\ no_drop ar n fe cur l /\ at_most (wants cur) 2 l /\ Forall distinct l /\
  (Forall (fun a => ~ returns_just cur a) l \/ at_most (wants cur) 1 l \/
   Forall (fun a => wants cur a -> Forall (fun t => consequence (fst t) (fst cur)) (an_substs a)) l) /\
  forall r, select (merge_mixed n fe) cur (List.length l) (map Answer l) = Ok (SubstForParent, r) -> r <> [] /\ clean ar n fe mm ap r.
Fixpoint good (p : proc) : Prop :=
  match p with
  | PLeaf mm ap l _ => good_leaf mm ap l
  | PNode mm ap cur _ ch => fold_right and True (map good ch) /\ forall l, all_answers (report n fe) ch = Ok (Some l) -> good_node mm ap cur l
  | PKept p _ => good p
  end.
End Good.

(** ** C143: one value of all the metavariables closes all the branches *)
Fixpoint closed_by (A : alg) (w : Z -> dom A) (p : proc) : Prop :=
  match p with
  | PLeaf _ ap l _ => solves A w (binds (fst ap)) /\ (l = [] \/ exists s, In s l /\ solves A w (binds s))
  | PNode _ ap _ _ ch => solves A w (binds (fst ap)) /\ fold_right and True (map (closed_by A w) ch)
  | PKept p _ => closed_by A w p
  end.
(** the indexes of the metavariables of the substitutions under a process, and of those of its father *)
Definition subst_indexes (s : list mixed) : list Z := flat_map (fun b => match b with MTerm k t => m_index k :: t_metas t | MTy _ _ _ _ => [] end) s.
Fixpoint indexes (p : proc) : list Z :=
  match p with
  | PLeaf _ ap l _ => subst_indexes (fst ap) ++ flat_map subst_indexes l
  | PNode _ ap _ _ ch => subst_indexes (fst ap) ++ flat_map indexes ch
  | PKept p _ => indexes p
  end.
Fixpoint mother (p : proc) : list Z := match p with PLeaf mm _ _ _ => map m_index mm | PNode mm _ _ _ _ => map m_index mm | PKept p _ => mother p end.
(** what a child shares with its father or with another child is among the metavariables of its father *)
Fixpoint scoped (p : proc) : Prop :=
  match p with
  | PLeaf _ _ _ _ => True
  | PNode mm ap _ _ ch =>
    fold_right and True (map scoped ch) /\
    (forall c i, In c ch -> In i (indexes c) -> In i (map m_index mm) \/ In i (subst_indexes (fst ap)) -> In i (mother c)) /\
    ForallOrdPairs (fun c d => forall i, In i (indexes c) -> In i (indexes d) -> In i (mother c) /\ In i (mother d)) ch
  | PKept p _ => scoped p
  end.
