(** What a graph should remember of the calls that made it (C50). *)
From Coq Require Import List Relations.
From Verif Require Import GsGraph_Model.
Import ListNotations.
Open Scope list_scope.

Section Spec.
Variable T : Type.
(** an edge is there when it was added and none of its ends was cleaned afterwards *)
Definition recorded (ops : list (op T)) (x y : T) : Prop :=
  exists p q, ops = p ++ AddEdge x y :: q /\ ~ In (Clean x) q /\ ~ In (Clean y) q.
Definition mentioned (ops : list (op T)) (x : T) : Prop :=
  In (AddVertex x) ops \/ exists y, In (AddEdge x y) ops \/ In (AddEdge y x) ops.
Definition reachable (ops : list (op T)) (sources : list T) (x : T) : Prop :=
  exists s, In s sources /\ mentioned ops s /\ clos_refl_trans T (recorded ops) s x.
(** no edge is added while it is there *)
Definition once (ops : list (op T)) : Prop := forall p u v q, ops = p ++ AddEdge u v :: q -> ~ recorded p u v.
Definition never_cleaned (ops : list (op T)) : Prop := forall u, ~ In (Clean u) ops.
Definition no_bare_vertex (ops : list (op T)) : Prop := forall u, ~ In (AddVertex u) ops.
End Spec.
Arguments recorded {T}. Arguments mentioned {T}. Arguments reachable {T}. Arguments once {T}. Arguments never_cleaned {T}. Arguments no_bare_vertex {T}.
