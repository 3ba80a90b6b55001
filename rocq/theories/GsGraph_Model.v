(** Model of Mods/gs3/graph.go: directed graphs as a list of vertices and a list of rows of indices.

    The methods with a pointer receiver are functions on graphs; the slices are values (rows are not shared: Copy and
    make always allocate). An index out of range is [Crash]. *)
From Coq Require Import List Bool Arith.
From Verif Require Import Unif_Model.
Import ListNotations.
Open Scope list_scope.

Section Graph.
Variable T : Type.
(** reflect.DeepEqual *)
Variable deep_equal : T -> T -> bool.

(** graph.go:42-45 *)
Record graph : Type := mkG { vertices : list T; edges : list (list nat) }.
(** graph.go:51-56 MakeGraph *)
Definition make_graph : graph := mkG [] [].
(** graph.go:58-60 AddVertex *)
Definition add_vertex (g : graph) (u : T) : graph := mkG (vertices g ++ [u]) (edges g).
(** graph.go:132-141 findVertex; [None] is -1 *)
Fixpoint find_from (i : nat) (u : T) (l : list T) : option nat :=
  match l with
  | [] => None
  | v :: r => if deep_equal u v then Some i else find_from (S i) u r
  end.
Definition find_vertex (g : graph) (u : T) : option nat := find_from 0 u (vertices g).
(** graph.go:143-151 addVertexAndResize *)
Definition add_resize (g : graph) (u : T) : graph * nat :=
  let vs := vertices g ++ [u] in
  (mkG vs (edges g ++ repeat [] (List.length vs - List.length (edges g))), List.length vs - 1).
(** the assignment e[i] = x *)
Fixpoint set_nth {A} (i : nat) (x : A) (l : list A) : option (list A) :=
  match l, i with
  | [], _ => None
  | _ :: r, O => Some (x :: r)
  | y :: r, S i => option_map (cons y) (set_nth i x r)
  end.
(** graph.go:62-74 AddEdge *)
Definition add_edge (g : graph) (u v : T) : out graph :=
  let ux0 := find_vertex g u in
  let vx0 := find_vertex g v in
  let '(g, ux) := match ux0 with Some i => (g, i) | None => add_resize g u end in
  let '(g, vx) := match vx0 with Some i => (g, i) | None => add_resize g v end in
  match nth_error (edges g) ux with
  | None => Crash
  | Some row =>
    match set_nth ux (row ++ [vx]) (edges g) with
    | None => Crash
    | Some e => Ok (mkG (vertices g) e)
    end
  end.
(** graph.go:121-128: the first v of a row *)
Fixpoint remove_first (v : nat) (l : list nat) : list nat :=
  match l with
  | [] => []
  | x :: r => if Nat.eqb x v then r else x :: remove_first v r
  end.
(** graph.go:110-129 CleanEdgesFromVertex *)
Definition clean (g : graph) (u : T) : out graph :=
  match find_vertex g u with
  | None => Ok g
  | Some v =>
    match set_nth v [] (edges g) with
    | None => Crash
    | Some e => Ok (mkG (vertices g) (map (remove_first v) e))
    end
  end.
(** graph.go:153-161 dfsAux; the first argument is fuel *)
Fixpoint dfs (n : nat) (g : graph) (seen : list bool) (src : nat) : out (list bool) :=
  match n with
  | O => Out
  | S n =>
    match set_nth src true seen, nth_error (edges g) src with
    | Some seen, Some row =>
      (fix go (row : list nat) (seen : list bool) : out (list bool) :=
         match row with
         | [] => Ok seen
         | x :: r =>
           match nth_error seen x with
           | None => Crash
           | Some true => go r seen
           | Some false => do seen <- dfs n g seen x; go r seen
           end
         end) row seen
    | _, _ => Crash
    end
  end.
(** graph.go:93-108 DepthFirstSearchList; the depth of the recursion is at most the number of vertices *)
Fixpoint dfs_sources (g : graph) (sources : list T) (seen : list bool) : out (list bool) :=
  match sources with
  | [] => Ok seen
  | s :: r =>
    match find_vertex g s with
    | None => dfs_sources g r seen
    | Some i => do seen <- dfs (S (List.length (vertices g))) g seen i; dfs_sources g r seen
    end
  end.
Fixpoint elements_seen (vs : list T) (seen : list bool) : list T :=
  match vs, seen with
  | v :: vs, b :: seen => if b then v :: elements_seen vs seen else elements_seen vs seen
  | _, _ => []
  end.
Definition search (g : graph) (sources : list T) : out (list T) :=
  do seen <- dfs_sources g sources (repeat false (List.length (vertices g)));
  Ok (elements_seen (vertices g) seen).

(** a sequence of calls *)
Inductive op : Type := AddVertex (u : T) | AddEdge (u v : T) | Clean (u : T).
Definition step (g : graph) (o : op) : out graph :=
  match o with
  | AddVertex u => Ok (add_vertex g u)
  | AddEdge u v => add_edge g u v
  | Clean u => clean g u
  end.
Fixpoint run (g : graph) (ops : list op) : out graph :=
  match ops with
  | [] => Ok g
  | o :: r => do g <- step g o; run g r
  end.
End Graph.
Arguments mkG {T}. Arguments vertices {T}. Arguments edges {T}. Arguments make_graph {T}. Arguments find_from {T}. Arguments find_vertex {T}.
Arguments add_vertex {T}. Arguments add_resize {T}. Arguments add_edge {T}. Arguments clean {T}. Arguments dfs {T}. Arguments dfs_sources {T}.
Arguments elements_seen {T}. Arguments search {T}. Arguments AddVertex {T}. Arguments AddEdge {T}. Arguments Clean {T}. Arguments step {T}. Arguments run {T}.
