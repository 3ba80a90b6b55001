(** Model of the restriction of substitutions to the metavariables of the parent: Core/substitutions_search.go:71-195.

    Simplifications: a set of metavariables is the list of its members (C01-C04 are about the sets themselves), and the
    metavariables of a term are the list of them; the debug messages are left out. *)
From Coq Require Import ZArith List Bool String.
From Verif Require Import Ast_Model Unif_Model Closure_Model.
Import ListNotations.
Open Scope list_scope.
Open Scope Z_scope.

Definition mem (m : meta) (l : list meta) : bool := existsb (meta_eqb m) l.
(** relevantMetas, res, subst_to_reorganize *)
Record rst : Type := mkR { rel : list meta; kept : substs; reo : substs }.
(** substitutions_search.go:94-120: one binding; the boolean is hasChanged *)
Definition one (b : meta * term) (st : rst) : rst * bool :=
  let '(k, t) := b in
  match t with
  | Meta n =>
    if mem k (rel st) && mem n (rel st) then (mkR (rel st) (sset (kept st) k t) (sset (reo st) k t), false) else (st, false)
  | _ =>
    if mem k (rel st) then
      (mkR (rel st ++ meta_list t) (sset (kept st) k t) (reo st), existsb (fun c => negb (mem c (rel st))) (meta_list t))
    else (st, false)
  end.
Fixpoint round (s : substs) (st : rst) (changed : bool) : rst * bool :=
  match s with
  | [] => (st, changed)
  | b :: r => let '(st', c) := one b st in round r st' (changed || c)
  end.
(** substitutions_search.go:86-122; [None]: out of fuel *)
Fixpoint rounds (n : nat) (s : substs) (st : rst) : option rst :=
  match n with
  | O => None
  | S n => let '(st', c) := round s st false in if c then rounds n s st' else Some st'
  end.
(** substitutions_search.go:174-195 ReorganizeSubstitution *)
Fixpoint reo_inner (k1 : meta) (v1 : term) (s : substs) (res : substs) (seen : list meta) : substs * list meta :=
  match s with
  | [] => (res, seen)
  | (k2, v2) :: r =>
    if term_eqb v1 v2 && negb (meta_eqb k1 k2) && negb (mem k2 seen) then reo_inner k1 v1 r (sset res k2 (Meta k1)) (k1 :: seen)
    else reo_inner k1 v1 r res seen
  end.
Fixpoint reo_outer (todo s : substs) (res : substs) (seen : list meta) : substs :=
  match todo with
  | [] => res
  | (k, v) :: r => let '(res', seen') := reo_inner k v s res (k :: seen) in reo_outer r s res' seen'
  end.
Definition reorganize (s : substs) : substs := reo_outer s s [] [].

Section Restrict.
Variable fe : nat.
Variable add : term -> term -> substs -> out substs.
(** substitutions_search.go:71-167 RemoveElementWithoutMM on the term bindings; the failure of the merge is an Anomaly *)
Definition restrict (s : substs) (mm : list meta) : out substs :=
  match rounds (S (List.length s)) s (mkR mm [] []) with
  | None => Out
  | Some st =>
    do r <- elim_out fe (reorganize (reo st));
    do m <- merge fe add (kept st) r;
    if is_failure m then Crash else Ok m
  end.
(** with the type bindings, which are all kept (lines 158-164) *)
Definition restrict_mixed (l : list mixed) (mm : list meta) : out (list mixed) :=
  do m <- restrict (term_part l) mm;
  Ok (mixed_terms m ++ filter (fun x => match x with MTy _ _ _ _ => true | _ => false end) l).
End Restrict.
