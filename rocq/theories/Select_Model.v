(** Model of the decision of a branching node from the answers of its children: selectChildren of Search/destructive.go and
    the lists of Core/subst_and_form.go.

    The proofs, the unifiers of the proof and the channels are left out: what is modelled is the code of the answer and the
    substitutions that go with it, as a function of the order in which the answers arrive.  Merging is a parameter of the decision. *)
From Coq Require Import ZArith List Bool.
From Verif Require Import Ast_Model Unif_Model Closure_Model Dmt_Model.
Import ListNotations.
Open Scope list_scope.

(** subst_and_form.go:48-51 SubstAndForm *)
Definition saf : Type := (list mixed * list form)%type.
(** Lib/list.go:95-112 ListEquals *)
Definition same_subst (a b : list mixed) : bool := list_eqb mixed_eqb a b.
(** subst_and_form.go:67-73 IsEmpty, Equals *)
Definition saf_empty (s : saf) : bool := match s with ([], []) => true | _ => false end.
Definition saf_eqb (a b : saf) : bool := same_subst (fst a) (fst b) && list_eqb form_eqb (snd a) (snd b).
(** subst_and_form.go:101-105 AddFormulas *)
Definition add_formulas (s : saf) (fl : list form) : saf := (fst s, fold_left form_add fl (snd s)).
(** subst_and_form.go:113-121 RemoveEmptySubstFromSubstAndFormList *)
Definition remove_empty (l : list saf) : list saf := filter (fun s => match fst s with [] => false | _ => true end) l.
(** subst_and_form.go:133-149 AppendIfNotContainsSubstAndForm *)
Definition append_saf (l : list saf) (s : saf) : list saf := if existsb (fun v => saf_eqb v s) l then l else l ++ [s].

(** matching_substitutions.go:286-299 MergeMixedSubstitutions when all the bindings are on terms, with the failure of the
    merge (an error of MergeSubstAndForm, of which the callers make an Anomaly).  [Out]: a binding on a type, not modelled *)
Fixpoint to_substs (s : list mixed) : out substs :=
  match s with
  | [] => Ok []
  | MTerm k v :: r => do r <- to_substs r; Ok ((k, v) :: r)
  | MTy _ _ _ _ :: _ => Out
  end.
Definition merge_mixed (n fe : nat) (s t : list mixed) : out (list mixed) :=
  do s <- to_substs s; do t <- to_substs t; do m <- merge fe (add_unif n fe) s t;
  if is_failure m then Crash else Ok (map (fun b => MTerm (fst b) (snd b)) m).

(** What the node hears of: the answer of a child (closed or not, the substitutions for the father), or an order of its
    father to quit ([true]) or to wait ([false]). *)
Record answer : Type := mkAns { an_closed : bool; an_substs : list saf }.
Inductive event : Type := Answer (a : answer) | Order (quit : bool).
(** destructive.go:50-59 *)
Inductive verdict : Type := CloseByItself | SubstForParent | SubstForChildren | Quit | Wait | Opened.

(** destructive.go:694-705 *)
Record acc : Type := mkAcc {
  ac_result : list saf; ac_common : list saf;
  ac_count : nat;       (* cpt_children_returning_subst *)
  ac_seen : bool;       (* current_subst_seen *)
  ac_current : saf      (* new_current_subst *) }.

Section Select.
Variable mg : list mixed -> list mixed -> out (list mixed).
Variable current : saf.

(** subst_and_form.go:185-205 MergeSubstAndForm; a failure is an anomaly *)
Definition merge_saf (s1 s2 : saf) : out saf :=
  if saf_empty s1 then Ok s2
  else if saf_empty s2 then Ok s1
  else do s <- mg (fst s1) (fst s2); Ok (s, fold_left form_add (snd s2) (snd s1)).

Definition acc0 : acc := mkAcc [] [] 0 false current.
(** destructive.go:768-778 *)
Definition returns_current (l : list saf) : option saf :=
  match l with [s] => if same_subst (fst s) (fst current) then Some s else None | _ => None end.
(** destructive.go:783-803 *)
Definition common_of (l result : list saf) : list saf :=
  flat_map (fun c => flat_map (fun r => if same_subst (fst c) (fst r) then [add_formulas r (snd c)] else []) result) l.
(** destructive.go:806-853 *)
Definition add_result (cur : saf) (result : list saf) (v : saf) : list saf :=
  if same_subst (fst v) (fst cur) then result
  else if existsb (fun r => same_subst (fst v) (fst r)) result
    then map (fun r => if same_subst (fst v) (fst r) then add_formulas r (snd v) else r) result
    else append_saf result v.
(** destructive.go:751-858: a closed child *)
Definition take (a : acc) (l : list saf) : acc :=
  match l with
  | [] => a
  | _ =>
    match returns_current l with
    | Some s => mkAcc (ac_result a) (ac_common a) (ac_count a) true (add_formulas current (snd s))
    | None => mkAcc (fold_left (add_result (ac_current a)) l (ac_result a)) (common_of l (ac_result a)) (S (ac_count a)) (ac_seen a) (ac_current a)
    end
  end.
(** destructive.go:707-871: the loop, with [n] children to wait for; [inl] is a verdict that stops it, [None] means that the
    node still waits *)
Fixpoint collect (n : nat) (es : list event) (a : acc) : option (verdict + unit) * acc :=
  match n with
  | O => (Some (inr tt), a)
  | S n =>
    match es with
    | [] => (None, a)
    | Order q :: _ => (Some (inl (if q then Quit else Wait)), a)
    | Answer x :: r =>
      if an_closed x then collect n r (take a (an_substs x))
      else (Some (inl Opened), a)
    end
  end.
(** destructive.go:899-917 *)
Fixpoint merge_current (cur : saf) (l : list saf) : out (list saf) :=
  match l with
  | [] => Ok []
  | s :: r =>
    if same_subst (fst s) (fst cur) then merge_current cur r
    else do m <- merge_saf s cur; do r <- merge_current cur r; Ok (m :: r)
  end.
(** destructive.go:883-937 *)
Definition finish (a : acc) : out (verdict * list saf) :=
  match ac_count a with
  | O => if ac_seen a then Ok (SubstForParent, ac_result a ++ [ac_current a]) else Ok (CloseByItself, ac_result a)
  | S O =>
    if saf_empty (ac_current a) then Ok (SubstForParent, ac_result a)
    else do l <- merge_current (ac_current a) (ac_result a); Ok (SubstForParent, l)
  | _ =>
    match ac_common a, ac_result a with
    | c :: l, _ => Ok (SubstForParent, c :: l)
    | [], [s] => Ok (SubstForParent, [s])
    | [], l => Ok (SubstForChildren, l)
    end
  end.
(** destructive.go:679-942 selectChildren *)
Definition select (n : nat) (es : list event) : out (verdict * list saf) :=
  match collect n es acc0 with
  | (None, _) => Out
  | (Some (inl v), a) => Ok (v, remove_empty (ac_result a))
  | (Some (inr _), a) => do r <- finish a; Ok (fst r, remove_empty (snd r))
  end.
End Select.
