(** Model of what a process answers when its branch closes: Search/destructive.go:1056-1227 ManageClosureRule, with
    GetMetaFromSubst, ContainsMetaMother and DispatchSubst of Core/substitutions_search.go:47-63, 199-220 and 365-391 and
    retrieveMetaFromSubst of Search/search.go.

    Simplifications: the proof, the debug messages, the copies and the interactive mode (Glob.GetAssisted) are left out.  A
    set of metavariables is the list of its members (C01-C04 are about the sets).  The merge of two substitutions is the one
    of Select_Model.v, on bindings of terms only.  The answer of the father, awaited after a reply that needs one, is in
    Proto_Model.v and GlobUnif_Model.v. *)
From Coq Require Import ZArith List Bool.
From Verif Require Import Ast_Model Unif_Model Closure_Model Dmt_Model Select_Model GlobUnif_Model Restrict_Model.
Import ListNotations.
Open Scope list_scope.
Open Scope Z_scope.

(** substitutions_search.go:47-65 GetMetaFromSubst: the bindings of types are passed over *)
Definition metas_of_subst (s : subst) : list meta :=
  flat_map (fun b => match b with
    | MTerm k (Meta n) => [k; n]
    | MTerm k (Fun _ _ args) => k :: flat_map meta_list args
    | MTerm k _ => [k]
    | MTy _ _ _ _ => []
    end) s.
(** substitutions_search.go:199-220 ContainsMetaMother *)
Fixpoint contains_mother (s : subst) (mm : list meta) : bool :=
  match s with
  | [] => false
  | MTy _ _ _ _ :: _ => true
  | MTerm k v :: r =>
    if mem k mm then true
    else match v with
         | Meta n => if mem n mm then true else contains_mother r mm
         | _ => contains_mother r mm
         end
  end.

(** Lib/list.go:182-204 Contains, Add with ListEquals *)
Definition add_new (l : list subst) (s : subst) : list subst := if existsb (same_subst s) l then l else l ++ [s].

(** substitutions_search.go:368-391 DispatchSubst: subsWithMM, subsWithMMUncleared, subsWithoutMM.  [rs] is
    RemoveElementWithoutMM for the metavariables of the parent, or the identity when the search is not destructive. *)
Record dispatched : Type := mkD { d_with : list subst; d_uncleared : list subst; d_without : list subst }.
Fixpoint dispatch_substs (rs : subst -> out subst) (l : list subst) (d : dispatched) : out dispatched :=
  match l with
  | [] => Ok d
  | s :: r =>
    do x <- rs s;
    match x with
    | [] => dispatch_substs rs r (mkD (d_with d) (d_uncleared d) (add_new (d_without d) s))
    | _ => dispatch_substs rs r (mkD (add_new (d_with d) x) (add_new (d_uncleared d) s) (d_without d))
    end
  end.

(** Glob/int_functions.go:57-82 ContainsInt, AppendIfNotContainsInt, UnionIntList *)
Definition append_int (l : list Z) (i : Z) : list Z := if existsb (Z.eqb i) l then l else l ++ [i].
Definition union_int (l1 l2 : list Z) : list Z := fold_left append_int l2 l1.
(** Search/search.go retrieveMetaFromSubst *)
Definition formulas_of (s : subst) : list Z :=
  fold_left (fun res b => match b with MTerm k _ => append_int res (m_formula k) | MTy _ _ _ _ => res end) s [].
(** the sort.Ints of the standard library of Go *)
Fixpoint insert_int (i : Z) (l : list Z) : list Z := match l with [] => [i] | j :: r => if i <=? j then i :: l else j :: insert_int i r end.
Definition sort_ints (l : list Z) : list Z := fold_right insert_int [] l.

(** matching_substitutions.go:308-319 UnifSucceeded *)
Definition succeeded (s : subst) : bool :=
  match s with
  | MTerm k v :: _ => negb (meta_eqb k empty_meta && term_eqb v (Meta empty_meta))
  | _ => true
  end.

(** What is sent to the father (children.go:192-236): the branch is closed in all the cases.  [rp_need]: an answer is awaited;
    [rp_substs]: the substitutions; [rp_pairs]: what is added to the global unifier, in order; [rp_again]: the formulas whose
    metavariables are to be introduced again. *)
Record reply : Type := mkReply { rp_need : bool; rp_substs : list saf; rp_pairs : list (subst * subst); rp_again : list Z }.

Section Manage.
Variable destructive : bool.
(** RemoveElementWithoutMM; MergeMixedSubstitutions with its success ([merge_mixed]: a failure is an anomaly) and without *)
Variable restr : subst -> list meta -> out subst.
Variable mg : subst -> subst -> out subst.
Variable raw : subst -> subst -> out subst.

(** destructive.go:1133-1137 *)
Fixpoint pairs_without (ap : subst) (l : list subst) : out (list (subst * subst)) :=
  match l with
  | [] => Ok []
  | s :: r => do m <- raw ap s; do r <- pairs_without ap r; Ok ((ap, m) :: r)
  end.
(** destructive.go:1217-1221; the index of the second list is the one of the first *)
Fixpoint pairs_with (ap : subst) (l u : list subst) : out (list (subst * subst)) :=
  match l with
  | [] => Ok []
  | s :: r =>
    match u with
    | [] => Crash
    | x :: u => do a <- raw ap x; do c <- raw ap s; do r <- pairs_with ap r u; Ok ((c, a) :: r)
    end
  end.
(** destructive.go:1158-1191 *)
Fixpoint sending (f : form) (applied : saf) (l : list subst) (found : list saf) (again : list Z) : out (list saf * list Z) :=
  match l with
  | [] => Ok (found, again)
  | s :: r =>
    if succeeded s
    then do m <- merge_saf mg (s, [f]) applied;
         sending f applied r (append_saf found m) (union_int again (formulas_of s))
    else Crash
  end.
(** destructive.go:1061-1227 ManageClosureRule; [None]: nothing is sent *)
Definition manage (mm : list meta) (applied : saf) (found : list saf) (l : list subst) (f : form) : out (option reply) :=
  let ap := fst applied in
  let mm := mm ++ metas_of_subst ap in
  do d <- dispatch_substs (fun s => if destructive then restr s mm else Ok s) l (mkD [] [] []);
  match l, d_without d, d_with d with
  | [], _, _ => Ok (Some (mkReply false (remove_empty [applied]) [(ap, ap)] []))
  | _, (_ :: _) as n, _ => do p <- pairs_without ap n; Ok (Some (mkReply false (remove_empty [applied]) p []))
  | _, [], (_ :: _) as w =>
    do x <- sending f applied w found [];
    do p <- pairs_with ap w (d_uncleared d);
    Ok (Some (mkReply true (remove_empty (fst x)) p (sort_ints (snd x))))
  | _, [], [] => Ok None
  end.
End Manage.

(** matching_substitutions.go:286-299 MergeMixedSubstitutions whose success is not looked at *)
Definition raw_mixed (n fe : nat) (s t : subst) : out subst :=
  do s <- to_substs s; do t <- to_substs t; do m <- merge fe (add_unif n fe) s t; Ok (mixed_terms m).
(** the destructive search *)
Definition leaf (n fe : nat) : list meta -> saf -> list saf -> list subst -> form -> out (option reply) :=
  manage true (restrict_mixed fe (add_unif n fe)) (merge_mixed n fe) (raw_mixed n fe).
