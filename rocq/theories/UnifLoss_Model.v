(** Unification that stops when a binding is about to be lost.

    computeSubstitutions (Unif/substitutions_tree.go:51-149) records the equations between the metavariables
    of the indexed formula and the terms of the query with Set, which does nothing on a key that is already bound.
    When the key was bound by AddUnification, not by an earlier occurrence of the metavariable in the formula,
    the equation is dropped.  The functions of this file are those of Unif_Model.v with one more test: they
    answer [Out] at that point ([strict = true]); with [strict = false] they are the ones of Unif_Model.v
    (UnifLoss_Proofs.v).  They serve to state for which runs the results are unifiers. *)
From Coq Require Import ZArith List Bool.
From Verif Require Import Ast_Model Unif_Model.
Import ListNotations.
Open Scope list_scope.
Open Scope Z_scope.

Section Loss.
Variable strict : bool.
Variable fe : nat.
Variable add : term -> term -> substs -> out substs.

Fixpoint compute_loop_s (subs : list (nat * term)) (mt : list meta) (metas tree : substs) (done : list meta) : out (option (substs * substs)) :=
  match subs with
  | [] => Ok (Some (metas, tree))
  | (i, v) :: r =>
    match nth_error mt i with
    | None => Crash
    | Some m =>
      if term_eqb (Meta m) v then compute_loop_s r mt metas tree done
      else if strict && has_subst tree m && negb (existsb (meta_eqb m) done) then Out
      else
        match (if has_subst metas m then sget metas m else None) with
        | Some (w, idx) =>
          if negb (term_eqb v w) then
            let tree := sset tree m v in
            do u <- add v w tree;
            if is_failure u then Ok None else compute_loop_s r mt (sremove metas idx) u (m :: done)
          else compute_loop_s r mt metas (sset tree m v) (m :: done)
        | None => compute_loop_s r mt metas (sset tree m v) (m :: done)
        end
    end
  end.
Definition compute_s (subs : list (nat * term)) (mt : list meta) (metas : substs) : out substs :=
  do r <- compute_loop_s subs mt metas [] [];
  match r with
  | None => Ok failure
  | Some (metas, tree) =>
    do metas <- elim_out fe metas;
    if is_failure metas then Ok failure else
    do tree <- elim_out fe tree;
    if is_failure tree then Ok failure else
    do res <- merge fe add metas tree;
    if is_failure res then Ok res else elim_out fe res
  end.
Definition try_unification_s (t1 t2 : term) (s : substs) : out (option substs) :=
  match exec_all add (parse_one t1) (make_machine [t2] s) with
  | Fail => Ok None
  | Ok m => do r <- compute_s (mc_subst m) (meta_list t1) (mc_meta m); Ok (if is_failure r then None else Some r)
  | Crash => Crash
  | Out => Out
  end.
Definition add_body_s (t1 t2 : term) (s : substs) : out substs :=
  let bound t u := is_meta t && has_subst s (to_meta t) &&
                   match sget s (to_meta t) with Some (v, _) => negb (term_eqb v u) | None => true end in
  if bound t1 t2 || bound t2 t1 || is_fun t1 && is_fun t2 then
    do r <- try_unification_s t1 t2 s;
    match r with
    | None => Ok failure
    | Some s' => elim_out fe s'
    end
  else
    match t1, t2 with
    | Meta m, _ => elim_out fe (sset s m t2)
    | _, Meta m => elim_out fe (sset s m t1)
    | _, _ => Ok failure
    end.
End Loss.

Fixpoint add_unif_s (strict : bool) (n fe : nat) (t1 t2 : term) (s : substs) : out substs :=
  match n with
  | O => Out
  | S n => add_body_s strict fe (add_unif_s strict n fe) t1 t2 s
  end.
