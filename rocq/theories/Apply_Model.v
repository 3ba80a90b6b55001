(** Model of the application of a substitution to a process: src/Search/state.go:494-515 ApplySubstitution, and of the search
    for a contradiction that follows (src/Search/destructive.go:205-229, 272-284).

    Simplifications: the state is the one of Expand_Model.v, with the substitution applied to it beside; its code trees are built
    when they are used; LastAppliedSubst, only printed, is left out. *)
From Coq Require Import ZArith List Bool String.
From Verif Require Import LibSet_Model Ast_Model Rules_Model Expand_Model Unif_Model UnifTree_Model Closure_Model Select_Model.
Import ListNotations.
Open Scope list_scope.
Open Scope Z_scope.

(** Core/substitutions_search.go:298-316 ApplySubstitutionsOnFormula, on the substitutions of the search (Subst_Model.v has
    the one of the proofs) *)
Definition apply_binding (f : form) (b : mixed) : form :=
  match b with
  | MTy n i fo u => form_subst_ty (TyMeta n i fo) u f
  | MTerm m u => replace_meta m u f
  end.
Definition apply_form (s : list mixed) (f : form) : form := fold_left apply_binding s f.
(** 263-280 ApplySubstitutionsOnTerm, 249-260 ApplySubstitutionsOnTermList *)
Definition apply_term (s : list mixed) (t : term) : term :=
  fold_left (fun t b => match b with MTy n i fo u => term_subst_ty (TyMeta n i fo) u t | MTerm m u => replace_sub (Meta m) u t end) s t.
(** 330-332 ApplySubstitutionsOnFormAndTerms: the terms are kept *)
Definition apply_fat (s : list mixed) (x : fat) : fat := mkFat (apply_form s (ft_form x)) (ft_terms x).

Section Apply.
Variable same : list term -> list term -> bool.
(** 335-343 ApplySubstitutionsOnFormAndTermsList *)
Definition apply_fats (s : list mixed) (l : list fat) : list fat := fold_left (fun res x => fl_append same res (apply_fat s x)) l [].
(** 346-363 ApplySubstitutionOnMetaGenList, with meta_gen.go ContainsMetaGenList *)
Definition apply_gen (s : list mixed) (x : fat * Z) : fat * Z :=
  (mkFat (apply_form s (ft_form (fst x))) (map (apply_term s) (ft_terms (fst x))), snd x).
Definition apply_gens (s : list mixed) (l : list (fat * Z)) : list (fat * Z) :=
  fold_left (fun res x => let y := apply_gen s x in if existsb (fun z => fat_eqb same (fst z) (fst y)) res then res else res ++ [y]) l [].
Definition apply_queues (s : list mixed) (q : queues) : queues :=
  mkQ (apply_fats s (q_lf q)) (apply_fats s (q_atomic q)) (apply_fats s (q_alpha q)) (apply_fats s (q_beta q)) (apply_fats s (q_delta q)) (apply_fats s (q_gamma q)).
Definition apply_state (s : list mixed) (st : state) : state :=
  mkSt (st_n st) (apply_queues s (st_q st)) (apply_gens s (st_mg st)) (st_mm st) (st_mc st).
(** state.go:494-515; a merge that fails stops the prover (MergeSubstAndForm, Glob.Anomaly) *)
Definition apply_substitution (mg : list mixed -> list mixed -> out (list mixed)) (st : state) (ap s : saf) : out (state * saf) :=
  do m <- merge_saf mg ap s; Ok (apply_state (fst s) st, m).

Section Again.
Variables (eqi : Z) (name_id : string -> ident) (ty_arity : string -> nat).
Variable addu : term -> term -> substs -> out substs.
Variable comp : list (nat * term) -> list meta -> substs -> out substs.
(** destructive.go:205-229 searchContradictionAfterApplySusbt, on the trees of state.go:511-512 *)
Definition again_closure (st : state) (forb : list (list mixed)) : out (option (form * list (list mixed))) :=
  let lits := q_atomic (st_q st) in
  match make_tree name_id (atoms true (extract lits)), make_tree name_id (atoms false (extract lits)) with
  | Some tpos, Some tneg => first_contradiction eqi name_id ty_arity addu comp tpos tneg forb lits
  | _, _ => Crash
  end.
End Again.
End Apply.
