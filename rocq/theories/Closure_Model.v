(** Model of the closure search: Search/rules.go:62-214, with the conversion of the substitutions of the index into mixed
    substitutions (Unif/matching_substitutions.go) and Core/substitutions_search.go:406-418. *)
From Coq Require Import ZArith List Bool String.
From Verif Require Import LibSet_Model Ast_Model Rules_Model Expand_Model Unif_Model UnifTree_Model.
Import ListNotations.
Open Scope list_scope.
Open Scope Z_scope.

(** ** Mixed substitutions: matching_substitutions.go:47-50, 77-79 *)
Inductive mixed : Type :=
| MTy (name : string) (index formula : Z) (v : ty)
| MTerm (k : meta) (v : term).
(** ty-syntax.go:475-491 TermToTy; [None] is the Anomaly *)
Fixpoint term_to_ty (t : term) : option ty :=
  match t with
  | Meta m => Some (TyMeta (m_name m) (m_index m) (m_formula m))
  | Fun p _ args =>
    option_map (TyConstr (id_name p))
      ((fix go (l : list term) : option (list ty) :=
          match l with
          | [] => Some []
          | a :: r => match term_to_ty a, go r with Some x, Some y => Some (x :: y) | _, _ => None end
          end) args)
  | _ => None
  end.
Section Mixed.
(** the number of type variables of the scheme of a symbol (Typing.QueryGlobalEnv), 0 when it has none *)
Variable ty_arity : string -> nat.
(** matching_substitutions.go:99-126 translateTermRec.  [None]: not enough arguments, or one that is not a type *)
Fixpoint translate_term (t : term) : option term :=
  match t with
  | Fun p (_ :: _) _ => Some t
  | Fun p [] args =>
    let n := ty_arity (id_name p) in
    if Nat.ltb (List.length args) n then None else
    match all_some (map term_to_ty (firstn n args)),
          (fix go (l : list term) (n : nat) : option (list term) :=
             match l, n with
             | [], _ => Some []
             | _ :: r, S n => go r n
             | a :: r, O => match translate_term a, go r O with Some x, Some y => Some (x :: y) | _, _ => None end
             end) args n with
    | Some tys, Some args' => Some (Fun p tys args')
    | _, _ => None
    end
  | _ => Some t
  end.
(** matching_substitutions.go:81-97 translateFromSubst *)
Definition translate (b : meta * term) : option mixed :=
  let '(k, v) := b in
  if is_ttype (m_ty k) then option_map (MTy (m_name k) (m_index k) (m_formula k)) (term_to_ty v)
  else option_map (MTerm k) (translate_term v).
(** matching_substitutions.go:272-278 toMixed *)
Definition to_mixed (s : substs) : option (list mixed) := all_some (map translate s).
End Mixed.
(** matching_substitutions.go:128-130, 136-142 *)
Definition mixed_terms (s : substs) : list mixed := map (fun b => MTerm (fst b) (snd b)) s.
(** matching_substitutions.go:217-226 GetTrmSubsts *)
Definition term_part (l : list mixed) : substs := flat_map (fun x => match x with MTerm k v => [(k, v)] | _ => [] end) l.
(** ty-syntax.go:118-124 TyMeta.Equals, matching_substitutions.go:60-65, 159-164 *)
Definition mixed_eqb (a b : mixed) : bool :=
  match a, b with
  | MTy n i f v, MTy n' i' f' v' => ty_eqb (TyMeta n i f) (TyMeta n' i' f') && ty_eqb v v'
  | MTerm k v, MTerm k' v' => meta_eqb k k' && term_eqb v v'
  | _, _ => false
  end.

(** ** Core/substitutions_search.go:406-418 AreEqualsModuloaLaphaConversion: counts, for each binding of the first list, the
    bindings of the second with a metavariable of the same name and an equal term, and goes on as long as there is exactly one *)
Fixpoint included (s1 s2 : substs) : bool :=
  match s1 with
  | [] => true
  | (k, v) :: r =>
    Nat.eqb (List.length (filter (fun b => String.eqb (m_name k) (m_name (fst b)) && term_eqb v (snd b)) s2)) 1 && included r s2
  end.

(** ** Search/rules.go *)
Section Closure.
Variable eqi : Z. (* the index of AST.Id_eq *)
Variable name_id : string -> ident.
Variable ty_arity : string -> nat.
Variable add : term -> term -> substs -> out substs.
Variable comp : list (nat * term) -> list meta -> substs -> out substs.

(** rules.go:158-197; [Crash]: the equality has fewer than two arguments *)
Definition search_inequalities (f : form) : out (option substs) :=
  match f with
  | Not _ (Pred _ p _ args) =>
    if id_index p =? eqi then
      match args with
      | a :: b :: _ => do s <- add a b []; Ok (if is_failure s then None else Some s)
      | _ => Crash
      end
    else Ok None
  | _ => Ok None
  end.
(** rules.go:200-214 *)
Definition search_closure (tpos tneg : node) (f : form) : out (list (item * substs)) :=
  match f with
  | Pred ix p tys args => unify_tree name_id add comp tneg (IPred ix p tys args)
  | Not _ (Pred ix p tys args) => unify_tree name_id add comp tpos (IPred ix p tys args)
  | _ => Ok []
  end.
(** rules.go:117-136 *)
Definition forbidden (forb : list (list mixed)) (s : list mixed) : bool :=
  existsb (fun f => included (term_part s) (term_part f)) forb.
(** rules.go:84-112, the loop on the matches; Lib.List.Add does not repeat *)
Fixpoint keep_matches (forb : list (list mixed)) (matches : list (list mixed)) (result : bool) (acc : list (list mixed)) : bool * list (list mixed) :=
  match matches with
  | [] => (result, acc)
  | s :: r =>
    let result := match s with [] => true | _ => if forbidden forb s then result else true end in
    keep_matches forb r result (if result then if existsb (list_eqb mixed_eqb s) acc then acc else acc ++ [s] else acc)
  end.
(** rules.go:62-115 ApplyClosureRules *)
Definition apply_closure (tpos tneg : node) (forb : list (list mixed)) (f : form) : out (bool * list (list mixed)) :=
  if obvious_closure f then Ok (true, []) else
  do ineq <- search_inequalities f;
  do ms <- search_closure tpos tneg f;
  match all_some (map (fun m => to_mixed ty_arity (snd m)) ms) with
  | None => Crash
  | Some ms =>
    Ok (keep_matches forb ms (match ineq with Some _ => true | None => false end)
          (match ineq with Some s => [mixed_terms s] | None => [] end))
  end.

(** ** Search/destructive.go: the search for a contradiction in ProofSearch.  Not in assisted mode, no plugin loaded, so
    all the new literals are "non-dmt" (destructive.go:410-437). *)
Variable same : list term -> list term -> bool.
(** form_and_terms_list.go:222-240 FilterLitPolarity *)
Definition filter_pol (pos : bool) (l : list fat) : list fat :=
  fold_left (fun res f => match ft_form f with
                          | Pred _ _ _ _ => if pos then fl_append same res f else res
                          | Not _ (Pred _ _ _ _) => if pos then res else fl_append same res f
                          | _ => res
                          end) l [].
(** form_and_terms_list.go:186-192 ExtractForms, Lib/list.go:205-209 ListAdd *)
Definition extract (l : list fat) : list form :=
  fold_left (fun res f => if existsb (fun g => form_eqb g (ft_form f)) res then res else res ++ [ft_form f]) l [].
(** destructive.go:374-383: the first literal with a contradiction *)
Fixpoint first_contradiction (tpos tneg : node) (forb : list (list mixed)) (l : list fat) : out (option (form * list (list mixed))) :=
  match l with
  | [] => Ok None
  | f :: r =>
    do x <- apply_closure tpos tneg forb (ft_form f);
    if fst x : bool then Ok (Some (ft_form f, snd x)) else first_contradiction tpos tneg forb r
  end.
(** destructive.go:359-383: the trees are built again from the literals of the branch, the new ones included *)
Definition step_closure (atomic news : list fat) (forb : list (list mixed)) : out (option (form * list (list mixed))) :=
  let plus := filter_pol true news in
  let minus := filter_pol false news in
  match make_tree name_id (atoms true (extract (fl_merge same atomic plus))),
        make_tree name_id (atoms false (extract (fl_merge same atomic minus))) with
  | Some tpos, Some tneg => first_contradiction tpos tneg forb (plus ++ minus)
  | _, _ => Crash
  end.
(** destructive.go:326-345: the literals among the new formulas, up to the first obvious contradiction *)
Fixpoint new_literals (l : list fat) (acc : list fat) : form + list fat :=
  match l with
  | [] => inr acc
  | f :: r =>
    match kind_of_rule (ft_form f) with
    | KAtomic => if obvious_closure (ft_form f) then inl (ft_form f) else new_literals r (acc ++ [f])
    | _ => new_literals r acc
    end
  end.
(** destructive.go:326-383: what the call of ProofSearch on the state finds *)
Definition state_closure (st : state) (forb : list (list mixed)) : out (option (form * list (list mixed))) :=
  match new_literals (q_lf (st_q st)) [] with
  | inl f => Ok (Some (f, []))
  | inr news => step_closure (q_atomic (st_q st)) news forb
  end.
End Closure.
