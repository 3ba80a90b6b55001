(** Model of the tableau rules: src/Core/rules_type.go, src/Core/form_and_terms*.go,
    src/Core/instanciation.go, src/Core/skolemisation.go, src/Core/Sko, src/Core/meta_gen.go,
    src/Search/rules.go, src/Search/state.go (rule queues).

    Simplifications:
    - the comparison of the two term lists of a FormAndTerms (term-list.go:106-118, which sorts
      both lists with an unstable sort) is an arbitrary boolean function [same]: every theorem is
      for all of them;
    - the recording of the proof (setStateRules) is left out;
    - strings.ToUpper is the ASCII one;
    - out-of-range accesses, Glob.Anomaly and Glob.Fatal are [None]. *)
From Coq Require Import ZArith List Bool String Ascii.
From Verif Require Import LibSet_Model Ast_Model Problem_Model.
Import ListNotations.
Open Scope Z_scope.

(** Core/rules_type.go:56-64 *)
Inductive kind : Type := KAtomic | KAlpha | KBeta | KDelta | KGamma.
(** Core/rules_type.go:71-99 ShowKindOfRule *)
Definition kind_of_rule (f : form) : kind :=
  match f with
  | Pred _ _ _ _ | Top _ | Bot _ => KAtomic
  | Not _ g =>
    match g with
    | Pred _ _ _ _ | Top _ | Bot _ => KAtomic
    | Not _ _ | Imp _ _ _ | Or _ _ => KAlpha
    | And _ _ | Equ _ _ _ => KBeta
    | Ex _ _ _ => KGamma
    | All _ _ _ => KDelta
    end
  | And _ _ => KAlpha
  | Or _ _ | Imp _ _ _ | Equ _ _ _ => KBeta
  | Ex _ _ _ => KDelta
  | All _ _ _ => KGamma
  end.

(** Core/form_and_terms.go:44-47 *)
Record fat : Type := mkFat { ft_form : form; ft_terms : list term }.

Section Same.
Variable same : list term -> list term -> bool.

(** Core/form_and_terms.go:77-80 *)
Definition fat_eqb (a b : fat) : bool :=
  form_eqb (ft_form a) (ft_form b) && same (ft_terms a) (ft_terms b).
(** Core/form_and_terms_list.go:142-149 *)
Definition fl_contains (fl : list fat) (f : fat) : bool := existsb (fun v => fat_eqb f v) fl.
(** Core/form_and_terms_list.go:152-158 *)
Definition fl_append (fl : list fat) (f : fat) : list fat :=
  if fl_contains fl f then fl else fl ++ [f].
(** Core/form_and_terms_list.go:178-184 *)
Definition fl_merge (l1 l2 : list fat) : list fat := fold_left fl_append l2 l1.

(** ** Alpha rules: Search/rules.go:239-332 *)
(** 294-298: the loop of NotOr *)
Fixpoint alpha_not_or (fs : list form) (terms : list term) (res : list fat) (g : gen) : list fat * gen :=
  match fs with
  | [] => (res, g)
  | f :: r => let '(nf, g1) := maker_not f g in alpha_not_or r terms (fl_append res (mkFat nf terms)) g1
  end.
Definition apply_alpha (x : fat) (g : gen) : list fat * gen :=
  let terms := ft_terms x in
  match ft_form x with
  | Not _ (Not _ f) => (fl_append [] (mkFat f terms), g)
  | Not _ (Or _ fs) => alpha_not_or fs terms [] g
  | Not _ (Imp _ a b) =>
    let res := fl_append [] (mkFat a terms) in
    let '(nb, g1) := maker_not b g in (fl_append res (mkFat nb terms), g1)
  | And _ fs => (fold_left (fun res f => fl_append res (mkFat f terms)) fs [], g)
  | _ => ([], g)
  end.

(** ** Beta rules: Search/rules.go:342-464 *)
Fixpoint beta_not_and (fs : list form) (terms : list term) (g : gen) : list (list fat) * gen :=
  match fs with
  | [] => ([], g)
  | f :: r =>
    let '(nf, g1) := maker_not f g in
    let '(l, g2) := beta_not_and r terms g1 in ([mkFat nf terms] :: l, g2)
  end.
Definition apply_beta (x : fat) (g : gen) : list (list fat) * gen :=
  let terms := ft_terms x in
  match ft_form x with
  | Not _ (And _ fs) => beta_not_and fs terms g
  | Not _ (Equ _ a b) =>
    let '(na, g1) := maker_not a g in
    let '(nb, g2) := maker_not b g1 in
    ([[mkFat na terms; mkFat b terms]; [mkFat a terms; mkFat nb terms]], g2)
  | Or _ fs => (map (fun f => [mkFat f terms]) fs, g)
  | Imp _ a b => let '(na, g1) := maker_not a g in ([[mkFat na terms]; [mkFat b terms]], g1)
  | Equ _ a b =>
    let '(na, g1) := maker_not a g in
    let '(nb, g2) := maker_not b g1 in
    ([[mkFat na terms; mkFat nb terms]; [mkFat a terms; mkFat b terms]], g2)
  | _ => ([], g)
  end.

(** ** Gamma rules *)
Definition upper_ascii (c : ascii) : ascii :=
  let n := nat_of_ascii c in
  if (Nat.leb 97 n && Nat.leb n 122)%bool then ascii_of_nat (n - 32) else c.
Fixpoint to_upper (s : string) : string :=
  match s with EmptyString => EmptyString | String c r => String (upper_ascii c) (to_upper r) end.

(** AST/formsDef.go:97 MakerAll, 152 MakerEx *)
Definition maker_all (vs : list tvar) (f : form) (g : gen) : form * gen :=
  let '(i, g') := maker_index_formula g in (All i vs f, g').
Definition maker_ex (vs : list tvar) (f : form) (g : gen) : form * gen :=
  let '(i, g') := maker_index_formula g in (Ex i vs f, g').

(** Lib/list.go:197-203 Add with AST.TermEquals *)
Definition term_list_add (l : list term) (t : term) : list term :=
  if existsb (term_eqb t) l then l else l ++ [t].

(** Core/instanciation.go:75-113 RealInstantiate; [ex] is the status is_exists *)
Definition real_instantiate (vs : list tvar) (index : Z) (ex : bool) (sub : form) (terms : list term) (g : gen)
  : option (fat * option meta * gen) :=
  match vs with
  | [] => None
  | v :: rest =>
    let r :=
      if is_ttype (tv_ty v) then
        let '(m, g1) := maker_tymeta (to_upper (tv_name v)) index g in
        Some (form_subst_ty (TyBound (tv_name v) (tv_index v)) m sub, terms, None, g1)
      else
        let '(m, g1) := maker_meta (to_upper (tv_name v)) index (tv_ty v) g in
        match subst_var_meta (tv_index v) (tv_name v) m sub with
        | Some sub' => Some (sub', term_list_add terms (Meta m), Some m, g1)
        | None => None
        end in
    match r with
    | None => None
    | Some (sub', terms', m, g1) =>
      let '(res, g2) :=
        match rest with
        | [] => if ex then maker_not sub' g1 else (sub', g1)
        | _ :: _ =>
          if ex then let '(e, g2) := maker_ex rest sub' g1 in maker_not e g2
          else maker_all rest sub' g1
        end in
      Some (mkFat res terms', m, g2)
    end
  end.
(** Core/instanciation.go:51-73 Instantiate; Search/rules.go:501-512 ApplyGammaRules *)
Definition apply_gamma (x : fat) (index : Z) (g : gen) : option (fat * option meta * gen) :=
  match ft_form x with
  | Not _ (Ex _ vs f) => real_instantiate vs index true f (ft_terms x) g
  | All _ vs f => real_instantiate vs index false f (ft_terms x) g
  | _ => None
  end.

(** ** Delta rules *)
(** Core/Sko/*.go: the selected Skolemization and its state *)
Inductive sko_kind : Type := Outer | Inner | PreInner.
Record sko : Type := mkSko
  { sk_kind : sko_kind;
    sk_count : Z;                       (* Cardinal of existingSymbols *)
    sk_linked : list (form * ident) }.  (* linkedSymbols, PreInner only *)

(** Core/Sko/interface.go:63-70 genFreshSymbol *)
Definition gen_fresh_symbol (s : sko) (x : tvar) (g : gen) : ident * sko * gen :=
  let '(i, g1) := maker_new_id
    (append "skolem@" (append (tv_name x) (append "@" (dec (sk_count s))))) g in
  (i, mkSko (sk_kind s) (sk_count s + 1) (sk_linked s), g1).

(** Core/Sko/preinner-skolemization.go:99-101 *)
Definition fresh (k : Z) : string := append "x@" (dec k).

(** Go map[int]AST.Var: first binding wins, assignment adds in front *)
Definition vsubst := list (Z * (Z * string)).
Fixpoint vlookup (i : Z) (s : vsubst) : option (Z * string) :=
  match s with
  | [] => None
  | (k, v) :: r => if i =? k then Some v else vlookup i r
  end.
(** preinner-skolemization.go:186-206 alphaConvertTerm *)
Fixpoint alpha_convert_term (s : vsubst) (t : term) : term :=
  match t with
  | Var i n => match vlookup i s with Some (j, m) => Var j m | None => Var i n end
  | Fun p tys args => Fun p tys (map (alpha_convert_term s) args)
  | _ => t
  end.
(** preinner-skolemization.go:172-184 makeConvertedVarList *)
Fixpoint converted_vars (k : Z) (s : vsubst) (vs : list tvar) : vsubst * list tvar :=
  match vs with
  | [] => (s, [])
  | v :: r =>
    let '(s', l) := converted_vars (k + 1) ((tv_index v, (k, fresh k)) :: s) r in
    (s', mkTV (fresh k) k (tv_ty v) :: l)
  end.
(** preinner-skolemization.go:103-170 alphaConvert.  The map is shared: what a subformula adds to it
    is seen by the subformulas converted later. *)
Fixpoint alpha_convert (f : form) (k : Z) (s : vsubst) {struct f} : form * vsubst :=
  let go := fix go (l : list form) (s : vsubst) : list form * vsubst :=
    match l with
    | [] => ([], s)
    | a :: r => let '(a', s1) := alpha_convert a k s in
                let '(r', s2) := go r s1 in (a' :: r', s2)
    end in
  match f with
  | Top _ | Bot _ => (f, s)
  | Pred i p tys args => (Pred i p tys (map (alpha_convert_term s) args), s)
  | Not i h => let '(h', s1) := alpha_convert h k s in (Not i h', s1)
  | Imp i a b => let '(a', s1) := alpha_convert a k s in
                 let '(b', s2) := alpha_convert b k s1 in (Imp i a' b', s2)
  | Equ i a b => let '(a', s1) := alpha_convert a k s in
                 let '(b', s2) := alpha_convert b k s1 in (Equ i a' b', s2)
  | And i fs => let '(l, s1) := go fs s in (And i l, s1)
  | Or i fs => let '(l, s1) := go fs s in (Or i l, s1)
  | All i vs h => let '(s1, vl) := converted_vars k s vs in
                  let '(h', s2) := alpha_convert h (k + Z.of_nat (List.length vs)) s1 in (All i vl h', s2)
  | Ex i vs h => let '(s1, vl) := converted_vars k s vs in
                 let '(h', s2) := alpha_convert h (k + Z.of_nat (List.length vs)) s1 in (Ex i vl h', s2)
  end.

(** Lib/list.go:215-222 Find, as used in preinner-skolemization.go:72-75 *)
Fixpoint find_linked (d : form) (l : list (form * ident)) : option ident :=
  match l with
  | [] => None
  | (f, i) :: r => if form_eqb f d then Some i else find_linked d r
  end.

(** the three Skolemize methods: outer-skolemization.go:60-83, inner-skolemization.go:60-83,
    preinner-skolemization.go:63-97.  [delta] is the whole formula, [form] its body. *)
Definition sko_symbol (s : sko) (delta : form) (x : tvar) (g : gen) : ident * sko * gen :=
  match sk_kind s with
  | Outer | Inner => gen_fresh_symbol s x g
  | PreInner =>
    let real := fst (alpha_convert delta 0 []) in
    match find_linked real (sk_linked s) with
    | Some i => (i, s, g)
    | None => let '(i, s1, g1) := gen_fresh_symbol s x g in
              (i, mkSko (sk_kind s1) (sk_count s1) (sk_linked s1 ++ [(real, i)]), g1)
    end
  end.
Definition sko_args (s : sko) (body : form) (metas : mset) : option (list term) :=
  match sk_kind s with
  | Outer => Some (map Meta (elements metas))
  | Inner | PreInner => option_map (fun ms => map Meta (elements ms)) (form_metas body)
  end.
Definition sko_skolemize (s : sko) (delta body : form) (x : tvar) (metas : mset) (g : gen)
  : option (form * sko * gen) :=
  let '(sym, s1, g1) := sko_symbol s delta x g in
  match sko_args s body metas with
  | None => None
  | Some args =>
    match replace_term (Var (tv_index x) (tv_name x)) (Fun sym [] args) body with
    | Some (r, _) => Some (r, s1, g1)
    | None => None
    end
  end.

(** Core/skolemisation.go:121-157 realSkolemize; [neg] is typ = isNegAll *)
Definition real_skolemize (s : sko) (initial body : form) (vs : list tvar) (metas : mset) (neg : bool) (g : gen)
  : option (form * sko * gen) :=
  match vs with
  | [] => None
  | x :: rest =>
    let r :=
      if is_ttype (tv_ty x) then
        let '(i, g1) := maker_id "skoTy" g in
        let '(i2, g2) := maker_id (append "skoTy@" (dec (id_index i))) g1 in
        Some (form_subst_ty (TyBound (tv_name x) (tv_index x)) (TyConstr (id_name i2) []) body, s, g2)
      else sko_skolemize s initial body x metas g in
    match r with
    | None => None
    | Some (res, s1, g1) =>
      let '(res', g2) :=
        match rest with
        | [] => (res, g1)
        | _ :: _ => if neg then maker_all rest res g1 else maker_ex rest res g1
        end in
      let '(res'', g3) := if neg then maker_not res' g2 else (res', g2) in
      Some (res'', s1, g3)
    end
  end.
(** Core/skolemisation.go:89-119 Skolemize *)
Definition skolemize (s : sko) (f : form) (metas : mset) (g : gen) : option (form * sko * gen) :=
  match f with
  | Not _ (All _ vs h) => real_skolemize s f h vs metas true g
  | Ex _ vs h => real_skolemize s f h vs metas false g
  | _ => None
  end.
(** Search/rules.go:474-490 ApplyDeltaRules: [mm], [mc] are the metavariables of the state *)
Definition apply_delta (s : sko) (x : fat) (mm mc : mset) (g : gen) : option (fat * sko * gen) :=
  match mset_union (nodeCpy mm) mc with
  | None => None
  | Some metas =>
    match skolemize s (ft_form x) metas g with
    | Some (f, s1, g1) => Some (mkFat f (map Meta (elements metas)), s1, g1)
    | None => None
    end
  end.

(** ** Rule queues of a state: Search/state.go:55-70 (the formula lists) *)
Record queues : Type := mkQ
  { q_lf : list fat; q_atomic : list fat; q_alpha : list fat; q_beta : list fat;
    q_delta : list fat; q_gamma : list fat }.
(** Search/state.go:470-489 DispatchForm *)
Definition dispatch (f : fat) (q : queues) : queues :=
  match kind_of_rule (ft_form f) with
  | KAtomic => mkQ (q_lf q) (fl_append (q_atomic q) f) (q_alpha q) (q_beta q) (q_delta q) (q_gamma q)
  | KAlpha => mkQ (q_lf q) (q_atomic q) (fl_append (q_alpha q) f) (q_beta q) (q_delta q) (q_gamma q)
  | KBeta => mkQ (q_lf q) (q_atomic q) (q_alpha q) (fl_append (q_beta q) f) (q_delta q) (q_gamma q)
  | KDelta => mkQ (q_lf q) (q_atomic q) (q_alpha q) (q_beta q) (fl_append (q_delta q) f) (q_gamma q)
  | KGamma => mkQ (q_lf q) (q_atomic q) (q_alpha q) (q_beta q) (q_delta q) (fl_append (q_gamma q) f)
  end.
(** Search/state.go:518-527 GetAllForms *)
Definition all_forms (q : queues) : list fat :=
  fl_merge (fl_merge (fl_merge (fl_merge (fl_merge (fl_merge [] (q_lf q)) (q_atomic q)) (q_alpha q))
    (q_beta q)) (q_delta q)) (q_gamma q).

End Same.

(** ** Closure without substitution: Search/rules.go:139-155 searchObviousClosureRule *)
Definition obvious_closure (f : form) : bool :=
  match f with
  | Bot _ => true
  | Not _ (Top _) => true
  | _ => false
  end.

(** ** Reintroduction: Core/meta_gen.go.  Only the counters are kept: the formulas are never looked at. *)
(** meta_gen.go:120-130 chooseLessReintroducedMeta with allowed_indexes = nil *)
Fixpoint choose_loop (l : list Z) (i saved_ix : nat) (saved_cpt : Z) : nat :=
  match l with
  | [] => saved_ix
  | v :: r => if (v <? saved_cpt) || (saved_cpt =? -1) then choose_loop r (S i) i v
              else choose_loop r (S i) saved_ix saved_cpt
  end.
Definition choose_less (l : list Z) : nat := choose_loop l 0 0 (-1).
Fixpoint incr_at (l : list Z) (i : nat) : list Z :=
  match l, i with
  | [], _ => []
  | v :: r, O => (v + 1) :: r
  | v :: r, S j => v :: incr_at r j
  end.
(** meta_gen.go:159-169 ReintroduceMeta: new counters and position of the chosen formula.
    [index = None] is the value -1. *)
Definition reintroduce (l : list Z) (index : option nat) (limit : Z) : option (list Z * nat) :=
  let least := match l with
               | [] => None                     (* index out of range *)
               | _ => let i := choose_less l in Some (incr_at l i, i)
               end in
  match index with
  | Some i => match nth_error l i with
              | None => None
              | Some c => if c <=? limit then Some (incr_at l i, i) else least
              end
  | None => least
  end.
(** meta_gen.go:100-108 GetIndexMetaGenList for a formula that is not in the list *)
Definition register (l : list Z) : list Z := l ++ [1].
