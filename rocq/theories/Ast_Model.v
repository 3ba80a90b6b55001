(** Model of src/AST: types, terms, formulas and the functions on them.

    General simplifications of this file:
    - Go [int] indices are unbounded integers [Z].
    - [Copy] methods are the identity (values are immutable here; the one in-place update,
      LsSubstByTerm, is modelled with a heap in FormHeap_Model.v).
    - the [metas] cache of each node is not stored: every node is built by MkCache with shouldUpdate = true,
      GetMetas has a value receiver (the flag it clears is the one of a copy), and AvoidUpd is only
      called when the flag of another node is already cleared; so GetMetas always recomputes.
    - Glob.Anomaly / Glob.Fatal (process abort) are the value [None]. *)
From Coq Require Import ZArith List Bool String DecimalString.
From Verif Require Import LibSet_Model.
Import ListNotations.
Open Scope Z_scope.

(** ** Types: AST/ty-syntax.go *)

(** ty-syntax.go:64-66 tyVar, 82-85 TyBound, 108-112 TyMeta, 146-149 TyConstr, 190-192 TyProd,
    224-226 TyFunc, 251-254 TyPi *)
Inductive ty : Type :=
| TyVar (repr : string)
| TyBound (name : string) (index : Z)
| TyMeta (name : string) (index : Z) (formula : Z)
| TyConstr (symbol : string) (args : list ty)
| TyProd (args : list ty)
| TyFunc (tin tout : ty)
| TyPi (vars : list string) (body : ty).

(** list.go:95-112 List.Equals / ListEquals *)
Definition list_eqb {A} (eqb : A -> A -> bool) : list A -> list A -> bool :=
  fix go (l1 l2 : list A) : bool :=
  match l1, l2 with
  | [], [] => true
  | x :: r1, y :: r2 => eqb x y && go r1 r2
  | _, _ => false
  end.

(** ty-syntax.go:72-77, 92-97, 119-124, 163-169, 207-212, 236-241, 268-275 Equals *)
Fixpoint ty_eqb (a b : ty) {struct a} : bool :=
  match a, b with
  | TyVar r1, TyVar r2 => String.eqb r1 r2
  | TyBound n1 _, TyBound n2 _ => String.eqb n1 n2
  | TyMeta n1 i1 _, TyMeta n2 i2 _ => String.eqb n1 n2 && (i1 =? i2)
  | TyConstr s1 l1, TyConstr s2 l2 => String.eqb s1 s2 && list_eqb ty_eqb l1 l2
  | TyProd l1, TyProd l2 => list_eqb ty_eqb l1 l2
  | TyFunc a1 b1, TyFunc a2 b2 => ty_eqb a1 a2 && ty_eqb b1 b2
  | TyPi v1 t1, TyPi v2 t2 => list_eqb String.eqb v1 v2 && ty_eqb t1 t2
  | _, _ => false
  end.

(** ty-syntax.go:80, 101-106, 127-132, 183-188, 218-222, 247-249, 281-283 SubstTy.  [old] is a TyGenVar,
    i.e. a TyBound or a TyMeta. *)
Fixpoint subst_ty (old new : ty) (t : ty) : ty :=
  match t with
  | TyVar _ => t
  | TyBound _ _ => if ty_eqb t old then new else t
  | TyMeta _ _ _ => if ty_eqb t old then new else t
  | TyConstr s args => TyConstr s (map (subst_ty old new) args)
  | TyProd args => TyProd (map (subst_ty old new) args)
  | TyFunc a b => TyFunc (subst_ty old new a) (subst_ty old new b)
  | TyPi vs b => TyPi vs (subst_ty old new b)
  end.

(** tptp-native-types.go:55, 91-93 *)
Definition tType : ty := TyConstr "$tType" [].
Definition is_ttype (t : ty) : bool := ty_eqb t tType.

(** ** Terms: AST/termsDef.go *)

(** termsDef.go:49-52 *)
Record ident : Type := mkId { id_index : Z; id_name : string }.
(** termsDef.go:310-316 *)
Record meta : Type := mkMeta
  { m_index : Z; m_occ : Z; m_name : string; m_formula : Z; m_ty : ty }.

(** termsDef.go:49 (Id is itself a Term), 113-118 Fun, 262-265 Var, 310 Meta *)
Inductive term : Type :=
| TId (i : ident)
| Fun (p : ident) (tys : list ty) (args : list term)
| Var (index : Z) (name : string)
| Meta (m : meta).

(** termsDef.go:64-69 *)
Definition id_eqb (a b : ident) : bool := id_index a =? id_index b.
(** termsDef.go:331-336 *)
Definition meta_eqb (a b : meta) : bool := m_index a =? m_index b.
(** termsDef.go:355-363 *)
Definition meta_ltb (a b : meta) : bool := m_index a <? m_index b.

(** termsDef.go:54, 136, 268, 322 GetIndex *)
Definition term_index (t : term) : Z :=
  match t with
  | TId i => id_index i
  | Fun p _ _ => id_index p
  | Var i _ => i
  | Meta m => m_index m
  end.

(** termsDef.go:64-69, 142-155, 277-282, 331-336 Equals.  Go swaps receiver and argument at
    each Fun level; the comparison of leaves is symmetric, so the order is kept here. *)
Fixpoint term_eqb (a b : term) {struct a} : bool :=
  match a, b with
  | TId i, TId j => id_eqb i j
  | Fun p1 t1 l1, Fun p2 t2 l2 =>
    id_eqb p1 p2 && list_eqb ty_eqb t1 t2 && list_eqb term_eqb l1 l2
  | Var i _, Var j _ => i =? j
  | Meta m, Meta n => meta_eqb m n
  | _, _ => false
  end.

(** Sets of metavariables are Lib.Set[Meta]; [None] would be a nil dereference in sets.go. *)
Definition mset := tree meta.
Definition mset_union : mset -> mset -> option mset := set_union meta_eqb meta_ltb.

(** termsDef.go:60, 166-178, 274, 327 GetMetas (metavariables inside type arguments are not
    looked at) *)
Fixpoint get_metas (t : term) : option mset :=
  match t with
  | TId _ | Var _ _ => Some Leaf
  | Meta m => set_singleton meta_eqb meta_ltb m
  | Fun _ _ args =>
    fold_left (fun acc a =>
      match acc, get_metas a with
      | Some s, Some s' => mset_union s s'
      | _, _ => None
      end) args (Some Leaf)
  end.

(** termsDef.go:71-76, 195-206, 288-293, 342-347 ReplaceSubTermBy, with
    term-list.go:60-82 replaceFirstOccurrenceTermList inlined as the inner fixpoint. *)
Fixpoint replace_sub (old new : term) (t : term) {struct t} : term :=
  match t with
  | Fun p tys args =>
    if term_eqb t old then new
    else Fun p tys
      ((fix go (updated : bool) (l : list term) : list term :=
          match l with
          | [] => []
          | c :: r =>
            let m := replace_sub old new c in
            if negb (term_eqb c m) && negb updated
            then m :: go true r
            else c :: go updated r
          end) false args)
  | _ => if term_eqb t old then new else t
  end.

(** termsDef.go:225-236 Fun.ReplaceAllSubTerm, with term-list.go:87-104 ReplaceOccurrence *)
Definition replace_all_sub (old new : term) (t : term) : term :=
  match t with
  | Fun p tys args =>
    if term_eqb t old then new else Fun p tys (map (replace_sub old new) args)
  | _ => replace_sub old new t
  end.

(** termsDef.go:78, 208-223, 295, 349 SubstTy *)
Fixpoint term_subst_ty (old new : ty) (t : term) : term :=
  match t with
  | Fun p tys args => Fun p (map (subst_ty old new) tys) (map (term_subst_ty old new) args)
  | _ => t
  end.

(** formula.go:65-112 replaceTermInTermList, one element of the list.
    The result for [TId] is an Anomaly (line 107): [None]. *)
Fixpoint replace_tt (old new : term) (t : term) {struct t} : option (term * bool) :=
  match t with
  | TId _ => None
  | Var i _ => if term_index old =? i then Some (new, true) else Some (t, false)
  | Fun p tys args =>
    if term_index old =? id_index p then Some (new, true)
    else
      match
        (fix go (l : list term) : option (list term * bool) :=
           match l with
           | [] => Some ([], false)
           | a :: r =>
             match replace_tt old new a, go r with
             | Some (a', b), Some (r', b') => Some (a' :: r', b || b')
             | _, _ => None
             end
           end) args
      with
      | Some (args', b) => Some (Fun p tys args', b)
      | None => None
      end
  | Meta _ => if term_eqb old new then Some (new, true) else Some (t, false)
  end.

(** formula.go:65-112 *)
Fixpoint replace_tt_list (old new : term) (l : list term) : option (list term * bool) :=
  match l with
  | [] => Some ([], false)
  | a :: r =>
    match replace_tt old new a, replace_tt_list old new r with
    | Some (a', b), Some (r', b') => Some (a' :: r', b || b')
    | _, _ => None
    end
  end.

(** ** Formulas: AST/formsDef.go, AST/quantifiers.go *)

(** typed-vars.go:43-47 *)
Record tvar : Type := mkTV { tv_name : string; tv_index : Z; tv_ty : ty }.

(** formsDef.go:85 All, 140 Ex, 195 Or, 299 And, 423 Equ, 535 Imp, 650 Not, 789 Pred,
    1000 Top, 1028 Bot; the first field is the formula index. *)
Inductive form : Type :=
| All (ix : Z) (vars : list tvar) (f : form)
| Ex (ix : Z) (vars : list tvar) (f : form)
| Or (ix : Z) (fs : list form)
| And (ix : Z) (fs : list form)
| Equ (ix : Z) (f g : form)
| Imp (ix : Z) (f g : form)
| Not (ix : Z) (f : form)
| Pred (ix : Z) (p : ident) (tys : list ty) (args : list term)
| Top (ix : Z)
| Bot (ix : Z).

(** GetIndex: formsDef.go:219, 340, 446, 558, 674, 838, 1019, 1047; quantifiers.go:63 *)
Definition form_index (f : form) : Z :=
  match f with
  | All i _ _ | Ex i _ _ | Or i _ | And i _ | Equ i _ _ | Imp i _ _ | Not i _
  | Pred i _ _ _ | Top i | Bot i => i
  end.

(** typed-vars.go:53-59 *)
Definition tvar_eqb (a b : tvar) : bool :=
  String.eqb (tv_name a) (tv_name b) && (tv_index a =? tv_index b) && ty_eqb (tv_ty a) (tv_ty b).

(** formsDef.go:101-106, 156-161, 241-244, 362-368, 477-481, 589-595, 690-696, 872-880, 1014,
    1042; quantifiers.go:101-107 Equals *)
Fixpoint form_eqb (a b : form) {struct a} : bool :=
  match a, b with
  | All _ v1 f1, All _ v2 f2 => list_eqb tvar_eqb v1 v2 && form_eqb f1 f2
  | Ex _ v1 f1, Ex _ v2 f2 => list_eqb tvar_eqb v1 v2 && form_eqb f1 f2
  | Or _ l1, Or _ l2 => list_eqb form_eqb l1 l2
  | And _ l1, And _ l2 => list_eqb form_eqb l1 l2
  | Equ _ f1 g1, Equ _ f2 g2 => form_eqb f1 f2 && form_eqb g1 g2
  | Imp _ f1 g1, Imp _ f2 g2 => form_eqb f1 f2 && form_eqb g1 g2
  | Not _ f1, Not _ f2 => form_eqb f1 f2
  | Pred _ p1 t1 l1, Pred _ p2 t2 l2 =>
    id_eqb p1 p2 && list_eqb ty_eqb t1 t2 && list_eqb term_eqb l1 l2
  | Top _, Top _ => true
  | Bot _, Bot _ => true
  | _, _ => false
  end.

(** metasUnion formula.go:116-124; GetMetas / forceGetMetas: formsDef.go:223-229, 344-350,
    458-467, 570-579, 678-684, 882-894, 1015, 1043; quantifiers.go:75-81 *)
Definition union_opt (a b : option mset) : option mset :=
  match a, b with Some s, Some s' => mset_union s s' | _, _ => None end.

Fixpoint form_metas (f : form) : option mset :=
  match f with
  | All _ _ f | Ex _ _ f | Not _ f => form_metas f
  | Or _ fs | And _ fs => fold_left (fun acc g => union_opt acc (form_metas g)) fs (Some Leaf)
  | Equ _ f g | Imp _ f g => union_opt (option_map nodeCpy (form_metas f)) (form_metas g)
  | Pred _ _ _ args => fold_left (fun acc t => union_opt acc (get_metas t)) args (Some Leaf)
  | Top _ | Bot _ => Some Leaf
  end.

(** ReplaceTermByTerm: formsDef.go:120-123, 175-178, 261-268, 385-392, 483-493, 597-608, 713-722,
    911-927, 1016, 1044; quantifiers.go:129-138; formula.go:127-138.
    Binders are not looked at. *)
Fixpoint replace_term (old new : term) (f : form) {struct f} : option (form * bool) :=
  let two (a b : option (form * bool)) (k : form -> form -> form) :=
    match a, b with
    | Some (x, r1), Some (y, r2) => Some (k x y, r1 || r2)
    | _, _ => None
    end in
  let go := fix go (l : list form) : option (list form * bool) :=
    match l with
    | [] => Some ([], false)
    | a :: r =>
      match replace_term old new a, go r with
      | Some (a', b), Some (r', b') => Some (a' :: r', b || b')
      | _, _ => None
      end
    end in
  match f with
  | All i vs g =>
    match replace_term old new g with Some (g', b) => Some (All i vs g', b) | None => None end
  | Ex i vs g =>
    match replace_term old new g with Some (g', b) => Some (Ex i vs g', b) | None => None end
  | Or i fs => match go fs with Some (l, b) => Some (Or i l, b) | None => None end
  | And i fs => match go fs with Some (l, b) => Some (And i l, b) | None => None end
  | Equ i a b => two (replace_term old new a) (replace_term old new b) (Equ i)
  | Imp i a b => two (replace_term old new a) (replace_term old new b) (Imp i)
  | Not i g =>
    match replace_term old new g with Some (g', b) => Some (Not i g', b) | None => None end
  | Pred i p tys args =>
    match replace_tt_list old new args with
    | Some (l, b) => Some (Pred i p tys l, b)
    | None => None
    end
  | Top _ | Bot _ => Some (f, false)
  end.

(** typed-vars.go:85-87 *)
Definition tvar_subst_ty (old new : ty) (v : tvar) : tvar :=
  mkTV (tv_name v) (tv_index v) (subst_ty old new (tv_ty v)).

(** SubstTy: formsDef.go:125, 180, 270-273, 394-397, 495-502, 610-617, 724-730, 929-945, 1017, 1045;
    quantifiers.go:140-152 (binders are not looked at) *)
Fixpoint form_subst_ty (old new : ty) (f : form) : form :=
  match f with
  | All i vs g => All i (map (tvar_subst_ty old new) vs) (form_subst_ty old new g)
  | Ex i vs g => Ex i (map (tvar_subst_ty old new) vs) (form_subst_ty old new g)
  | Or i fs => Or i (map (form_subst_ty old new) fs)
  | And i fs => And i (map (form_subst_ty old new) fs)
  | Equ i a b => Equ i (form_subst_ty old new a) (form_subst_ty old new b)
  | Imp i a b => Imp i (form_subst_ty old new a) (form_subst_ty old new b)
  | Not i g => Not i (form_subst_ty old new g)
  | Pred i p tys args => Pred i p (map (subst_ty old new) tys) (map (term_subst_ty old new) args)
  | Top _ | Bot _ => f
  end.

(** SubstituteVarByMeta: formsDef.go:56-80, 129-131, 184-186, 279-282, 403-406, 515-518, 630-633,
    746-749, 958-978, 1021, 1049; quantifiers.go:189-198.  Only the metas caches differ from
    ReplaceTermByTerm. *)
Definition subst_var_meta (i : Z) (n : string) (m : meta) (f : form) : option form :=
  match replace_term (Var i n) (Meta m) f with Some (g, _) => Some g | None => None end.

(** ReplaceMetaByTerm: formsDef.go:133-135, 188-190, 292-294, 416-418, 528-530, 643-645, 736-738,
    988-995, 1025, 1053; quantifiers.go:200-209; form-list.go:44-49.  This is the returned
    formula; the effect on the argument is in FormHeap_Model.v. *)
Fixpoint replace_meta (m : meta) (t : term) (f : form) : form :=
  match f with
  | All i vs g => All i vs (replace_meta m t g)
  | Ex i vs g => Ex i vs (replace_meta m t g)
  | Or i fs => Or i (map (replace_meta m t) fs)
  | And i fs => And i (map (replace_meta m t) fs)
  | Equ i a b => Equ i (replace_meta m t a) (replace_meta m t b)
  | Imp i a b => Imp i (replace_meta m t a) (replace_meta m t b)
  | Not i g => Not i (replace_meta m t g)
  | Pred i p tys args => Pred i p tys (map (replace_sub (Meta m) t) args)
  | Top _ | Bot _ => f
  end.

(** form-list.go:51-63 FlattenAnd, one formula of the list *)
Fixpoint flatten_and1 (f : form) : list form :=
  match f with
  | And _ fs => flat_map flatten_and1 fs
  | _ => [f]
  end.
Definition flatten_and (fs : list form) : list form := flat_map flatten_and1 fs.

(** formsDef.go:778-784 getDeepFormWithoutNot *)
Fixpoint deep_without_not (f : form) (isEven : bool) : form * bool :=
  match f with
  | Not _ g => deep_without_not g (negb isEven)
  | _ => (f, isEven)
  end.
(** formsDef.go:762-765 *)
Definition remove_neg (f : form) : form := fst (deep_without_not f true).
(** formsDef.go:768-776.  [ix] is the fresh formula index drawn by MakerNot. *)
Definition simplify_negations (ix : Z) (f : form) : form :=
  let '(g, even) := deep_without_not f true in
  if even then g else Not ix g.

(** ** Generators (sequential view): AST/maker.go.  Concurrency is in Conc_Model.v. *)

(** maker.go:47-52; ty-syntax.go:49.  Go maps are association lists: the first binding wins, an
    assignment adds in front. *)
Record gen : Type := mkGen
  { cpt_term : Z; cpt_formula : Z; count_meta : Z;
    idTable : list (string * Z); idVar : list (string * Z); occMeta : list (string * Z) }.

Fixpoint lookup (s : string) (l : list (string * Z)) : option Z :=
  match l with
  | [] => None
  | (k, v) :: r => if String.eqb s k then Some v else lookup s r
  end.

(** maker.go:76-82 Reset *)
Definition gen0 : gen := mkGen 0 0 0 [] [] [].

(** maker.go:101-108 *)
Definition maker_new_id (s : string) (g : gen) : ident * gen :=
  (mkId (cpt_term g) s,
   mkGen (cpt_term g + 1) (cpt_formula g) (count_meta g) ((s, cpt_term g) :: idTable g) (idVar g) (occMeta g)).
(** maker.go:90-99 *)
Definition maker_id (s : string) (g : gen) : ident * gen :=
  match lookup s (idTable g) with
  | Some i => (mkId i s, g)
  | None => maker_new_id s g
  end.
(** maker.go:122-129; returns the index of the variable *)
Definition maker_new_var (s : string) (g : gen) : Z * gen :=
  (cpt_term g,
   mkGen (cpt_term g + 1) (cpt_formula g) (count_meta g) (idTable g) ((s, cpt_term g) :: idVar g) (occMeta g)).
(** maker.go:111-120; also typed-vars.go:93-107 and ty-syntax.go:328-342 *)
Definition maker_var (s : string) (g : gen) : Z * gen :=
  match lookup s (idVar g) with
  | Some i => (i, g)
  | None => maker_new_var s g
  end.
(** maker.go:132-151 *)
Definition maker_meta (s : string) (formula : Z) (t : ty) (g : gen) : meta * gen :=
  let upd n := mkGen (cpt_term g + 1) (cpt_formula g) (count_meta g) (idTable g) (idVar g)
                     ((s, n) :: occMeta g) in
  match lookup s (occMeta g) with
  | Some i => (mkMeta (cpt_term g) i s formula t, upd (i + 1))
  | None => (mkMeta (cpt_term g) 0 s formula t, upd 1)
  end.
(** ty-syntax.go:299-305 MkTyMeta *)
Definition maker_tymeta (s : string) (formula : Z) (g : gen) : ty * gen :=
  (TyMeta s (count_meta g) formula,
   mkGen (cpt_term g) (cpt_formula g) (count_meta g + 1) (idTable g) (idVar g) (occMeta g)).
(** maker.go:164-170 *)
Definition maker_index_formula (g : gen) : Z * gen :=
  (cpt_formula g,
   mkGen (cpt_term g) (cpt_formula g + 1) (count_meta g) (idTable g) (idVar g) (occMeta g)).

(** fmt.Sprintf("%d", i) *)
Definition dec (i : Z) : string := NilZero.string_of_int (Z.to_int i).

(** quantifiers.go:159-170 : one iteration of the loop.  State: new variables (in order), pairs
    (old type variable, new type variable), formula. *)
Definition rename_step (v : tvar) (st : list tvar * list (ty * ty) * form) (g : gen)
  : option ((list tvar * list (ty * ty) * form) * gen) :=
  let '(nvs, tys, f) := st in
  let '(k, g1) := maker_new_var (tv_name v) g in
  let nname := append (tv_name v) (dec k) in
  let '(j, g2) := maker_var nname g1 in
  match replace_term (Var (tv_index v) (tv_name v)) (Var j nname) f with
  | None => None
  | Some (f', replaced) =>
    let nvs' := nvs ++ [mkTV nname j (tv_ty v)] in
    if replaced then Some ((nvs', tys, f'), g2)
    else
      let oldt := TyBound (tv_name v) (tv_index v) in
      let newt := TyBound nname j in
      Some ((nvs', tys ++ [(oldt, newt)], form_subst_ty oldt newt f'), g2)
  end.

Fixpoint rename_loop (vs : list tvar) (st : list tvar * list (ty * ty) * form) (g : gen)
  : option ((list tvar * list (ty * ty) * form) * gen) :=
  match vs with
  | [] => Some (st, g)
  | v :: r =>
    match rename_step v st g with
    | Some (st', g') => rename_loop r st' g'
    | None => None
    end
  end.

(** quantifiers.go:174-182 *)
Definition tvar_subst_pairs (ps : list (ty * ty)) (v : tvar) : tvar :=
  fold_left (fun v p => tvar_subst_ty (fst p) (snd p) v) ps v.

(** RenameVariables: quantifiers.go:154-187; formsDef.go:116-118, 171-173, 275-277, 399-401,
    504-506, 619-621, 732-734, 845, 1018, 1046; formula.go:147-155 *)
Fixpoint rename_variables (f : form) (g : gen) {struct f} : option (form * gen) :=
  let quant (k : list tvar -> form -> form) (vs : list tvar) (r : option (form * gen)) :=
    match r with
    | None => None
    | Some (h', g1) =>
      match rename_loop vs ([], [], h') g1 with
      | Some ((nvs, tys, h''), g2) => Some (k (map (tvar_subst_pairs tys) nvs) h'', g2)
      | None => None
      end
    end in
  let go := fix go (l : list form) (g : gen) : option (list form * gen) :=
    match l with
    | [] => Some ([], g)
    | a :: r =>
      match rename_variables a g with
      | None => None
      | Some (a', g1) =>
        match go r g1 with
        | Some (r', g2) => Some (a' :: r', g2)
        | None => None
        end
      end
    end in
  match f with
  | All i vs h => quant (All i) vs (rename_variables h g)
  | Ex i vs h => quant (Ex i) vs (rename_variables h g)
  | Or i fs => match go fs g with Some (l, g') => Some (Or i l, g') | None => None end
  | And i fs => match go fs g with Some (l, g') => Some (And i l, g') | None => None end
  | Equ i a b =>
    match rename_variables a g with
    | None => None
    | Some (a', g1) =>
      match rename_variables b g1 with
      | Some (b', g2) => Some (Equ i a' b', g2)
      | None => None
      end
    end
  | Imp i a b =>
    match rename_variables a g with
    | None => None
    | Some (a', g1) =>
      match rename_variables b g1 with
      | Some (b', g2) => Some (Imp i a' b', g2)
      | None => None
      end
    end
  | Not i h =>
    match rename_variables h g with Some (h', g1) => Some (Not i h', g1) | None => None end
  | Pred _ _ _ _ | Top _ | Bot _ => Some (f, g)
  end.
