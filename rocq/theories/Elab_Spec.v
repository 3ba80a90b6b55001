(** What a parsed formula means, stated on the parse-time syntax alone.

    Symbols and variables are known by their names.  A variable is an individual or a type: a
    quantifier binds it to a type value when its declared type is $tType, to an individual otherwise,
    within its body only.  A symbol is a type constructor or a function according to its declaration.
    An application gives the type values among its arguments and the individuals among its arguments
    to the interpretation of its symbol. *)
From Coq Require Import ZArith List Bool String.
From Verif Require Import Ast_Model Sem_Spec Elab_Model.
Import ListNotations.
Open Scope Z_scope.

Record ninterp (D T : Type) : Type := mkN {
  nfn : string -> list T -> list D -> D;
  npr : string -> list T -> list D -> Prop;
  ntc : string -> list T -> T }.
Arguments nfn {D T}. Arguments npr {D T}. Arguments ntc {D T}. Arguments mkN {D T}.

Fixpoint lefts {A B} (l : list (A + B)) : list A :=
  match l with [] => [] | inl a :: r => a :: lefts r | inr _ :: r => lefts r end.
Fixpoint rights {A B} (l : list (A + B)) : list B :=
  match l with [] => [] | inl _ :: r => rights r | inr b :: r => b :: rights r end.

Definition nupd {V} (env : string -> V) (x : string) (a : V) : string -> V :=
  fun y => if String.eqb y x then a else env y.

(** [tysym s]: the symbol is a type constructor *)
Fixpoint pval {D T} (N : ninterp D T) (tysym : string -> bool) (env : string -> D + T) (t : pterm) : D + T :=
  match t with
  | PVar x => env x
  | PFun s args _ =>
    let vs := map (pval N tysym env) args in
    if tysym s then inr (ntc N s (rights vs)) else inl (nfn N s (rights vs) (lefts vs))
  end.

Definition is_the_type (t : ptype) : bool :=
  match t with PTyFun s [] => String.eqb s "$tType" | _ => false end.

Fixpoint pforall {D T} (vs : list (string * ptype)) (k : (string -> D + T) -> Prop) (env : string -> D + T) : Prop :=
  match vs with
  | [] => k env
  | (x, t) :: r => if is_the_type t then forall a : T, pforall r k (nupd env x (inr a))
                   else forall d : D, pforall r k (nupd env x (inl d))
  end.
Fixpoint pexists {D T} (vs : list (string * ptype)) (k : (string -> D + T) -> Prop) (env : string -> D + T) : Prop :=
  match vs with
  | [] => k env
  | (x, t) :: r => if is_the_type t then exists a : T, pexists r k (nupd env x (inr a))
                   else exists d : D, pexists r k (nupd env x (inl d))
  end.

Fixpoint psat {D T} (N : ninterp D T) (tysym : string -> bool) (f : pform) (env : string -> D + T) {struct f} : Prop :=
  match f with
  | PTop => True
  | PBot => False
  | PPred s args => let vs := map (pval N tysym env) args in npr N s (rights vs) (lefts vs)
  | PNeg h => ~ psat N tysym h env
  | PBin PBinaryOr l r => psat N tysym l env \/ psat N tysym r env
  | PBin PBinaryAnd l r => psat N tysym l env /\ psat N tysym r env
  | PBin PBinaryImp l r => psat N tysym l env -> psat N tysym r env
  | PBin PBinaryEqu l r => psat N tysym l env <-> psat N tysym r env
  | PQuant PQuantAll vs h => pforall vs (psat N tysym h) env
  | PQuant PQuantEx vs h => pexists vs (psat N tysym h) env
  end.

(** The last declaration of a name. *)
Definition declared (con : context) (s : string) (t : ptype) : Prop :=
  exists l1 l2, con = l1 ++ (s, t) :: l2 /\ ~ In s (map fst l2).

(** The types of the grammar: atomic, mapping to an atomic type, quantified. *)
Fixpoint top_type (t : ptype) : Prop :=
  match t with
  | PTyVar _ | PTyFun _ _ => True
  | PTyBin PTypeMap _ r => is_atomic_ptype r = true
  | PTyBin PTypeProd _ _ => False
  | PTyQuant _ b => top_type b
  end.
Fixpoint result_type (t : ptype) : ptype :=
  match t with
  | PTyBin PTypeMap _ r => r
  | PTyQuant _ b => result_type b
  | _ => t
  end.
(** the type $tType, whatever it is applied to (only $tType itself is in the grammar) *)
Definition ttype_head (t : ptype) : bool :=
  match t with PTyFun s _ => String.eqb s "$tType" | _ => false end.

(** [kappa x = Some true]: [x] is the name of type variables; [Some false]: of individual variables;
    [None]: it is the name of no variable. *)
Definition kind (kappa : string -> option bool) (tysym : string -> bool) (t : pterm) : bool :=
  match t with
  | PVar x => match kappa x with Some true => true | _ => false end
  | PFun s _ _ => tysym s
  end.

(** Well-kinded terms: the variables are in scope, type constructors are applied to types only, a
    number is not a type, $tType is not used as a term. *)
Fixpoint wk_term (kappa : string -> option bool) (tysym : string -> bool) (scope : list string) (t : pterm) : Prop :=
  match t with
  | PVar x => In x scope /\ kappa x <> None
  | PFun s args def =>
    kappa s = None /\ s <> "$tType"%string
    /\ fold_right (fun a P => wk_term kappa tysym scope a /\ P) True args
    /\ (tysym s = true -> Forall (fun a => kind kappa tysym a = true) args)
    /\ match def with
       | None => True
       | Some d => tysym s = false /\ exists n, d = PTyFun n [] /\ n <> "$tType"%string
       end
  end.

(** Well-kinded formulas: moreover a name is always bound at the same kind. *)
Definition wk_vars (kappa : string -> option bool) (vs : list (string * ptype)) : Prop :=
  Forall (fun v => is_atomic_ptype (snd v) = true /\ is_the_type (snd v) = ttype_head (snd v)
                   /\ kappa (fst v) = Some (is_the_type (snd v))) vs.
Fixpoint wk_form (kappa : string -> option bool) (tysym : string -> bool) (scope : list string) (f : pform) : Prop :=
  match f with
  | PTop | PBot => True
  | PPred s args => fold_right (fun a P => wk_term kappa tysym scope a /\ P) True args
  | PNeg h => wk_form kappa tysym scope h
  | PBin _ l r => wk_form kappa tysym scope l /\ wk_form kappa tysym scope r
  | PQuant _ vs h => wk_vars kappa vs /\ wk_form kappa tysym (map fst vs ++ scope) h
  end.

(** The context agrees with the kinds. *)
Definition con_ok (kappa : string -> option bool) (tysym : string -> bool) (scope : list string) (con : context) : Prop :=
  (forall x k t, kappa x = Some k -> declared con x t -> is_atomic_ptype t = true /\ ttype_head t = k) /\
  (forall x, In x scope -> exists t, declared con x t) /\
  (forall s t, kappa s = None -> declared con s t -> top_type t /\ tysym s = ttype_head (result_type t)) /\
  (forall s, kappa s = None -> (forall t, ~ declared con s t) -> tysym s = false).

(** The symbols TPTP gives a meaning to. *)
Definition tptp_defined : list string :=
  ["$less"; "$lesseq"; "$greater"; "$greatereq"; "$sum"; "$difference"; "$product"; "$quotient_e"; "$quotient_t";
   "$quotient_f"; "$remainder_e"; "$remainder_t"; "$remainder_f"; "$quotient"; "$uminus"; "$floor"; "$ceiling";
   "$truncate"; "$round"; "$is_int"; "$is_rat"; "$to_int"; "$to_rat"; "$to_real"; "="]%string.

(** The type arguments given to the defined symbols by the elaboration (the type at which an equality
    is taken, ...) do not matter. *)
Definition defined_untyped {D T} (N : ninterp D T) : Prop :=
  forall s, In s tptp_defined ->
    (forall ts ds, nfn N s ts ds = nfn N s [] ds) /\ (forall ts ds, npr N s ts ds <-> npr N s [] ds).

(** The interpretation of the prover's formulas is the one of the names through the tables of
    identifiers. *)
Definition matches (I : interp) (N : ninterp (D I) (T I)) (g : gen) : Prop :=
  (forall s i, lookup s (idTable g) = Some i ->
     (forall ts ds, fn I i ts ds = nfn N s ts ds) /\ (forall ts ds, pr I i ts ds <-> npr N s ts ds)) /\
  (forall s ts, tcon I s ts = ntc N s ts).

(** The valuation of the variables in scope. *)
Definition val_ok (kappa : string -> option bool) (scope : list string) (g : gen) {I : interp}
                  (env : string -> D I + T I) (v : val I) : Prop :=
  forall x, In x scope ->
    match kappa x with
    | Some true => env x = inr (tbv v x)
    | Some false => forall i, lookup x (idVar g) = Some i -> env x = inl (bv v i)
    | None => True
    end.

(** The tables give different numbers to different names, all used. *)
Definition tab_ok (g : gen) : Prop :=
  (forall s i, lookup s (idTable g) = Some i -> i < cpt_term g) /\
  (forall s i, lookup s (idVar g) = Some i -> i < cpt_term g) /\
  (forall s s' i, lookup s (idTable g) = Some i -> lookup s' (idTable g) = Some i -> s = s') /\
  (forall s s' i, lookup s (idVar g) = Some i -> lookup s' (idVar g) = Some i -> s = s').

(** The table of [g'] extends the one of [g]. *)
Definition tab_ext (g g' : gen) : Prop :=
  (forall s i, lookup s (idTable g) = Some i -> lookup s (idTable g') = Some i) /\
  (forall s i, lookup s (idVar g) = Some i -> lookup s (idVar g') = Some i).

(** Some symbol of the term, of the formula, has a type argument. *)
Fixpoint typed_term (t : term) : bool :=
  match t with
  | Fun p tys args => match tys with [] => false | _ => true end || existsb typed_term args
  | _ => false
  end.
Fixpoint typed_form (f : form) : bool :=
  match f with
  | All _ _ h | Ex _ _ h | Not _ h => typed_form h
  | Or _ fs | And _ fs => existsb typed_form fs
  | Imp _ a b | Equ _ a b => typed_form a || typed_form b
  | Pred _ p tys args => match tys with [] => false | _ => true end || existsb typed_term args
  | Top _ | Bot _ => false
  end.
(** Some predicate that TPTP does not define has a type argument. *)
Fixpoint typed_pred (f : form) : bool :=
  match f with
  | All _ _ h | Ex _ _ h | Not _ h => typed_pred h
  | Or _ fs | And _ fs => existsb typed_pred fs
  | Imp _ a b | Equ _ a b => typed_pred a || typed_pred b
  | Pred _ p tys args => negb (existsb (String.eqb (id_name p)) tptp_defined) && match tys with [] => false | _ => true end
  | Top _ | Bot _ => false
  end.

(** The names that occur in a statement as variables or function symbols (not those it declares). *)
Fixpoint pterm_names (t : pterm) : list string :=
  match t with PVar x => [x] | PFun s args _ => s :: flat_map pterm_names args end.
Fixpoint pform_names (f : pform) : list string :=
  match f with
  | PTop | PBot => []
  | PPred _ args => flat_map pterm_names args
  | PNeg h | PQuant _ _ h => pform_names h
  | PBin _ l r => pform_names l ++ pform_names r
  end.
Definition pstmt_names (s : pstmt) : list string := match s with PSForm _ f => pform_names f | _ => [] end.

(** Well-kinded formulas where a name may be bound at several kinds, the innermost binding counting. *)
Fixpoint scoped_form (kappa : string -> option bool) (tysym : string -> bool) (scope : list string) (f : pform) : Prop :=
  match f with
  | PTop | PBot => True
  | PPred s args => fold_right (fun a P => wk_term kappa tysym scope a /\ P) True args
  | PNeg h => scoped_form kappa tysym scope h
  | PBin _ l r => scoped_form kappa tysym scope l /\ scoped_form kappa tysym scope r
  | PQuant _ vs h =>
    Forall (fun v => is_atomic_ptype (snd v) = true /\ is_the_type (snd v) = ttype_head (snd v)) vs /\
    scoped_form (fold_left (fun k v => nupd k (fst v) (Some (is_the_type (snd v)))) vs kappa) tysym (map fst vs ++ scope) h
  end.
