(** Well-typed formulas, stated without reference to the checker. *)
From Coq Require Import ZArith List Bool String.
From Verif Require Import Ast_Model Sem_Spec.
Import ListNotations.
Open Scope Z_scope.

(** ** Type schemes *)

(** simultaneous replacement of the type variables of a type *)
Fixpoint tsubst (s : string -> ty) (t : ty) : ty :=
  match t with
  | TyVar r => s r
  | TyConstr c args => TyConstr c (map (tsubst s) args)
  | TyProd args => TyProd (map (tsubst s) args)
  | TyFunc a b => TyFunc (tsubst s a) (tsubst s b)
  | _ => t
  end.
Fixpoint ty_vars (t : ty) : list string :=
  match t with
  | TyVar r => [r]
  | TyConstr _ args | TyProd args => flat_map ty_vars args
  | TyFunc a b => ty_vars a ++ ty_vars b
  | _ => []
  end.
(** types built from type variables, constructors, products and arrows *)
Inductive plain : ty -> Prop :=
| pl_var r : plain (TyVar r)
| pl_constr c args : Forall plain args -> plain (TyConstr c args)
| pl_prod args : Forall plain args -> plain (TyProd args)
| pl_func a b : plain a -> plain b -> plain (TyFunc a b).

(** [instance U tys J]: the declared type [U] applied to the types [tys] is [J] *)
Inductive instance : ty -> list ty -> ty -> Prop :=
| inst_const c args : instance (TyConstr c args) [] (TyConstr c args)
| inst_arrow a b : instance (TyFunc a b) [] (TyFunc a b)
| inst_poly vs b tys s : NoDup vs -> map s vs = tys -> plain b -> incl (ty_vars b) vs ->
    instance (TyPi vs b) tys (tsubst s b).

(** [profile J As o]: a symbol of type [J] takes arguments of types [As] and gives an [o] *)
Inductive profile : ty -> list ty -> ty -> Prop :=
| prof_const c args : profile (TyConstr c args) [] (TyConstr c args)
| prof_constr c args o : profile (TyFunc (TyConstr c args) o) [TyConstr c args] o
| prof_bound n i o : profile (TyFunc (TyBound n i) o) [TyBound n i] o
| prof_prod l o : profile (TyFunc (TyProd l) o) l o.

(** [kind U n]: a symbol declared with [U] is a type constructor with [n] arguments *)
Inductive kind : ty -> nat -> Prop :=
| kind_const : kind tType 0
| kind_one : kind (TyFunc tType tType) 1
| kind_many n : kind (TyFunc (TyProd (repeat tType n)) tType) n.

(** ** Typing *)
(** variables in scope, innermost first *)
Definition ctx := list (string * ty).
Fixpoint ctx_get (n : string) (G : ctx) : option ty :=
  match G with
  | [] => None
  | (m, T) :: G' => if String.eqb n m then Some T else ctx_get n G'
  end.
Definition bind (G : ctx) (vs : list tvar) : ctx := rev (map (fun v => (tv_name v, tv_ty v)) vs) ++ G.

Section Typing.
Variable E : string -> option ty.
(** [R o T]: what is asked of a term whose symbol gives an [o] where a [T] is needed *)
Variable R : ty -> ty -> Prop.

Inductive is_type (G : ctx) : ty -> Prop :=
| it_bound n i T : ctx_get n G = Some T -> same_ty T tType -> is_type G (TyBound n i)
| it_constr c args U : E c = Some U -> kind U (List.length args) -> Forall (is_type G) args ->
    is_type G (TyConstr c args).

Inductive has_ty (G : ctx) : term -> ty -> Prop :=
| ht_var i n T T' : ctx_get n G = Some T' -> same_ty T' T -> has_ty G (Var i n) T
| ht_fun p tys args U J As o T :
    E (id_name p) = Some U -> instance U tys J -> profile J As o ->
    Forall (is_type G) tys -> Forall2 (has_ty G) args As -> R o T ->
    has_ty G (Fun p tys args) T.

Inductive wt : ctx -> form -> Prop :=
| wt_top G i : wt G (Top i)
| wt_bot G i : wt G (Bot i)
| wt_pred G i p tys args U J As o :
    E (id_name p) = Some U -> instance U tys J -> profile J As o ->
    Forall (is_type G) tys -> Forall2 (has_ty G) args As -> R o (TyConstr "$o" []) ->
    wt G (Pred i p tys args)
| wt_not G i f : wt G f -> wt G (Not i f)
| wt_and G i fs : Forall (wt G) fs -> wt G (And i fs)
| wt_or G i fs : Forall (wt G) fs -> wt G (Or i fs)
| wt_imp G i f g : wt G f -> wt G g -> wt G (Imp i f g)
| wt_equ G i f g : wt G f -> wt G g -> wt G (Equ i f g)
| wt_all G i vs f : wt (bind G vs) f -> wt G (All i vs f)
| wt_ex G i vs f : wt (bind G vs) f -> wt G (Ex i vs f).
End Typing.

(** A closed formula is well typed when each argument has the type of its position.
    It is nearly so when that is only asked of the arguments that are variables. *)
Definition well_typed (E : string -> option ty) (f : form) : Prop := wt E same_ty [] f.
Definition nearly_typed (E : string -> option ty) (f : form) : Prop := wt E (fun _ _ => True) [] f.

(** ** Names *)
(** the variables bound in a formula, with their types *)
Fixpoint binders (f : form) : list (string * ty) :=
  match f with
  | All _ vs g | Ex _ vs g => map (fun v => (tv_name v, tv_ty v)) vs ++ binders g
  | Or _ fs | And _ fs => flat_map binders fs
  | Equ _ a b | Imp _ a b => binders a ++ binders b
  | Not _ a => binders a
  | _ => []
  end.
(** the bound type variables and the constructors of a type *)
Fixpoint ty_bounds (t : ty) : list string :=
  match t with
  | TyBound n _ => [n]
  | TyConstr _ args | TyProd args => flat_map ty_bounds args
  | TyFunc a b => ty_bounds a ++ ty_bounds b
  | TyPi _ b => ty_bounds b
  | _ => []
  end.
Fixpoint ty_syms (t : ty) : list string :=
  match t with
  | TyConstr c args => c :: flat_map ty_syms args
  | TyProd args => flat_map ty_syms args
  | TyFunc a b => ty_syms a ++ ty_syms b
  | TyPi _ b => ty_syms b
  | _ => []
  end.
(** the variables of a term, type variables included; the constructors of its types *)
Fixpoint term_vars (t : term) : list string :=
  match t with
  | Var _ n => [n]
  | Fun _ tys args => flat_map ty_bounds tys ++ flat_map term_vars args
  | _ => []
  end.
Fixpoint term_syms (t : term) : list string :=
  match t with
  | Fun _ tys args => flat_map ty_syms tys ++ flat_map term_syms args
  | _ => []
  end.
Fixpoint form_syms (f : form) : list string :=
  match f with
  | All _ _ g | Ex _ _ g => form_syms g
  | Or _ fs | And _ fs => flat_map form_syms fs
  | Equ _ a b | Imp _ a b => form_syms a ++ form_syms b
  | Not _ a => form_syms a
  | Pred _ _ tys args => flat_map ty_syms tys ++ flat_map term_syms args
  | _ => []
  end.
(** every variable is in scope *)
Inductive scoped : list string -> form -> Prop :=
| sc_top N i : scoped N (Top i)
| sc_bot N i : scoped N (Bot i)
| sc_pred N i p tys args : incl (flat_map ty_bounds tys ++ flat_map term_vars args) N ->
    scoped N (Pred i p tys args)
| sc_not N i f : scoped N f -> scoped N (Not i f)
| sc_and N i fs : Forall (scoped N) fs -> scoped N (And i fs)
| sc_or N i fs : Forall (scoped N) fs -> scoped N (Or i fs)
| sc_imp N i f g : scoped N f -> scoped N g -> scoped N (Imp i f g)
| sc_equ N i f g : scoped N f -> scoped N g -> scoped N (Equ i f g)
| sc_all N i vs f : scoped (map tv_name vs ++ N) f -> scoped N (All i vs f)
| sc_ex N i vs f : scoped (map tv_name vs ++ N) f -> scoped N (Ex i vs f).
(** no variable is bound again where it is in scope *)
Inductive fresh_binders : list string -> form -> Prop :=
| fb_top N i : fresh_binders N (Top i)
| fb_bot N i : fresh_binders N (Bot i)
| fb_pred N i p tys args : fresh_binders N (Pred i p tys args)
| fb_not N i f : fresh_binders N f -> fresh_binders N (Not i f)
| fb_and N i fs : Forall (fresh_binders N) fs -> fresh_binders N (And i fs)
| fb_or N i fs : Forall (fresh_binders N) fs -> fresh_binders N (Or i fs)
| fb_imp N i f g : fresh_binders N f -> fresh_binders N g -> fresh_binders N (Imp i f g)
| fb_equ N i f g : fresh_binders N f -> fresh_binders N g -> fresh_binders N (Equ i f g)
| fb_all N i vs f : NoDup (map tv_name vs ++ N) -> fresh_binders (map tv_name vs ++ N) f -> fresh_binders N (All i vs f)
| fb_ex N i vs f : NoDup (map tv_name vs ++ N) -> fresh_binders (map tv_name vs ++ N) f -> fresh_binders N (Ex i vs f).

(** no quantifier *)
Inductive quant_free : form -> Prop :=
| qf_top i : quant_free (Top i)
| qf_bot i : quant_free (Bot i)
| qf_pred i p tys args : quant_free (Pred i p tys args)
| qf_not i f : quant_free f -> quant_free (Not i f)
| qf_and i fs : Forall quant_free fs -> quant_free (And i fs)
| qf_or i fs : Forall quant_free fs -> quant_free (Or i fs)
| qf_imp i f g : quant_free f -> quant_free g -> quant_free (Imp i f g)
| qf_equ i f g : quant_free f -> quant_free g -> quant_free (Equ i f g).
(** a quantifier prefix, possibly with negations, before a formula without quantifier *)
Inductive prenex : form -> Prop :=
| pn_free f : quant_free f -> prenex f
| pn_not i f : prenex f -> prenex (Not i f)
| pn_all i vs f : prenex f -> prenex (All i vs f)
| pn_ex i vs f : prenex f -> prenex (Ex i vs f).
(** a boolean combination of prenex formulas *)
Inductive prenex_parts : form -> Prop :=
| pp_prenex f : prenex f -> prenex_parts f
| pp_not i f : prenex_parts f -> prenex_parts (Not i f)
| pp_and i fs : Forall prenex_parts fs -> prenex_parts (And i fs)
| pp_or i fs : Forall prenex_parts fs -> prenex_parts (Or i fs)
| pp_imp i f g : prenex_parts f -> prenex_parts g -> prenex_parts (Imp i f g)
| pp_equ i f g : prenex_parts f -> prenex_parts g -> prenex_parts (Equ i f g).

(** ** Declarations *)
(** types over the type variables [vs] *)
Inductive sch_type (E : string -> option ty) (vs : list string) : ty -> Prop :=
| st_var r : In r vs -> sch_type E vs (TyVar r)
| st_constr c args U : E c = Some U -> kind U (List.length args) -> Forall (sch_type E vs) args ->
    sch_type E vs (TyConstr c args).
Inductive body_ok (E : string -> option ty) (vs : list string) : ty -> Prop :=
| bo_const c args : sch_type E vs (TyConstr c args) -> body_ok E vs (TyConstr c args)
| bo_unary a o : sch_type E vs a -> sch_type E vs o -> body_ok E vs (TyFunc a o)
| bo_prod l o : Forall (sch_type E vs) l -> sch_type E vs o -> body_ok E vs (TyFunc (TyProd l) o).
Inductive decl_ok (E : string -> option ty) : ty -> Prop :=
| do_mono b : body_ok E [] b -> decl_ok E b
| do_poly vs b : NoDup vs -> body_ok E vs b -> decl_ok E (TyPi vs b).
Definition env_ok (E : string -> option ty) : Prop :=
  E "$tType"%string = Some tType /\ forall n U, E n = Some U -> decl_ok E U.
(** the names of [K] are those of type constructors, and the declarations only use them as such *)
Definition kinded (K : string -> Prop) (E : string -> option ty) : Prop :=
  (forall c U, K c -> E c = Some U -> exists n, kind U n) /\
  (forall n vs b, E n = Some (TyPi vs b) -> NoDup vs) /\
  (forall n U, E n = Some U -> ty_bounds U = [] /\ forall c, In c (ty_syms U) -> K c).
(** a single sort: with the types they are applied to, function symbols take individuals and give an
    individual, predicate symbols take individuals *)
Definition tI : ty := TyConstr "$i" [].
Definition fits (E : string -> option ty) (n : string) (tys : list ty) (res : ty) : Prop :=
  forall U J As o, E n = Some U -> instance U tys J -> profile J As o -> o = res /\ Forall (eq tI) As.
Inductive one_sorted_term (E : string -> option ty) : term -> Prop :=
| os_var i n : one_sorted_term E (Var i n)
| os_fun p tys args : fits E (id_name p) tys tI -> Forall (one_sorted_term E) args ->
    one_sorted_term E (Fun p tys args).
Inductive one_sorted (E : string -> option ty) : form -> Prop :=
| os_top i : one_sorted E (Top i)
| os_bot i : one_sorted E (Bot i)
| os_pred i p tys args : fits E (id_name p) tys (TyConstr "$o" []) -> Forall (one_sorted_term E) args ->
    one_sorted E (Pred i p tys args)
| os_not i f : one_sorted E f -> one_sorted E (Not i f)
| os_and i fs : Forall (one_sorted E) fs -> one_sorted E (And i fs)
| os_or i fs : Forall (one_sorted E) fs -> one_sorted E (Or i fs)
| os_imp i f g : one_sorted E f -> one_sorted E g -> one_sorted E (Imp i f g)
| os_equ i f g : one_sorted E f -> one_sorted E g -> one_sorted E (Equ i f g)
| os_all i vs f : one_sorted E f -> one_sorted E (All i vs f)
| os_ex i vs f : one_sorted E f -> one_sorted E (Ex i vs f).
