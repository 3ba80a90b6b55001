(** Properties C71 and C72: the types of declared symbols and of equalities. *)
From Coq Require Import ZArith String List Bool.
From Verif Require Import Ast_Model Sem_Spec UnifTree_Model Typing_Model Typing_Spec
  Elab_Model Elab_Spec Elab_Proofs Elab_Types Elab_Eq Decl_Witness.
Import ListNotations.
Open Scope list_scope.
Open Scope Z_scope.

(** C71 refuted: c is declared with the type A for all A and p with A > $o; the type checker aborts on ! [A] : p(A, c(A)), in every
    schedule, because it finds no argument types in the type A of c(A). *)
Theorem C71_declared_refuted :
  exists tc tp f l ds f' b g t u,
  declares tc ["A"%string] [] (PTyVar "A") /\ declares tp ["A"%string] [PTyVar "A"] p_prop /\
  f = PQuant PQuantAll [("A"%string, p_ttype)] (PPred "p" [PVar "A"; PFun "c" [PVar "A"] None]) /\
  l = as_file [("c"%string, tc); ("p"%string, tp)] f /\
  to_internal_syntax true l gen0 = EOk (ds ++ [CSForm RAxiom f'], b, g) /\
  file_env ds "c"%string = Some t /\ instantiate t [u] = Some u /\ get_args_ty u = None /\
  aborts (file_env ds) f' /\ ~ accepts (file_env ds) f'.
Proof.
  destruct any_elab as (ds & b & g & H). destruct any_declared as [H1 H2].
  exact (ex_intro _ any_c (ex_intro _ any_p (ex_intro _ _ (ex_intro _ any_file (ex_intro _ ds (ex_intro _ any_form (ex_intro _ b (ex_intro _ g
    (ex_intro _ (TyPi ["A"%string] (TyVar "A")) (ex_intro _ any_bound (conj H1 (conj H2 (conj eq_refl (conj eq_refl H)))))))))))))).
Qed.
Print Assumptions C71_declared_refuted.
(** C71 (partial): otherwise the argument types and the result type the checker reads for a declared symbol at the type arguments [ts]
    are the declared ones.  Missing: constants whose type is a bound type (refuted above). *)
Theorem C71_declared_partial :
  forall t vs args out ts sigma g,
  declares t vs args out -> map sigma vs = ts -> Forall type_argument ts ->
  (args <> [] \/ exists s l, read sigma out = TyConstr s l) ->
  exists t' u, elab_type true t g = EOk (t', g) /\ instantiate t' ts = Some u /\
    get_args_ty u = Some (map (read sigma) args) /\
    (args <> [] -> get_out_ty u = Some (read sigma out)) /\ (args = [] -> u = read sigma out).
Proof. exact declared_types. Qed.
Print Assumptions C71_declared_partial.
Example C71_case : declares ex_g (map fst ex_vs) ex_args (PTyVar "B") /\
  map ex_sigma (map fst ex_vs) = [TyConstr "$int" []; TyBound "C" 5] /\ Forall type_argument [TyConstr "$int" []; TyBound "C" 5] /\
  map (read ex_sigma) ex_args = [TyConstr "$int" []; TyBound "C" 5; TyConstr "list" [TyConstr "$int" []]] /\
  read ex_sigma (PTyVar "B") = TyBound "C" 5.
Proof. exact ex_declares. Qed.

(** C72 refuted: the left-hand side of id(list(a), x) = x has the type list(a), the equality is taken at the type list without argument,
    and the type checker aborts in every schedule; with the equality at list(a) the formula is well typed. *)
Theorem C72_equality_refuted :
  exists decls ds T b g,
  to_internal_syntax true (as_file decls (PQuant PQuantAll [("x"%string, list_ty)] (PPred "=" [list_left; PVar "x"]))) gen0
    = EOk (ds ++ [CSForm RAxiom (list_form T)], b, g) /\
  typed_as list_kind (initial_context ++ decls ++ [("x"%string, list_ty)]) list_left list_ty /\ ~ written T list_ty /\
  aborts (file_env ds) (list_form T) /\ ~ accepts (file_env ds) (list_form T) /\
  well_typed (file_env ds) (list_form (TyConstr "list" [TyConstr "a" []])).
Proof.
  destruct list_elab as (b & g & H1 & H2).
  exact (ex_intro _ list_decls (ex_intro _ list_env (ex_intro _ (TyConstr "list" []) (ex_intro _ b (ex_intro _ g (conj H1 (conj list_typed H2))))))).
Qed.
Print Assumptions C72_equality_refuted.
(** C72 (partial): an equality is taken at the type of its left-hand side, if the type arguments of that side are variables or
    constants.  Missing: type arguments that have arguments (refuted above); left-hand sides headed by a defined symbol such as $sum;
    a number written with two types. *)
Theorem C72_equality_partial :
  forall kappa tysym scope fl con l r t g con' f b g',
  con_ok kappa tysym scope con -> wk_term kappa tysym scope l -> wk_term kappa tysym scope r ->
  typed_as (Elab_Spec.kind kappa tysym) con l t ->
  Forall (fun a => Elab_Spec.kind kappa tysym a = true -> flat a) (arguments l) -> ~ In (head_name l) tptp_defined ->
  (forall d, In (head_name l, d) (numbers l ++ numbers r) -> l = PFun (head_name l) [] (Some d)) ->
  elab_form fl con (PPred "=" [l; r]) g = EOk (con', f, b, g') ->
  exists i p T l' r', f = Pred i p [T] [l'; r'] /\ id_name p = "="%string /\ written T t.
Proof. exact equality_type. Qed.
Print Assumptions C72_equality_partial.
Example C72_case :
  con_ok eq_kappa eq_tysym ["x"; "y"]%string eq_con /\
  typed_as (Elab_Spec.kind eq_kappa eq_tysym) eq_con eq_left (pty_const "a") /\
  wk_term eq_kappa eq_tysym ["x"; "y"]%string eq_left /\ wk_term eq_kappa eq_tysym ["x"; "y"]%string (PVar "x") /\
  Forall (fun a => Elab_Spec.kind eq_kappa eq_tysym a = true -> flat a) (arguments eq_left) /\
  ~ In (head_name eq_left) tptp_defined /\
  (forall d, In (head_name eq_left, d) (numbers eq_left ++ numbers (PVar "x")) -> eq_left = PFun (head_name eq_left) [] (Some d)) /\
  exists con' f b g', elab_form true eq_con (PPred "=" [eq_left; PVar "x"]) gen0 = EOk (con', f, b, g').
Proof. exact (conj eq_con_ok eq_left_case). Qed.
(** two sides of different types: the equality is taken at the type of the left one *)
Example C72_case_sides :
  typed_as (Elab_Spec.kind eq_kappa eq_tysym) eq_con eq_one p_int /\
  wk_term eq_kappa eq_tysym ["x"; "y"]%string eq_one /\ wk_term eq_kappa eq_tysym ["x"; "y"]%string (PVar "y") /\
  Forall (fun a => Elab_Spec.kind eq_kappa eq_tysym a = true -> flat a) (arguments eq_one) /\
  ~ In (head_name eq_one) tptp_defined /\
  (forall d, In (head_name eq_one, d) (numbers eq_one ++ numbers (PVar "y")) -> eq_one = PFun (head_name eq_one) [] (Some d)) /\
  exists con' f b g', elab_form true eq_con (PPred "=" [eq_one; PVar "y"]) gen0 = EOk (con', f, b, g').
Proof. exact eq_one_case. Qed.
