(** C46, C47, C49: the type checker. *)
From Coq Require Import ZArith List Bool String.
From Verif Require Import LibSet_Model LibSetHeap_Model Ast_Model Sem_Spec UnifTree_Model Typing_Model Typing_Spec Typing_Proofs
  Typing_Complete Typing_Final Typing_Witness.
Import ListNotations.
Open Scope Z_scope.

(** C46 refuted: with p : $i > $o and c : $int, the atom p(c) is accepted. *)
Theorem C46_refuted :
  exists K E f, env_ok E /\ kinded K E /\ (forall c, In c (form_syms f) -> K c) /\ binders f = [] /\ accepts E f /\ ~ well_typed E f.
Proof.
  exact (ex_intro _ basic (ex_intro _ E_int (ex_intro _ f_int (conj E_int_ok (conj E_int_kinded
    (conj (fun c (H : In c (form_syms f_int)) => match H with end) (conj eq_refl (conj f_int_accepted f_int_wrong)))))))).
Qed.
Print Assumptions C46_refuted.
(** C46 refuted: the atom f(d) is accepted where f : $i > $i. *)
Theorem C46_atom_refuted :
  exists E f, accepts E f /\ (forall i p tys args U J As o, f = Pred i p tys args -> E (id_name p) = Some U -> instance U tys J ->
    profile J As o -> ~ same_ty o (TyConstr "$o" [])) /\ exists i p tys args, f = Pred i p tys args.
Proof. exact (ex_intro _ E_fun (ex_intro _ f_fun (conj f_fun_accepted (conj f_fun_result f_fun_pred)))). Qed.
Print Assumptions C46_atom_refuted.
(** C46 refuted: a variable is accepted with the type of an outer binder. *)
Theorem C46_shadowing_refuted :
  exists K E f, env_ok E /\ kinded K E /\ scoped [] f /\ accepts E f /\ ~ well_typed E f /\
  (forall c, In c (form_syms f) -> K c) /\ (exists i j v w g, f = All i [v] (Ex j [w] g) /\ tv_name v = tv_name w).
Proof.
  exact (ex_intro _ basic (ex_intro _ E_int (ex_intro _ f_shadow (conj E_int_ok (conj E_int_kinded (conj f_shadow_scoped
    (conj f_shadow_accepted (conj f_shadow_wrong (conj (fun c (H : In c (form_syms f_shadow)) => match H with end) f_shadow_twice))))))))).
Qed.
Print Assumptions C46_shadowing_refuted.
(** C46 (partial): when every binder has its own name, an accepted formula has, in any schedule, declared symbols with the right
    numbers of types and arguments, types built from declared constructors and type variables in scope, and every variable that is
    an argument is in scope with the type of its position.  Missing: the type of the arguments that are not variables and the result
    of the predicate symbols (refuted above), formulas that bind a name twice (refuted above). *)
Theorem C46_partial :
  forall E K f, kinded K E -> (forall c, In c (form_syms f) -> K c) -> scoped [] f -> NoDup (map fst (binders f)) ->
  accepts E f -> nearly_typed E f.
Proof. exact accepted_nearly_typed. Qed.
Print Assumptions C46_partial.
Example C46_case :
  kinded basic E_poly /\ (forall c, In c (form_syms f_poly) -> basic c) /\ scoped [] f_poly /\ NoDup (map fst (binders f_poly)) /\
  accepts E_poly f_poly.
Proof.
  exact (conj E_poly_kinded (conj (proj2 (proj2 (proj2 (proj2 f_poly_shape)))) (conj (proj1 (proj2 (proj2 f_poly_shape)))
    (conj (proj1 (proj2 (proj2 (proj2 f_poly_shape)))) f_poly_accepted)))).
Qed.
(** C46 (partial): with a single sort the accepted formulas are well typed.  Missing: as above. *)
Theorem C46_one_sorted_partial :
  forall E K f, kinded K E -> (forall c, In c (form_syms f) -> K c) -> scoped [] f -> NoDup (map fst (binders f)) ->
  one_sorted E f -> accepts E f -> well_typed E f.
Proof. exact one_sorted_sound. Qed.
Print Assumptions C46_one_sorted_partial.
Example C46_one_sorted_case :
  kinded basic E_one /\ scoped [] f_one /\ NoDup (map fst (binders f_one)) /\ (forall c, In c (form_syms f_one) -> basic c) /\
  one_sorted E_one f_one /\ accepts E_one f_one.
Proof. exact (conj E_one_kinded f_one_shape). Qed.

(** C47 refuted: a well typed formula, with pairwise distinct bound names, that is accepted in one schedule and aborts in another. *)
Theorem C47_refuted :
  exists E f, env_ok E /\ well_typed E f /\ fresh_binders [] f /\ NoDup (map fst (binders f)) /\ accepts E f /\ aborts E f.
Proof.
  exact (ex_intro _ E_one (ex_intro _ f_race (conj E_one_ok (conj f_race_typed (conj f_race_fresh (conj f_race_names
    (conj f_race_accepted f_race_aborts))))))).
Qed.
Print Assumptions C47_refuted.
(** C47 (partial): a well typed boolean combination of prenex formulas is accepted in every schedule.  Missing: quantifiers beside
    other formulas below a quantifier (refuted above). *)
Theorem C47_partial :
  forall E f, env_ok E -> well_typed E f -> fresh_binders [] f -> prenex_parts f -> accepts E f /\ ~ aborts E f.
Proof. exact complete. Qed.
Print Assumptions C47_partial.
Example C47_case : env_ok E_poly /\ well_typed E_poly f_poly /\ fresh_binders [] f_poly /\ prenex_parts f_poly.
Proof. exact (conj E_poly_ok (conj f_poly_typed (conj (proj1 f_poly_shape) (proj1 (proj2 f_poly_shape))))). Qed.
(** whatever the formula the checker ends: it aborts or accepts, and no run is longer than a bound that depends on the formula *)
Theorem C47_terminates :
  forall E f, (accepts E f \/ aborts E f) /\ exists b, forall n s, nsteps E n (start f) s -> (n <= b)%nat.
Proof. exact (fun E f => conj (ends E f) (ex_intro _ (formcost E f) (bounded E f))). Qed.
Print Assumptions C47_terminates.
(** the declarations of a file keep the environment correct *)
Theorem C47_declarations :
  env_ok env0 /\ forall E n U, env_ok E -> E n = None -> decl_ok E U -> env_ok (declare E n U).
Proof. exact (conj env0_ok env_ok_declare). Qed.
Print Assumptions C47_declarations.

(** C49: a scheme is instantiated by simultaneous replacement of its variables, when it binds each of them once. *)
Theorem C49 :
  forall U tys J, (forall vs b, U = TyPi vs b -> NoDup vs) -> (instantiate U tys = Some J <-> instance U tys J).
Proof. exact (fun U tys J H => @instantiate_ok U tys J H). Qed.
Print Assumptions C49.
Example C49_case :
  (forall vs b, sch_map = TyPi vs b -> NoDup vs) /\
  instantiate sch_map [TyVar "b"; TyVar "a"] =
  Some (TyFunc (TyProd [TyVar "b"; TyConstr "list" [TyVar "a"]]) (TyConstr "map" [TyVar "b"; TyVar "a"])).
Proof. exact (conj sch_map_lawful sch_swap). Qed.
Example C49_twice : instantiate (TyPi ["a"; "a"]%string (TyFunc (TyVar "a") tO)) [tI; tInt] = Some (TyFunc tInt tO).
Proof. exact sch_twice. Qed.
