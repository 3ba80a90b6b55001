(** Concrete environments, formulas and runs of the type checker. *)
From Coq Require Import ZArith List Bool String Lia.
From Verif Require Import LibSet_Model LibSetHeap_Model Ast_Model Sem_Spec Ast_Proofs UnifTree_Model Typing_Model Typing_Spec
  Typing_Proofs Typing_Complete Typing_Final.
Import ListNotations.
Open Scope string_scope.
Open Scope list_scope.
Open Scope Z_scope.

(** ** Environments *)
Definition tO : ty := TyConstr "$o" [].
Definition tInt : ty := TyConstr "$int" [].

Lemma sch_mono E n V vs t : E n = None -> sch_type E vs t -> sch_type (declare E n V) vs t.
Proof.
  intros HN. induction t as [r|m i|m i f|c l IH|l IH|a b IHa IHb|ws b IHb] using ty_ind'; intros S; inversion S as [|c0 l0 U EU KU FU]; subst.
  - constructor; auto.
  - econstructor; [|exact KU|].
    + unfold declare. destruct (String.eqb_spec c n) as [->|_]; [congruence|exact EU].
    + rewrite Forall_forall in *. auto.
Qed.
Lemma body_mono E n V vs t : E n = None -> body_ok E vs t -> body_ok (declare E n V) vs t.
Proof.
  intros HN [c l S|a o S1 S2|l o S1 S2]; [apply bo_const|apply bo_unary|apply bo_prod]; auto using sch_mono.
  eapply Forall_impl; [|exact S1]. intros; apply sch_mono; auto.
Qed.
Lemma decl_mono E n V t : E n = None -> decl_ok E t -> decl_ok (declare E n V) t.
Proof. intros HN [b S|vs b ND S]; [apply do_mono|apply do_poly]; auto using body_mono. Qed.
(** declarations that only use names already declared keep an environment correct *)
Lemma env_ok_declare E n U : env_ok E -> E n = None -> decl_ok E U -> env_ok (declare E n U).
Proof.
  intros [HT HE] HN HU. split.
  - unfold declare. destruct (String.eqb_spec "$tType" n) as [<-|_]; [congruence|exact HT].
  - intros m V. unfold declare at 1. destruct (String.eqb m n).
    + intros [= <-]. apply decl_mono; auto.
    + intros Q. apply decl_mono; eauto.
Qed.
Lemma env0_cases n U : env0 n = Some U -> U = tType \/ U = scheme_eq.
Proof. unfold env0. destruct (existsb _ _); [intros [= <-]; auto|]. destruct (String.eqb n "="); [intros [= <-]; auto|discriminate]. Qed.
Lemma env0_ok : env_ok env0.
Proof.
  split; [reflexivity|]. intros n U [-> | ->]%env0_cases.
  - apply do_mono, bo_const. econstructor; [reflexivity|constructor|constructor].
  - apply do_poly; [repeat constructor; simpl; tauto|]. apply bo_prod.
    + repeat constructor; simpl; auto.
    + econstructor; [reflexivity|constructor|constructor].
Qed.
Definition basic (n : string) : Prop := In n ["$tType"; "$int"; "$rat"; "$real"; "$i"; "$o"].
Lemma kinded_declare K E n U : kinded K E -> ~ K n -> (forall vs b, U = TyPi vs b -> NoDup vs) -> ty_bounds U = [] ->
  (forall c, In c (ty_syms U) -> K c) -> kinded K (declare E n U).
Proof.
  intros (K1 & K2 & K3) HN HP HB HS. split; [|split]; unfold declare.
  - intros c V Kc. destruct (String.eqb_spec c n) as [->|_]; [tauto|]. eauto.
  - intros m vs b. destruct (String.eqb m n); [intros [= ->]; eauto|eauto].
  - intros m V. destruct (String.eqb m n); [intros [= <-]; auto|]. apply K3.
Qed.
Lemma kinded_env0 : kinded basic env0.
Proof.
  repeat split.
  - intros c U Hc EU. destruct (env0_cases _ _ EU) as [-> | ->]; [exists 0%nat; constructor|].
    cbn in Hc. destruct Hc as [<-|[<-|[<-|[<-|[<-|[<-|[]]]]]]]; discriminate EU.
  - intros n vs b EU. destruct (env0_cases _ _ EU) as [Q|Q]; [discriminate|]. injection Q as -> ->. repeat constructor; simpl; tauto.
  - destruct (env0_cases _ _ H) as [-> | ->]; reflexivity.
  - destruct (env0_cases _ _ H) as [-> | ->]; cbn; unfold basic; cbn; intros c Hc; intuition congruence.
Qed.

(** ** Runs *)
(** a schedule: the position of the call that runs next *)
Fixpoint play (E : env) (l : list nat) (s : state) : option state :=
  match l with
  | [] => Some s
  | n :: r =>
    match nth_error (snd s) n with
    | None => None
    | Some t => match exec E (fst s) t with
                | None => None
                | Some (h, ks) => play E r (h, firstn n (snd s) ++ ks ++ skipn (S n) (snd s))
                end
    end
  end.
Lemma play_steps E l : forall s s', play E l s = Some s' -> steps E s s'.
Proof.
  induction l as [|n l IH]; intros [h w] s'; cbn [play fst snd]; [intros [= <-]; constructor|].
  destruct (nth_error w n) as [t|] eqn:Q; [|discriminate]. destruct (exec E h t) as [[h' ks]|] eqn:X; [|discriminate].
  intros H. apply IH in H. econstructor; [|exact H].
  assert (W : w = firstn n w ++ t :: skipn (S n) w).
  { rewrite <- (firstn_skipn n w) at 1. f_equal. clear - Q. revert n Q. induction w as [|a w IH]; intros [|n] Q; cbn in *; try discriminate; [congruence|auto]. }
  rewrite W at 1. apply step_run. exact X.
Qed.
Lemma play_accepts E f l h : play E l (start f) = Some (h, []) -> accepts E f.
Proof. intros H. exists h. apply (play_steps _ _ _ _ H). Qed.
Lemma play_aborts E f l h l1 t l2 : play E l (start f) = Some (h, l1 ++ t :: l2) -> exec E h t = None -> aborts E f.
Proof. intros H X. exists h, l1, t, l2. split; [apply (play_steps _ _ _ _ H)|exact X]. Qed.

(** *** p : $i > $o, c : $int, and the atom p(c) *)
Definition sy (n : Z) (s : string) : ident := mkId n s.
Definition va (s : string) : term := Var 7 s.
Definition tv (s : string) (T : ty) : tvar := mkTV s 7 T.
Definition E_int : env := declare (declare env0 "p" (TyFunc tI tO)) "c" tInt.
Definition f_int : form := Pred 1 (sy 1 "p") [] [Fun (sy 2 "c") [] []].
Lemma E_int_ok : env_ok E_int.
Proof.
  repeat (apply env_ok_declare; [|reflexivity|]); [apply env0_ok| |].
  - apply do_mono, bo_unary; econstructor; (reflexivity || constructor).
  - apply do_mono, bo_const; econstructor; (reflexivity || constructor).
Qed.
Lemma E_int_kinded : kinded basic E_int.
Proof.
  unfold E_int. repeat (apply kinded_declare); try (intros; discriminate); try reflexivity; try apply kinded_env0;
    try (cbn; intros c; unfold basic; cbn; intuition congruence); unfold basic; cbn; intuition congruence.
Qed.
Lemma f_int_accepted : accepts E_int f_int.
Proof. apply play_accepts with (l := [0; 0; 0; 0]%nat) (h := []). vm_compute. reflexivity. Qed.
Lemma f_int_wrong : ~ well_typed E_int f_int.
Proof.
  intros W. inversion W as [| |G i p tys args U J As o EU EI EP ET EA ER| | | | | | |]; subst. injection EU as <-.
  inversion EI; subst. inversion EP; subst. inversion EA as [|x y l1 l2 HX HL]; subst.
  inversion HX as [|p1 tys1 args1 U1 J1 As1 o1 T1 EU1 EI1 EP1 ET1 EA1 ER1]; subst. injection EU1 as <-.
  inversion EI1; subst. inversion EP1; subst. apply ty_eqb_reflect in ER1. discriminate ER1.
Qed.
(** *** an atom whose symbol is a function: f : $i > $i *)
Definition E_fun : env := declare (declare env0 "f" (TyFunc tI tI)) "d" tI.
Definition f_fun : form := Pred 1 (sy 1 "f") [] [Fun (sy 2 "d") [] []].
Lemma f_fun_accepted : accepts E_fun f_fun.
Proof. apply play_accepts with (l := [0; 0; 0; 0]%nat) (h := []). vm_compute. reflexivity. Qed.
Lemma f_fun_wrong : ~ well_typed E_fun f_fun.
Proof.
  intros W. inversion W as [| |G i p tys args U J As o EU EI EP ET EA ER| | | | | | |]; subst. injection EU as <-.
  inversion EI; subst. inversion EP; subst. apply ty_eqb_reflect in ER. discriminate ER.
Qed.
(** *** a variable bound twice with different types: !x:$i. ?x:$int. p(x) *)
Definition f_shadow : form := All 1 [tv "x" tI] (Ex 2 [tv "x" tInt] (Pred 3 (sy 1 "p") [] [va "x"])).
Lemma f_shadow_accepted : accepts E_int f_shadow.
Proof. eapply play_accepts with (l := [0; 0; 0; 0; 0; 0]%nat). vm_compute. reflexivity. Qed.
Lemma f_shadow_wrong : ~ well_typed E_int f_shadow.
Proof.
  intros W. inversion W; subst. inversion H1; subst. inversion H2 as [| |G i p tys args U J As o EU EI EP ET EA ER| | | | | | |]; subst. injection EU as <-.
  inversion EI; subst. inversion EP; subst. inversion EA as [|x y l1 l2 HX HL]; subst. inversion HX as [i0 n0 T0 T' CG ST|]; subst.
  injection CG as <-. apply ty_eqb_reflect in ST. discriminate ST.
Qed.
(** *** an accepted formula with several kinds of variables: !A:$tType. !x:A, y:A. ( x = y => ?z:A. (z = x & p(d)) ) *)
Definition E_poly : env := declare (declare (declare env0 "p" (TyFunc tI tO)) "d" tI) "g" (TyPi ["b"] (TyFunc (TyVar "b") (TyVar "b"))).
Definition bA : ty := TyBound "A" 3.
Definition eqn (T : ty) (s t : term) : form := Pred 5 (sy 0 "=") [T] [s; t].
Definition f_poly : form :=
  Imp 1 (All 2 [tv "A" tType] (All 3 [tv "x" bA; tv "y" bA] (Ex 4 [tv "z" bA]
      (And 5 [eqn bA (va "x") (Fun (sy 3 "g") [bA] [va "y"]); Not 6 (eqn bA (va "z") (va "x"))]))))
        (All 7 [tv "w" tI] (Or 8 [Pred 9 (sy 1 "p") [] [va "w"]; eqn tI (va "w") (Fun (sy 2 "d") [] [])])).
Lemma E_poly_ok : env_ok E_poly.
Proof.
  repeat (apply env_ok_declare; [|reflexivity|]); [apply env0_ok| | |].
  - apply do_mono, bo_unary; econstructor; (reflexivity || constructor).
  - apply do_mono, bo_const; econstructor; (reflexivity || constructor).
  - apply do_poly; [repeat constructor; simpl; tauto|]. apply bo_unary; constructor; simpl; auto.
Qed.
Lemma E_poly_kinded : kinded basic E_poly.
Proof.
  unfold E_poly. repeat (apply kinded_declare); try (intros; discriminate); try reflexivity; try apply kinded_env0;
    try (cbn; intros c; unfold basic; cbn; intuition congruence); try (unfold basic; cbn; intuition congruence).
  intros vs b [= <- <-]. repeat constructor; simpl; tauto.
Qed.
(** *** one sort *)
Definition E_one : env := declare (declare env0 "p" (TyFunc tI tO)) "d" tI.
Definition f_one : form :=
  All 1 [tv "x" tI] (Imp 2 (Pred 3 (sy 1 "p") [] [va "x"]) (Ex 4 [tv "y" tI] (eqn tI (va "y") (Fun (sy 2 "d") [] [])))).
Ltac scopedt := unfold f_poly, f_one, eqn, va; repeat first [apply sc_imp|apply sc_all|apply sc_ex|apply sc_not|apply sc_and|apply sc_or|apply Forall_cons|apply Forall_nil];
  apply sc_pred; intros x Hx; cbn in *; tauto.
Lemma wt_eqn (R : ty -> ty -> Prop) (E : env) G T s t : E "=" = Some scheme_eq -> (forall U, R U U) -> is_type E G T -> has_ty E R G s T -> has_ty E R G t T -> wt E R G (eqn T s t).
Proof.
  intros HE HR HT Hs Ht. unfold eqn.
  apply (wt_pred E R G 5 (sy 0 "=") [T] [s; t] scheme_eq (TyFunc (TyProd [T; T]) tO) [T; T] tO HE).
  - refine (inst_poly ["a"] (TyFunc (TyProd [TyVar "a"; TyVar "a"]) tO) [T] (fun _ => T) _ _ _ _).
    + repeat constructor; simpl; tauto.
    + reflexivity.
    + repeat constructor.
    + intros x Hx. cbn in *. tauto.
  - apply prof_prod.
  - repeat constructor. exact HT.
  - repeat constructor; assumption.
  - apply HR.
Qed.
Lemma f_poly_typed : well_typed E_poly f_poly.
Proof.
  assert (R : forall U, same_ty U U) by (intros; apply same_ty_refl).
  assert (TA : forall G, ctx_get "A" G = Some tType -> is_type E_poly G bA) by (intros G HG; econstructor; [exact HG|apply R]).
  assert (TI : forall G, is_type E_poly G tI) by (intros G; econstructor; [reflexivity|constructor|constructor]).
  assert (V : forall G n T, ctx_get n G = Some T -> has_ty E_poly same_ty G (va n) T) by (intros G n T HG; econstructor; [exact HG|apply R]).
  unfold well_typed, f_poly.
  apply wt_imp.
  - apply wt_all, wt_all, wt_ex, wt_and. constructor; [|constructor; [|constructor]].
    + apply wt_eqn; auto.
      eapply ht_fun with (J := TyFunc bA bA); [reflexivity| | | | |apply R].
      * refine (inst_poly ["b"] (TyFunc (TyVar "b") (TyVar "b")) [bA] (fun _ => bA) _ eq_refl _ _).
        -- repeat constructor; simpl; tauto.
        -- repeat constructor.
        -- intros x Hx. cbn in *. tauto.
      * apply prof_bound.
      * repeat constructor. apply TA. reflexivity.
      * repeat constructor. apply V. reflexivity.
    + apply wt_not, wt_eqn; auto.
  - apply wt_all, wt_or. constructor; [|constructor; [|constructor]].
    + eapply wt_pred; [reflexivity|constructor|constructor|constructor| |apply R]. repeat constructor. apply V. reflexivity.
    + apply wt_eqn; auto. eapply ht_fun; [reflexivity|constructor|constructor|constructor|constructor|apply R].
Qed.
Lemma f_poly_shape : fresh_binders [] f_poly /\ prenex_parts f_poly /\ scoped [] f_poly /\ NoDup (map fst (binders f_poly)) /\
  (forall c, In c (form_syms f_poly) -> basic c).
Proof.
  split; [|split; [|split; [|split]]].
  - repeat (constructor; cbn); cbn; intuition discriminate.
  - apply pp_imp; apply pp_prenex; repeat (first [apply pn_all|apply pn_ex]); apply pn_free; repeat constructor.
  - scopedt.
  - cbn. repeat constructor; cbn; intuition discriminate.
  - cbn. unfold basic. cbn. intros c Hc. tauto.
Qed.
Lemma E_one_kinded : kinded basic E_one.
Proof.
  unfold E_one. repeat (apply kinded_declare); try (intros; discriminate); try reflexivity; try apply kinded_env0;
    try (cbn; intros c; unfold basic; cbn; intuition congruence); unfold basic; cbn; intuition congruence.
Qed.
Lemma f_one_shape : scoped [] f_one /\ NoDup (map fst (binders f_one)) /\ (forall c, In c (form_syms f_one) -> basic c) /\ one_sorted E_one f_one /\ accepts E_one f_one.
Proof.
  split; [|split; [|split; [|split]]].
  - scopedt.
  - cbn. repeat constructor; cbn; intuition discriminate.
  - cbn. unfold basic. cbn. intros c Hc. tauto.
  - assert (FP : fits E_one "p" [] tO) by (intros U J As o [= <-] HI HP; inversion HI; subst; inversion HP; subst; auto).
    assert (FD : fits E_one "d" [] tI) by (intros U J As o [= <-] HI HP; inversion HI; subst; inversion HP; subst; auto).
    assert (FE : fits E_one "=" [tI] tO).
    { intros U J As o [= <-] HI HP. inversion HI as [| |vs b tys s ND HM PL IN]; subst. injection HM as HM. cbn [tsubst map] in HP.
      rewrite HM in HP. inversion HP; subst. auto. }
    unfold f_one, eqn, va. apply os_all, os_imp; [|apply os_ex]; apply os_pred; auto; repeat apply Forall_cons; try apply Forall_nil; try apply os_var.
    apply os_fun; [exact FD|constructor].
  - eapply play_accepts with (l := repeat 0%nat 14). vm_compute. reflexivity.
Qed.

(** ** A schedule that aborts: !a,b:$i. ( (!c:$i. p(c)) & p(b) ) *)
Definition f_race : form :=
  All 1 [tv "a" tI; tv "b" tI] (And 2 [All 3 [tv "c" tI] (Pred 4 (sy 1 "p") [] [va "c"]); Pred 5 (sy 1 "p") [] [va "b"]]).
Lemma f_race_typed : well_typed E_one f_race.
Proof.
  assert (R : forall U, same_ty U U) by (intros; apply same_ty_refl).
  assert (V : forall G n T, ctx_get n G = Some T -> has_ty E_one same_ty G (va n) T) by (intros G n T HG; econstructor; [exact HG|apply R]).
  apply wt_all, wt_and. constructor; [apply wt_all|constructor; [|constructor]];
    (eapply wt_pred; [reflexivity|constructor|constructor|constructor| |apply R]; repeat constructor; apply V; reflexivity).
Qed.
Lemma E_one_ok : env_ok E_one.
Proof.
  repeat (apply env_ok_declare; [|reflexivity|]); [apply env0_ok| |].
  - apply do_mono, bo_unary; econstructor; (reflexivity || constructor).
  - apply do_mono, bo_const; econstructor; (reflexivity || constructor).
Qed.
Lemma f_race_fresh : fresh_binders [] f_race.
Proof. repeat (constructor; cbn); cbn; intuition discriminate. Qed.
(** the second conjunct runs first *)
Lemma f_race_accepted : accepts E_one f_race.
Proof. eapply play_accepts with (l := [0; 0; 1; 1; 1; 1; 0; 0; 0; 0; 0]%nat). vm_compute. reflexivity. Qed.
(** the first conjunct runs first *)
Definition race_state : state := match play E_one [0; 0; 0; 1]%nat (start f_race) with Some s => s | None => ([], []) end.
Lemma f_race_aborts : aborts E_one f_race.
Proof.
  eapply play_aborts with (l := [0; 0; 0; 1]%nat) (h := fst race_state) (l1 := firstn 1 (snd race_state))
    (t := nth 1 (snd race_state) (TForm None f_race)) (l2 := skipn 2 (snd race_state)); vm_compute; reflexivity.
Qed.

(** ** Schemes *)
Definition sch_map : ty := TyPi ["a"; "b"] (TyFunc (TyProd [TyVar "a"; TyConstr "list" [TyVar "b"]]) (TyConstr "map" [TyVar "a"; TyVar "b"])).
Lemma sch_map_instance : instantiate sch_map [TyBound "b" 3; TyConstr "list" [tI]] =
  Some (TyFunc (TyProd [TyBound "b" 3; TyConstr "list" [TyConstr "list" [tI]]]) (TyConstr "map" [TyBound "b" 3; TyConstr "list" [tI]])).
Proof. reflexivity. Qed.
Lemma sch_map_lawful : forall vs b, sch_map = TyPi vs b -> NoDup vs.
Proof. intros vs b [= <- <-]. repeat constructor; cbn; intuition discriminate. Qed.
(** variables in the types given are left alone: no capture *)
Lemma sch_swap : instantiate sch_map [TyVar "b"; TyVar "a"] =
  Some (TyFunc (TyProd [TyVar "b"; TyConstr "list" [TyVar "a"]]) (TyConstr "map" [TyVar "b"; TyVar "a"])).
Proof. reflexivity. Qed.
(** a scheme that binds a variable twice: the last type is used *)
Lemma sch_twice : instantiate (TyPi ["a"; "a"] (TyFunc (TyVar "a") tO)) [tI; tInt] = Some (TyFunc tInt tO).
Proof. reflexivity. Qed.

(** ** Facts about the formulas above *)
Lemma f_fun_pred : exists i p tys args, f_fun = Pred i p tys args.
Proof. do 4 eexists. reflexivity. Qed.
Lemma f_fun_result : forall i p tys args U J As o, f_fun = Pred i p tys args -> E_fun (id_name p) = Some U -> instance U tys J ->
  profile J As o -> ~ same_ty o (TyConstr "$o" []).
Proof.
  intros i p tys args U J As o [= <- <- <- <-] [= <-] HI HP. inversion HI; subst. inversion HP; subst. intros H.
  apply ty_eqb_reflect in H. discriminate H.
Qed.
Lemma f_shadow_scoped : scoped [] f_shadow.
Proof. unfold f_shadow. apply sc_all, sc_ex, sc_pred. intros x Hx. cbn in *. tauto. Qed.
Lemma f_shadow_twice : exists i j v w g, f_shadow = All i [v] (Ex j [w] g) /\ tv_name v = tv_name w.
Proof. do 5 eexists. split; reflexivity. Qed.
Lemma f_race_names : NoDup (map fst (binders f_race)).
Proof. cbn. repeat constructor; cbn; intuition discriminate. Qed.
Lemma f_poly_accepted : accepts E_poly f_poly.
Proof. apply (proj1 (complete _ _ E_poly_ok f_poly_typed (proj1 f_poly_shape) (proj1 (proj2 f_poly_shape)))). Qed.
