(** Concrete equality problems of branches. *)
From Coq Require Import ZArith List Bool String Lia.
From Verif Require Import Ast_Model Ast_Proofs Sem_Spec Unif_Model Unif_Spec UnifLoss_Model UnifTree_Model UnifTree_Final Closure_Model Lpo_Model Bse_Model Bse_Spec Bse_Proofs Bse_Witness
  UnifTree_Spec EqBuild_Model EqBuild_Spec EqBuild_Proofs EqBuild_Final.
Import ListNotations.
Open Scope list_scope.
Open Scope Z_scope.

Definition ideq := mkId 3 "=".
Definition tyi := TyConstr "$i" [].
Definition no_tys (_ : string) : nat := 0%nat.
Definition all_i (_ : ident) (_ : list ty) (l : list term) : list ty := map (fun _ => tyi) l.
Definition eqf (a b : term) : form := Pred 0 ideq [tyi] [a; b].
Definition pf (tys : list ty) (l : list term) : form := Pred 0 (mkId 50 "p") tys l.
Definition nf (f : form) : form := Not 0 f.
Definition tree (pos : bool) (fs : list form) : node := match make_tree nid (atoms pos fs) with Some k => k | None => empty_node end.
Definition run_real := reasoning ideq nid no_tys all_i Q real 30 every.

(** ** g(X1) = a and the next type metavariable is number 1 *)
Definition f_num : list form := [eqf (g (Meta (mX 1))) ca].
Definition ti : term := Fun (nid "$i") [] [].
Lemma num_tree : make_tree nid (atoms true f_num) = Some (tree true f_num).
Proof. vm_compute. reflexivity. Qed.
Lemma num_read : retrieve_eqs ideq no_tys Q 30 (tree true f_num) 100 1 = Ok [(g ti, ca)].
Proof. vm_compute. reflexivity. Qed.
Lemma num_wrong : ~ exists l r, equality_of 3 true f_num l r /\ same_term (g ti) l /\ same_term ca r.
Proof.
  intros (l & r & (ix & ix' & p & ty & _ & [H|[]]) & S & _). injection H as _ _ _ <- _. apply term_eqb_reflect in S. vm_compute in S. discriminate S.
Qed.
(** X1 = b, the same: the run stops *)
Definition f_stop : list form := [eqf (Meta (mX 1)) cb].
Lemma stop_tree : make_tree nid (atoms true f_stop) = Some (tree true f_stop).
Proof. vm_compute. reflexivity. Qed.
Lemma stop_read : retrieve_eqs ideq no_tys Q 30 (tree true f_stop) 100 1 = Crash.
Proof. vm_compute. reflexivity. Qed.

(** ** g(X1) = a and the negation of g(Y2) = a: the branch closes with nothing to bind *)
Definition f_coll : list form := [eqf (g (Meta (mX 1))) ca; nf (eqf (g (Meta (mY 2))) ca)].
Lemma coll_trees : make_tree nid (atoms true f_coll) = Some (tree true f_coll) /\ make_tree nid (atoms false f_coll) = Some (tree false f_coll).
Proof. split; vm_compute; reflexivity. Qed.
Lemma coll_build : build ideq no_tys all_i Q 30 [] (tree true f_coll) (tree false f_coll) 100 1 = Ok (Some ([(g ti, ca)], [[(g ti, ca)]])).
Proof. vm_compute. reflexivity. Qed.
Lemma coll_run_strict : reasoning ideq nid no_tys all_i Q strict 30 kept [] (tree true f_coll) (tree false f_coll) 100 1 true [[]].
Proof.
  eapply reasoning_some; [exact coll_build|discriminate|]. eapply (solve_yes _ _ _ _ _ _ _ _ _ [[]] false); [|apply solve_nil].
  refine (goals_first _ _ _ _ _ _ _ true [[]] _ _ _ (goals_nil _ _ _ _ _ _)); [|discriminate].
  change (answer nid Q strict kept (mkEP [(g ti, ca)] (g ti) ca empty_c) None (nonempty (@nil substs) || true) (@nil substs ++ [[]])).
  apply ans_rules; [vm_compute; reflexivity|vm_compute; reflexivity|]. eapply rules_right; [vm_compute; reflexivity|].
  change [[]] with (dedup [[]]). eapply man_found; [left; reflexivity|reflexivity|]. eapply child_next; [vm_compute; reflexivity|].
  apply ans_stop; vm_compute; reflexivity.
Qed.
(** g is the identity, Y2 is false and the rest is true *)
Definition alg_coll : alg := mkAlg bool (fun i _ l => if i =? 20 then hd false l else true) (fun _ => false) (fun _ => false).
Lemma coll_wrong : ~ closes 3 f_coll [].
Proof.
  intros H. apply (H alg_coll (fun _ _ _ => True) (fun i => i =? 1)); [intros ? ? []|].
  intros f [<-|[<-|[]]]; cbn; [reflexivity|discriminate].
Qed.

(** ** a = b, p[A](X1) and the negation of p[nat](c), where A is a type metavariable: X1 := c is answered and A is not bound *)
Definition f_ty : list form := [eqf ca cb; pf [TyMeta "A" 7 0] [Meta (mX 1)]; nf (pf [TyConstr "nat" []] [cc])].
Definition s_ty : substs := [(mX 1, cc)].
Lemma ty_trees : make_tree nid (atoms true f_ty) = Some (tree true f_ty) /\ make_tree nid (atoms false f_ty) = Some (tree false f_ty).
Proof. split; vm_compute; reflexivity. Qed.
Lemma ty_build : build ideq no_tys all_i Q 30 f_ty (tree true f_ty) (tree false f_ty) 100 90 = Ok (Some ([(ca, cb)], [[(Meta (mX 1), cc)]])).
Proof. vm_compute. reflexivity. Qed.
Lemma ty_run_strict : reasoning ideq nid no_tys all_i Q strict 30 kept f_ty (tree true f_ty) (tree false f_ty) 100 90 true [s_ty].
Proof.
  eapply reasoning_some; [exact ty_build|discriminate|]. eapply (solve_yes _ _ _ _ _ _ _ _ _ [s_ty] false); [|apply solve_nil].
  refine (goals_first _ _ _ _ _ _ _ true [s_ty] _ _ _ (goals_nil _ _ _ _ _ _)); [|discriminate].
  change (answer nid Q strict kept (mkEP [(ca, cb)] (Meta (mX 1)) cc empty_c) None (nonempty [s_ty] || false) ([s_ty] ++ [])).
  apply ans_rules; [vm_compute; reflexivity|vm_compute; reflexivity|].
  eapply rules_left; [vm_compute; reflexivity|apply no_managed|vm_compute; reflexivity|apply no_managed].
Qed.
Lemma ty_wrong : ~ closes 3 f_ty s_ty.
Proof.
  intros H. apply (H (mkAlg bool (fun _ _ _ => true) (fun _ => true) (fun _ => true)) (fun _ tys _ => match tys with [TyMeta _ _ _] => True | _ => False end) (fun _ => true)).
  - intros k t [E|[]]. injection E as <- <-. reflexivity.
  - intros f [<-|[<-|[<-|[]]]]; cbn; [reflexivity|exact Logic.I|tauto].
Qed.

(** ** A branch that meets the hypotheses: g(X1) = a, p(g(c), b) and the negation of p(a, Y2) *)
Definition ear : signature :=
  mkSig (fun i => if i =? 20 then 1%nat else if i =? 50 then 2%nat else if i =? 3 then 3%nat else 0%nat)
    (fun m => m = mX 1 \/ m = mY 2)
    (fun p => In p [mkId 10 "a"; mkId 11 "b"; mkId 12 "c"; mkId 20 "g"; mkId 50 "p"; mkId 3 "="; mkId 0 "$i"]).
Lemma ear_names : distinct_names ear.
Proof.
  repeat split.
  - intros m m' [-> | ->] [-> | ->] E; cbn in *; congruence.
  - intros p q Hp Hq E. cbn in Hp, Hq. repeat (destruct Hp as [<-|Hp]; [repeat (destruct Hq as [<-|Hq]; [cbn in *; congruence|]); destruct Hq|]). destruct Hp.
  - intros m p [-> | ->] Hp; cbn in Hp; repeat (destruct Hp as [<-|Hp]; [let E := fresh in intros E; vm_compute in E; discriminate E|]); destruct Hp.
  - destruct H as [-> | ->]; let E := fresh in intros E; vm_compute in E; discriminate E.
  - destruct H as [-> | ->]; cbn; repeat split; discriminate.
  - cbn in H. repeat (destruct H as [<-|H]; [let E := fresh in intros E; vm_compute in E; discriminate E|]). destruct H.
  - cbn in H. repeat (destruct H as [<-|H]; [cbn; repeat split; discriminate|]). destruct H.
Qed.
Lemma ear_counters : counters ear 100 90.
Proof. split; [lia|]. split; [lia|]. intros m [-> | ->]; cbn; lia. Qed.
Definition f_good : list form := [eqf (g (Meta (mX 1))) ca; pf [] [g cc; cb]; nf (pf [] [ca; Meta (mY 2)]); nf (eqf ca cc)].
Lemma good_lits : Forall (lit_ok 3 ear nid) f_good.
Proof.
  repeat apply Forall_cons; [| | | |apply Forall_nil]; (split; [repeat apply Forall_cons; [..|apply Forall_nil]; wellt|split; [cbn; tauto|split; [reflexivity|]]]); cbn; try reflexivity.
  - exists tyi, ti. eexists. eexists. split; [reflexivity|]. split; [reflexivity|]. split; [reflexivity|]. split; [wellt|]. split; cbn; intuition discriminate.
  - exists tyi, ti. eexists. eexists. split; [reflexivity|]. split; [reflexivity|]. split; [reflexivity|]. split; [wellt|]. split; cbn; intuition discriminate.
Qed.
Lemma good_trees : make_tree nid (atoms true f_good) = Some (tree true f_good) /\ make_tree nid (atoms false f_good) = Some (tree false f_good).
Proof. split; vm_compute; reflexivity. Qed.
Lemma good_read : retrieve_eqs ideq no_tys Q 30 (tree true f_good) 100 90 = Ok [(g (Meta (mX 1)), ca)] /\
  retrieve_neqs ideq no_tys Q 30 (tree false f_good) 102 91 = Ok [(ca, cc)].
Proof. split; vm_compute; reflexivity. Qed.
Lemma good_build : build ideq no_tys all_i Q 30 f_good (tree true f_good) (tree false f_good) 100 90 = Ok (Some (E_good, [[(ca, cc)]; gs_good])).
Proof. vm_compute. reflexivity. Qed.
(** the goals are made of every complementary atom, whatever its arguments *)
Definition f_two : list form := [eqf (g ca) cb; pf [] [ca; cb]; nf (pf [] [ca; cb]); nf (pf [] [cb; g cc]); nf (pf [] [cc; cc])].
Lemma two_build : exists gs, build ideq no_tys all_i Q 30 f_two (tree true f_two) (tree false f_two) 100 90 = Ok (Some ([(g ca, cb)], gs)) /\
  forall h, In h [[(ca, ca); (cb, cb)]; [(ca, cb); (cb, g cc)]; [(ca, cc); (cb, cc)]] <-> In h gs.
Proof. eexists. split; [vm_compute; reflexivity|]. cbn. tauto. Qed.
Lemma ac_none : answer nid Q strict kept (mkEP E_good ca cc empty_c) None false [].
Proof.
  change false with (nonempty (@nil substs) || false). change (@nil substs) with (@nil substs ++ []) at 2.
  apply ans_rules; [vm_compute; reflexivity|vm_compute; reflexivity|].
  eapply rules_left; [vm_compute; reflexivity| |vm_compute; reflexivity|].
  all: try apply no_managed.
  apply (man_none _ _ _ _ _ _ (fun _ => [])). intros u [<-|[]]. apply child_reject. vm_compute. reflexivity.
Qed.
Lemma good_run : reasoning ideq nid no_tys all_i Q strict 30 kept f_good (tree true f_good) (tree false f_good) 100 90 true [s_both].
Proof.
  eapply reasoning_some; [exact good_build|discriminate|]. apply solve_no; [eapply fails_first; exact ac_none|].
  eapply (solve_yes _ _ _ _ _ _ _ _ _ [s_both] false); [exact good_goals|apply solve_nil].
Qed.
Lemma good_counters_ok : (forall p, symbol ear p -> no_tys (id_name p) = 0%nat) /\ symbol ear ideq /\ ear (id_index ideq) = 3%nat.
Proof. split; [reflexivity|]. split; [cbn; tauto|reflexivity]. Qed.
Lemma general_case :
  Forall (fit ear nid) (atoms false f_good) /\ make_tree nid (atoms false f_good) = Some (tree false f_good) /\
  exists t s, query_term nid (IPred 0 (mkId 50 "p") [] [Meta (mX 1); cb]) = Some t /\ well ear t /\ is_fun t = true /\
    unify_real nid 30 30 (tree false f_good) (IPred 0 (mkId 50 "p") [] [Meta (mX 1); cb]) = Ok [s] /\
    map (fun b => (m_index (fst b), snd b)) (snd s) = [(1, ca); (2, cb)].
Proof.
  split; [eapply Forall_impl; [apply item_fit|exact (neg_items ideq ear nid f_good good_lits)]|]. split; [apply good_trees|].
  eexists. eexists. split; [reflexivity|]. split; [wellt|]. split; [reflexivity|]. split; [vm_compute; reflexivity|reflexivity].
Qed.
