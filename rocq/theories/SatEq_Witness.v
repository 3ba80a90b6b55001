(** Concrete problems for the SAT-based equality reasoning. *)
From Coq Require Import ZArith List Bool String Arith Lia.
From Verif Require Import Ast_Model Ast_Proofs Unif_Model Unif_Spec Bse_Spec SatEq_Model SatEq_Spec SatEqUf_Proofs SatEqClose_Proofs SatEqMain_Proofs.
Import ListNotations.
Open Scope list_scope.
Open Scope nat_scope.

Definition k (i : Z) (s : string) : term := Fun (mkId i s) [] [].
Definition a := k 1 "a".
Definition b := k 2 "b".
Definition c := k 3 "c".
Definition d := k 4 "d".
Definition f (t : term) : term := Fun (mkId 5 "f") [] [t].
Definition mx : meta := mkMeta 0 0 "X" 0 (TyConstr "i" []).
Definition my : meta := mkMeta 1 0 "Y" 0 (TyConstr "i" []).
Definition sg0 (kn : meta -> Prop) : signature := mkSig (fun i => if (i =? 5)%Z then 1 else 0) kn (fun _ => True).
Definition ground_sig : signature := sg0 (fun _ => False).
Definition meta_sig : signature := sg0 (fun m => m = mx \/ m = my).
Definition first_choice (l : list trec) : option trec := match l with [] => None | t :: _ => Some t end.
Lemma first_chooses : chooses first_choice.
Proof. split; intros [|t l]; cbn; try congruence. intros t' E. injection E as <-. auto. Qed.
Lemma earlier_nil : earlier [].
Proof. exists []. split; [exact I|reflexivity]. Qed.
(** a heap left by another problem *)
Definition old_ops : list op := [Make; Make; Make; Make; Make; Merge 0 1; Merge 2 3; Merge 3 1; Find 0; Make; Merge 5 4; Find 2].
Lemma old_valid : valid_ops 0 old_ops.
Proof. cbn. repeat split; lia. Qed.
Notation old := [(2, 2); (0, 1); (2, 4); (2, 1); (5, 1); (5, 2)].
Lemma old_run : run_ops old_ops [] = Ok old.
Proof. vm_compute. reflexivity. Qed.
Lemma earlier_old : earlier old.
Proof. exists old_ops. split; [exact old_valid|exact old_run]. Qed.

Definition loaded (es : list (term * term)) (gs : list (list (term * term))) : heap * problem :=
  match load es gs old new_problem with Ok x => x | _ => ([], new_problem) end.
Definition built (es : list (term * term)) (gs : list (list (term * term))) (only : bool) : list (list lit) :=
  match all_clauses (fst (loaded es gs)) (snd (loaded es gs)) only with Ok x => x | _ => [] end.
Definition satb (truth : var -> bool) (cs : list (list lit)) : bool := forallb (existsb (fun l => Bool.eqb (truth (snd l)) (fst l))) cs.
Lemma satb_ok truth cs : satb truth cs = true -> sat_all truth cs.
Proof.
  intros H c C. unfold satb in H. rewrite forallb_forall in H. specialize (H c C). apply existsb_exists in H. destruct H as (l & J & E). exists l. split; auto.
  apply Bool.eqb_prop. exact E.
Qed.
(** one algebra for the counterexamples: two elements, f constant *)
Definition two : alg := mkAlg bool (fun i _ _ => (i =? 3)%Z) (fun _ => true) (fun _ => true).

(** ** Type arguments *)
Definition nil_of (t : string) : term := Fun (mkId 9 "nil") [TyConstr t []] [].
Definition typed : alg := mkAlg (list ty) (fun _ tys _ => tys) (fun _ => []) (fun _ => []).
Lemma types_trivial : exists h pb, load [] [[(nil_of "a", nil_of "b")]] [] new_problem = Ok (h, pb) /\ has_trivial h pb = true.
Proof. eexists. eexists. split; [vm_compute; reflexivity|]. vm_compute. reflexivity. Qed.
Lemma types_unsolved : ~ some_solved [] [] [[(nil_of "a", nil_of "b")]].
Proof.
  intros (g & [<-|[]] & S). specialize (S _ _ (or_introl eq_refl) typed (fun _ => [])). cbn in S. discriminate S; intros ? ? [].
Qed.
(** ** A symbol with two numbers of arguments *)
Lemma arity_crash : load [(f a, b)] [[(Fun (mkId 5 "f") [] [a; b], b)]] [] new_problem = Crash.
Proof. vm_compute. reflexivity. Qed.

(** ** Congruence is not propagated *)
Definition up_es : list (term * term) := [(f a, c); (f b, d); (a, b)].
Definition up_gs : list (list (term * term)) := [[(c, d)]].
Lemma up_well : well_problem ground_sig up_es up_gs.
Proof. split; repeat constructor. Qed.
Lemma up_none sat choice : exists h pb, reason sat choice up_es up_gs old new_problem = Ok (None, h, pb).
Proof. eexists. eexists. vm_compute. reflexivity. Qed.
Lemma up_solved : goal_solved up_es [] [(c, d)].
Proof.
  intros s t [E|[]] A v _ Q. injection E as <- <-. rewrite <- (Q (f a) c), <- (Q (f b) d) by (cbn; auto).
  unfold f. cbn [tev map]. rewrite (Q a b) by (cbn; auto). reflexivity.
Qed.
(** a problem whose classes are closed *)
Definition gr_es : list (term * term) := [(a, b); (f a, c); (d, f b)].
Lemma gr_well g : Forall (well_pair ground_sig) g -> well_problem ground_sig gr_es [g].
Proof. intros G. split; repeat constructor. exact G. Qed.
Definition closedb (h : heap) (pb : problem) : bool :=
  forallb (fun e => forallb (fun t => forallb (fun u => match tr_congruent h t u with Ok true => congruent h (tr_class t) (tr_class u) | _ => true end) (snd e)) (snd e)) (pb_funs pb).
Lemma closedb_ok h pb : closedb h pb = true -> closed_classes h pb.
Proof.
  unfold closedb. intros H i l t u J T U E. rewrite forallb_forall in H. specialize (H _ J). cbn in H. rewrite forallb_forall in H. specialize (H _ T).
  rewrite forallb_forall in H. specialize (H _ U). cbn in H. rewrite E in H. exact H.
Qed.
Lemma gr_closed : exists h pb, load gr_es [] old new_problem = Ok (h, pb) /\ closed_classes h pb.
Proof. eexists. eexists. split; [vm_compute; reflexivity|]. apply closedb_ok. vm_compute. reflexivity. Qed.
Lemma gr_found sat choice : exists h pb, reason sat choice gr_es [[(a, c)]; [(f (f a), f d); (b, a)]] old new_problem = Ok (Some [[]], h, pb).
Proof. eexists. eexists. vm_compute. reflexivity. Qed.
Lemma gr_none sat choice : exists h pb, reason sat choice gr_es [[(f c, a)]] old new_problem = Ok (None, h, pb).
Proof. eexists. eexists. vm_compute. reflexivity. Qed.

(** ** Congruence with a term of another class *)
Definition X : term := Meta mx.
Definition Y : term := Meta my.
Definition bad_es : list (term * term) := [(f a, b)].
Definition bad_gs : list (list (term * term)) := [[(f X, c)]].
(** a is 6, f(a) is 7, b is 8, X is 9, f(X) is 10, c is 11 *)
Definition bad_truth (only : bool) (v : var) : bool :=
  match v with
  | VS 9 6 | VE _ 6 9 | VR 6 6 | VR 7 8 | VR 9 9 | VR 10 10 | VR 11 11 | VO 9 10 | VO 6 10 | VC 0 | VPsi _ 7 10 | VF _ 7 10 | VF _ 10 7 => true
  | VE (S _) 7 10 => true
  | VPsi _ 10 11 | VE (S _) 10 11 => negb only
  | _ => false
  end.
Lemma bad_well : well_problem meta_sig bad_es bad_gs.
Proof. split; repeat constructor; cbn; auto. lia. Qed.
Lemma bad_load : load bad_es bad_gs old new_problem = Ok (loaded bad_es bad_gs).
Proof. vm_compute. reflexivity. Qed.
Lemma bad_clauses only : all_clauses (fst (loaded bad_es bad_gs)) (snd (loaded bad_es bad_gs)) only = Ok (built bad_es bad_gs only).
Proof. destruct only; vm_compute; reflexivity. Qed.
Lemma bad_sat : sat_all (bad_truth false) (built bad_es bad_gs false).
Proof. apply satb_ok. vm_compute. reflexivity. Qed.
Lemma bad_read : gather (fst (loaded bad_es bad_gs)) (snd (loaded bad_es bad_gs)) (bad_truth false) first_choice = Ok [(mx, a)].
Proof. vm_compute. reflexivity. Qed.
Lemma bad_unsolved : ~ some_solved bad_es [(mx, a)] bad_gs.
Proof.
  intros (g & [<-|[]] & S). specialize (S _ _ (or_introl eq_refl) two (fun _ => false)). cbn in S. discriminate S.
  - intros x t [E|[]]. injection E as <- <-. reflexivity.
  - intros x t [E|[]]. injection E as <- <-. reflexivity.
Qed.
(** the goal that this binding does solve *)
Definition good_gs : list (list (term * term)) := [[(f X, b)]].
Lemma good_well : well_problem meta_sig bad_es good_gs.
Proof. split; repeat constructor; cbn; auto. lia. Qed.
Lemma good_load : load bad_es good_gs old new_problem = Ok (loaded bad_es good_gs).
Proof. vm_compute. reflexivity. Qed.
Lemma good_clauses only : all_clauses (fst (loaded bad_es good_gs)) (snd (loaded bad_es good_gs)) only = Ok (built bad_es good_gs only).
Proof. destruct only; vm_compute; reflexivity. Qed.
Lemma good_sat only : sat_all (bad_truth true) (built bad_es good_gs only).
Proof. apply satb_ok. destruct only; vm_compute; reflexivity. Qed.
Lemma good_read : gather (fst (loaded bad_es good_gs)) (snd (loaded bad_es good_gs)) (bad_truth true) first_choice = Ok [(mx, a)].
Proof. vm_compute. reflexivity. Qed.
(** one class of applications: the goal X = b *)
Definition one_gs : list (list (term * term)) := [[(X, b); (a, a)]].
Definition one_truth (v : var) : bool :=
  match v with
  | VS 9 7 | VE _ 7 9 | VE _ 6 6 | VR 6 6 | VR 7 7 | VR 9 9 | VO 6 7 | VO 6 9 | VC 0 => true
  | _ => false
  end.
Lemma one_well : well_problem meta_sig bad_es one_gs.
Proof. split; repeat constructor; cbn; auto. lia. Qed.
Lemma one_load : load bad_es one_gs old new_problem = Ok (loaded bad_es one_gs).
Proof. vm_compute. reflexivity. Qed.
Lemma one_clauses : all_clauses (fst (loaded bad_es one_gs)) (snd (loaded bad_es one_gs)) false = Ok (built bad_es one_gs false).
Proof. vm_compute; reflexivity. Qed.
Lemma one_sat : sat_all one_truth (built bad_es one_gs false).
Proof. apply satb_ok. vm_compute. reflexivity. Qed.
Lemma one_read : gather (fst (loaded bad_es one_gs)) (snd (loaded bad_es one_gs)) one_truth first_choice = Ok [(mx, f a)].
Proof. vm_compute. reflexivity. Qed.
Lemma one_single : single_classes (fst (loaded bad_es one_gs)) (snd (loaded bad_es one_gs)).
Proof.
  set (h := fst (loaded bad_es one_gs)). set (pb := snd (loaded bad_es one_gs)). intros i l t u J T U _.
  assert (H : forallb (fun e => forallb (fun t => forallb (fun u => congruent h (tr_class t) (tr_class u)) (snd e)) (snd e)) (pb_funs pb) = true) by (vm_compute; reflexivity).
  clearbody h pb. rewrite forallb_forall in H. specialize (H _ J). cbn in H. rewrite forallb_forall in H. specialize (H _ T). rewrite forallb_forall in H. exact (H _ U).
Qed.
(** bindings in a cycle: X to Y and Y to X *)
Definition cyc_gs : list (list (term * term)) := [[(X, Y)]].
Definition cyc_truth (v : var) : bool :=
  match v with
  | VS 6 7 | VS 7 6 | VE _ 6 7 | VR 6 6 | VR 7 7 | VC 0 => true
  | _ => false
  end.
Lemma cyc_well : well_problem meta_sig [] cyc_gs.
Proof. split; repeat constructor; cbn; auto; lia. Qed.
Lemma cyc_load : load [] cyc_gs old new_problem = Ok (loaded [] cyc_gs).
Proof. vm_compute. reflexivity. Qed.
Lemma cyc_clauses : all_clauses (fst (loaded [] cyc_gs)) (snd (loaded [] cyc_gs)) false = Ok (built [] cyc_gs false).
Proof. vm_compute; reflexivity. Qed.
Lemma cyc_sat : sat_all cyc_truth (built [] cyc_gs false).
Proof. apply satb_ok. vm_compute. reflexivity. Qed.
Lemma cyc_read : gather (fst (loaded [] cyc_gs)) (snd (loaded [] cyc_gs)) cyc_truth first_choice = Ok [(mx, Y); (my, X)].
Proof. vm_compute. reflexivity. Qed.

(** ** Copies *)
Lemma copy_changes sat choice : exists hf pf h1 p1, load [] [[(a, b)]] [] new_problem = Ok (hf, pf) /\ load [(a, b)] [] hf pf = Ok (h1, p1) /\
  solve sat choice hf pf = Ok None /\ solve sat choice h1 pf = Ok (Some [[]]).
Proof. do 4 eexists. repeat split; vm_compute; reflexivity. Qed.
Lemma copy_case : exists h1 p1, load [] [[(f (f X), d)]] (fst (loaded bad_es good_gs)) (snd (loaded bad_es good_gs)) = Ok (h1, p1).
Proof. eexists. eexists. vm_compute. reflexivity. Qed.

(** ** A sound solver *)
Definition try_truth (truth : var -> bool) (cs : list (list lit)) : option (var -> bool) := if satb truth cs then Some truth else None.
Lemma try_sound truth : sound_solver (try_truth truth).
Proof. intros cs t E. unfold try_truth in E. destruct (satb truth cs) eqn:S; [|discriminate]. injection E as <-. apply satb_ok. auto. Qed.
Lemma bad_answer : exists h pb, reason (try_truth (bad_truth false)) first_choice bad_es bad_gs old new_problem = Ok (Some [[(mx, a)]], h, pb).
Proof. eexists. eexists. vm_compute. reflexivity. Qed.
Lemma cyc_answer : exists h pb, reason (try_truth cyc_truth) first_choice [] cyc_gs old new_problem = Ok (Some [[(mx, Y); (my, X)]], h, pb).
Proof. eexists. eexists. vm_compute. reflexivity. Qed.
