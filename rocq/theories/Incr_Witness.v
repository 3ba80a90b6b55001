(** Small runs of the incremental search. *)
From Coq Require Import ZArith List Bool String.
From Verif Require Import LibSet_Model Ast_Model Problem_Model Rules_Model Sem_Spec Occ_Spec Free_Spec Rules_Spec Tableau_Spec Skolem_Witness
  Ast_Proofs Unif_Model Unif_Spec UnifLoss_Model UnifLoss_Proofs UnifTree_Model UnifTree_Final UnifTree_Witness Closure_Model Closure_Spec Closure_Proofs
  Tableau_Witness Expand_Spec Closure_Witness Incr_Model Incr_Spec IncrSub_Proofs Incr_Proofs IncrTree_Proofs IncrSound_Proofs IncrClose_Proofs IncrEnd_Proofs IncrOpen_Proofs.
Import ListNotations.
Open Scope list_scope.
Open Scope Z_scope.

Notation real := (run_real nid mono0 30 30).
Notation strict := (run_strict nid mono0 30 30).
Definition p2 (x y : term) : form := Pred 40 (mkId 1 "p") [] [x; y].
Definition q2 (x y : term) : form := Pred 41 (mkId 2 "q") [] [x; y].
Definition r1 (x : term) : form := Pred 42 (mkId 6 "r") [] [x].
Definition s1 (x : term) : form := Pred 43 (mkId 7 "s") [] [x].
Definition fT (x : term) : term := Fun (mkId 3 "f") [] [x].
Definition aT : term := Fun (mkId 10 "a") [] [].
Definition bT : term := Fun (mkId 11 "b") [] [].
Definition cT : term := Fun (mkId 12 "c") [] [].
Definition dT : term := Fun (mkId 13 "d") [] [].
Definition no (f : form) : form := Not 44 f.
Definition arities (i : Z) : nat :=
  (if (i =? 1)%Z then 2 else if (i =? 2)%Z then 2 else if (i =? 3)%Z then 1 else if (i =? 6)%Z then 1 else if (i =? 7)%Z then 1 else 0)%nat.
Definition sI : Unif_Spec.signature := mkSig arities (fun m => m_ty m = iT) (fun _ => True).
Definition sG : Unif_Spec.signature := mkSig arities (fun _ => False) (fun _ => True).

(** X = f(Y) closes a branch, Y = f(X) the other one *)
Definition cyc : form := All 1 [mkTV "X" 20 iT; mkTV "Y" 21 iT]
  (Or 2 [And 3 [p2 x_ y_; no (p2 (fT y_) y_)]; And 4 [q2 x_ y_; no (q2 x_ (fT x_))]]).
(** a branch is closed by bottom, the others by X = a or X = b, then nothing is left of the second pair *)
Definition jok : form := All 1 [mkTV "X" 20 iT]
  (Or 2 [Bot 3; And 4 [r1 x_; no (r1 aT); no (no (no (r1 cT)))]; And 5 [s1 x_; no (s1 bT); no (no (no (s1 dT)))]]).
(** X = a closes both branches *)
Definition one : form := All 1 [mkTV "X" 20 iT] (Or 2 [And 3 [r1 x_; no (r1 aT)]; And 4 [s1 x_; no (s1 aT)]]).
(** two instances are needed *)
Definition two : form := All 1 [mkTV "X" 20 iT] (And 2 [r1 x_; Or 3 [no (r1 aT); no (r1 bT)]]).
(** without variables *)
Definition gsat : form := And 1 [Or 2 [r1 aT; s1 bT]; no (r1 aT)].
Definition guns : form := And 1 [Or 2 [r1 aT; s1 bT]; no (r1 aT); no (s1 bT)].

(** ** Runs *)
Definition ended (sched : list nat) (f : form) : world := match real sched (first_world gS Outer f) with Ok w => w | _ => first_world gS Outer f end.
Definition cyc_sched : list nat := [0; 0; 0; 0; 1; 0; 0]%nat.
Definition jok_sched : list nat := repeat 0%nat 12.
Definition cyc_end : world := Eval vm_compute in ended cyc_sched cyc.
Definition jok_end : world := Eval vm_compute in ended jok_sched jok.
Definition one_end : world := Eval vm_compute in ended (repeat 0%nat 6) one.
Definition two_end : world := Eval vm_compute in ended (repeat 0%nat 7) two.
Definition gsat_end : world := Eval vm_compute in ended (repeat 0%nat 4) gsat.
Definition guns_end : world := Eval vm_compute in ended (repeat 0%nat 4) guns.
Lemma cyc_run : real cyc_sched (first_world gS Outer cyc) = Ok cyc_end. Proof. vm_compute. reflexivity. Qed.
Lemma jok_run : real jok_sched (first_world gS Outer jok) = Ok jok_end. Proof. vm_compute. reflexivity. Qed.
Lemma one_run : real (repeat 0%nat 6) (first_world gS Outer one) = Ok one_end. Proof. vm_compute. reflexivity. Qed.
Lemma two_run : real (repeat 0%nat 7) (first_world gS Outer two) = Ok two_end. Proof. vm_compute. reflexivity. Qed.
Lemma gsat_run : real (repeat 0%nat 4) (first_world gS Outer gsat) = Ok gsat_end. Proof. vm_compute. reflexivity. Qed.
Lemma guns_run : real (repeat 0%nat 4) (first_world gS Outer guns) = Ok guns_end. Proof. vm_compute. reflexivity. Qed.
Ltac start := split; [apply wffb_ok; reflexivity|]; split; [reflexivity|]; split; [reflexivity|]; intros x Hx; cbn in Hx; intuition (subst; reflexivity).
Lemma cyc_start : wf_start gS cyc. Proof. start. Qed.
Lemma jok_start : wf_start gS jok. Proof. start. Qed.
Lemma one_start : wf_start gS one. Proof. start. Qed.
Lemma two_start : wf_start gS two. Proof. start. Qed.
Lemma guns_start : wf_start gS guns. Proof. start. Qed.

(** ** Models *)
(** the naturals, f is the successor, p(x,y) says that x is not the successor of y, q(x,y) that y is not the one of x *)
Definition natI : interp := mkInterp nat unit
  (fun s _ ds => if s =? 3 then match ds with [x] => S x | _ => O end else O)
  (fun s _ ds => match ds with [x; y] => if s =? 1 then x <> S y else y <> S x | _ => True end)
  (fun _ _ => tt) (fun _ => tt) (fun _ => tt) (fun _ _ => tt) (fun _ _ => tt).
Definition natV : val natI := @mkVal natI (fun _ => O) (fun _ => O) (fun _ => tt) (fun _ _ => tt).
Lemma cyc_sat : satisfiable cyc.
Proof.
  exists natI, natV. cbn. intros x y. destruct (Nat.eq_dec x (S y)) as [->|N].
  - right. left. split; [|split; auto]. intros E. apply (Nat.neq_succ_diag_r y). transitivity (S (S y)); [exact E|].
    exfalso. revert E. generalize y. induction y0; intros E; [discriminate|injection E as E; auto].
  - left. split; auto.
Qed.
(** a and c are false, b and d are true, r is the identity, s the negation *)
Definition boolJ : interp := mkInterp bool unit
  (fun s _ _ => (s =? 11) || (s =? 13))
  (fun s _ ds => match ds with [x] => if s =? 6 then x = true else x = false | _ => True end)
  (fun _ _ => tt) (fun _ => tt) (fun _ => tt) (fun _ _ => tt) (fun _ _ => tt).
Definition valJ : val boolJ := @mkVal boolJ (fun _ => true) (fun _ => true) (fun _ => tt) (fun _ _ => tt).
Lemma jok_sat : satisfiable jok.
Proof.
  exists boolJ, valJ. cbn. intros [|]; right; [left|right; left]; repeat split; try discriminate; try (intros H; apply H; discriminate).
Qed.
Lemma two_unsat : unsat two.
Proof.
  intros I v H. cbn in H. destruct (H (fn I 10 [] [])) as (Ha & HO & _). destruct (H (fn I 11 [] [])) as (Hb & _). tauto.
Qed.

(** ** The claims *)
Lemma cyc_valid : exists s, w_tasks cyc_end = [] /\ answer cyc_end = Ok true /\ chosen cyc_end = Ok (Some s).
Proof. eexists. split; [reflexivity|]. split; vm_compute; reflexivity. Qed.
Lemma jok_valid : w_tasks jok_end = [] /\ answer jok_end = Ok true /\ chosen jok_end = Ok None.
Proof. repeat split; vm_compute; reflexivity. Qed.
Lemma sat_not_closed sched f w t : wf_start gS f -> satisfiable f -> real sched (first_world gS Outer f) = Ok w -> ~ closed_below t w 0.
Proof. intros W (I & v & H) E C. exact (closed_unsat nid mono0 _ _ gS Outer f sched w t W E C I v H). Qed.

(** the substitutions {X -> f(Y)} and {Y -> f(X)}, {X -> f(Y)} and {X -> f(a)} *)
Definition mX : meta := mkMeta 30 0 "X" 42 iT.
Definition mY : meta := mkMeta 31 0 "Y" 42 iT.
Definition sXfY : sub := Sub [(mX, Some (fT (Meta mY)))].
Definition sYfX : sub := Sub [(mY, Some (fT (Meta mX)))].
Definition sXfa : sub := Sub [(mX, Some (fT aT))].
Definition sXa : sub := Sub [(mX, Some aT)].
Definition sYb : sub := Sub [(mY, Some bT); (mX, None)].
Lemma single_functional k u : functional (Sub [(k, u)]).
Proof. unfold functional. cbn. constructor; [intros []|constructor]. Qed.
Lemma cycle_none t : ~ (satisfies t sXfY /\ satisfies t sYfX).
Proof.
  intros [A B]. specialize (A mX (fT (Meta mY)) (or_introl eq_refl)). specialize (B mY (fT (Meta mX)) (or_introl eq_refl)).
  apply Unif_Final.same_size in A, B.
  assert (F : forall m, Unif_Final.tsize (ssubst t (fT (Meta m))) = S (Unif_Final.tsize (ssubst t (Meta m)) + 0)) by reflexivity.
  rewrite F in A, B. Lia.lia.
Qed.
Lemma merged_cycle : exists x, build sXfY sYfX = Some x. Proof. eexists. reflexivity. Qed.
Lemma not_merged : build sXfY sXfa = None /\ exists t, satisfies t sXfY /\ satisfies t sXfa.
Proof.
  split; [reflexivity|]. exists [(mX, fT aT); (mY, aT)].
  split; intros k u [E|[]]; injection E as <- <-; cbn; repeat constructor.
Qed.
Lemma merge_case : build sXa sYb = Some (Sub [(mX, Some aT); (mY, Some bT)]) /\ functional sXa /\ functional sYb /\ disagree sXa sXfa.
Proof.
  split; [reflexivity|]. split; [apply single_functional|]. split.
  - unfold functional. cbn. constructor; [intros [E|[]]; discriminate|constructor; [intros []|constructor]].
  - exists mX, mX, aT, (fT aT). split; [left; reflexivity|]. split; [left; reflexivity|]. split; [reflexivity|]. intros S. inversion S. discriminate.
Qed.

(** the universal formula of the root is used once *)
Definition two_root : snode := Eval vm_compute in nth 0 (w_nodes two_end) (new_node 0 0 empty_mgr []).
Lemma two_root_at : node_at two_end 0 two_root. Proof. reflexivity. Qed.
Lemma two_once : w_tasks two_end = [] /\ answer two_end = Ok false /\ node_at two_end 0 two_root /\
  mg_gamma (n_mgr two_root) = [mkFat two []] /\ n_children two_root <> [] /\
  forall j m, j <> 0%nat -> node_at two_end j m -> ~ available two (n_mgr m).
Proof.
  split; [reflexivity|]. split; [vm_compute; reflexivity|]. split; [reflexivity|]. split; [reflexivity|]. split; [discriminate|].
  assert (Q : forallb (fun m => negb (existsb (fun y => form_eqb (ft_form y) two) (forms_of (n_mgr m) ++ map fst (mg_reintro (n_mgr m))))) (tl (w_nodes two_end)) = true)
    by (vm_compute; reflexivity).
  intros j m N H (y & Hy & E). destruct j as [|j]; [congruence|]. rewrite forallb_forall in Q.
  assert (HM : In m (tl (w_nodes two_end))) by (apply nth_error_In with j; exact H).
  specialize (Q m HM). apply negb_true_iff in Q. assert (X : existsb (fun y => form_eqb (ft_form y) two) (forms_of (n_mgr m) ++ map fst (mg_reintro (n_mgr m))) = true).
  { apply existsb_exists. exists y. split; auto. apply in_app_iff. exact Hy. }
  congruence.
Qed.
(** a list with two universal formulas *)
Definition uA : fat := mkFat two [].
Definition uB : fat := mkFat one [].
Definition listed : mgr := mkMgr [] [] [] [] [] [] [(uA, 2); (uB, 1); (uA, 1)] [].
Lemma listed_case : exists a, apply_reintro listed (mkSko Outer 0 []) gS = Ok (Some a) /\ ap_rule a = uB /\
  map mg_reintro (ap_new a) = [[(uA, 2); (uB, 2); (uA, 1)]].
Proof. eexists. split; [vm_compute; reflexivity|]. split; reflexivity. Qed.

(** a run that closes its tree *)
Definition tOne : list (meta * term) := [(mX, aT)].
Lemma sI_mono : monomorphic sI mono0.
Proof. split; [intros m E; cbn in E; rewrite E; reflexivity|reflexivity]. Qed.
Lemma sG_mono : monomorphic sG mono0.
Proof. split; [intros m []|reflexivity]. Qed.
Lemma sG_nometa : nometa sG. Proof. intros m []. Qed.
Lemma one_fo : world_fo sI one_end.
Proof.
  intros j m H. assert (Q : In m (w_nodes one_end)) by (eapply nth_error_In; exact H). clear H. intros x Hx.
  cbn in Q. repeat (destruct Q as [<-|Q]; [cbn in Hx; repeat (destruct Hx as [<-|Hx]; [split; [reflexivity|wellc]|]); destruct Hx|]). destruct Q.
Qed.
Lemma one_case : monomorphic sI mono0 /\ wf_start gS one /\ strict (repeat 0%nat 6) (first_world gS Outer one) <> Out /\
  real (repeat 0%nat 6) (first_world gS Outer one) = Ok one_end /\ world_fo sI one_end /\ w_tasks one_end = [] /\ answer one_end = Ok true /\
  chosen one_end = Ok (Some sXa) /\ satisfies tOne sXa.
Proof.
  split; [exact sI_mono|]. split; [exact one_start|]. split; [vm_compute; discriminate|]. split; [exact one_run|]. split; [exact one_fo|].
  split; [reflexivity|]. split; [vm_compute; reflexivity|]. split; [vm_compute; reflexivity|].
  intros k u [E|[]]. injection E as <- <-. cbn. repeat constructor.
Qed.
(** runs without variables *)
Lemma gsat_prop : propositional sG gsat.
Proof. cbn. repeat split; discriminate. Qed.
Lemma guns_prop : propositional sG guns.
Proof. cbn. repeat split; discriminate. Qed.
Lemma gsat_case : strict (repeat 0%nat 4) (first_world gS Outer gsat) <> Out /\ real (repeat 0%nat 4) (first_world gS Outer gsat) = Ok gsat_end /\
  w_tasks gsat_end = [] /\ answer gsat_end = Ok false.
Proof. split; [vm_compute; discriminate|]. split; [exact gsat_run|]. split; vm_compute; reflexivity. Qed.
Lemma guns_case : strict (repeat 0%nat 4) (first_world gS Outer guns) <> Out /\ real (repeat 0%nat 4) (first_world gS Outer guns) = Ok guns_end /\
  w_tasks guns_end = [] /\ answer guns_end = Ok true.
Proof. split; [vm_compute; discriminate|]. split; [exact guns_run|]. split; vm_compute; reflexivity. Qed.
