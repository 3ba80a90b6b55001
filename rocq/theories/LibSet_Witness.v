(** Concrete cases and counterexamples for the set model. *)
From Coq Require Import ZArith List Bool Lia.
From Verif Require Import LibSet_Model LibSet_Spec LibSet_Proofs LibSetHeap_Model LibSetHeap_Proofs
  Par_Model Par_Proofs.
Import ListNotations.
Open Scope Z_scope.

Lemma Z_lawful : Lawful Z.eqb Z.ltb.
Proof.
  constructor; intros.
  - apply Z.ltb_irrefl.
  - rewrite Z.ltb_lt in *; lia.
  - rewrite Z.eqb_eq, !Z.ltb_ge; lia.
  - rewrite Z.eqb_eq in *; lia.
Qed.

Definition wit_prog : sexp Z :=
  SUnion (SRemove (SAdd SEmpty [5; 3; 8; 1]) 8) (SInter (SAdd SEmpty [9; 5]) (SCopy (SAdd SEmpty [9; 4; 5]))) .
Definition wit_prog' := SDiff wit_prog (SSingleton 1).
Lemma wit_prog_runs0 : exists t, run Z.eqb Z.ltb wit_prog' = Some t /\ elements t = [3; 9; 5].
Proof. eexists; split; vm_compute; reflexivity. Qed.

Lemma balanced_grow A (eqb ltb : A -> A -> bool) (e : sexp A) t :
  grow_only e = true -> run eqb ltb e = Some t ->
  balanced t /\ height t = theight t /\ 2 ^ theight t <= (cardinal t + 1) * (cardinal t + 1).
Proof.
  intros G E. pose proof (run_avl eqb ltb e t G E) as H.
  destruct (avl_height _ H) as [H1 H2]. repeat split; auto.
  rewrite <- tsize_cardinal. apply balanced_log; exact H2.
Qed.
Lemma wit_grow : grow_only (SAdd SEmpty [5; 2; 6]) = true /\
  exists t, run Z.eqb Z.ltb (SAdd SEmpty [5; 2; 6]) = Some t.
Proof. split; [reflexivity|]. eexists; vm_compute; reflexivity. Qed.

Lemma remove_unbalances :
  exists (e : sexp Z) (x : Z) t t', grow_only e = true /\
    run Z.eqb Z.ltb e = Some t /\ balanced t /\
    run Z.eqb Z.ltb (SRemove e x) = Some t' /\ ~ balanced t'.
Proof.
  exists (SAdd SEmpty [5; 2; 6; 1; 3; 7; 0; 4]), 7. eexists; eexists.
  split; [reflexivity|]. split; [vm_compute; reflexivity|].
  split; [cbn [balanced theight]; lia|].
  split; [vm_compute; reflexivity|]. cbn [balanced theight]. lia.
Qed.

Lemma copy_elements {A} (t : tree A) : elements (nodeCpy t) = elements t.
Proof. induction t as [|h l IHl v r IHr]; simpl; [reflexivity|]. rewrite IHl, IHr. reflexivity. Qed.
Lemma copy_find {A} (eqb ltb : A -> A -> bool) (t : tree A) x : find eqb ltb (nodeCpy t) x = find eqb ltb t x.
Proof. induction t as [|h l IHl v r IHr]; simpl; [reflexivity|]. rewrite IHl, IHr. reflexivity. Qed.

Lemma copy_contents {A} (eqb ltb : A -> A -> bool) : Lawful eqb ltb -> forall (e : sexp A) t,
  run eqb ltb e = Some t ->
  elements (nodeCpy t) = elements t /\
  (forall x, find eqb ltb (nodeCpy t) x = find eqb ltb t x) /\
  (forall vs, exists t', run eqb ltb (SAdd (SCopy e) vs) = Some t' /\
     forall x, find eqb ltb t' x = true <-> (find eqb ltb t x = true \/ exists y, In y vs /\ eqb x y = true)) /\
  (forall v, exists t', run eqb ltb (SRemove (SCopy e) v) = Some t' /\
     forall x, find eqb ltb t' x = true <-> (find eqb ltb t x = true /\ eqb x v = false)).
Proof.
  intros L e t E. split; [apply copy_elements|]. split; [apply copy_find|].
  destruct (set_refines eqb ltb L e) as (t0 & E0 & F & _). rewrite E in E0. injection E0 as <-.
  split.
  - intros vs. destruct (set_refines eqb ltb L (SAdd (SCopy e) vs)) as (t' & E' & F' & _).
    exists t'. split; [exact E'|]. intros x. rewrite F', F. simpl. tauto.
  - intros v. destruct (set_refines eqb ltb L (SRemove (SCopy e) v)) as (t' & E' & F' & _).
    exists t'. split; [exact E'|]. intros x. rewrite F', F. simpl. tauto.
Qed.

Fixpoint subprograms {A} (e : sexp A) : list (sexp A) :=
  e :: match e with
       | SEmpty | SSingleton _ => []
       | SAdd e _ | SRemove e _ | SCopy e => subprograms e
       | SUnion a b | SInter a b | SDiff a b => subprograms a ++ subprograms b
       end.

Definition copy_prog : sexp Z :=
  SAdd (SCopy (SAdd (SCopy (SAdd (SCopy (SAdd SEmpty [0;1;2;3;4])) [5])) [6;7])) [8;9;10;11].
Lemma copy_unbalances : exists (e : sexp Z) t, run Z.eqb Z.ltb e = Some t /\ ~ balanced t /\ height t <> theight t /\
    (forall e', In e' (subprograms e) -> match e' with SRemove _ _ => False | SDiff _ _ => False | _ => True end).
Proof.
  exists copy_prog. eexists. split; [vm_compute; reflexivity|].
  split; [cbn [balanced theight]; lia|]. split; [cbn [height theight]; lia|].
  unfold copy_prog; simpl. intuition; subst; exact I.
Qed.

Lemma old_handle_loses : exists (h0 : heap Z) (p0 : ptr) (h1 : heap Z) (p1 : ptr),
    hadd Z.eqb Z.ltb 10 [] None [1; 2] = Ok (h0, p0) /\
    hfind Z.eqb Z.ltb 10 h0 p0 2 = Ok true /\
    hadd Z.eqb Z.ltb 10 h0 p0 [3] = Ok (h1, p1) /\
    hfind Z.eqb Z.ltb 10 h1 p0 2 = Ok false.
Proof. do 4 eexists. repeat split; vm_compute; reflexivity. Qed.
Lemma old_handle_gains : exists (h0 : heap Z) (p0 : ptr) (h1 : heap Z) (p1 : ptr),
    hadd Z.eqb Z.ltb 10 [] None [1] = Ok (h0, p0) /\
    hfind Z.eqb Z.ltb 10 h0 p0 2 = Ok false /\
    hadd Z.eqb Z.ltb 10 h0 p0 [2] = Ok (h1, p1) /\
    hfind Z.eqb Z.ltb 10 h1 p0 2 = Ok true.
Proof. do 4 eexists. repeat split; vm_compute; reflexivity. Qed.

Lemma disjoint_unaffected {A} (eqb ltb : A -> A -> bool) (t u : tree A) h p fp q fq x t' fuel :
  repr h p t fp -> repr h q u fq -> (forall b, In b fp -> ~ In b fq) ->
  insert eqb ltb t x = Some t' -> (depth t < fuel)%nat ->
  exists h' p', hinsert eqb ltb fuel h p x = Ok (h', p') /\ repr h' q u fq.
Proof.
  intros R Q D E F. destruct (hinsert_ok eqb ltb t h p fp x t' fuel R E F) as (h' & p' & fp' & Eh & R' & (G1 & G2 & G3)).
  exists h', p'. split; [exact Eh|]. eapply repr_frame; [exact Q|]. intros a Ha.
  apply G1; [eapply repr_bound; eauto|]. intros K. apply (D a); auto.
Qed.

Lemma filter_loop_id {A} (eqb ltb : A -> A -> bool) p res xs : filter_loop (A:=A) eqb ltb p res xs = res.
Proof. induction xs as [|x xs IH]; simpl; [reflexivity|]. destruct (p x); exact IH. Qed.
Lemma filter_empty {A} (eqb ltb : A -> A -> bool) p (t : tree A) : set_filter eqb ltb p t = Leaf.
Proof. apply filter_loop_id. Qed.
Lemma filter_witness : exists t x, run Z.eqb Z.ltb (SSingleton 1) = Some t /\ find Z.eqb Z.ltb t x = true /\
    find Z.eqb Z.ltb (set_filter Z.eqb Z.ltb (fun _ => true) t) x = false.
Proof. exists (mkNode 1), 1. repeat split; vm_compute; reflexivity. Qed.

Lemma par_witness :
  (forall x y z, andb x (andb y z) = andb (andb x y) z) /\ (forall x y, andb x y = andb y x) /\
  psteps andb (pinit true [true; false]) ([], false).
Proof.
  split; [apply andb_assoc|]. split; [apply andb_comm|].
  apply pmore with ([true], false); [exact (pick andb [true] false [] true)|].
  apply pmore with ([], false); [exact (pick andb [] true [] false)|]. constructor.
Qed.
