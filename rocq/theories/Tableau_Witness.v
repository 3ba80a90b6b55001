(** Concrete derivations for C24. *)
From Coq Require Import ZArith List Bool String Lia.
From Verif Require Import LibSet_Model Ast_Model Problem_Model Rules_Model Sem_Spec Occ_Spec Free_Spec Rules_Spec Skolem_Spec
  Tableau_Spec LibSet_Proofs Ast_Proofs Skolem_Witness Tableau_Proofs Expand_Model ExpandSets_Proofs.
Import ListNotations.
Open Scope Z_scope.

Definition same0 : list term -> list term -> bool := fun _ _ => true.
Definition iT : ty := TyConstr "$i" [].

(** a test for [wff] *)
Fixpoint nodupb {A} (eqb : A -> A -> bool) (l : list A) : bool :=
  match l with [] => true | a :: r => negb (existsb (eqb a) r) && nodupb eqb r end.
Definition emptyb {A} (l : list A) : bool := match l with [] => true | _ => false end.
Definition wffb (g : gen) (f : form) : bool :=
  forallb (fun b => b) (f_collect (fun _ _ args => map t_noid args) f) && emptyb (fv f) && emptyb (ftv f) &&
  nodupb Z.eqb (map tv_index (f_binders f)) && nodupb String.eqb (map tv_name (f_binders f)) &&
  forallb (fun x => negb (existsb (Z.eqb (tv_index x)) (f_funs f))) (f_binders f) &&
  forallb (fun i => i <? cpt_term g) (f_funs f ++ f_metas f ++ map tv_index (f_binders f)).
Lemma existsb_no {A} (eqb : A -> A -> bool) (R : forall a, eqb a a = true) a l : negb (existsb (eqb a) l) = true -> ~ In a l.
Proof.
  intros H K. apply negb_true_iff in H. assert (existsb (eqb a) l = true) by (apply existsb_exists; eauto). congruence.
Qed.
Lemma nodupb_ok {A} (eqb : A -> A -> bool) (R : forall a, eqb a a = true) l : nodupb eqb l = true -> NoDup l.
Proof.
  induction l as [|a l IH]; cbn; intros H; constructor; apply andb_prop in H as [H1 H2]; auto. eapply existsb_no; eauto.
Qed.
Lemma wffb_ok g f : wffb g f = true -> wff g f.
Proof.
  unfold wffb. intros H. repeat (apply andb_prop in H as [H ?]). rewrite forallb_forall in *. constructor; auto.
  - destruct (fv f); auto; discriminate.
  - destruct (ftv f); auto; discriminate.
  - eapply nodupb_ok; eauto. apply Z.eqb_refl.
  - eapply nodupb_ok; eauto. apply String.eqb_refl.
  - intros x Hx. eapply existsb_no; eauto. apply Z.eqb_refl.
  - intros i Hi. apply Z.ltb_lt. apply H0. rewrite !in_app_iff. auto.
Qed.

(** concrete sets *)
Lemma set1_ok m : mok (Node 1 Leaf m Leaf).
Proof. eapply add_meta_mok with (mc := Leaf) (m := Some m); [apply mleaf_ok|reflexivity]. Qed.
Ltac mset_ok := cbn [br_mm br_mc];
  match goal with
  | |- mok Leaf => apply mleaf_ok
  | |- mok (Node 1 Leaf _ Leaf) => apply set1_ok
  | |- mok (Node _ (Node 1 Leaf ?a Leaf) ?b Leaf) => apply (add_meta_mok (Node 1 Leaf b Leaf) (Some a)); [apply set1_ok|vm_compute; reflexivity]
  | |- mok (Node _ Leaf ?a (Node 1 Leaf ?b Leaf)) => apply (add_meta_mok (Node 1 Leaf a Leaf) (Some b)); [apply set1_ok|vm_compute; reflexivity]
  end.

(** ** (! [X] : ? [Y] : r(X,Y)) & (? [U] : ! [V] : (~ r(U,V) | $false)) *)
Definition rId : ident := mkId 5 "r".
Definition wA : form := All 1 [mkTV "X" 20 iT] (Ex 2 [mkTV "Y" 21 iT] (Pred 3 rId [] [Var 20 "X"; Var 21 "Y"])).
Definition wB : form := Ex 4 [mkTV "U" 22 iT] (All 5 [mkTV "V" 23 iT] (Or 6 [Not 7 (Pred 8 rId [] [Var 22 "U"; Var 23 "V"]); Bot 9])).
Definition wF : form := And 10 [wA; wB].
Lemma wF_start : wf_start gS wF.
Proof.
  split; [apply wffb_ok; reflexivity|]. split; [reflexivity|]. split; [reflexivity|]. intros x Hx. cbn in Hx. intuition (subst; reflexivity).
Qed.
Lemma wF_closed k : exists t s, tab_steps same0 linear_in (start gS k wF) t /\ (List.length (tb_branches t) = 2)%nat /\
  forall b, In b (tb_branches t) -> closes 0 s b.
Proof.
  destruct k.
  all: eexists; eexists; split; [unfold start|].
  all: try (
    (* alpha *)
    eapply tss_step; [eapply ts_alpha with (l1 := []) (l2 := []); [left; reflexivity|constructor|vm_compute; reflexivity|apply incl_appl, incl_refl]|cbn [app br_forms br_mm br_mc]];
    (* delta on B *)
    eapply tss_step; [eapply ts_delta with (l1 := []) (l2 := []); [right; left; reflexivity|constructor|vm_compute; reflexivity|intros ? ?; exact H]|cbn [app br_forms br_mm br_mc]];
    (* gamma on A *)
    eapply tss_step; [eapply ts_gamma_add with (l1 := []) (l2 := []) (index := 0); [right; left; reflexivity|constructor|vm_compute; reflexivity|intros ? ?; exact H|mset_ok|vm_compute; reflexivity]|cbn [app br_forms br_mm br_mc]];
    (* delta on ? Y : r(X,Y) *)
    eapply tss_step; [eapply ts_delta with (l1 := []) (l2 := []); [left; reflexivity|constructor|vm_compute; reflexivity|intros ? ?; exact H]|cbn [app br_forms br_mm br_mc]];
    (* gamma on B *)
    eapply tss_step; [eapply ts_gamma_add with (l1 := []) (l2 := []) (index := 1); [right; right; left; reflexivity|constructor|vm_compute; reflexivity|intros ? ?; exact H|mset_ok|vm_compute; reflexivity]|cbn [app br_forms br_mm br_mc]];
    (* beta *)
    eapply tss_step; [eapply ts_beta_union with (l1 := []) (l2 := []); [left; reflexivity|constructor|vm_compute; reflexivity|
      constructor; [apply incl_refl|constructor; [apply incl_refl|constructor]]|mset_ok|mset_ok|vm_compute; reflexivity]|cbn [app map br_forms br_mm br_mc]];
    apply tss_refl).
  all: cbn [tb_branches]; split; [reflexivity|].
  all: intros b [<-|[<-|[]]].
  all: try (eapply cl_bot; left; reflexivity).
  all: try (eapply cl_pair with (s := [(mkMeta 31 0 "X" 0 iT, Fun (mkId 30 "skolem@U@0") [] []);
         (mkMeta 33 0 "V" 1 iT, Fun (mkId 32 "skolem@Y@1") [] [Fun (mkId 30 "skolem@U@0") [] []])]);
    [right; right; left; reflexivity|left; reflexivity|reflexivity|constructor|]).
  all: repeat (first [apply Forall2_nil|apply Forall2_cons]); apply term_eqb_reflect; reflexivity.
Qed.

(** a derivation with a replacement: (! [X] : p(X)) & ~p(a), X replaced by a *)
Definition pId : ident := mkId 5 "p".
Definition aT : term := Fun (mkId 6 "a") [] [].
Definition bT : term := Fun (mkId 7 "b") [] [].
Definition iF : form := And 1 [All 2 [mkTV "X" 20 iT] (Pred 3 pId [] [Var 20 "X"]); Not 4 (Pred 5 pId [] [aT])].
Lemma iF_start : wf_start gS iF.
Proof.
  split; [apply wffb_ok; reflexivity|]. split; [reflexivity|]. split; [reflexivity|]. intros x Hx. cbn in Hx. intuition (subst; reflexivity).
Qed.
Definition mX30 : meta := mkMeta 30 0 "X" 0 iT.
Lemma iF_closed k : exists t, tab_steps same0 linear_in (start gS k iF) t /\ tb_branches t <> [] /\
  forall b, In b (tb_branches t) -> closes 0 [] b.
Proof.
  eexists; split; [unfold start|].
  - eapply tss_step; [eapply ts_alpha with (l1 := []) (l2 := []); [left; reflexivity|constructor|vm_compute; reflexivity|apply incl_appl, incl_refl]|cbn [app br_forms br_mm br_mc]].
    eapply tss_step; [eapply ts_gamma_add with (l1 := []) (l2 := []) (index := 0); [left; reflexivity|constructor|vm_compute; reflexivity| |mset_ok|vm_compute; reflexivity]|cbn [app br_forms br_mm br_mc]].
    { instantiate (1 := [mkFat (Pred 3 pId [] [Meta mX30]) [Meta mX30]; mkFat (Not 4 (Pred 5 pId [] [aT])) []]).
      intros x [<-|[<-|[]]]; vm_compute; auto. }
    eapply tss_step; [apply ts_inst with (m := mX30) (u := aT)|apply tss_refl].
    + discriminate.
    + constructor; [|constructor]. apply ib_repl.
      * constructor; try reflexivity.
        -- intros i [[<-|[]]|[]]. reflexivity.
        -- cbn [br_forms]. intros x y [<-|[<-|[]]] [].
        -- intros _ m [].
      * intros x [<-|[<-|[]]]; repeat constructor.
      * cbn [br_forms]. apply Forall2_cons with (y := mkFat (Pred 3 pId [] [aT]) []); [reflexivity|].
        apply Forall2_cons with (y := mkFat (Not 4 (Pred 5 pId [] [aT])) []); [reflexivity|constructor].
  - cbn [tb_branches]. split; [discriminate|]. intros b [<-|[]].
    eapply cl_pair; [left; reflexivity|right; left; reflexivity|reflexivity|constructor|].
    repeat (first [apply Forall2_nil|apply Forall2_cons]); apply term_eqb_reflect; reflexivity.
Qed.

(** ** C24 refuted for types: (? [A : $tType] : p(A)) & (? [B : $tType] : ~ p(B)) *)
Definition tF : form := And 6 [dA; dB].
Definition bool5 : interp := mkInterp bool bool (fun _ _ _ => true)
  (fun s ts _ => s = 5 -> match ts with [b] => b = true | _ => False end)
  (fun _ _ => true) (fun _ => true) (fun _ => true) (fun _ _ => true) (fun _ _ => true).
Definition val5 : val bool5 := @mkVal bool5 (fun _ => true) (fun _ => true) (fun _ => true) (fun _ _ => true).
Lemma types_close k : exists t, tab_steps same0 linear_in (start gS k tF) t /\ tb_branches t <> [] /\
  (forall b, In b (tb_branches t) -> closes 0 [] b) /\
  wff gS tF /\ f_metas tF = [] /\ f_tymetas tF = [] /\
  exists I (v : val I), eq_refl_in 0 I /\ holds tF v.
Proof.
  eexists; split; [unfold start|].
  - eapply tss_step; [eapply ts_alpha with (l1 := []) (l2 := []); [left; reflexivity|constructor|vm_compute; reflexivity|apply incl_appl, incl_refl]|cbn [app br_forms br_mm br_mc]].
    eapply tss_step; [eapply ts_delta with (l1 := []) (l2 := []); [left; reflexivity|constructor|vm_compute; reflexivity|intros ? ?; exact H]|cbn [app br_forms br_mm br_mc]].
    eapply tss_step; [eapply ts_delta with (l1 := []) (l2 := []); [right; right; left; reflexivity|constructor|vm_compute; reflexivity|intros ? ?; exact H]|cbn [app br_forms br_mm br_mc]].
    apply tss_refl.
  - cbn [tb_branches]. split; [discriminate|]. split.
    + intros b [<-|[]]. eapply cl_pair; [right; left; reflexivity|left; reflexivity|reflexivity|repeat constructor|constructor].
    + split; [apply wffb_ok; reflexivity|]. split; [reflexivity|]. split; [reflexivity|].
      exists bool5, val5. split; [intros ts d; cbn; discriminate|]. cbn. split; [|split; auto].
      * exists true. auto.
      * exists false. intros H. discriminate (H eq_refl).
Qed.

(** ** C24 refuted when the program's replacement is used on any formula:
    (! [X] : p(f(X,X))) & ~ p(f(a,b)); X is replaced by a, then closed with X = b *)
Definition ffT (x y : term) : term := Fun (mkId 8 "f") [] [x; y].
Definition nF : form := And 1 [All 2 [mkTV "X" 20 iT] (Pred 3 pId [] [ffT (Var 20 "X") (Var 20 "X")]); Not 4 (Pred 5 pId [] [ffT aT bT])].
(** f is equality of booleans, a is true, b is false, p is identity *)
Definition boolF : interp := mkInterp bool bool
  (fun s _ ds => if s =? 8 then match ds with [x; y] => Bool.eqb x y | _ => true end else (s =? 6))
  (fun s _ ds => s = 5 -> match ds with [b] => b = true | _ => False end)
  (fun _ _ => true) (fun _ => true) (fun _ => true) (fun _ _ => true) (fun _ _ => true).
Definition valF : val boolF := @mkVal boolF (fun _ => true) (fun _ => true) (fun _ => true) (fun _ _ => true).
Lemma replace_close k : exists t s, tab_steps same0 (fun _ _ => True) (start gS k nF) t /\ tb_branches t <> [] /\
  (forall b, In b (tb_branches t) -> closes 0 s b) /\ wf_start gS nF /\
  exists I (v : val I), eq_refl_in 0 I /\ holds nF v.
Proof.
  eexists; exists [(mX30, bT)]; split; [unfold start|].
  - eapply tss_step; [eapply ts_alpha with (l1 := []) (l2 := []); [left; reflexivity|constructor|vm_compute; reflexivity|apply incl_appl, incl_refl]|cbn [app br_forms br_mm br_mc]].
    eapply tss_step; [eapply ts_gamma_add with (l1 := []) (l2 := []) (index := 0); [left; reflexivity|constructor|vm_compute; reflexivity| |mset_ok|vm_compute; reflexivity]|cbn [app br_forms br_mm br_mc]].
    { instantiate (1 := [mkFat (Pred 3 pId [] [ffT (Meta mX30) (Meta mX30)]) [Meta mX30]; mkFat (Not 4 (Pred 5 pId [] [ffT aT bT])) []]).
      intros x [<-|[<-|[]]]; vm_compute; auto. }
    eapply tss_step; [apply ts_inst with (m := mX30) (u := aT)|apply tss_refl].
    + discriminate.
    + constructor; [|constructor]. apply ib_repl.
      * constructor; try reflexivity.
        -- intros i [[<-|[]]|[]]. reflexivity.
        -- cbn [br_forms]. intros x y [<-|[<-|[]]] [].
        -- intros _ m [].
      * auto.
      * cbn [br_forms]. apply Forall2_cons with (y := mkFat (Pred 3 pId [] [ffT aT (Meta mX30)]) []); [reflexivity|].
        apply Forall2_cons with (y := mkFat (Not 4 (Pred 5 pId [] [ffT aT bT])) []); [reflexivity|constructor].
  - cbn [tb_branches]. split; [discriminate|]. split; [|split].
    + intros b [<-|[]].
      eapply cl_pair; [left; reflexivity|right; left; reflexivity|reflexivity|constructor|].
      repeat (first [apply Forall2_nil|apply Forall2_cons]); apply term_eqb_reflect; reflexivity.
    + split; [apply wffb_ok; reflexivity|]. split; [reflexivity|]. split; [reflexivity|]. intros x Hx. cbn in Hx. intuition (subst; reflexivity).
    + exists boolF, valF. split; [intros ts d; cbn; discriminate|]. cbn. split; [|split; auto].
      * intros [|] _; reflexivity.
      * intros H. discriminate (H eq_refl).
Qed.
