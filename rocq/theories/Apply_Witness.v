(** Concrete cases for C146, C147. *)
From Coq Require Import ZArith List Bool String.
From Verif Require Import LibSet_Model Ast_Model Occ_Spec Rules_Model Sem_Spec Tableau_Spec Expand_Model Expand_Spec Ast_Proofs Skolem_Witness Tableau_Witness Expand_Witness
  Unif_Model Unif_Spec Unif_Witness UnifTree_Model UnifTree_Witness Closure_Model Closure_Spec Closure_Proofs Closure_Final Closure_Witness
  Select_Model GlobUnif_Model Restrict_Model Leaf_Model Apply_Model Apply_Spec Apply_Proofs.
Import ListNotations.
Open Scope list_scope.
Open Scope Z_scope.

(** symbols: 0 (=) and 6 (f) have two arguments, 1 (p) one *)
Definition aar : signature :=
  mkSig (fun i => if (i =? 0)%Z then 2 else if (i =? 6)%Z then 2 else if (i =? 1)%Z then 1 else 0)%nat (fun m => m_ty m = iT) (fun _ => True).
Lemma aar_mono : monomorphic aar mono0.
Proof. split; [intros m E; cbn in E; rewrite E; reflexivity|reflexivity]. Qed.
Definition ff (t u : term) : term := Fun (mkId 6 "f") [] [t; u].
Definition xb : list mixed := [MTerm mX30 bb].
Definition xc : list mixed := [MTerm mX30 cc].
Definition lits (l : list form) : state := mkSt 5 (mkQ [] (map (fun f => mkFat f []) l) [] [] [] []) [] Leaf Leaf.

(** *** p(f(X,X)) and ~ p(f(b,c)), with X := b *)
Definition w_l : list form := [Pred 1 pP [] [ff (Meta mX30) (Meta mX30)]; Not 2 (Pred 3 pP [] [ff bb cc])].
Definition w_st : state := lits w_l.
Lemma w_applied : map ft_form (q_atomic (st_q (apply_state same0 xb w_st))) = [Pred 1 pP [] [ff bb (Meta mX30)]; Not 2 (Pred 3 pP [] [ff bb cc])].
Proof. vm_compute. reflexivity. Qed.
Lemma w_found : again_real 0 nid mono0 30 30 (apply_state same0 xb w_st) [] = Ok (Some (Pred 1 pP [] [ff bb (Meta mX30)], [xc])).
Proof. vm_compute. reflexivity. Qed.
Lemma w_strict : again_strict 0 nid mono0 30 30 (apply_state same0 xb w_st) [] <> Out.
Proof. vm_compute. discriminate. Qed.
Lemma w_fo x : In x (q_atomic (st_q (apply_state same0 xb w_st))) -> first_order aar (ft_form x).
Proof. intros H. vm_compute in H. destruct H as [<-|[<-|[]]]; (split; [reflexivity|wellc]). Qed.
Lemma xb_plain : plain_subst aar xb.
Proof. split; [intros x i f u [H|[]]; discriminate|]. intros k t [H|[]]. injection H as <- <-. wellc. Qed.
Lemma w_stops : leaf 30 30 [mX30] (xb, []) [] [xc] (Pred 1 pP [] [ff bb (Meta mX30)]) = Crash.
Proof. vm_compute. reflexivity. Qed.
Lemma w_open w : ~ closes 0 w (branch_of w_st).
Proof.
  intros [i ts H|i j ts H|i p tys args ts i' j' p' tys' args' ts' H H' _ _ F|i j p tys a a' ts H _ _].
  - destruct H as [H|[H|[]]]; discriminate.
  - destruct H as [H|[H|[]]]; discriminate.
  - destruct H as [H|[H|[]]]; [|discriminate]. destruct H' as [H'|[H'|[]]]; [discriminate|]. injection H as <- <- <- <- <-. injection H' as <- <- <- <- <- <-.
    inversion F as [|? ? ? ? S _]. cbn [ssubst ff map] in S. inversion S as [|? ? ? ? ? ? _ _ F2| |]. inversion F2 as [|? ? ? ? S1 F3]. inversion F3 as [|? ? ? ? S2 _].
    pose proof (same_term_trans _ _ _ (same_term_sym _ _ S1) S2) as S3. inversion S3. discriminate.
  - destruct H as [H|[H|[]]]; discriminate.
Qed.

(** *** p(f(X,Y)) and ~ p(f(b,c)), with X := b: Y := c is found *)
Definition a_l : list form := [Pred 1 pP [] [ff (Meta mX30) (Meta mY31)]; Not 2 (Pred 3 pP [] [ff bb cc])].
Definition a_st : state := lits a_l.
Definition yc : list mixed := [MTerm mY31 cc].
Lemma a_found : again_real 0 nid mono0 30 30 (apply_state same0 xb a_st) [] = Ok (Some (Pred 1 pP [] [ff bb (Meta mY31)], [yc])).
Proof. vm_compute. reflexivity. Qed.
Lemma a_strict : again_strict 0 nid mono0 30 30 (apply_state same0 xb a_st) [] <> Out.
Proof. vm_compute. discriminate. Qed.
Lemma a_fo x : In x (q_atomic (st_q (apply_state same0 xb a_st))) -> first_order aar (ft_form x).
Proof. intros H. vm_compute in H. destruct H as [<-|[<-|[]]]; (split; [reflexivity|wellc]). Qed.

(** *** A := $i and X := b on p(A,f(X,X)) and ! [Y] : p(A,f(X,Y)) *)
Definition ab : list mixed := MTy "A" 3 0 iT :: xb.
Definition tA : ty := TyMeta "A" 3 0.
Definition t_st : state :=
  mkSt 5 (mkQ [] [mkFat (Pred 1 pP [tA] [ff (Meta mX30) (Meta mX30)]) []] [] [] [] [mkFat (All 2 [mkTV "Y" 21 tA] (Pred 3 pP [tA] [ff (Meta mX30) y_])) []]) [] Leaf Leaf.
Lemma t_applied : map ft_form (forms_of (apply_state same0 ab t_st)) = [Pred 1 pP [iT] [ff bb (Meta mX30)]; All 2 [mkTV "Y" 21 iT] (Pred 3 pP [iT] [ff bb y_])].
Proof. vm_compute. reflexivity. Qed.
Lemma ab_unbound : unbound_subst ab.
Proof. split; [intros k t [H|[H|[]]]|intros n i fo u [H|[H|[]]]]; try discriminate; injection H; intros; subst; split; reflexivity. Qed.
Lemma ab_obeyed : obeys valL ab.
Proof. split; [intros k t [H|[H|[]]]|intros n i fo u [H|[H|[]]]]; try discriminate; injection H; intros; subst; reflexivity. Qed.
