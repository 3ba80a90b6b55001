(** Concrete branches that close. *)
From Coq Require Import ZArith List Bool String Lia.
From Verif Require Import Ast_Model Occ_Spec Sem_Spec Unif_Model Unif_Spec UnifLoss_Model Unif_Witness Closure_Model Dmt_Model Select_Model Select_Spec GlobUnif_Model Restrict_Model Restrict_Spec Restrict_Witness
  Leaf_Model Leaf_Spec Leaf_Proofs.
Import ListNotations.
Open Scope list_scope.
Open Scope Z_scope.

Definition f0 : form := Top 0.
Definition none : saf := ([], []).
(** *** X1 is the parent's, X5 is local: the first two substitutions have the same restriction *)
Definition s_1 : subst := [MTerm (mX 1) ka; MTerm (mX 5) ka].
Definition s_2 : subst := [MTerm (mX 1) ka; MTerm (mX 5) kb].
Definition s_3 : subst := [MTerm (mX 1) kb].
Definition l_3 : list subst := [s_1; s_2; s_3].
Definition r_3 : reply :=
  mkReply true [([MTerm (mX 1) ka], [f0]); ([MTerm (mX 1) kb], [f0])] [([MTerm (mX 1) ka], s_1); ([MTerm (mX 1) kb], s_2)] [0].
Lemma l_3_leaf : leaf 30 30 [mX 1] none [] l_3 f0 = Ok (Some r_3).
Proof. vm_compute. reflexivity. Qed.
Ltac orb := repeat match goal with H : _ \/ _ |- _ => destruct H as [H|H] | H : False |- _ => destruct H | H : (_, _) = (_, _) |- _ => injection H as <- <- end.
Ltac okb := split; [vm_compute; repeat (apply NoDup_cons; [cbn; intuition lia|]); apply NoDup_nil|]; let k := fresh in let t := fresh in let H := fresh in
  intros k t H; cbn in H; orb; cbn; unfold pmeta; cbn; repeat split; try lia; auto.
Ltac solvedb := split; [vm_compute; repeat (apply NoDup_cons; [cbn; intuition lia|]); apply NoDup_nil|]; let H := fresh in let Hb := fresh in
  intros ? ? ? H Hb; cbn in H; orb; cbn in *; intuition lia.
Ltac tyb := let H := fresh in intros ? ? ? ? H; cbn in H; intuition discriminate.
(** no two metavariables of the parent are bound to a metavariable *)
Ltac unsharedb := let H1 := fresh in let H2 := fresh in
  intros (? & ? & ? & ? & H1 & H2 & ? & ? & ? & ? & ?); cbn in H1, H2; unfold ka, kb, fn, vX in H1, H2; intuition congruence.
Lemma l_3_sane s : In s l_3 -> sane war 30 30 [mX 1] s.
Proof.
  intros [<-|[<-|[<-|[]]]]; (split; [tyb|]); (split; [okb|]); (split; [solvedb|]); (split; [unsharedb|]); vm_compute; discriminate.
Qed.
Lemma l_3_wrong w : ~ (unifies w (binds [MTerm (mX 1) kb]) /\ unifies w (binds s_2)).
Proof.
  intros [H1 H2]. pose proof (H1 (mX 1) kb (or_introl eq_refl)) as G1. pose proof (H2 (mX 1) ka (or_introl eq_refl)) as G2. cbn [tsub ka kb fn map] in G1, G2.
  pose proof (Ast_Proofs.same_term_trans _ _ _ (Ast_Proofs.same_term_sym _ _ G1) G2) as G. inversion G; cbn in *; lia.
Qed.

(** *** the substitutions of Restrict_Witness.v: the branch closes by itself, though X1 and X2 have to be equal *)
Definition l_sh : list subst := [mixed_terms s_sh].
Definition r_sh : reply := mkReply false [] [([], mixed_terms s_sh)] [].
Lemma l_sh_leaf : leaf 30 30 mm_sh none [] l_sh f0 = Ok (Some r_sh).
Proof. vm_compute. reflexivity. Qed.
Lemma l_sh_open : exists A (v : Z -> dom A), solves A v (binds []) /\ ~ closable mm_sh [] l_sh A v.
Proof.
  exists (mkAlg Z (fun p _ _ => p) (fun i => i) (fun i => i)), (fun i => i). split; [intros k t []|].
  intros (s & v' & Hs & Ag & Hv & _). destruct Hs as [<-|[]].
  pose proof (Hv (mX 1) (vX 3) (or_introl eq_refl)) as H1. pose proof (Hv (mX 2) (vX 3) (or_intror (or_introl eq_refl))) as H2.
  pose proof (Ag (mX 1) (or_introl eq_refl)) as G1. pose proof (Ag (mX 2) (or_intror (or_introl eq_refl))) as G2. cbn in *. congruence.
Qed.

(** *** a branch that closes by itself, whatever X1 is *)
Definition s_g : subst := [MTerm (mX 5) (fn 20 [vX 1])].
Definition r_g : reply := mkReply false [] [([], s_g)] [].
Lemma g_leaf : leaf 30 30 [mX 1] none [] [s_g] f0 = Ok (Some r_g).
Proof. vm_compute. reflexivity. Qed.
Lemma g_sane s : In s [s_g] -> sane war 30 30 [mX 1] s.
Proof. intros [<-|[]]. split; [tyb|]. split; [okb|]. split; [solvedb|]. split; [unsharedb|]. vm_compute. discriminate. Qed.
(** X1 is not seen under the function symbol *)
Lemma g_mother : contains_mother s_g [mX 1] = false /\ ~ apart s_g [mX 1].
Proof.
  split; [reflexivity|]. intros [_ H]. apply (H (mX 1) (or_introl eq_refl)). exists (mX 5), (fn 20 [vX 1]). split; [left; reflexivity|]. right. left. reflexivity.
Qed.
Definition s_h : subst := [MTerm (mX 5) (fn 20 [ka]); MTerm (mX 6) (vX 7)].
Lemma h_mother : contains_mother s_h [mX 1] = false /\ (forall k p tys l, In (MTerm k (Fun p tys l)) s_h -> t_metas (Fun p tys l) = []).
Proof. split; [reflexivity|]. intros k p tys l [H|[H|[]]]; [|discriminate H]. injection H as <- <- <- <-. reflexivity. Qed.

(** *** two substitutions for the father, with one already applied.  The metavariables come from the formulas 7 and 3. *)
Definition m1 : meta := mkMeta 1 0 "X" 7 (TyConstr "$i" []).
Definition m4 : meta := mkMeta 4 0 "X" 3 (TyConstr "$i" []).
Definition s_m : subst := [MTerm m1 (fn 20 [vX 6]); MTerm (mX 5) (vX 6)].
Definition s_n : subst := [MTerm m1 ka; MTerm m4 kb; MTerm (mX 6) ka].
Definition l_2 : list subst := [s_m; s_n].
Definition apd : saf := ([MTerm (mX 2) kb], [Bot 0]).
Definition r_2 : reply :=
  mkReply true [([MTerm m1 (fn 20 [vX 6]); MTerm (mX 2) kb], [f0; Bot 0]); ([MTerm m1 ka; MTerm m4 kb; MTerm (mX 2) kb], [f0; Bot 0])]
    [([MTerm (mX 2) kb; MTerm m1 (fn 20 [vX 6])], [MTerm (mX 2) kb; MTerm m1 (fn 20 [vX 6]); MTerm (mX 5) (vX 6)]);
     ([MTerm (mX 2) kb; MTerm m1 ka; MTerm m4 kb], [MTerm (mX 2) kb; MTerm m1 ka; MTerm m4 kb; MTerm (mX 6) ka])] [3; 7].
Lemma l_2_leaf : leaf 30 30 [m1; m4] apd [] l_2 f0 = Ok (Some r_2).
Proof. vm_compute. reflexivity. Qed.
Lemma l_2_sane s : In s l_2 -> sane war 30 30 ([m1; m4] ++ metas_of_subst (fst apd)) s.
Proof.
  intros [<-|[<-|[]]]; (split; [tyb|]); (split; [okb|]); (split; [solvedb|]); (split; [unsharedb|]); vm_compute; discriminate.
Qed.
Lemma apd_ok : okS war (binds (fst apd)).
Proof. okb. Qed.
Notation rs_2 := (fun s => restrict_mixed 30 (add_unif 30 30) s ([m1; m4] ++ metas_of_subst (fst apd))).
Lemma l_2_kept s r : In s l_2 -> rs_2 s = Ok r -> merge 30 (add_unif_s true 30 30) (binds r) (binds (fst apd)) <> Out /\ merge_mixed 30 30 r (fst apd) <> Ok [].
Proof. intros [<-|[<-|[]]] E; vm_compute in E; injection E as <-; split; vm_compute; discriminate. Qed.
Lemma l_2_faithful : faithful rs_2 l_2 /\ congruent rs_2 l_2.
Proof.
  split; intros s s' r r' [<-|[<-|[]]] [<-|[<-|[]]] E E'; vm_compute in E, E'; injection E as <-; injection E' as <-; intros.
  all: try (split; intros _; apply Select_Proofs.bindings_refl).
  all: try apply Select_Proofs.bindings_refl.
  all: try (split; intros Q; apply Select_Proofs.subst_eqb in Q; vm_compute in Q; discriminate).
  all: match goal with Q : same_bindings _ _ |- _ => apply Select_Proofs.subst_eqb in Q; vm_compute in Q; discriminate end.
Qed.
Lemma l_2_formulas s s' r r' k k' v v' : In s l_2 -> In s' l_2 -> rs_2 s = Ok r -> rs_2 s' = Ok r' -> In (MTerm k v) r -> In (MTerm k' v') r' ->
  m_index k = m_index k' -> m_formula k = m_formula k'.
Proof.
  intros [<-|[<-|[]]] [<-|[<-|[]]] E E'; vm_compute in E, E'; injection E as <-; injection E' as <-; intros H H'; cbn in H, H';
  repeat match goal with H : _ \/ _ |- _ => destruct H as [H|H] | H : False |- _ => destruct H end;
  repeat match goal with H : MTerm _ _ = MTerm _ _ |- _ => injection H as <- <- end; cbn; congruence.
Qed.

(** *** X4 := a is sent, and the equality of X1 and X2 is forgotten *)
Definition l_sh4 : list subst := [mixed_terms (s_sh ++ [(mX 4, ka)])].
Definition r_sh4 : reply := mkReply true [([MTerm (mX 4) ka], [f0])] [([MTerm (mX 4) ka], mixed_terms (s_sh ++ [(mX 4, ka)]))] [0].
Lemma l_sh4_leaf : leaf 30 30 (mX 4 :: mm_sh) none [] l_sh4 f0 = Ok (Some r_sh4).
Proof. vm_compute. reflexivity. Qed.
Lemma l_sh4_open : exists A (v : Z -> dom A), solves A v (binds [MTerm (mX 4) ka]) /\ ~ closable (mX 4 :: mm_sh) [] l_sh4 A v.
Proof.
  exists (mkAlg Z (fun p _ _ => p - 6) (fun i => i) (fun i => i)), (fun i => i). split; [intros k t [E|[]]; injection E as <- <-; reflexivity|].
  intros (s & v' & Hs & Ag & Hv & _). destruct Hs as [<-|[]].
  pose proof (Hv (mX 1) (vX 3) (or_introl eq_refl)) as H1. pose proof (Hv (mX 2) (vX 3) (or_intror (or_introl eq_refl))) as H2.
  pose proof (Ag (mX 1) (or_intror (or_introl eq_refl))) as G1. pose proof (Ag (mX 2) (or_intror (or_intror (or_introl eq_refl)))) as G2. cbn in *. congruence.
Qed.
