(** Concrete nodes that report to their father. *)
From Coq Require Import ZArith List Bool String Lia.
From Verif Require Import Ast_Model Occ_Spec Sem_Spec Unif_Model Unif_Spec UnifLoss_Model Unif_Witness Closure_Model Dmt_Model Select_Model Select_Spec Select_Final GlobUnif_Model Restrict_Model Restrict_Spec Restrict_Witness
  Leaf_Model Leaf_Spec Leaf_Proofs Leaf_Witness Up_Model Up_Spec.
From Verif Require Select_Witness.
Import ListNotations.
Open Scope list_scope.
Open Scope Z_scope.

(** *** X1 is the father's, X2 := b is applied at the node; two of the three substitutions are the same for the father *)
Definition u_ap : saf := ([MTerm (mX 2) kb], []).
Definition u_3 : list saf := [(s_1, [Top 1]); (s_3, [Top 4]); (s_2, [Bot 2])].
Definition u_sent : sent := mkSent true [([MTerm (mX 1) ka], [Top 1; Bot 2]); ([MTerm (mX 1) kb], [Top 4])] [7; 0].
Lemma u_pass : node_pass 30 30 [mX 1] u_ap u_3 [7] = Ok u_sent.
Proof. vm_compute. reflexivity. Qed.
Definition b_2 : mixed := MTerm (mX 2) kb.
Lemma m_1 : merge_saf (merge_mixed 30 30) (s_1, [Top 1]) u_ap = Ok (s_1 ++ [b_2], [Top 1]).
Proof. vm_compute. reflexivity. Qed.
Lemma m_2 : merge_saf (merge_mixed 30 30) (s_2, [Bot 2]) u_ap = Ok (s_2 ++ [b_2], [Bot 2]).
Proof. vm_compute. reflexivity. Qed.
Lemma m_3 : merge_saf (merge_mixed 30 30) (s_3, [Top 4]) u_ap = Ok (s_3 ++ [b_2], [Top 4]).
Proof. vm_compute. reflexivity. Qed.
Ltac saneb := split; [tyb|split; [okb|split; [solvedb|split; [unsharedb|vm_compute; discriminate]]]].
Lemma ap_ok : okS war (binds (fst u_ap)).
Proof. okb. Qed.
Lemma u_clean : clean war 30 30 [mX 1] u_ap u_3.
Proof.
  split; [exact ap_ok|]. intros s [<-|[<-|[<-|[]]]]; (split; [okb|]); (split; [vm_compute; discriminate|]); intros m E.
  - rewrite m_1 in E. injection E as <-. saneb.
  - rewrite m_3 in E. injection E as <-. saneb.
  - rewrite m_2 in E. injection E as <-. saneb.
Qed.
Lemma u_asks : ~ seen (restrict_mixed 30 (add_unif 30 30)) (merge_mixed 30 30) [mX 1] u_ap (s_2, [Bot 2]) [].
Proof. intros (m & E & F). rewrite m_2 in E. injection E as <-. vm_compute in F. discriminate. Qed.

(** *** X4 := a is sent, and the equality of X1 and X2 is forgotten *)
Definition u_sh : list saf := map (fun s => (s, [f0])) l_sh4.
Definition u_shsent : sent := mkSent true [([MTerm (mX 4) ka], [f0])] [0].
Lemma u_shpass : node_pass 30 30 (mX 4 :: mm_sh) none u_sh [] = Ok u_shsent.
Proof. vm_compute. reflexivity. Qed.
Lemma u_shopen : ~ honest (mX 4 :: mm_sh) none u_sh ([MTerm (mX 4) ka], [f0]).
Proof. intros H. destruct l_sh4_open as (A & v & S & N). exact (N (H A v S)). Qed.

(** *** the children agree on two substitutions; the first one asks nothing of X1 *)
Definition u_free : list saf := [(s_g, [Top 1]); (s_3, [Top 2])].
Definition u_fsent : sent := mkSent true [([MTerm (mX 1) kb], [Top 2])] [0].
Lemma u_fpass : node_pass 30 30 [mX 1] none u_free [] = Ok u_fsent.
Proof. vm_compute. reflexivity. Qed.
Lemma u_fclean : clean war 30 30 [mX 1] none u_free.
Proof.
  split; [split; [constructor|intros k t []]|]. intros s [<-|[<-|[]]]; (split; [okb|]); (split; [vm_compute; discriminate|]); intros m E; injection E as <-; saneb.
Qed.
Lemma u_fseen : seen (restrict_mixed 30 (add_unif 30 30)) (merge_mixed 30 30) [mX 1] none (s_g, [Top 1]) [].
Proof. exists (s_g, [Top 1]). split; vm_compute; reflexivity. Qed.
(** alone, it makes the node close by itself *)
Lemma u_gpass : node_pass 30 30 [mX 1] none [(s_g, [Top 1])] [3] = Ok (mkSent false [] [3]).
Proof. vm_compute. reflexivity. Qed.
Lemma u_gclean : clean war 30 30 [mX 1] none [(s_g, [Top 1])].
Proof. destruct u_fclean as [H C]. split; [exact H|]. intros s [<-|[]]. apply C. left. reflexivity. Qed.

(** *** the node works with X2 := b: the first child asks X1 := a, the second gives X2 := b back *)
Definition u_both : list saf := [([MTerm (mX 1) ka; MTerm (mX 2) kb], [])].
Lemma u_bpass : node_pass 30 30 [mX 1; mX 2] (Select_Witness.to 2 kb) u_both [] = Ok (mkSent true u_both [0]).
Proof. vm_compute. reflexivity. Qed.
Lemma m_b : merge_saf (merge_mixed 30 30) ([MTerm (mX 1) ka; MTerm (mX 2) kb], []) (Select_Witness.to 2 kb) = Ok ([MTerm (mX 1) ka; MTerm (mX 2) kb], []).
Proof. vm_compute. reflexivity. Qed.
Lemma u_bclean : clean war 30 30 [mX 1; mX 2] (Select_Witness.to 2 kb) u_both.
Proof.
  split; [exact ap_ok|]. intros s [<-|[]]. split; [okb|]. split; [vm_compute; discriminate|]. intros m E. rewrite m_b in E. injection E as <-. saneb.
Qed.

(** *** children that close by themselves *)
Definition u_self : saf := (s_1, [Top 1]).
Lemma u_itself : node_itself 30 30 [mX 1] u_self none [4] = Ok (Some (mkSent false [([MTerm (mX 1) ka], [Top 1])] [4])).
Proof. vm_compute. reflexivity. Qed.
Lemma u_itsane : sane war 30 30 [mX 1] (fst u_self).
Proof. saneb. Qed.
Lemma u_shitself : node_itself 30 30 mm_sh (mixed_terms s_sh, [f0]) none [] = Ok (Some (mkSent false [] [])).
Proof. vm_compute. reflexivity. Qed.
Lemma u_shlost : exists A (v : Z -> dom A), (forall t : saf, In t [] -> solves A v (binds (fst t))) /\ ~ exists v', agree mm_sh v v' /\ solves A v' (binds (mixed_terms s_sh)).
Proof.
  destruct l_sh_open as (A & v & _ & N). exists A, v. split; [intros t []|]. intros (v' & Ag & S). apply N. exists (mixed_terms s_sh), v'. split; [left; reflexivity|]. split; [exact Ag|]. split; [exact S|intros k t []].
Qed.
