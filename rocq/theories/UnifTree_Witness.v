(** Concrete indexes and queries. *)
From Coq Require Import ZArith List Bool String Permutation.
From Verif Require Import Ast_Model Ast_Proofs Sem_Spec Unif_Model Unif_Spec UnifLoss_Model Unif_Witness UnifTree_Model UnifTree_Spec UnifTree_Proofs UnifTree_Final.
Import ListNotations.
Open Scope list_scope.
Open Scope Z_scope.

Definition nid (s : string) : ident := mkId 99 s.
Definition pr (ix p : Z) (l : list term) : item := IPred ix (mkId p "p") [] l.
(** *** A query that loses a binding: P(g(a), X1, X2) and P(X1, g(X2), b) *)
Definition f_lost := pr 1 40 [fn 20 [ka]; vX 1; vX 2].
Definition p_lost := pr 2 40 [vX 1; fn 20 [vX 2]; kb].
Definition u_lost := Fun (mkId 40 "p") [] [fn 20 [ka]; vX 1; vX 2].
Definition v_lost := Fun (mkId 40 "p") [] [vX 1; fn 20 [vX 2]; kb].
Definition sigma_lost : substs := [(mX 1, fn 20 [ka]); (mX 2, ka)].
Definition k_lost : node := Node (parse_pred (mkId 40 "p") [fn 20 [ka]; vX 1; vX 2]) [] [f_lost].
Lemma k_lost_tree : make_tree nid [f_lost] = Some k_lost.
Proof. vm_compute. reflexivity. Qed.
Lemma k_lost_fit : fit war nid f_lost /\ fit war nid p_lost.
Proof. split; [exists u_lost|exists v_lost]; (split; [vm_compute; reflexivity|wellt]). Qed.
Lemma k_lost_answer : unify_real nid 30 30 k_lost p_lost = Ok [(f_lost, sigma_lost)].
Proof. vm_compute. reflexivity. Qed.
Lemma k_lost_terms : query_term nid f_lost = Some u_lost /\ query_term nid p_lost = Some v_lost.
Proof. split; reflexivity. Qed.
Lemma k_lost_wrong : ~ same_term (ssubst sigma_lost u_lost) (ssubst sigma_lost v_lost).
Proof. intros H. apply term_eqb_reflect in H. vm_compute in H. discriminate. Qed.
Lemma k_lost_none : forall w, ~ same_term (tsub w u_lost) (tsub w v_lost).
Proof.
  intros w H. apply term_eqb_reflect in H. unfold u_lost, v_lost, vX in H. cbn [tsub map fn ka kb] in H.
  change (term_eqb (fn 20 [ka]) (w 1) && (term_eqb (w 1) (fn 20 [w 2]) && (term_eqb (w 2) kb && true)) = true) in H.
  rewrite !andb_true_iff in H. destruct H as (H1 & H2 & H3 & _). apply term_eqb_reflect in H1, H2, H3.
  pose proof (same_term_trans _ _ _ H1 H2) as H. apply term_eqb_reflect in H.
  change (term_eqb ka (w 2) && true = true) in H. rewrite andb_true_iff in H. destruct H as [H _].
  apply term_eqb_reflect in H. pose proof (same_term_trans _ _ _ H H3) as H4. apply term_eqb_reflect in H4. vm_compute in H4. discriminate.
Qed.

(** *** An index of several formulas, with shared prefixes, splits, and equal formulas *)
Definition fs_ok : list item :=
  [pr 1 30 [vX 1; ka]; pr 2 30 [vX 1; kb]; pr 3 30 [vX 2; vX 2]; pr 4 30 [vX 2; vX 3]; pr 5 30 [vX 4; vX 3];
   pr 6 30 [ka; kb]; pr 8 10 []; pr 9 30 [fn 20 [vX 7]; vX 7]; pr 4 30 [vX 2; vX 3]].
Definition q_tree := pr 10 30 [fn 20 [vX 9]; ka].
Definition qt_tree := Fun (mkId 30 "p") [] [fn 20 [vX 9]; ka].
Definition k_ok : node := match make_tree nid fs_ok with Some k => k | None => empty_node end.
Lemma k_ok_tree : make_tree nid fs_ok = Some k_ok.
Proof. vm_compute. reflexivity. Qed.
Lemma k_ok_fit : Forall (fit war nid) fs_ok.
Proof.
  assert (H : forall p l, well war (Fun (mkId p "p") [] l) -> functional_args nid [] l = Some l -> forall ix, fit war nid (pr ix p l)).
  { intros p l W E ix. exists (Fun (mkId p "p") [] l). split; [|exact W]. unfold pr, query_term. rewrite E. reflexivity. }
  repeat constructor; (apply H; [wellt|reflexivity]).
Qed.
Definition l_ok : list (item * substs) := match unify_real nid 30 30 k_ok q_tree with Ok l => l | _ => [] end.
Lemma k_ok_answer : unify_real nid 30 30 k_ok q_tree = Ok l_ok /\ unify_strict nid 30 30 k_ok q_tree <> Out.
Proof. split; [vm_compute; reflexivity|vm_compute; discriminate]. Qed.
Lemma k_ok_count : map (fun p => match fst p with IPred ix _ _ _ => ix | ITerm ix _ => ix end) l_ok = [1; 4; 5; 9].
Proof. vm_compute. reflexivity. Qed.
Lemma q_tree_term : query_term nid q_tree = Some qt_tree /\ well war qt_tree /\ is_fun qt_tree = true.
Proof. split; [reflexivity|]. split; [wellt|reflexivity]. Qed.

(** *** The same ground formula is stored twice *)
Definition f_twice := pr 1 30 [ka; kb].
Definition k_twice : node := match make_tree nid [f_twice; f_twice] with Some k => k | None => empty_node end.
Lemma twice_answer : make_tree nid [f_twice; f_twice] = Some k_twice /\ unify_real nid 30 30 k_twice f_twice = Ok [(f_twice, []); (f_twice, [])].
Proof. split; vm_compute; reflexivity. Qed.

(** *** A metavariable looked up in an index of terms *)
Definition f_term := ITerm 1 (fn 20 [ka]).
Definition q_meta := ITerm 2 (vX 1).
Definition k_term : node := match make_tree nid [f_term] with Some k => k | None => empty_node end.
Lemma term_crash : make_tree nid [f_term] = Some k_term /\ unify_real nid 30 30 k_term q_meta = Crash.
Proof. split; vm_compute; reflexivity. Qed.
Lemma term_fit : fit war nid f_term /\ fit war nid q_meta.
Proof. split; [exists (fn 20 [ka])|exists (vX 1)]; (split; [reflexivity|wellt]). Qed.
(** *** A predicate with two numbers of arguments *)
Definition f_one := pr 1 50 [fn 20 [ka]].
Definition q_none := pr 2 50 [].
Definition k_one : node := match make_tree nid [f_one] with Some k => k | None => empty_node end.
Lemma arity_crash : make_tree nid [f_one] = Some k_one /\ unify_real nid 30 30 k_one q_none = Crash.
Proof. split; vm_compute; reflexivity. Qed.
