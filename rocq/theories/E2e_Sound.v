(** From the closed branches to the parsed problem. *)
From Coq Require Import ZArith List Bool String Classical.
From Verif Require Import LibSet_Model Ast_Model Rules_Model Expand_Model Sem_Spec Occ_Spec Tableau_Spec Rename_Spec Expand_Spec
  Unif_Model Unif_Spec Closure_Model Closure_Spec Closure_Proofs Closure_Final Elab_Model Elab_Spec Elab_Final E2e_Model E2e_Spec E2e_Final.
Import ListNotations.
Open Scope Z_scope.

Lemma entailed_of {DD TT} (N : ninterp DD TT) tysym l env : (forall s, In s l -> handled s = true) ->
  ~ refutes N tysym l env -> entailed N tysym l env.
Proof.
  intros Hh H A B. apply NNPP. intros C. apply H. apply Forall_forall. intros s Hs. pose proof (Hh s Hs) as K.
  destruct s as [r f| |]; try discriminate. destruct r; try discriminate; auto. intros X. apply C. eauto.
Qed.

(** C131 *)
Theorem problem_proved fl check kappa decls l g l' b g1 f cj g2 eqi name_id ty_arity n fe same ar m k F s forb :
  to_internal_syntax fl (file decls l) g = EOk (l', b, g1) -> tab_ok g -> Rename_Spec.clean g -> apart g ->
  lookup "="%string (idTable g) = Some eqi ->
  plain_problem kappa decls l -> (forall r f, In (CSForm r f) l' -> f_tyvars f = []) ->
  presearch fl check (file decls l) g = Loaded f cj g2 -> grows same (plant m g2 k f) F ->
  arity ar eqi = 2%nat -> monomorphic ar ty_arity ->
  (forall st, In st (fo_leaves F) -> finds eqi name_id ty_arity n fe same (forb st) s st /\
     state_strict eqi name_id ty_arity n fe same st (forb st) <> Out /\
     forall x, In x (q_lf (st_q st) ++ q_atomic (st_q st)) -> first_order ar (ft_form x)) ->
  forall (DD TT : Type) (d0 : DD) (t0 : TT) (N : ninterp DD TT) env, defined_untyped N -> (forall ts d, npr N "="%string ts [d; d]) ->
  ~ refutes N (sig_tysym (initial_context ++ decls)) l env /\ entailed N (sig_tysym (initial_context ++ decls)) l env.
Proof.
  intros H T1 T2 T3 Leq P V L Gr Aeq Mo Lv DD TT d0 t0 N env U Q.
  assert (R : ~ refutes N (sig_tysym (initial_context ++ decls)) l env);
    [|split; [exact R|apply entailed_of; [apply P|exact R]]].
  destruct (loaded_ok fl check kappa decls l g l' b g1 H T1 T2 T3 P V) as (f' & g2' & L' & W & T' & X & S).
  rewrite L in L'. destruct (b && negb (check f'))%bool; [discriminate|]. injection L' as <- _ <-.
  destruct (interp_of_names N g1 T') as (fnI & prI & M).
  specialize (M (fun _ => t0) (fun _ => t0) (fun _ _ => t0) (fun _ _ => t0)).
  set (I := mkInterp DD TT fnI prI (ntc N) (fun _ => t0) (fun _ => t0) (fun _ _ => t0) (fun _ _ => t0)) in M.
  pose (v := @mkVal I (fun _ => d0) (fun _ => d0) (fun _ => t0) (fun _ _ => t0)).
  intros Rf. apply (found_unsat eqi name_id ty_arity n fe same ar m g2 k f F s forb W Gr Aeq Mo Lv I v).
  - intros ts d. apply (proj1 M "="%string eqi); auto. apply (proj1 X), Leq.
  - apply (S I N v env M U), Rf.
Qed.
