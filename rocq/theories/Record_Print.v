(** A recorded proof that stops the printing, for C148. *)
From Coq Require Import ZArith List Bool String.
From Verif Require Import LibSet_Model Ast_Model Unif_Model Rules_Model Subst_Model GsProof_Model PrfSubst_Model Expand_Model Ast_Proofs Skolem_Witness Tableau_Witness Expand_Witness
  Unif_Witness UnifTree_Witness Closure_Witness GsProof_Witness Record_Model Record_Spec Record_Proofs Record_Witness.
Import ListNotations.
Open Scope list_scope.
Open Scope Z_scope.

(** for all y, p(y), ~ p(b), (~ p(y) and ~ ~ p(y)), (p(c) or ~ p(c)): one process for each side of the disjunction *)
Definition split0 : form := Or 12 [pX 13 cc; Not 14 (pX 13 cc)].
Definition matrix (t : term) : form := And 5 [pX 1 t; Not 2 (pX 3 bb); both t; split0].
Definition above : list pstep :=
  [PS (All 6 [vy] (matrix (Var 2 "y"))) (-1) 1 "GAMMA_FORALL" [[matrix (Meta mX30)]] [];
   PS (matrix (Meta mX30)) (-1) 2 "ALPHA_AND" [r_br ++ [split0]] []].
Definition root_step : pstep := PS split0 (-1) 3 "BETA_OR" [[pX 13 cc]; [Not 14 (pX 13 cc)]] [].
(** the proof of the root when the two processes have recorded [l] and [l'] *)
Definition whole (l l' : list pstep) : option (list pstep) := update_proof false above root_step [l; l'].
Definition prints (s : list mixed) (p : option (list pstep)) : Prop :=
  match p with Some p => exists sq, make_gs3 eq0 false 10 None (fst (final_proof s p)) = Ok sq | None => False end.
Definition stops (s : list mixed) (p : option (list pstep)) : Prop :=
  match p with Some p => make_gs3 eq0 false 10 None (fst (final_proof s p)) = Crash | None => False end.
Lemma w1_prints : prints s1 (whole round1 round1).
Proof. cbn [prints whole update_proof]. eexists. vm_compute. reflexivity. Qed.
Lemma w2_prints : prints s2 (whole round2 round2).
Proof. cbn [prints whole update_proof]. eexists. vm_compute. reflexivity. Qed.
Lemma w_stops : stops s2 (whole [alpha cc; close bb] [alpha cc; close bb]).
Proof. vm_compute. reflexivity. Qed.
