(** Concrete cases for C148. *)
From Coq Require Import ZArith List Bool String.
From Verif Require Import LibSet_Model Ast_Model Rules_Model Subst_Model GsProof_Model PrfSubst_Model Expand_Model Ast_Proofs Skolem_Witness Tableau_Witness Expand_Witness
  Unif_Witness UnifTree_Witness Closure_Witness Record_Model Record_Spec Record_Proofs.
Import ListNotations.
Open Scope list_scope.
Open Scope Z_scope.

Definition pX (i : Z) (t : term) : form := Pred i pP [] [t].
Definition both (t : term) : form := And 9 [Not 8 (pX 7 t); Not 8 (Not 8 (pX 7 t))].
(** the branch: p(X), ~ p(b) and (~ p(X) and ~ ~ p(X)) *)
Definition r_br : list form := [pX 1 (Meta mX30); Not 2 (pX 3 bb); both (Meta mX30)].
Definition close (t : term) : pstep := PS (pX 1 t) (-1) 4 "CLOSURE" [] [].
Definition alpha (t : term) : pstep := PS (both t) (-1) 4 "ALPHA_AND" [[Not 8 (pX 7 t); Not 8 (Not 8 (pX 7 t))]] [].
(** first answer X := c: the branch closes below the conjunction; second answer X := b: it closes at once *)
Definition round1 : list pstep := [alpha cc; close cc].
Definition round2 : list pstep := [close bb].
Definition s1 : list mixed := [MTerm mX30 cc].
Definition s2 : list mixed := [MTerm mX30 bb].
Ltac pres := apply present_b; vm_compute; reflexivity.
Ltac tab := cbn [subst_proof map subst_step round1 round2 alpha close tableau made]; repeat (split || exact Logic.I || pres).
Lemma r1_ok : tableau (subst_proof s1 round1) (map (apply_substs_on_form s1) r_br).
Proof. tab. Qed.
Lemma r2_ok : tableau (subst_proof s2 round2) (map (apply_substs_on_form s2) r_br).
Proof. tab. Qed.
Lemma r_plain : ps_name (close (Meta mX30)) <> "Rewrite"%string.
Proof. discriminate. Qed.
Lemma r_kept : answered [close (Meta mX30)] (close (Meta mX30)) [round1; round2] = Some [alpha cc; close bb].
Proof. reflexivity. Qed.
Lemma r_not : ~ tableau (subst_proof s2 [alpha cc; close bb]) (map (apply_substs_on_form s2) r_br).
Proof. vm_compute. intros [[g [H E]] _]. destruct H as [H|[H|[H|[]]]]; subst g; discriminate E. Qed.

(** one-step rounds: the first answer closes at once with X := b, the second opens the conjunction *)
Definition lead1 : pstep := PS (Not 8 (Not 8 (pX 7 (Meta mX30)))) (-1) 3 "ALPHA_NOT_NOT" [[pX 7 (Meta mX30)]] [].
Definition g_br : list form := [Not 8 (Not 8 (pX 7 (Meta mX30))); Not 2 (pX 3 bb); both (Meta mX30)].
Lemma g_leads : leads (subst_proof s1 [lead1]) (map (apply_substs_on_form s1) g_br) (map (apply_substs_on_form s1) g_br ++ [pX 7 cc]).
Proof. cbn [subst_proof map subst_step lead1 leads]. split; [pres|]. split; [reflexivity|]. eexists. split; [reflexivity|reflexivity]. Qed.
Lemma g_round : tableau (subst_proof s1 round1) (map (apply_substs_on_form s1) g_br ++ [pX 7 cc]).
Proof. tab. Qed.
Lemma g_one : forall c, In c [round2] -> one_step c.
Proof. intros c [<-|[]]. eexists. split; [reflexivity|discriminate]. Qed.
Lemma g_kept : answered [lead1; close (Meta mX30)] (close (Meta mX30)) [round2; round1] = Some [lead1; alpha cc; close cc].
Proof. reflexivity. Qed.

(** a rewriting step p(X) -> ~ ~ p(X), then a round that closes *)
Definition rw : pstep := PS (pX 1 (Meta mX30)) 0 4 "Rewrite" [[Not 8 (Not 8 (pX 7 (Meta mX30)))]] [[close (Meta mX30)]].
Definition rw_0 : pstep := PS (pX 1 (Meta mX30)) 0 4 "Rewrite" [[Not 8 (Not 8 (pX 7 (Meta mX30)))]] [].
Lemma rw_leads : leads [subst_step s2 rw_0] (map (apply_substs_on_form s2) r_br) (map (apply_substs_on_form s2) r_br ++ [Not 8 (Not 8 (pX 7 bb))]).
Proof. cbn [subst_proof map subst_step rw_0 leads]. split; [pres|]. split; [reflexivity|]. eexists. split; [reflexivity|reflexivity]. Qed.
Lemma rw_round : tableau (subst_proof s2 round2) (map (apply_substs_on_form s2) r_br ++ [Not 8 (Not 8 (pX 7 bb))]).
Proof. tab. Qed.
Lemma rw_one : forall c, In c [[close cc]] -> one_step c.
Proof. intros c [<-|[]]. eexists. split; [reflexivity|discriminate]. Qed.
(** the child rewrites again at the same node *)
Definition rw_b : pstep := PS (pX 1 bb) 0 4 "Rewrite" [[Not 8 (Not 8 (pX 7 bb))]] [[close bb]].
Lemma rw_b_tab : tableau (subst_proof s2 [rw_b]) (map (apply_substs_on_form s2) r_br).
Proof. cbn [subst_proof map subst_step rw_b close tableau made]; repeat (split || exact Logic.I || pres). Qed.
Lemma rw_kept : answered [rw] rw [[close cc]; round2] = Some [rw_0; close bb].
Proof. reflexivity. Qed.

(** (p(b) or p(c)) with ~ p(b) and ~ p(c) *)
Definition f_or : form := Or 9 [pX 7 bb; pX 7 cc].
Definition f_br : list form := [f_or; Not 2 (pX 3 bb); Not 2 (pX 3 cc)].
Definition fork : pstep := PS f_or (-1) 4 "BETA_OR" [[pX 7 bb]; [pX 7 cc]] [].
Lemma f_present : present (ps_form fork) f_br.
Proof. exists f_or. split; [left; reflexivity|reflexivity]. Qed.
Lemma f_children : Forall2 (fun r c => tableau c (f_br ++ r)) (ps_results fork) [[close bb]; [close cc]].
Proof. constructor; [tab|constructor; [tab|constructor]]. Qed.
