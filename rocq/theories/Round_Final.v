(** One value for all the branches of a tree of processes (C143). *)
From Coq Require Import ZArith List Bool Lia.
From Verif Require Import Ast_Model Occ_Spec Sem_Spec Ast_Proofs Unif_Model Unif_Spec UnifLoss_Model Closure_Model Dmt_Model Select_Model Select_Spec GlobUnif_Model Restrict_Model Restrict_Spec Leaf_Model Leaf_Spec Leaf_Final
  Up_Model Up_Spec Round_Model Round_Spec Round_Proofs.
Import ListNotations.
Open Scope list_scope.
Open Scope Z_scope.

Lemma solves_on A (v w : Z -> dom A) s : (forall i, In i (subst_indexes s) -> v i = w i) -> solves A v (binds s) -> solves A w (binds s).
Proof.
  intros H. apply solves_agree. intros i (k & t & Hin & Hi). apply H. unfold subst_indexes. apply in_flat_map. exists (MTerm k t). split; [exact Hin|]. destruct Hi as [->|Hi]; [left; reflexivity|right; exact Hi].
Qed.
Lemma closed_on A p : forall v w : Z -> dom A, (forall i, In i (indexes p) -> v i = w i) -> closed_by A v p -> closed_by A w p.
Proof.
  induction p as [mm ap l f|mm ap cur again ch IH|p s IH] using proc_induction; intros v w H; cbn [closed_by indexes] in *.
  - intros [Sa [->|(s & Hs & S)]]; (split; [apply (solves_on A v w _); [intros i Hi; apply H, in_or_app; auto|exact Sa]|]); [left; reflexivity|].
    right. exists s. split; [exact Hs|]. apply (solves_on A v w s); [|exact S]. intros i Hi. apply H, in_or_app. right. apply in_flat_map. eauto.
  - intros [Sa C]. split; [apply (solves_on A v w _); [intros i Hi; apply H, in_or_app; auto|exact Sa]|]. apply all_and in C. apply all_and.
    rewrite Forall_forall in *. intros c Hc. apply (IH c Hc v w); [|exact (C c Hc)]. intros i Hi. apply H, in_or_app. right. apply in_flat_map. eauto.
  - exact (IH v w H).
Qed.
Lemma glue A (v : Z -> dom A) ch : Forall (fun c => exists w, (forall i, In i (mother c) -> v i = w i) /\ closed_by A w c) ch ->
  ForallOrdPairs (fun c d => forall i, In i (indexes c) -> In i (indexes d) -> In i (mother c) /\ In i (mother d)) ch ->
  exists w, Forall (closed_by A w) ch /\ forall i, (forall c, In c ch -> In i (indexes c) -> In i (mother c)) -> w i = v i.
Proof.
  induction ch as [|c ch IH]; intros F P; [exists v; split; [constructor|reflexivity]|]. inversion F as [|? ? (wc & Ag & Cc) F']; subst. inversion P as [|? ? Pc P']; subst.
  destruct (IH F' P') as (w & Cw & Ew). rewrite Forall_forall in Pc. exists (fun i => if in_dec Z.eq_dec i (indexes c) then wc i else w i). split.
  - constructor.
    + apply (closed_on A c wc); [|exact Cc]. intros i Hi. cbn beta. destruct (in_dec Z.eq_dec i (indexes c)); [reflexivity|contradiction].
    + rewrite Forall_forall in *. intros d Hd. apply (closed_on A d w); [|exact (Cw d Hd)]. intros i Hi. cbn beta. destruct (in_dec Z.eq_dec i (indexes c)) as [Ic|]; [|reflexivity].
      rewrite Ew; [apply Ag, (Pc d Hd i Ic Hi)|]. intros d' Hd' Hi'. apply (Pc d' Hd' i Ic Hi').
  - intros i H. cbn beta. destruct (in_dec Z.eq_dec i (indexes c)) as [Ic|]; [symmetry; apply Ag, (H c (or_introl eq_refl) Ic)|]. apply Ew. intros d Hd. apply H. right. exact Hd.
Qed.
Theorem one_for_all A p : scoped p -> forall v, closes A p v -> exists w, (forall i, In i (mother p) -> v i = w i) /\ closed_by A w p.
Proof.
  induction p as [mm ap l f|mm ap cur again ch IH|p s IH] using proc_induction; intros Sc v C; cbn [closes scoped] in *.
  - destruct C as [[-> Sa]|(s & w & Hs & Ag & S & Sa)].
    + exists v. split; [reflexivity|]. split; [exact Sa|left; reflexivity].
    + exists w. split; [|split; [exact Sa|right; eauto]]. intros i Hi. unfold mother in Hi. apply in_map_iff in Hi. destruct Hi as (m & <- & Hm). exact (Ag m Hm).
  - destruct Sc as (Sc & Sh & P). destruct C as (v' & Ag & Sa & C). apply all_and in Sc. apply all_and in C. destruct (glue A v' ch) as (w & Cw & Ew); [|exact P|].
    + clear - IH Sc C. rewrite Forall_forall in *. intros c Hc. exact (IH c Hc (Sc c Hc) v' (C c Hc)).
    + exists w. split; [|split].
      * intros i Hi. unfold mother in Hi. rewrite (Ew i); [|intros c Hc Ic; apply (Sh c i Hc Ic); auto]. apply in_map_iff in Hi. destruct Hi as (m & <- & Hm). exact (Ag m Hm).
      * apply (solves_on A v' w); [|exact Sa]. intros i Hi. symmetry. apply Ew. intros c Hc Ic. apply (Sh c i Hc Ic). auto.
      * apply all_and. exact Cw.
  - exact (IH Sc v C).
Qed.
Theorem round_one ar n fe ap cur again ch l : good ar n fe (PNode [] ap cur again ch) -> scoped (PNode [] ap cur again ch) ->
  report n fe (PNode [] ap cur again ch) = Ok (Some l) -> forall A, typeless A -> inhabited (dom A) -> exists w, closed_by A w (PNode [] ap cur again ch).
Proof.
  intros G Sc E A TA [d]. destruct (root_closes ar n fe ap cur again ch l G E) as [_ C]. destruct (one_for_all A _ Sc (fun _ => d) (C A TA _)) as (w & _ & H). eauto.
Qed.
