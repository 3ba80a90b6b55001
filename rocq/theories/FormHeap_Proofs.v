(** C14, aliasing part. *)
From Coq Require Import ZArith List Bool String Lia.
From Verif Require Import Ast_Model Sem_Spec Ast_Proofs Subst_Model Subst_Proofs FormHeap_Model.
Import ListNotations.
Open Scope Z_scope.

(** The original formula p(X) & top, whose children are in cell 0. *)
Definition hw : fheap := [[HPred 1 (mkId 4 "p") [] [Meta mX]; HTop 2]].
Definition fw : hform := HAnd 0 0.

Lemma original_changes : exists h' r,
  habs 3 hw fw = Some (And 0 [Pred 1 (mkId 4 "p") [] [Meta mX]; Top 2]) /\
  hreplace 3 hw mX cA fw = Some (h', r) /\
  habs 3 h' r = Some (And 0 [Pred 1 (mkId 4 "p") [] [cA]; Top 2]) /\
  habs 3 h' fw = Some (And 0 [Pred 1 (mkId 4 "p") [] [cA]; Top 2]).
Proof. cbn. do 2 eexists. repeat split. Qed.

(** No And/Or in the formula: nothing is shared, the heap is untouched and the result is the
    functional one. *)
Fixpoint no_lists (f : hform) : bool :=
  match f with
  | HOr _ _ | HAnd _ _ => false
  | HAll _ _ g | HEx _ _ g | HNot _ g => no_lists g
  | HEqu _ a b | HImp _ a b => no_lists a && no_lists b
  | _ => true
  end.

Lemma hcopy_nolists n : forall h f h' f' g, no_lists f = true -> habs n h f = Some g ->
  hcopy n h f = Some (h', f') -> h' = h /\ f' = f.
Proof.
  induction n; intros h f h' f' g N A C; [discriminate|].
  destruct f; simpl in *; try discriminate.
  - destruct (habs n h f) eqn:E; [|discriminate]. destruct (hcopy n h f) as [[h1 f1]|] eqn:E1; [|discriminate].
    injection C as <- <-. destruct (IHn _ _ _ _ _ N E E1); subst; auto.
  - destruct (habs n h f) eqn:E; [|discriminate]. destruct (hcopy n h f) as [[h1 f1]|] eqn:E1; [|discriminate].
    injection C as <- <-. destruct (IHn _ _ _ _ _ N E E1); subst; auto.
  - apply andb_prop in N as [N1 N2].
    destruct (habs n h f1) eqn:E1; [|discriminate]. destruct (habs n h f2) eqn:E2; [|discriminate].
    destruct (hcopy n h f1) as [[h1 a1]|] eqn:C1; [|discriminate]. destruct (IHn _ _ _ _ _ N1 E1 C1); subst.
    destruct (hcopy n h f2) as [[h2 a2]|] eqn:C2; [|discriminate]. destruct (IHn _ _ _ _ _ N2 E2 C2); subst.
    injection C as <- <-; auto.
  - apply andb_prop in N as [N1 N2].
    destruct (habs n h f1) eqn:E1; [|discriminate]. destruct (habs n h f2) eqn:E2; [|discriminate].
    destruct (hcopy n h f1) as [[h1 a1]|] eqn:C1; [|discriminate]. destruct (IHn _ _ _ _ _ N1 E1 C1); subst.
    destruct (hcopy n h f2) as [[h2 a2]|] eqn:C2; [|discriminate]. destruct (IHn _ _ _ _ _ N2 E2 C2); subst.
    injection C as <- <-; auto.
  - destruct (habs n h f) eqn:E; [|discriminate]. destruct (hcopy n h f) as [[h1 f1]|] eqn:E1; [|discriminate].
    injection C as <- <-. destruct (IHn _ _ _ _ _ N E E1); subst; auto.
  - injection C as <- <-; auto.
  - injection C as <- <-; auto.
  - injection C as <- <-; auto.
Qed.

Lemma hcopy_total n : forall h f g, no_lists f = true -> habs n h f = Some g -> hcopy n h f = Some (h, f).
Proof.
  induction n; intros h f g N A; [discriminate|].
  destruct f; simpl in *; try discriminate; auto;
    try (destruct (habs n h f) eqn:E; [|discriminate]; rewrite (IHn _ _ _ N E); auto; fail);
    apply andb_prop in N as [N1 N2];
    destruct (habs n h f1) eqn:E1; try discriminate; destruct (habs n h f2) eqn:E2; try discriminate;
    rewrite (IHn _ _ _ N1 E1), (IHn _ _ _ N2 E2); auto.
Qed.

Lemma hreplace_nolists n : forall h m t f g, no_lists f = true -> habs n h f = Some g ->
  exists r, hreplace n h m t f = Some (h, r) /\ habs n h r = Some (replace_meta m t g).
Proof.
  induction n; intros h m t f g N A; [discriminate|].
  destruct f; simpl in *; try discriminate.
  - destruct (habs n h f) as [b|] eqn:E; [|discriminate]. injection A as <-.
    rewrite (hcopy_total _ _ _ _ N E). destruct (IHn h m t f b N E) as (r & E1 & E2). rewrite E1.
    eexists; split; [reflexivity|]. simpl. rewrite E2; auto.
  - destruct (habs n h f) as [b|] eqn:E; [|discriminate]. injection A as <-.
    rewrite (hcopy_total _ _ _ _ N E). destruct (IHn h m t f b N E) as (r & E1 & E2). rewrite E1.
    eexists; split; [reflexivity|]. simpl. rewrite E2; auto.
  - apply andb_prop in N as [N1 N2].
    destruct (habs n h f1) as [b1|] eqn:E1; [|discriminate]. destruct (habs n h f2) as [b2|] eqn:E2; [|discriminate].
    injection A as <-.
    destruct (IHn h m t f1 b1 N1 E1) as (r1 & F1 & G1), (IHn h m t f2 b2 N2 E2) as (r2 & F2 & G2).
    rewrite F1, F2. eexists; split; [reflexivity|]. simpl. rewrite G1, G2; auto.
  - apply andb_prop in N as [N1 N2].
    destruct (habs n h f1) as [b1|] eqn:E1; [|discriminate]. destruct (habs n h f2) as [b2|] eqn:E2; [|discriminate].
    injection A as <-.
    destruct (IHn h m t f1 b1 N1 E1) as (r1 & F1 & G1), (IHn h m t f2 b2 N2 E2) as (r2 & F2 & G2).
    rewrite F1, F2. eexists; split; [reflexivity|]. simpl. rewrite G1, G2; auto.
  - destruct (habs n h f) as [b|] eqn:E; [|discriminate]. injection A as <-.
    destruct (IHn h m t f b N E) as (r & E1 & E2). rewrite E1.
    eexists; split; [reflexivity|]. simpl. rewrite E2; auto.
  - injection A as <-. eexists; split; reflexivity.
  - injection A as <-. eexists; split; reflexivity.
  - injection A as <-. eexists; split; reflexivity.
Qed.
