(** Proofs for C148. *)
From Coq Require Import ZArith List Bool String Lia.
From Verif Require Import LibSet_Model Ast_Model GsProof_Model PrfSubst_Model Record_Model Record_Spec.
Import ListNotations.
Open Scope list_scope.

Lemma present_b f br : existsb (fun g => form_eqb g f) br = true -> present f br.
Proof. intros H. apply existsb_exists in H. exact H. Qed.
Lemma plain_step z : ps_name z <> "Rewrite"%string -> is_rewrite z = false.
Proof. intros H. apply String.eqb_neq. exact H. Qed.
Lemma rewrite_step z : ps_name z = "Rewrite"%string -> is_rewrite z = true.
Proof. intros H. apply String.eqb_eq. exact H. Qed.
Lemma leads_tableau : forall pre br br' l, leads pre br br' -> tableau l br' -> tableau (pre ++ l) br.
Proof.
  induction pre as [|[f d i n rs cs] pre IH]; intros br br' l H T; cbn in *; [subst; exact T|].
  destruct H as [P [-> [r [-> H]]]]. split; [exact P|]. exact (IH _ _ _ H T).
Qed.
Lemma update_over : forall pre lst cur c, is_rewrite lst = false -> update_proof true (pre ++ [lst]) cur [c] = Some (pre ++ c).
Proof. intros pre lst cur c H. unfold update_proof. rewrite rev_app_distr. cbn [rev app]. rewrite H, removelast_last. reflexivity. Qed.
Lemma update_again : forall pre lst cur c0 c, is_rewrite lst = true ->
  update_proof true (pre ++ [lst]) cur [c0 :: c] =
  Some (if is_rewrite c0 && (ps_node c0 =? ps_node lst)%Z then pre ++ c0 :: c else pre ++ set_children lst [] :: c0 :: c).
Proof.
  intros pre lst cur c0 c H. unfold update_proof. rewrite rev_app_distr. cbn [rev app]. rewrite H, removelast_last.
  destruct (is_rewrite c0), (ps_node c0 =? ps_node lst)%Z; cbn; rewrite <- ?app_assoc; reflexivity.
Qed.
Lemma answered_none : forall cs cur, fold_left (fun p c => match p with Some p => update_proof true p cur [c] | None => None end) cs None = None.
Proof. induction cs; [reflexivity|exact IHcs]. Qed.

(** the rounds before the last one leave their steps but the last *)
Lemma answered_all : forall cs pre lst cur cn, ps_name lst <> "Rewrite"%string -> (forall c, In c cs -> ends_plain c) ->
  answered (pre ++ [lst]) cur (cs ++ [cn]) = Some (pre ++ List.concat (map (@removelast pstep) cs) ++ cn).
Proof.
  induction cs as [|c cs IH]; intros pre lst cur cn H E.
  - unfold answered. cbn [app fold_left]. rewrite update_over by exact (plain_step _ H). reflexivity.
  - destruct (E c (or_introl eq_refl)) as [a [z [-> Z]]].
    unfold answered. cbn [app fold_left]. rewrite update_over by exact (plain_step _ H). rewrite app_assoc.
    cbn [map List.concat]. rewrite removelast_last.
    replace (pre ++ (a ++ List.concat (map (@removelast pstep) cs)) ++ cn) with ((pre ++ a) ++ List.concat (map (@removelast pstep) cs) ++ cn)
      by (rewrite <- !app_assoc; reflexivity).
    exact (IH (pre ++ a) z cur cn Z (fun c' I' => E c' (or_intror I'))).
Qed.
Lemma answered_one : forall cs pre lst cur cn, ps_name lst <> "Rewrite"%string -> (forall c, In c cs -> one_step c) ->
  answered (pre ++ [lst]) cur (cs ++ [cn]) = Some (pre ++ cn).
Proof.
  intros cs pre lst cur cn H E. rewrite (answered_all cs pre lst cur cn H).
  - replace (List.concat (map (@removelast pstep) cs)) with (@nil pstep); [reflexivity|].
    induction cs as [|c cs IH]; [reflexivity|]. destruct (E c (or_introl eq_refl)) as [z [-> _]].
    cbn. apply IH. intros c I'. apply E. right. exact I'.
  - intros c I'. destruct (E c I') as [z [-> Z]]. exists [], z. split; [reflexivity|exact Z].
Qed.
Lemma subst_app s a b : subst_proof s (a ++ b) = subst_proof s a ++ subst_proof s b.
Proof. apply map_app. Qed.
Lemma recorded s pre lst cur cs cn br br' : ps_name lst <> "Rewrite"%string -> (forall c, In c cs -> one_step c) ->
  leads (subst_proof s pre) br br' -> tableau (subst_proof s cn) br' ->
  exists l, answered (pre ++ [lst]) cur (cs ++ [cn]) = Some l /\ tableau (subst_proof s l) br.
Proof.
  intros H E L T. exists (pre ++ cn). split; [exact (answered_one cs pre lst cur cn H E)|].
  rewrite subst_app. exact (leads_tableau _ _ _ _ L T).
Qed.
Lemma subst_rewrite s p : is_rewrite (subst_step s p) = is_rewrite p.
Proof. destruct p. reflexivity. Qed.
(** a rewriting step is kept, without its children, above the proof of the last round *)
Lemma recorded_rewrite s pre f d i rs ch cur cs c0 c br b1 br' : (forall c, In c cs -> one_step c) ->
  (cs = [] -> ps_name c0 = "Rewrite"%string -> ps_node c0 <> i) ->
  leads (subst_proof s pre) br b1 -> leads [subst_step s (PS f d i "Rewrite" rs [])] b1 br' -> tableau (subst_proof s (c0 :: c)) br' ->
  exists l, answered (pre ++ [PS f d i "Rewrite" rs ch]) cur (cs ++ [c0 :: c]) = Some l /\ tableau (subst_proof s l) br.
Proof.
  intros O E L L1 T. set (lst := PS f d i "Rewrite" rs ch). set (kept := PS f d i "Rewrite" rs []).
  assert (H : is_rewrite lst = true) by reflexivity.
  exists (pre ++ kept :: c0 :: c). split.
  - destruct cs as [|c1 cs].
    + unfold answered. cbn [app fold_left]. rewrite update_again by exact H.
      destruct (is_rewrite c0) eqn:R; [|reflexivity]. apply String.eqb_eq in R.
      rewrite (proj2 (Z.eqb_neq _ (ps_node lst)) (E eq_refl R)). reflexivity.
    + destruct (O c1 (or_introl eq_refl)) as [z [-> Z]].
      unfold answered. cbn [app fold_left]. rewrite update_again by exact H. rewrite (plain_step _ Z). cbn [andb].
      change (pre ++ set_children lst [] :: [z]) with (pre ++ [kept] ++ [z]). rewrite app_assoc.
      replace (pre ++ kept :: c0 :: c) with ((pre ++ [kept]) ++ c0 :: c) by (rewrite <- app_assoc; reflexivity).
      exact (answered_one cs (pre ++ [kept]) z cur (c0 :: c) Z (fun c' I' => O c' (or_intror I'))).
  - rewrite subst_app. apply (leads_tableau _ _ _ _ L).
    exact (leads_tableau [subst_step s kept] _ _ _ L1 T).
Qed.
(** a child that begins with the rewriting of the same node takes its place *)
Lemma recorded_again s pre lst cur c0 c br br' : ps_name lst = "Rewrite"%string -> ps_name c0 = "Rewrite"%string -> ps_node c0 = ps_node lst ->
  leads (subst_proof s pre) br br' -> tableau (subst_proof s (c0 :: c)) br' ->
  answered (pre ++ [lst]) cur [c0 :: c] = Some (pre ++ c0 :: c) /\ tableau (subst_proof s (pre ++ c0 :: c)) br.
Proof.
  intros H H0 N L T. split.
  - unfold answered. cbn [fold_left]. rewrite update_again by exact (rewrite_step _ H). rewrite (rewrite_step _ H0), N, Z.eqb_refl. reflexivity.
  - rewrite subst_app. exact (leads_tableau _ _ _ _ L T).
Qed.
(** a node without overwrite: the children are those that answered *)
Lemma made_children f d i n rs cs br next : present f br -> cs <> [] -> Forall2 (fun r c => tableau c (br ++ r)) rs cs ->
  made (PS f d i n rs cs) br next.
Proof.
  intros P N F. cbn [made]. split; [exact P|].
  destruct F as [|r c rs cs T F]; [contradiction (N eq_refl)|]. clear N. split; [exact T|]. clear T.
  induction F as [|r' c' rs cs T F IH]; [exact Logic.I|]. split; [exact T|exact IH].
Qed.
Lemma recorded_node pre cur ch br br' : leads pre br br' -> present (ps_form cur) br' -> ch <> [] ->
  Forall2 (fun r c => tableau c (br' ++ r)) (ps_results cur) ch ->
  exists l, update_proof false pre cur ch = Some l /\ tableau l br.
Proof.
  intros L P N F. exists (pre ++ [set_children cur ch]). split; [reflexivity|].
  destruct cur as [f d i n rs cs]. exact (leads_tableau pre br br' [PS f d i n rs ch] L (made_children _ _ _ _ _ _ _ _ P N F)).
Qed.
