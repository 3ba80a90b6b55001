(** Concrete runs for C53 and C54. *)
From Coq Require Import ZArith List Bool String.
From Verif Require Import LibSet_Model Ast_Model Problem_Model Rules_Model Sem_Spec Occ_Spec Free_Spec Rules_Spec Skolem_Spec
  Tableau_Spec LibSet_Proofs Ast_Proofs Skolem_Witness Tableau_Witness Expand_Model Expand_Spec.
Import ListNotations.
Open Scope Z_scope.

(** expands the first branch that can be, again and again *)
Fixpoint first_child (done l : list state) (s : sko) (g : gen) : option forest :=
  match l with
  | [] => None
  | st :: r =>
    match expand same0 st s g with
    | Some (Expand c s' g') => Some (mkForest g' s' (done ++ c ++ r))
    | _ => first_child (done ++ [st]) r s g
    end
  end.
Fixpoint run (n : nat) (F : forest) : forest :=
  match n with
  | O => F
  | S n => match first_child [] (fo_leaves F) (fo_sko F) (fo_gen F) with Some F' => run n F' | None => F end
  end.
Lemma first_child_grow l : forall done s g F', first_child done l s g = Some F' -> grow same0 (mkForest g s (done ++ l)) F'.
Proof.
  induction l as [|st r IH]; intros done s g F' E; cbn [first_child] in E; [discriminate|].
  destruct (expand same0 st s g) as [[|c s' g'|]|] eqn:EE.
  2:{ injection E as <-. apply grow_expand. exact EE. }
  all: apply IH in E; rewrite <- app_assoc in E; exact E.
Qed.
Lemma run_grows n : forall F, grows same0 F (run n F).
Proof.
  induction n as [|n IH]; intros F; cbn [run]; [apply grows_refl|].
  destruct (first_child [] (fo_leaves F) (fo_sko F) (fo_gen F)) as [F'|] eqn:E; [|apply grows_refl].
  apply grows_step with F'; [|apply IH]. apply first_child_grow in E. destruct F. exact E.
Qed.
Definition wF_end (k : sko_kind) : forest := run 30 (plant 2 gS k wF).
Lemma wF_end_closed k : (List.length (fo_leaves (wF_end k)) = 2)%nat /\ exists s, forall st, In st (fo_leaves (wF_end k)) -> closes 0 s (branch_of st).
Proof.
  split; [destruct k; reflexivity|].
  exists [(mkMeta 31 0 "X" 0 iT, Fun (mkId 30 "skolem@U@0") [] []);
         (mkMeta 33 0 "V" 1 iT, Fun (mkId 32 "skolem@Y@1") [] [Fun (mkId 30 "skolem@U@0") [] []])].
  assert (E : exists a b, fo_leaves (wF_end k) = [a; b]).
  { destruct k; eexists; eexists; vm_compute; reflexivity. }
  intros st H. destruct k; vm_compute in H; destruct H as [<-|[<-|[]]].
  all: try (eapply cl_bot; left; reflexivity).
  all: eapply cl_pair; [right; left; reflexivity|left; reflexivity|reflexivity|constructor|].
  all: repeat (first [apply Forall2_nil|apply Forall2_cons]); apply term_eqb_reflect; reflexivity.
Qed.
Lemma tF_end_closed k : exists F, grows same0 (plant 3 gS k tF) F /\ fo_leaves F <> [] /\
  (forall st, In st (fo_leaves F) -> closes 0 [] (branch_of st)) /\
  wff gS tF /\ f_metas tF = [] /\ f_tymetas tF = [] /\ exists I (v : val I), eq_refl_in 0 I /\ holds tF v.
Proof.
  exists (run 30 (plant 3 gS k tF)). split; [apply run_grows|]. split; [destruct k; vm_compute; discriminate|]. split.
  - intros st H. destruct k; vm_compute in H; destruct H as [<-|[]];
    (eapply cl_pair; [right; left; reflexivity|left; reflexivity|reflexivity|repeat constructor|constructor])
    || (eapply cl_pair; [left; reflexivity|right; left; reflexivity|reflexivity|repeat constructor|constructor]).
  - destruct (types_close k) as (_ & _ & _ & _ & H). exact H.
Qed.
Lemma wF_plain : f_noid wF /\ binds wF.
Proof.
  split; [apply (wf_noid _ _ (proj1 wF_start))|]. cbn. repeat split; discriminate.
Qed.
(** a state with universal formulas left is saturated when the limit is spent *)
Lemma sat_spent : exists F st, grows same0 (plant 2 gS Outer wF) F /\ In st (fo_leaves F) /\ st_mg st <> [] /\
  expand same0 st (fo_sko F) (fo_gen F) = Some Saturated.
Proof.
  exists (wF_end Outer). eexists. split; [apply run_grows|]. split; [vm_compute; left; reflexivity|]. split; [discriminate|vm_compute; reflexivity].
Qed.
