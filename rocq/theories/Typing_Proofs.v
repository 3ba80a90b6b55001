(** Lemmas on the instantiation of schemes and soundness of the checker under every schedule. *)
From Coq Require Import ZArith List Bool String Lia.
From Verif Require Import LibSet_Model LibSet_Spec LibSet_Proofs LibSetHeap_Model LibSetHeap_Proofs
  Ast_Model Sem_Spec Ast_Proofs UnifTree_Model Typing_Model Typing_Spec.
Import ListNotations.
Open Scope Z_scope.

(** ** Instantiation *)
Lemma all_some_map {A B} (f : A -> option B) l r : all_some (map f l) = Some r <-> Forall2 (fun x y => f x = Some y) l r.
Proof.
  revert r; induction l as [|a l IH]; intros r; cbn.
  - split; [intros [= <-]; constructor|intros H; inversion H; reflexivity].
  - split.
    + destruct (f a) as [x|] eqn:Ea; [|discriminate]. destruct (all_some (map f l)) as [y|] eqn:Er; [|discriminate].
      intros [= <-]. constructor; [exact Ea|]. apply IH; reflexivity.
    + intros H; inversion H as [|? y ? ys Hx Hy]; subst. rewrite Hx. apply IH in Hy. rewrite Hy. reflexivity.
Qed.

Lemma find_ty_in r m T : find_ty r m = Some T -> In (r, T) m.
Proof.
  induction m as [|[k v] m IH]; cbn; [discriminate|]. destruct (String.eqb r k) eqn:Q.
  - apply String.eqb_eq in Q as ->. intros [= ->]; auto.
  - auto.
Qed.
Lemma find_ty_nodup r m T : NoDup (map fst m) -> In (r, T) m -> find_ty r m = Some T.
Proof.
  induction m as [|[k v] m IH]; cbn; [tauto|]. intros ND [Q|Q]; inversion ND as [|? ? Nk NDm]; subst.
  - injection Q as -> ->. rewrite String.eqb_refl; reflexivity.
  - destruct (String.eqb r k) eqn:Qk.
    + apply String.eqb_eq in Qk as ->. elim Nk. apply in_map_iff. exists (k, T); auto.
    + auto.
Qed.
Lemma in_combine_map {A B} (s : A -> B) vs r T : In (r, T) (combine vs (map s vs)) <-> In r vs /\ T = s r.
Proof.
  induction vs as [|v vs IH]; cbn; [tauto|]. rewrite IH. split.
  - intros [[= -> ->]|[H1 H2]]; auto.
  - intros [[<-|H] ->]; auto.
Qed.
Lemma map_fst_combine {A B} (l : list A) : forall (l' : list B), List.length l' = List.length l -> map fst (combine l l') = l.
Proof.
  induction l as [|a l IH]; intros [|b l'] Hl; cbn in *; try discriminate; auto.
  f_equal. apply IH. lia.
Qed.
Lemma find_inst vs s r : NoDup vs ->
  find_ty r (rev (combine vs (map s vs))) = if in_dec string_dec r vs then Some (s r) else None.
Proof.
  intros ND. destruct (in_dec string_dec r vs) as [H|H].
  - apply find_ty_nodup.
    + rewrite map_rev, map_fst_combine by apply map_length. apply NoDup_rev; exact ND.
    + apply in_rev. rewrite rev_involutive. apply in_combine_map; auto.
  - destruct (find_ty r _) as [T|] eqn:Q; [|reflexivity]. apply find_ty_in in Q. apply in_rev in Q.
    apply in_combine_map in Q. tauto.
Qed.
Lemma incl_flat {A B} (f : A -> list B) l N : incl (flat_map f l) N <-> Forall (fun x => incl (f x) N) l.
Proof.
  rewrite Forall_forall. split.
  - intros H x Hx y Hy. apply H, in_flat_map; eauto.
  - intros H y Hy. apply in_flat_map in Hy as (x & Hx & Hxy). apply (H x Hx y Hxy).
Qed.
Lemma inst_rec_ok vs s : NoDup vs -> forall t r,
  inst_rec (rev (combine vs (map s vs))) t = Some r <-> plain t /\ incl (ty_vars t) vs /\ r = tsubst s t.
Proof.
  intros ND. set (m := rev (combine vs (map s vs))).
  assert (LF : forall l, Forall (fun t => forall r, inst_rec m t = Some r <-> plain t /\ incl (ty_vars t) vs /\ r = tsubst s t) l ->
            forall q, all_some (map (inst_rec m) l) = Some q <->
              Forall plain l /\ incl (flat_map ty_vars l) vs /\ q = map (tsubst s) l).
  { intros l H q. rewrite all_some_map. revert q. induction H as [|t l Ht Hl IH]; intros q; cbn.
    - split; [intros K; inversion K; repeat split; auto; intros ? []|intros (_ & _ & ->); constructor].
    - split.
      + intros K; inversion K as [|? y ? ys K1 K2]; subst. apply Ht in K1 as (A & B & ->).
        apply IH in K2 as (A' & B' & ->). repeat split; auto. apply incl_app; auto.
      + intros (A & B & ->). inversion A; subst. apply incl_app_inv in B as [B1 B2].
        constructor; [apply Ht; auto|apply IH; auto]. }
  intros t. induction t as [r0|n i|n i f|c l IH|l IH|a b IHa IHb|ws b IHb] using ty_ind'; intros r; cbn.
  - subst m. rewrite find_inst by exact ND. destruct (in_dec string_dec r0 vs) as [H|H]; split.
    + intros [= <-]. repeat split; [constructor|]. intros x [<-|[]]; auto.
    + intros (_ & _ & ->). reflexivity.
    + discriminate.
    + intros (_ & K & _). elim H. apply K; left; reflexivity.
  - split; [discriminate|intros (K & _); inversion K].
  - split; [discriminate|intros (K & _); inversion K].
  - destruct (all_some (map (inst_rec m) l)) as [q|] eqn:Q; cbn.
    + apply (LF _ IH) in Q as (A & B & ->). split.
      * intros [= <-]. repeat split; auto. constructor; auto.
      * intros (_ & _ & ->). reflexivity.
    + split; [discriminate|]. intros (A & B & ->). inversion A as [|c0 l0 A0| |]; subst.
      assert (K : all_some (map (inst_rec m) l) = Some (map (tsubst s) l)) by (apply (LF _ IH); auto).
      congruence.
  - destruct (all_some (map (inst_rec m) l)) as [q|] eqn:Q; cbn.
    + apply (LF _ IH) in Q as (A & B & ->). split.
      * intros [= <-]. repeat split; auto. constructor; auto.
      * intros (_ & _ & ->). reflexivity.
    + split; [discriminate|]. intros (A & B & ->). inversion A as [| |l0 A0|]; subst.
      assert (K : all_some (map (inst_rec m) l) = Some (map (tsubst s) l)) by (apply (LF _ IH); auto).
      congruence.
  - split.
    + destruct (inst_rec m a) as [x|] eqn:Qa; [|discriminate]. destruct (inst_rec m b) as [y|] eqn:Qb; [|discriminate].
      intros [= <-]. destruct (proj1 (IHa _) eq_refl) as (A1 & A2 & ->).
      destruct (proj1 (IHb _) eq_refl) as (B1 & B2 & ->). repeat split; [constructor; auto|apply incl_app; auto].
    + intros (A & B & ->). inversion A; subst. apply incl_app_inv in B as [B1 B2].
      rewrite (proj2 (IHa _) (conj H1 (conj B1 eq_refl))), (proj2 (IHb _) (conj H2 (conj B2 eq_refl))). reflexivity.
  - split; [discriminate|intros (K & _); inversion K].
Qed.

Lemma has_inst (vs : list string) : NoDup vs -> forall tys : list ty, List.length tys = List.length vs ->
  exists s, map s vs = tys.
Proof.
  induction 1 as [|v vs Nv ND IH]; intros [|T tys] Hl; cbn in Hl; try discriminate.
  - exists TyVar; reflexivity.
  - destruct (IH tys) as [s Hs]; [lia|]. exists (fun r => if String.eqb r v then T else s r). cbn.
    rewrite String.eqb_refl. f_equal. rewrite <- Hs. apply map_ext_in. intros r Hr.
    destruct (String.eqb r v) eqn:Q; [|reflexivity]. apply String.eqb_eq in Q as ->. tauto.
Qed.
Lemma instantiate_ok U tys J : (forall vs b, U = TyPi vs b -> NoDup vs) ->
  (instantiate U tys = Some J <-> instance U tys J).
Proof.
  intros D. destruct U as [r|n i|n i f|c l|l|a b|vs b]; cbn;
    try (split; [discriminate|intros K; inversion K]).
  - destruct tys; split; try discriminate; [intros [= <-]; constructor|intros K; inversion K; reflexivity|intros K; inversion K].
  - destruct tys; split; try discriminate; [intros [= <-]; constructor|intros K; inversion K; reflexivity|intros K; inversion K].
  - specialize (D _ _ eq_refl). destruct (Nat.eqb (List.length tys) (List.length vs)) eqn:Q.
    + apply Nat.eqb_eq in Q. split.
      * intros K. destruct (has_inst vs D tys Q) as [s <-]. apply (inst_rec_ok vs s D) in K as (A & B & ->).
        constructor; auto.
      * intros K; inversion K as [| |vs0 b0 tys0 s ND Hs P I]; subst. apply (inst_rec_ok vs s D); auto.
    + split; [discriminate|]. intros K; inversion K as [| |vs0 b0 tys0 s ND Hs P I]; subst.
      rewrite map_length, Nat.eqb_refl in Q. discriminate.
Qed.

(** ** The values of the nodes *)
Section Vals.
Context {A : Type}.
Variable eqb ltb : A -> A -> bool.
Variable P : A -> Prop.
Definition allv (h : heap A) : Prop := Forall (fun n => P (hvalue n)) h.
Lemma upd_allv (h : heap A) a n : allv h -> P (hvalue n) -> allv (LibSetHeap_Model.upd h a n).
Proof.
  revert a; induction h as [|m h IH]; intros a H Hn; [constructor|]. inversion H as [|? ? H1 H2]; subst.
  destruct a; cbn; constructor; auto. apply IH; auto.
Qed.
Lemma load_allv h p (n : hnode A) : allv h -> load h p = Ok n -> P (hvalue n).
Proof.
  intros H. destruct p as [a|]; cbn; [|discriminate]. destruct (nth_error h a) eqn:Q; [|discriminate].
  intros [= <-]. apply nth_error_In in Q. unfold allv in H. rewrite Forall_forall in H. apply H; auto.
Qed.
Lemma store_allv h p (n : hnode A) h' : allv h -> P (hvalue n) -> store h p n = Ok h' -> allv h'.
Proof. intros H Hn. destruct p; cbn; [|discriminate]. intros [= <-]. apply upd_allv; auto. Qed.
Lemma set_left_allv h p q h' : allv h -> set_left h p q = Ok h' -> allv h'.
Proof.
  intros H. unfold set_left. destruct (load h p) as [n| |] eqn:Q; cbn [rbind]; try discriminate.
  apply store_allv; auto. cbn. eapply load_allv; eauto.
Qed.
Lemma set_right_allv h p q h' : allv h -> set_right h p q = Ok h' -> allv h'.
Proof.
  intros H. unfold set_right. destruct (load h p) as [n| |] eqn:Q; cbn [rbind]; try discriminate.
  apply store_allv; auto. cbn. eapply load_allv; eauto.
Qed.
Lemma fix_height_allv h p h' : allv h -> fix_height h p = Ok h' -> allv h'.
Proof.
  intros H. unfold fix_height. destruct (load h p) as [n| |] eqn:Q; cbn [rbind]; try discriminate.
  destruct (hnewHeight h p) as [k| |]; cbn [rbind]; try discriminate.
  apply store_allv; auto. cbn. eapply load_allv; eauto.
Qed.
Ltac chain := repeat match goal with
  | H : rbind ?m _ = Ok _ |- _ => let Q := fresh "Q" in destruct m eqn:Q; cbn [rbind] in H; try discriminate
  end.
Lemma rotL_allv h w h' p : allv h -> hrotateLeft h w = Ok (h', p) -> allv h'.
Proof.
  intros H K. unfold hrotateLeft in K. chain. injection K as <- <-.
  eauto using set_left_allv, set_right_allv, fix_height_allv.
Qed.
Lemma rotR_allv h w h' p : allv h -> hrotateRight h w = Ok (h', p) -> allv h'.
Proof.
  intros H K. unfold hrotateRight in K. chain. injection K as <- <-.
  eauto using set_left_allv, set_right_allv, fix_height_allv.
Qed.
Lemma rebalance_allv h p h' p' : allv h -> hrebalance h p = Ok (h', p') -> allv h'.
Proof.
  intros H K. unfold hrebalance in K. chain. destruct (1 <? b).
  - chain. destruct (0 <? b1); [eapply rotL_allv; eauto|]. chain.
    destruct b2 as [h1 q1]. eapply rotL_allv; [|eauto]. eapply set_left_allv; [|eauto]. eapply rotR_allv; eauto.
  - destruct (b <? -1); [|injection K as <- <-; auto]. chain.
    destruct (b1 <? 0); [eapply rotR_allv; eauto|]. chain.
    destruct b2 as [h1 q1]. eapply rotR_allv; [|eauto]. eapply set_right_allv; [|eauto]. eapply rotL_allv; eauto.
Qed.
Lemma hinsert_allv fuel : forall h p x h' p', allv h -> P x -> hinsert eqb ltb fuel h p x = Ok (h', p') -> allv h'.
Proof.
  induction fuel as [|fuel IH]; intros h p x h' p' H Hx K; cbn [hinsert] in K; [discriminate|].
  destruct p as [a|].
  - chain. destruct (eqb (hvalue b) x); [injection K as <- <-; auto|].
    destruct (ltb x (hvalue b)); chain; destruct b0 as [h1 q1]; cbn [fst snd] in *;
      (eapply rebalance_allv; [|exact K]); (eapply fix_height_allv; [|eassumption]).
    + eapply set_left_allv; [|eassumption]. eapply IH; eauto.
    + eapply set_right_allv; [|eassumption]. eapply IH; eauto.
  - injection K as <- <-. unfold allv. apply Forall_app; split; auto.
Qed.
Lemma hadd_allv fuel vs : forall h p h' p', allv h -> Forall P vs -> hadd eqb ltb fuel h p vs = Ok (h', p') -> allv h'.
Proof.
  induction vs as [|x vs IH]; intros h p h' p' H Hv K; cbn [hadd] in K; [injection K as <- <-; auto|].
  inversion Hv; subst. chain. destruct b as [h1 q1]. eapply IH; [|eassumption|exact K].
  eapply hinsert_allv; eauto.
Qed.
Lemma hfind_allv fuel : forall h p x, allv h -> hfind eqb ltb fuel h p x = Ok true -> exists y, P y /\ eqb x y = true.
Proof.
  induction fuel as [|fuel IH]; intros h p x H K; cbn [hfind] in K; [discriminate|].
  destruct p as [a|]; [|discriminate]. chain. destruct (eqb x (hvalue b)) eqn:Q1.
  - exists (hvalue b). split; [eapply load_allv; eauto|exact Q1].
  - destruct (ltb x (hvalue b)); eapply IH; eauto.
Qed.
End Vals.

(** ** Names in instances *)
Lemma Forall_incl_flat {A B} (f : A -> list B) l (N : B -> Prop) :
  Forall (fun x => (forall y, In y (f x) -> N y)) l <-> forall y, In y (flat_map f l) -> N y.
Proof.
  rewrite Forall_forall. split.
  - intros H y Hy. apply in_flat_map in Hy as (x & Hx & Hy). eauto.
  - intros H x Hx y Hy. apply H, in_flat_map; eauto.
Qed.
Section Names.
(** [nm] is ty_bounds or ty_syms *)
Variable nm : ty -> list string.
Variable N : string -> Prop.
Hypothesis nm_var : forall r, nm (TyVar r) = [].
Hypothesis nm_constr : forall c l x, In x (nm (TyConstr c l)) <-> In x (nm (TyConstr c [])) \/ In x (flat_map nm l).
Hypothesis nm_prod : forall l, nm (TyProd l) = flat_map nm l.
Hypothesis nm_func : forall a b, nm (TyFunc a b) = nm a ++ nm b.
Hypothesis nm_pi : forall vs b, nm (TyPi vs b) = nm b.
Definition all_in (t : ty) : Prop := forall x, In x (nm t) -> N x.
Lemma tsubst_names s vs : Forall all_in (map s vs) -> forall t, plain t -> incl (ty_vars t) vs -> all_in t -> all_in (tsubst s t).
Proof.
  intros Hs. assert (LF : forall l, Forall (fun t => plain t -> incl (ty_vars t) vs -> all_in t -> all_in (tsubst s t)) l ->
    Forall plain l -> incl (flat_map ty_vars l) vs -> (forall x, In x (flat_map nm l) -> N x) ->
    forall x, In x (flat_map nm (map (tsubst s) l)) -> N x).
  { induction 1 as [|t l Ht Hl IH]; cbn; intros Hp Hv Hn x Hx; [tauto|]. inversion Hp; subst.
    apply incl_app_inv in Hv as [Hv1 Hv2]. apply in_app_iff in Hx as [Hx|Hx].
    - apply Ht in Hx; auto. intros y Hy. apply Hn, in_app_iff; auto.
    - apply IH in Hx; auto. intros y Hy. apply Hn, in_app_iff; auto. }
  intros t. induction t as [r|n i|n i f|c l IH|l IH|a b IHa IHb|ws b IHb] using ty_ind'; intros Hp Hv Hn; cbn [tsubst]; auto.
  - rewrite Forall_forall in Hs. apply Hs, in_map. apply Hv; left; reflexivity.
  - inversion Hp; subst. intros x Hx. apply nm_constr in Hx as [Hx|Hx].
    + apply Hn, nm_constr; auto.
    + eapply LF; eauto. intros y Hy. apply Hn, nm_constr; auto.
  - inversion Hp; subst. intros x Hx. rewrite nm_prod in Hx. eapply LF; eauto.
    intros y Hy. apply Hn. rewrite nm_prod; auto.
  - inversion Hp; subst. cbn in Hv. apply incl_app_inv in Hv as [Hv1 Hv2].
    intros x Hx. rewrite nm_func in Hx. apply in_app_iff in Hx as [Hx|Hx].
    + apply IHa in Hx; auto. intros y Hy. apply Hn. rewrite nm_func, in_app_iff; auto.
    + apply IHb in Hx; auto. intros y Hy. apply Hn. rewrite nm_func, in_app_iff; auto.
Qed.
Lemma instance_names U tys J : instance U tys J -> all_in U -> Forall all_in tys -> all_in J.
Proof.
  intros K HU Ht. inversion K as [| |vs b tys0 s ND Hs P I]; subst; auto.
  eapply tsubst_names; eauto. intros x Hx. apply HU. rewrite nm_pi; auto.
Qed.
Lemma args_names J As : get_args_ty J = Some As -> all_in J -> Forall all_in As.
Proof.
  intros K HJ. destruct J as [r|n i|n i f|c l|l|a b|ws b]; cbn in K; try discriminate.
  - injection K as <-; auto.
  - assert (Ha : all_in a) by (intros x Hx; apply HJ; rewrite nm_func, in_app_iff; auto).
    destruct a; try discriminate; injection K as <-; auto.
    apply Forall_incl_flat. unfold all_in in Ha. rewrite nm_prod in Ha. exact Ha.
Qed.
Lemma out_names J o : get_out_ty J = Some o -> all_in tType -> all_in J -> all_in o.
Proof.
  intros K HT HJ. destruct J as [r|n i|n i f|c l|l|a b|ws b]; cbn in K; try discriminate; injection K as <-; auto.
  intros x Hx; apply HJ; rewrite nm_func, in_app_iff; auto.
Qed.
End Names.

Lemma bounds_constr c l x : In x (ty_bounds (TyConstr c l)) <-> In x (ty_bounds (TyConstr c [])) \/ In x (flat_map ty_bounds l).
Proof. cbn; tauto. Qed.
Lemma syms_constr c l x : In x (ty_syms (TyConstr c l)) <-> In x (ty_syms (TyConstr c [])) \/ In x (flat_map ty_syms l).
Proof. cbn; tauto. Qed.

Lemma profile_of J As o' : get_args_ty J = Some As -> get_out_ty J = Some o' -> exists o, profile J As o.
Proof.
  intros HA HO. destruct J as [r|n i|n i f|c l|l|a b|ws b]; cbn in *; try discriminate.
  - injection HA as <-. eexists; constructor.
  - destruct a; try discriminate; injection HA as <-; eexists; constructor.
Qed.
Lemma kind_args U k As : kind U k -> get_args_ty U = Some As -> List.length As = k.
Proof.
  intros [| |n]; cbn; intros [= <-]; auto. apply repeat_length.
Qed.

(** ** Soundness *)
Section Sound.
Variable E : env.
Variable K : string -> Prop.
Hypothesis HK : kinded K E.
Variable B : list (string * ty).
Hypothesis ND : NoDup (map fst B).
Let Rt : ty -> ty -> Prop := fun _ _ => True.

Definition in_dom (G : ctx) (x : string) : Prop := In x (map fst G).
Definition scope_ok (G : ctx) (t : task) : Prop :=
  incl G B /\
  match t with
  | TForm _ f => incl (binders f) B /\ (exists N, scoped N f /\ incl N (map fst G)) /\ (forall c, In c (form_syms f) -> K c)
  | TTerm _ t T => (forall x, In x (term_vars t ++ ty_bounds T) -> in_dom G x) /\
                   (forall c, In c (term_syms t ++ ty_syms T) -> K c)
  | TTy _ T => (forall x, In x (ty_bounds T) -> in_dom G x) /\ (forall c, In c (ty_syms T) -> K c)
  end.
Definition typed (G : ctx) (t : task) : Prop :=
  match t with
  | TForm _ f => wt E Rt G f
  | TTerm _ t T => has_ty E Rt G t T
  | TTy _ T => is_type E G T
  end.
Definition good (t : task) : Prop := forall G, scope_ok G t -> typed G t.

Lemma ctx_get_in G n T : ctx_get n G = Some T -> In (n, T) G.
Proof.
  induction G as [|[m U] G IH]; cbn; [discriminate|]. destruct (String.eqb n m) eqn:Q.
  - apply String.eqb_eq in Q as ->. intros [= ->]; auto.
  - auto.
Qed.
Lemma ctx_get_dom G n : in_dom G n -> exists T, ctx_get n G = Some T.
Proof.
  unfold in_dom. induction G as [|[m U] G IH]; cbn; [tauto|]. destruct (String.eqb n m) eqn:Q; eauto.
  intros [->|H]; [rewrite String.eqb_refl in Q; discriminate|auto].
Qed.
Lemma nodup_fst {A C} (l : list (A * C)) n x y : NoDup (map fst l) -> In (n, x) l -> In (n, y) l -> x = y.
Proof.
  induction l as [|[m u] l IH]; cbn; [tauto|]. intros D H1 H2. inversion D as [|? ? Nm D']; subst.
  destruct H1 as [H1|H1], H2 as [H2|H2].
  - congruence.
  - injection H1 as -> ->. elim Nm. apply in_map_iff. exists (n, y); auto.
  - injection H2 as -> ->. elim Nm. apply in_map_iff. exists (n, x); auto.
  - eauto.
Qed.
Lemma ctx_B G n T : incl G B -> in_dom G n -> In (n, T) B -> ctx_get n G = Some T.
Proof.
  intros HG Hn HT. destruct (ctx_get_dom G n Hn) as [U HU]. rewrite HU. f_equal.
  eapply nodup_fst; [exact ND| |exact HT]. apply HG, ctx_get_in; exact HU.
Qed.
Lemma contains_B h p n T : allv (fun x => In x B) h -> con_contains h p n T = Ok true ->
  exists T', In (n, T') B /\ same_ty T' T.
Proof.
  intros Hh Q. apply (hfind_allv d_eqb d_ltb (fun x => In x B)) in Q as ([m T'] & Hy & Q); [|exact Hh].
  unfold d_eqb in Q; cbn in Q. apply andb_prop in Q as [Q1 Q2]. apply String.eqb_eq in Q1 as <-.
  exists T'. split; [exact Hy|]. apply same_ty_sym, ty_eqb_reflect; exact Q2.
Qed.

Lemma functional_good G p n tys args ks :
  incl G B -> functional E p n tys args = Some ks -> Forall good ks ->
  (forall x, In x (flat_map ty_bounds tys ++ flat_map term_vars args) -> in_dom G x) ->
  (forall c, In c (flat_map ty_syms tys ++ flat_map term_syms args) -> K c) ->
  exists U J As o, E n = Some U /\ instance U tys J /\ profile J As o /\
    Forall (is_type E G) tys /\ Forall2 (has_ty E Rt G) args As.
Proof.
  intros HG Q Hks Hx Hc. unfold functional in Q.
  destruct (E n) as [U|] eqn:EU; [|discriminate]. destruct (instantiate U tys) as [J|] eqn:EJ; [|discriminate].
  destruct (get_args_ty J) as [As|] eqn:EA; [|discriminate]. destruct (get_out_ty J) as [o'|] eqn:EO; [|discriminate].
  destruct (Nat.eqb (List.length args) (List.length As)) eqn:EL; [|discriminate]. apply Nat.eqb_eq in EL.
  injection Q as <-. destruct HK as (K1 & K2 & K3). destruct (K3 _ _ EU) as [K4 K5].
  apply instantiate_ok in EJ; [|intros vs b ->; eapply K2; eauto].
  destruct (profile_of _ _ _ EA EO) as [o PO].
  assert (B1 : Forall (all_in ty_bounds (in_dom G)) tys).
  { apply Forall_incl_flat. intros x Hx'. apply Hx, in_app_iff; auto. }
  assert (S1 : Forall (all_in ty_syms K) tys).
  { apply Forall_incl_flat. intros x Hx'. apply Hc, in_app_iff; auto. }
  assert (BJ : all_in ty_bounds (in_dom G) J).
  { eapply (instance_names ty_bounds); eauto using bounds_constr. intros x Hx'. rewrite K4 in Hx'. destruct Hx'. }
  assert (SJ : all_in ty_syms K J).
  { eapply (instance_names ty_syms); eauto using syms_constr. }
  apply (args_names ty_bounds) with (As := As) in BJ; auto.
  apply (args_names ty_syms) with (As := As) in SJ; auto.
  apply Forall_app in Hks as [Ht Hy].
  exists U, J, As, o. split; [reflexivity|]. split; [exact EJ|]. split; [exact PO|]. split.
  - rewrite map_app, Forall_app in Hy. destruct Hy as [Hy _]. rewrite Forall_forall in *.
    intros T HT. specialize (Hy (TTy p T) (in_map _ _ _ HT) G). apply Hy. split; [exact HG|].
    split; [apply (B1 T HT)|apply (S1 T HT)].
  - assert (V1 : Forall (fun a => forall x, In x (term_vars a) -> in_dom G x) args).
    { apply Forall_incl_flat. intros x Hx'. apply Hx, in_app_iff; auto. }
    assert (V2 : Forall (fun a => forall x, In x (term_syms a) -> K x) args).
    { apply Forall_incl_flat. intros x Hx'. apply Hc, in_app_iff; auto. }
    clear - HG Ht EL BJ SJ V1 V2. revert As EL BJ SJ Ht. induction args as [|a args IH]; intros [|T As] EL BJ SJ Ht;
      cbn in EL; try discriminate; constructor.
    + inversion Ht as [|? ? Ha _]; subst. apply (Ha G). split; [exact HG|].
      inversion BJ; inversion SJ; inversion V1; inversion V2; subst. split; intros x Hx; apply in_app_iff in Hx as [Hx|Hx]; auto.
    + inversion Ht; inversion BJ; inversion SJ; inversion V1; inversion V2; subst. apply IH; auto.
Qed.

Lemma scoped_children N fs G p : Forall (scoped N) fs -> incl N (map fst G) ->
  incl G B -> incl (flat_map binders fs) B -> (forall c, In c (flat_map form_syms fs) -> K c) ->
  Forall good (map (TForm p) fs) -> Forall (wt E Rt G) fs.
Proof.
  intros Hs HN HG HB Hc Hg. rewrite Forall_forall in *. intros f Hf.
  apply (Hg (TForm p f)); [apply in_map; auto|]. split; [exact HG|]. split; [|split].
  - intros x Hx. apply HB, in_flat_map; eauto.
  - exists N; auto.
  - intros c Hc'. apply Hc, in_flat_map; eauto.
Qed.
Lemma bind_names G vs : map fst (bind G vs) = rev (map tv_name vs) ++ map fst G.
Proof. unfold bind. rewrite map_app, map_rev, map_map. reflexivity. Qed.

Lemma exec_good h t h' ks : allv (fun x => In x B) h -> exec E h t = Some (h', ks) -> Forall good ks -> good t.
Proof.
  intros Hh Q Hks G [HG HS]. destruct t as [p f|p t T|p T]; cbn [typed].
  - destruct HS as (HB & (N & HN & HI) & Hc). destruct f; cbn [exec] in Q; inversion HN; subst.
    + destruct (add_vars h p vars) as [[h1 p1]| |]; try discriminate. injection Q as <- <-.
      inversion Hks as [|? ? Hk _]; subst. constructor. apply (Hk (bind G vars)). cbn in HB.
      apply incl_app_inv in HB as [HB1 HB2]. split; [|split; [exact HB2|split; [|exact Hc]]].
      * apply incl_app; [|exact HG]. intros x Hx. apply HB1, in_rev; exact Hx.
      * exists (map tv_name vars ++ N). split; [assumption|]. rewrite bind_names. apply incl_app.
        -- intros x Hx. apply in_app_iff; left. rewrite <- in_rev. exact Hx.
        -- intros x Hx. apply in_app_iff; right. auto.
    + destruct (add_vars h p vars) as [[h1 p1]| |]; try discriminate. injection Q as <- <-.
      inversion Hks as [|? ? Hk _]; subst. constructor. apply (Hk (bind G vars)). cbn in HB.
      apply incl_app_inv in HB as [HB1 HB2]. split; [|split; [exact HB2|split; [|exact Hc]]].
      * apply incl_app; [|exact HG]. intros x Hx. apply HB1, in_rev; exact Hx.
      * exists (map tv_name vars ++ N). split; [assumption|]. rewrite bind_names. apply incl_app.
        -- intros x Hx. apply in_app_iff; left. rewrite <- in_rev. exact Hx.
        -- intros x Hx. apply in_app_iff; right. auto.
    + injection Q as <- <-. constructor. eapply scoped_children; eauto.
    + injection Q as <- <-. constructor. eapply scoped_children; eauto.
    + injection Q as <- <-. cbn in HB, Hc. apply incl_app_inv in HB as [HB1 HB2].
      inversion Hks as [|? ? Hk1 Hks']; subst. inversion Hks' as [|? ? Hk2 _]; subst.
      constructor; [apply (Hk1 G)|apply (Hk2 G)]; repeat split; auto; try (exists N; auto);
        intros c Hc'; apply Hc, in_app_iff; auto.
    + injection Q as <- <-. cbn in HB, Hc. apply incl_app_inv in HB as [HB1 HB2].
      inversion Hks as [|? ? Hk1 Hks']; subst. inversion Hks' as [|? ? Hk2 _]; subst.
      constructor; [apply (Hk1 G)|apply (Hk2 G)]; repeat split; auto; try (exists N; auto);
        intros c Hc'; apply Hc, in_app_iff; auto.
    + injection Q as <- <-. inversion Hks as [|? ? Hk1 _]; subst. constructor. apply (Hk1 G). repeat split; auto. exists N; auto.
    + destruct (functional E p (id_name p0) tys args) as [ks0|] eqn:QF; [|discriminate]. injection Q as <- <-.
      edestruct (functional_good G) as (U & J & As & o & A1 & A2 & A3 & A4 & A5); eauto.
      { intros x Hx. apply HI. auto. }
      econstructor; eauto; exact Logic.I.
    + constructor.
    + constructor.
  - destruct HS as (HV & HC). destruct t as [i|q tys args|i n|m]; cbn [exec] in Q; try discriminate.
    + destruct (functional E p (id_name q) tys args) as [ks0|] eqn:QF; [|discriminate]. injection Q as <- <-.
      edestruct (functional_good G) as (U & J & As & o & A1 & A2 & A3 & A4 & A5); eauto.
      { intros x Hx. apply HV. apply in_app_iff; auto. }
      { intros x Hx. apply HC. apply in_app_iff; auto. }
      econstructor; eauto; exact Logic.I.
    + destruct (con_contains h p n T) as [[|]| |] eqn:QC; try discriminate.
      destruct (contains_B _ _ _ _ Hh QC) as (T' & HT & ST). econstructor; [|exact ST].
      apply ctx_B; auto. apply HV. left; reflexivity.
  - destruct HS as (HV & HC). destruct T as [r|n i|n i f|c l|l|a b|ws b]; cbn [exec] in Q; try discriminate.
    + destruct (con_contains h p n tType) as [[|]| |] eqn:QC; try discriminate.
      destruct (contains_B _ _ _ _ Hh QC) as (T' & HT & ST). econstructor; [|exact ST].
      apply ctx_B; auto. apply HV. left; reflexivity.
    + destruct (E c) as [U|] eqn:EU; [|discriminate]. destruct (get_args_ty U) as [As|] eqn:EA; [|discriminate].
      destruct (Nat.eqb (List.length As) (List.length l)) eqn:EL; [|discriminate]. apply Nat.eqb_eq in EL.
      injection Q as <- <-. destruct HK as (K1 & _). destruct (K1 c U) as [k Hk]; [apply HC; left; reflexivity|exact EU|].
      pose proof (kind_args _ _ _ Hk EA) as Lk. econstructor; [exact EU|congruence|].
      rewrite Forall_forall in *. intros T HT. apply (Hks (TTy p T) (in_map _ _ _ HT) G).
      split; [exact HG|]. split; intros x Hx; [apply HV|apply HC; right]; cbn; apply in_flat_map; eauto.
Qed.

(** the binders of the pending calls *)
Definition task_binders (t : task) : list (string * ty) := match t with TForm _ f => binders f | _ => [] end.
Lemma incl_flat_in {A C} (f : A -> list C) l x : In x l -> incl (f x) (flat_map f l).
Proof. intros H y Hy. apply in_flat_map; eauto. Qed.
Lemma functional_binders p n tys args ks : functional E p n tys args = Some ks -> Forall (fun t => task_binders t = []) ks.
Proof.
  unfold functional. destruct (E n); [|discriminate]. destruct (instantiate t tys); [|discriminate].
  destruct (get_args_ty t0); [|discriminate]. destruct (get_out_ty t0); [|discriminate].
  destruct (Nat.eqb _ _); [|discriminate]. intros [= <-]. apply Forall_app; split; apply Forall_forall; intros x Hx;
    apply in_map_iff in Hx as (y & <- & _); reflexivity.
Qed.
Lemma exec_vals h t h' ks : allv (fun x => In x B) h -> incl (task_binders t) B -> exec E h t = Some (h', ks) ->
  allv (fun x => In x B) h' /\ Forall (fun k => incl (task_binders k) B) ks.
Proof.
  assert (AV : forall p vs p1 h1, allv (fun x => In x B) h -> incl (map (fun v => (tv_name v, tv_ty v)) vs) B ->
    add_vars h p vs = Ok (h1, p1) -> allv (fun x => In x B) h1).
  { intros p vs p1 h1 Hh HB Q. eapply (hadd_allv d_eqb d_ltb (fun x => In x B)) in Q; auto. apply Forall_forall; auto. }
  assert (FB : forall p n tys args ks0, functional E p n tys args = Some ks0 -> Forall (fun k => incl (task_binders k) B) ks0).
  { intros p n tys args ks0 Q. apply functional_binders in Q. eapply Forall_impl; [|exact Q]. intros k ->. intros ? []. }
  intros Hh HB Q. destruct t as [p f|p t T|p T].
  - destruct f; cbn [exec] in Q; cbn in HB; try (apply incl_app_inv in HB as [HB1 HB2]).
    + destruct (add_vars h p vars) as [[h1 p1]| |] eqn:QA; try discriminate. injection Q as <- <-. split; eauto.
    + destruct (add_vars h p vars) as [[h1 p1]| |] eqn:QA; try discriminate. injection Q as <- <-. split; eauto.
    + injection Q as <- <-. split; auto. apply Forall_forall. intros x Hx. apply in_map_iff in Hx as (y & <- & Hy).
      cbn. intros z Hz. apply HB, in_flat_map; eauto.
    + injection Q as <- <-. split; auto. apply Forall_forall. intros x Hx. apply in_map_iff in Hx as (y & <- & Hy).
      cbn. intros z Hz. apply HB, in_flat_map; eauto.
    + injection Q as <- <-. split; auto.
    + injection Q as <- <-. split; auto.
    + injection Q as <- <-. split; auto.
    + destruct (functional E p (id_name p0) tys args) as [ks0|] eqn:QF; [|discriminate]. injection Q as <- <-. split; eauto.
    + injection Q as <- <-. split; auto.
    + injection Q as <- <-. split; auto.
  - destruct t as [i|q tys args|i n|m]; cbn [exec] in Q; try discriminate.
    + destruct (functional E p (id_name q) tys args) as [ks0|] eqn:QF; [|discriminate]. injection Q as <- <-. split; eauto.
    + destruct (con_contains h p n T) as [[|]| |]; try discriminate. injection Q as <- <-. split; auto.
  - destruct T as [r|n i|n i f|c l|l|a b|ws b]; cbn [exec] in Q; try discriminate.
    + destruct (con_contains h p n tType) as [[|]| |]; try discriminate. injection Q as <- <-. split; auto.
    + destruct (E c); [|discriminate]. destruct (get_args_ty t); [|discriminate]. destruct (Nat.eqb _ _); [|discriminate].
      injection Q as <- <-. split; auto. apply Forall_forall. intros x Hx. apply in_map_iff in Hx as (y & <- & _). cbn. intros ? [].
Qed.

Lemma steps_good s s' : steps E s s' -> snd s' = [] ->
  allv (fun x => In x B) (fst s) -> Forall (fun t => incl (task_binders t) B) (snd s) -> Forall good (snd s).
Proof.
  induction 1 as [s|s s1 s2 Hst Hss IH]; intros He Hv Hb.
  - rewrite He. constructor.
  - destruct Hst as [h h' l1 t ks l2 Q]. cbn [fst snd] in *.
    apply Forall_app in Hb as [Hb1 Hb2]. inversion Hb2 as [|? ? Hbt Hb2']; subst.
    destruct (exec_vals _ _ _ _ Hv Hbt Q) as [Hv' Hbk].
    assert (HG : Forall good (l1 ++ ks ++ l2)) by (apply IH; auto; rewrite !Forall_app; auto).
    rewrite !Forall_app in HG. destruct HG as (G1 & G2 & G3). rewrite Forall_app. split; [exact G1|].
    constructor; [|exact G3]. exact (exec_good h t h' ks Hv Q G2).
Qed.
End Sound.

Theorem accepted_nearly_typed E K f : kinded K E -> (forall c, In c (form_syms f) -> K c) ->
  scoped [] f -> NoDup (map fst (binders f)) -> accepts E f -> nearly_typed E f.
Proof.
  intros HK Hc Hs ND [h Hst].
  pose proof (steps_good E K HK (binders f) ND _ _ Hst eq_refl) as HG. cbn [start fst snd] in HG.
  assert (HG' : Forall (good E K (binders f)) [TForm None f]).
  { apply HG; [constructor|]. constructor; [|constructor]. cbn. apply incl_refl. }
  inversion HG' as [|? ? H1 _]; subst. apply (H1 []). split; [intros ? []|].
  split; [apply incl_refl|]. split; [|exact Hc]. exists []. split; [exact Hs|intros ? []].
Qed.
