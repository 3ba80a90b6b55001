(** Types as terms and back. *)
From Coq Require Import ZArith List Bool String Lia.
From Verif Require Import Ast_Model Sem_Spec Ast_Proofs Conc_Spec Conc_Proofs UnifTree_Model Closure_Model Typing_Proofs Ty_Spec.
Import ListNotations.
Open Scope Z_scope.

Section Round.
Variable name_id : string -> ident.
Hypothesis id_of_name : forall s, id_name (name_id s) = s.

Lemma ty_list l : (fix go (l : list ty) : option (list term) :=
    match l with [] => Some [] | a :: r => match ty_to_term name_id a, go r with Some x, Some y => Some (x :: y) | _, _ => None end end) l
  = all_some (map (ty_to_term name_id) l).
Proof. induction l as [|a l IH]; cbn; auto. rewrite IH. reflexivity. Qed.
Lemma term_list l : (fix go (l : list term) : option (list ty) :=
    match l with [] => Some [] | a :: r => match term_to_ty a, go r with Some x, Some y => Some (x :: y) | _, _ => None end end) l
  = all_some (map term_to_ty l).
Proof. induction l as [|a l IH]; cbn; auto. rewrite IH. reflexivity. Qed.

Theorem ty_term_ty t : forall u, ty_to_term name_id t = Some u -> term_to_ty u = Some t.
Proof.
  induction t as [r|n i|n i f|c l IH|l IH|a b IHa IHb|ws b IHb] using ty_ind'; intros u; cbn [ty_to_term]; try discriminate.
  - intros [= <-]. reflexivity.
  - rewrite ty_list. destruct (all_some (map (ty_to_term name_id) l)) as [us|] eqn:Q; [|discriminate].
    intros [= <-]. cbn [term_to_ty]. rewrite term_list, id_of_name.
    assert (K : all_some (map term_to_ty us) = Some l); [|rewrite K; reflexivity].
    apply all_some_map. apply all_some_map in Q. induction Q as [|x y l us Hx Hl IHl]; constructor; inversion IH; subst; auto.
Qed.
Theorem atomic_iff t : (exists u, ty_to_term name_id t = Some u) <-> atomic t.
Proof.
  induction t as [r|n i|n i f|c l IH|l IH|a b IHa IHb|ws b IHb] using ty_ind'; cbn [ty_to_term];
    try (split; [intros [u Hu]; discriminate|intros K; inversion K]).
  - split; [constructor|eauto].
  - rewrite ty_list. split.
    + intros [u Hu]. destruct (all_some (map (ty_to_term name_id) l)) as [us|] eqn:Q; [|discriminate].
      constructor. apply all_some_map in Q. clear Hu u.
      induction Q as [|x y l us Hx Hl IHl]; constructor; inversion IH; subst; auto. apply H1; eauto.
    + intros K; inversion K as [|c0 l0 KF]; subst. assert (Q : exists us, all_some (map (ty_to_term name_id) l) = Some us).
      { clear K. induction l as [|a l IHl]; [eexists; reflexivity|]. inversion IH as [|? ? Ha Hl]; inversion KF; subst.
        destruct IHl as [us Hus]; auto. destruct (proj2 Ha) as [u Hu]; auto. cbn. rewrite Hu, Hus. eauto. }
      destruct Q as [us ->]. cbn. eauto.
Qed.
(** the comparisons agree *)
Variable mname : Z -> string.
Variable K : string -> Prop.
Hypothesis id_inj : forall s s', K s -> K s' -> id_index (name_id s) = id_index (name_id s') -> s = s'.
Theorem equals_agree t1 : forall t2 u1 u2, named mname K t1 -> named mname K t2 ->
  ty_to_term name_id t1 = Some u1 -> ty_to_term name_id t2 = Some u2 -> term_eqb u1 u2 = ty_eqb t1 t2.
Proof.
  induction t1 as [r|n i|n i f|c l IH|l IH|a b IHa IHb|ws b IHb] using ty_ind'; intros t2 u1 u2 N1 N2 E1 E2;
    inversion N1 as [i1 f1|c1 l1 Kc1 F1]; inversion N2 as [i2 f2|c2 l2 Kc2 F2]; subst; cbn [ty_to_term] in E1, E2; rewrite ?ty_list in E1; rewrite ?ty_list in E2.
  - injection E1 as <-. injection E2 as <-. cbn. unfold meta_eqb; cbn. destruct (Z.eqb_spec i i2) as [->|Q].
    + rewrite String.eqb_refl. reflexivity.
    + rewrite andb_false_r. reflexivity.
  - injection E1 as <-. destruct (all_some _); [|discriminate]. injection E2 as <-. reflexivity.
  - injection E2 as <-. destruct (all_some _); [|discriminate]. injection E1 as <-. reflexivity.
  - destruct (all_some (map (ty_to_term name_id) l)) as [us1|] eqn:Q1; [|discriminate]. injection E1 as <-.
    destruct (all_some (map (ty_to_term name_id) l2)) as [us2|] eqn:Q2; [|discriminate]. injection E2 as <-.
    cbn. rewrite andb_true_r. f_equal.
    + unfold id_eqb. destruct (String.eqb_spec c c2) as [->|Q]; [apply Z.eqb_refl|]. apply Z.eqb_neq. intros Qi. apply Q, id_inj; auto.
    + apply all_some_map in Q1. clear N1 N2. revert l2 us2 F2 Q2. induction Q1 as [|x y l us Hx Hl IHl]; intros l2 us2 F2 Q2; apply all_some_map in Q2;
        inversion Q2 as [|x2 y2 l2' us2' Hx2 Hl2]; subst; auto. inversion IH as [|? ? IHx IHr]; inversion F1; inversion F2; subst.
      cbn. f_equal.
      * eapply IHx; eauto.
      * apply IHl; auto. apply all_some_map; auto.
Qed.
Theorem equality_agree t1 t2 u1 u2 : named mname K t1 -> named mname K t2 ->
  ty_to_term name_id t1 = Some u1 -> ty_to_term name_id t2 = Some u2 -> (same_term u1 u2 <-> same_ty t1 t2).
Proof. intros N1 N2 E1 E2. rewrite <- term_eqb_reflect, <- ty_eqb_reflect, (equals_agree t1 t2 u1 u2); auto. tauto. Qed.
(** terms *)
Variable ty_arity : string -> nat.
Lemma translate_list args n : (fix go (l : list term) (n : nat) : option (list term) :=
             match l, n with
             | [], _ => Some []
             | _ :: r, S n => go r n
             | a :: r, O => match translate_term ty_arity a, go r O with Some x, Some y => Some (x :: y) | _, _ => None end
             end) args n = all_some (map (translate_term ty_arity) (skipn n args)).
Proof.
  revert n. induction args as [|a l IH]; intros [|n]; cbn; auto. rewrite IH. reflexivity.
Qed.
Theorem term_round t : typed_args ty_arity t ->
  exists u, fun_arg name_id t = Some [u] /\ untyped u /\ translate_term ty_arity u = Some t.
Proof.
  assert (UT : forall T x, ty_to_term name_id T = Some x -> untyped x).
  { induction T as [r|n i|n i f|c l IH|l IH|a b IHa IHb|ws b IHb] using ty_ind'; intros x; cbn [ty_to_term]; try discriminate.
    - intros [= <-]. constructor.
    - rewrite ty_list. destruct (all_some (map (ty_to_term name_id) l)) as [us|] eqn:Q; [|discriminate].
      intros [= <-]. constructor. apply all_some_map in Q. induction Q; constructor; inversion IH; subst; eauto. }
  induction t as [i|p tys args IH|i n|m] using term_ind'; intros TA; inversion TA as [|p0 tys0 args0 HL HA HF]; subst.
  - assert (QT : exists a, all_some (map (ty_to_term name_id) tys) = Some a).
    { clear - HA id_of_name. induction HA as [|T tys HT HA IHt]; [eexists; reflexivity|]. destruct IHt as [a Ha].
      apply atomic_iff in HT as [x Hx]. cbn. rewrite Hx, Ha. eauto. }
    destruct QT as [a Qa].
    assert (QB : exists us, all_some (map (fun_arg name_id) args) = Some (map (fun u => [u]) us) /\
              Forall untyped us /\ all_some (map (translate_term ty_arity) us) = Some args).
    { clear - IH HF. induction HF as [|t args Ht HF IHl]; [exists []; repeat split; constructor|].
      inversion IH as [|? ? IHt IHr]; subst. destruct (IHt Ht) as (u & U1 & U2 & U3). destruct (IHl IHr) as (us & V1 & V2 & V3).
      exists (u :: us). cbn. rewrite U1, V1, U3, V3. auto. }
    destruct QB as (us & V1 & V2 & V3).
    exists (Fun p [] (a ++ us)). cbn [fun_arg]. rewrite Qa, V1.
    assert (CC : List.concat (map (fun u => [u]) us) = us) by (clear; induction us; cbn; congruence).
    rewrite CC. split; [reflexivity|]. split.
    + constructor. apply Forall_app. split; [|exact V2]. apply all_some_map in Qa. clear - Qa UT. induction Qa; constructor; eauto.
    + cbn [translate_term]. assert (La : List.length a = ty_arity (id_name p)).
      { rewrite <- HL. apply all_some_map in Qa. clear - Qa. induction Qa; cbn; congruence. }
      rewrite translate_list. rewrite <- La. rewrite app_length.
      destruct (Nat.ltb_spec (List.length a + List.length us) (List.length a)) as [Hlt|_]; [lia|].
      rewrite firstn_app, Nat.sub_diag, firstn_all, firstn_O, app_nil_r, skipn_app, Nat.sub_diag, skipn_all, skipn_O. cbn [app].
      rewrite V3. assert (Qt : all_some (map term_to_ty a) = Some tys); [|rewrite Qt; reflexivity].
      apply all_some_map. apply all_some_map in Qa. clear - Qa id_of_name. induction Qa; constructor; auto. apply ty_term_ty; auto.
  - exists (Meta m). cbn. repeat split. constructor.
Qed.
(** terms that carry their types are left alone *)
Theorem translate_again t : forall u, translate_term ty_arity t = Some u -> translate_term ty_arity u = Some u.
Proof.
  induction t as [i|p tys args IH|i n|m] using term_ind'; intros u; cbn [translate_term]; try (intros [= <-]; reflexivity).
  destruct tys as [|T tys]; [|intros [= <-]; reflexivity]. rewrite translate_list.
  destruct (Nat.ltb (List.length args) (ty_arity (id_name p))) eqn:Hn; [discriminate|].
  destruct (all_some (map term_to_ty (firstn (ty_arity (id_name p)) args))) as [tys|] eqn:Qt; [|discriminate].
  destruct (all_some (map (translate_term ty_arity) (skipn (ty_arity (id_name p)) args))) as [us|] eqn:Qa; [|discriminate].
  intros [= <-]. destruct tys as [|T tys]; [|reflexivity]. cbn [translate_term]. rewrite translate_list.
  assert (N0 : ty_arity (id_name p) = 0%nat).
  { apply all_some_map in Qt. apply Nat.ltb_ge in Hn. inversion Qt as [Q1|]. destruct args as [|a args]; cbn in *; [lia|].
    destruct (ty_arity (id_name p)); [reflexivity|discriminate]. }
  rewrite N0 in *. cbn [firstn skipn map all_some Nat.ltb Nat.leb] in *.
  assert (Q : all_some (map (translate_term ty_arity) us) = Some us); [|rewrite Q; reflexivity].
  apply all_some_map. apply all_some_map in Qa. induction Qa; constructor; inversion IH; subst; eauto.
Qed.
End Round.

Lemma maker_names g : gen_ok g ->
  (forall s, id_name (fst (maker_id s g)) = s) /\
  (forall s s', known g s -> known g s' -> id_index (fst (maker_id s g)) = id_index (fst (maker_id s' g)) -> s = s').
Proof.
  intros (_ & _ & H & _). split.
  - intros s. unfold maker_id. destruct (lookup s (idTable g)); reflexivity.
  - intros s s' [i Hi] [j Hj]. unfold maker_id. rewrite Hi, Hj. cbn. intros <-. apply (H s s' i); apply lookup_in; auto.
Qed.
