(** The comparison of the code and the ordering. *)
From Coq Require Import ZArith List Bool String Lia.
From Verif Require Import Ast_Model Sem_Spec Ast_Proofs Unif_Spec Lpo_Model Lpo_Spec Lpo_Proofs.
Import ListNotations.
Open Scope Z_scope.

Lemma cw_spec p q : match compare_with p q with Lt => prec p q | Eq => p = q | Gt => prec q p end.
Proof.
  unfold compare_with, prec. destruct (String.eqb_spec (id_name p) (id_name q)) as [E|E].
  - destruct (Z.compare_spec (id_index p) (id_index q)) as [H|H|H]; auto. destruct p, q; cbn in *; congruence.
  - destruct (String.compare (id_name p) (id_name q)) eqn:Q; auto.
    + apply String.compare_eq_iff in Q. contradiction.
    + left. rewrite String.compare_antisym, Q. reflexivity.
Qed.
Lemma cw_refl p : compare_with p p = Eq.
Proof. unfold compare_with. rewrite String.eqb_refl. apply Z.compare_refl. Qed.

(** ** Loops *)
Section Loops.
Variable stop : Z -> bool.
Variable c : term -> option cmp.
Lemma loop_done l : loop stop c l = Some Done -> forall a, In a l -> exists x, c a = Some x /\ c_ok x = true /\ stop (c_order x) = false.
Proof.
  induction l as [|b l IH]; cbn; [tauto|]. destruct (c b) as [x|] eqn:Q; [|discriminate].
  destruct (c_ok x) eqn:K; [|discriminate]. destruct (stop (c_order x)) eqn:S0; [discriminate|]. intros H a [<-|Ha]; eauto.
Qed.
Lemma loop_stopped l : loop stop c l = Some Stopped -> exists a x, In a l /\ c a = Some x /\ c_ok x = true /\ stop (c_order x) = true.
Proof.
  induction l as [|b l IH]; cbn; [discriminate|]. destruct (c b) as [x|] eqn:Q; [|discriminate].
  destruct (c_ok x) eqn:K; [|discriminate]. destruct (stop (c_order x)) eqn:S0; [eauto 8|].
  intros H. destruct (IH H) as (a & y & Ha & Hy); eauto.
Qed.
Lemma loop_some l : (forall a, In a l -> exists x, c a = Some x) -> exists o, loop stop c l = Some o.
Proof.
  induction l as [|b l IH]; cbn; [eauto|]. intros H. destruct (H b) as [x ->]; auto. destruct (c_ok x); [|eauto].
  destruct (stop _); eauto.
Qed.
Lemma loop_ok l : (forall a, In a l -> exists x, c a = Some x /\ c_ok x = true) -> exists o, loop stop c l = Some o /\ o <> Incomparable.
Proof.
  induction l as [|b l IH]; cbn; [exists Done; split; [auto|discriminate]|]. intros H. destruct (H b) as (x & -> & ->); auto.
  destruct (stop _); [exists Stopped; split; [auto|discriminate]|]. auto.
Qed.
End Loops.
Section Lex.
Variable c : term -> term -> option cmp.
Variable ct : term -> option cmp.
Lemma lex_equal ss : forall ts, List.length ss = List.length ts -> lex c ct ss ts = Some AllEqual ->
  Forall2 (fun a b => exists x, c a b = Some x /\ c_ok x = true /\ c_order x = 0) ss ts.
Proof.
  induction ss as [|a ss IH]; intros [|b ts]; cbn; try discriminate; [constructor|]. intros [= HL].
  destruct (c a b) as [x|] eqn:Q; [|discriminate]. destruct (c_ok x) eqn:K; [|discriminate].
  destruct (Z.eqb_spec (c_order x) 0) as [E|E].
  - intros H. constructor; eauto.
  - destruct (0 <? c_order x); [destruct (loop _ _ _); discriminate|discriminate].
Qed.
Lemma lex_rest ss : forall ts o, List.length ss = List.length ts -> lex c ct ss ts = Some (Rest o) ->
  exists p1 a r1 p2 b r2 x, ss = p1 ++ a :: r1 /\ ts = p2 ++ b :: r2 /\ List.length r1 = List.length r2 /\
    Forall2 (fun a b => exists x, c a b = Some x /\ c_ok x = true /\ c_order x = 0) p1 p2 /\ c a b = Some x /\ c_ok x = true /\
    ((0 < c_order x /\ loop (fun o => o <=? 0) ct r1 = Some o) \/ (c_order x < 0 /\ o = Stopped)).
Proof.
  induction ss as [|a ss IH]; intros [|b ts] o; cbn; try discriminate. intros [= HL].
  destruct (c a b) as [x|] eqn:Q; [|discriminate]. destruct (c_ok x) eqn:K; [|discriminate].
  destruct (Z.eqb_spec (c_order x) 0) as [E|E].
  - intros H. destruct (IH ts o HL H) as (p1 & a' & r1 & p2 & b' & r2 & y & -> & -> & H1 & H2 & H3).
    exists (a :: p1), a', r1, (b :: p2), b', r2, y. repeat split; try apply H3; auto. constructor; eauto.
  - destruct (Z.ltb_spec 0 (c_order x)) as [P|P].
    + destruct (loop _ _ _) as [o'|] eqn:L; [|discriminate]. intros [= ->].
      exists [], a, ss, [], b, ts, x. repeat split; auto.
    + intros [= <-]. exists [], a, ss, [], b, ts, x. repeat split; auto. right. split; [lia|auto].
Qed.
Lemma lex_some ss ts : (forall a b, In a ss -> In b ts -> exists x, c a b = Some x) -> (forall a, In a ss -> exists x, ct a = Some x) ->
  exists r, lex c ct ss ts = Some r.
Proof.
  revert ts. induction ss as [|a ss IH]; intros [|b ts]; cbn; try (eexists; reflexivity). intros H1 H2.
  destruct (H1 a b) as [x ->]; auto. destruct (c_ok x); [|eauto]. destruct (_ =? _); [apply IH; auto|].
  destruct (_ <? _); [|eauto]. destruct (loop_some (fun o => o <=? 0) ct ss) as [o ->]; [auto|]. cbn. eauto.
Qed.
Lemma lex_ok ss ts : (forall a b, In a ss -> In b ts -> exists x, c a b = Some x /\ c_ok x = true) ->
  (forall a, In a ss -> exists x, ct a = Some x /\ c_ok x = true) ->
  exists r, lex c ct ss ts = Some r /\ (r = AllEqual \/ exists o, r = Rest o /\ o <> Incomparable).
Proof.
  revert ts. induction ss as [|a ss IH]; intros [|b ts]; cbn; try (eexists; split; [reflexivity|auto]). intros H1 H2.
  destruct (H1 a b) as (x & -> & ->); auto. destruct (_ =? _); [apply IH; auto|].
  destruct (_ <? _).
  - destruct (loop_ok (fun o => o <=? 0) ct ss) as (o & -> & Ho); [auto|]. cbn. eauto 6.
  - eexists. split; [reflexivity|]. right. exists Stopped. split; [auto|discriminate].
Qed.
End Lex.
Section Inside.
Variable code : Z.
Variable c : term -> option cmp.
Lemma inside_found l x : inside code c l = Some (Some x) -> exists a y, In a l /\ c a = Some y /\ c_ok y = true /\
  x = mkCmp (if c_order y =? 0 then code else c_order y) true None.
Proof.
  induction l as [|b l IH]; cbn; [discriminate|]. destruct (c b) as [y|] eqn:Q; [|discriminate]. destruct (c_ok y) eqn:K.
  - intros [= <-]. eauto 8.
  - intros H. destruct (IH H) as (a & z & Ha & Hz); eauto.
Qed.
Lemma inside_some l : (forall a, In a l -> exists x, c a = Some x) -> exists o, inside code c l = Some o.
Proof. induction l as [|b l IH]; cbn; [eauto|]. intros H. destruct (H b) as [x ->]; auto. destruct (c_ok x); eauto. Qed.
End Inside.

(** ** The comparison, unfolded once *)
Definition default (s t : term) (ts : list term) : option cmp :=
  match loop (fun o => 0 <=? o) (compare s) ts with
  | None => None
  | Some Incomparable => Some (mkCmp 0 false (Some (s, t)))
  | Some Stopped => Some (mkCmp 1 true None)
  | Some Done => Some (mkCmp (-1) true None)
  end.
Definition after (s t : term) (ts : list term) (o : outcome) : option cmp :=
  match o with
  | Incomparable => Some (mkCmp 0 false (Some (s, t)))
  | Done => Some (mkCmp 1 true None)
  | Stopped => default s t ts
  end.
Lemma compare_ff p tys ss q tys' ts : let s := Fun p tys ss in let t := Fun q tys' ts in
  compare s t =
  match compare_with p q with
  | Lt => match loop (fun o => o <=? 0) (fun a => compare a t) ss with None => None | Some o => after s t ts o end
  | Eq => if Nat.eqb (List.length ss) (List.length ts) then
            match lex (fun a b => compare a b) (fun a => compare a t) ss ts with
            | None => None
            | Some AllEqual => Some (mkCmp 0 true None)
            | Some (NewPair p) => Some (mkCmp 0 false p)
            | Some (Rest o) => after s t ts o
            end
          else None
  | Gt => default s t ts
  end.
Proof. reflexivity. Qed.
Lemma compare_fm p tys ss m : compare (Fun p tys ss) (Meta m) =
  match inside (-1) (fun a => compare a (Meta m)) ss with
  | None => None | Some (Some x) => Some x | Some None => Some (mkCmp 0 false (Some (Fun p tys ss, Meta m))) end.
Proof. reflexivity. Qed.
Lemma compare_mf m q tys ts : compare (Meta m) (Fun q tys ts) =
  match inside 1 (compare (Meta m)) ts with
  | None => None | Some (Some x) => Some x | Some None => Some (mkCmp 0 false (Some (Meta m, Fun q tys ts))) end.
Proof. reflexivity. Qed.

(** ** Soundness *)
Definition good (x : cmp) (s t : tree) : Prop :=
  c_ok x = true -> (c_order x = 1 /\ less s t) \/ (c_order x = 0 /\ s = t) \/ (c_order x = -1 /\ less t s).
Lemma good_pos x s t : good x s t -> c_ok x = true -> 0 < c_order x -> less s t.
Proof. intros G K P. destruct (G K) as [[_ H]|[[E _]|[E _]]]; [auto|lia|lia]. Qed.
Lemma good_neg x s t : good x s t -> c_ok x = true -> c_order x < 0 -> less t s.
Proof. intros G K P. destruct (G K) as [[E H]|[[E _]|[E H]]]; [lia|lia|auto]. Qed.
Lemma good_le x s t : good x s t -> c_ok x = true -> c_order x <= 0 -> leq t s.
Proof. intros G K P. destruct (G K) as [[E H]|[[E ->]|[E H]]]; [lia|left; auto|right; auto]. Qed.
Lemma good_ge x s t : good x s t -> c_ok x = true -> 0 <= c_order x -> leq s t.
Proof. intros G K P. destruct (G K) as [[E H]|[[E ->]|[E H]]]; [right; auto|left; auto|lia]. Qed.
Lemma good_eq x s t : good x s t -> c_ok x = true -> c_order x = 0 -> s = t.
Proof. intros G K P. destruct (G K) as [[E H]|[[E H]|[E H]]]; [lia|auto|lia]. Qed.

Lemma default_good s q tys ts x : (forall b y, In b ts -> compare s b = Some y -> good y (shape s) (shape b)) ->
  ((forall b, In b ts -> less (shape b) (shape s)) -> less (shape (Fun q tys ts)) (shape s)) ->
  default s (Fun q tys ts) ts = Some x -> good x (shape s) (shape (Fun q tys ts)).
Proof.
  intros IH HD. unfold default. destruct (loop _ _ ts) as [[| |]|] eqn:L; try discriminate; intros [= <-] K; cbn in *; try discriminate.
  - left. split; auto. apply loop_stopped in L as (b & y & Hb & Hy & Ky & Sy). apply (less_leq _ (shape b)).
    + apply in_map; auto.
    + eapply good_ge; eauto. lia.
  - right; right. split; auto. apply HD. intros b Hb. destruct (loop_done _ _ _ L b Hb) as (y & Hy & Ky & Sy).
    eapply good_neg; eauto. lia.
Qed.
Lemma equal_shapes (c : term -> term -> option cmp) p1 p2 : (forall a b y, In a p1 -> c a b = Some y -> good y (shape a) (shape b)) ->
  Forall2 (fun a b => exists x, c a b = Some x /\ c_ok x = true /\ c_order x = 0) p1 p2 -> map shape p1 = map shape p2.
Proof.
  intros H F. induction F as [|a b p1 p2 (x & Hx & K & E) F IH]; auto. cbn. f_equal.
  - eapply good_eq; eauto. apply (H a b x); cbn; auto.
  - apply IH. intros a' b' y Ha'. apply H. cbn; auto.
Qed.
Theorem compare_good s : forall t x, compare s t = Some x -> good x (shape s) (shape t).
Proof.
  induction s as [i|p tys ss IHs|i n|m] using term_ind'; intros t; try (destruct t; discriminate).
  - rewrite Forall_forall in IHs. induction t as [i|q tys' ts IHt|i n|m] using term_ind'; intros x; try discriminate.
    + rewrite Forall_forall in IHt. rewrite compare_ff. set (s := Fun p tys ss). set (t := Fun q tys' ts). cbn zeta.
      assert (ID : forall b y, In b ts -> compare s b = Some y -> good y (shape s) (shape b)) by (intros; apply IHt; auto).
      assert (IA : forall a b y, In a ss -> compare a b = Some y -> good y (shape a) (shape b)) by (intros; apply IHs; auto).
      assert (AF : forall o, (o = Done -> less (shape s) (shape t)) ->
                             (o = Stopped -> (forall b, In b ts -> less (shape b) (shape s)) -> less (shape t) (shape s)) ->
                   after s t ts o = Some x -> good x (shape s) (shape t)).
      { intros [| |] H1 H2; unfold after.
        - intros [= <-] K. discriminate K.
        - apply default_good; auto.
        - intros [= <-] K. left. split; auto. }
      pose proof (cw_spec p q) as HC. destruct (compare_with p q) eqn:CW.
      * destruct (Nat.eqb_spec (List.length ss) (List.length ts)) as [HL|_]; [|discriminate].
        destruct (lex _ _ ss ts) as [[|np|o]|] eqn:L; try discriminate.
        -- intros [= <-] K. right; left. split; auto. unfold s, t; cbn. rewrite HC. f_equal.
           apply (equal_shapes compare); [|apply lex_equal with (ct := fun a => compare a t); auto]. intros; apply IA; auto.
        -- intros [= <-] K. discriminate K.
        -- apply lex_rest in L; auto. destruct L as (p1 & a & r1 & p2 & b & r2 & y & E1 & E2 & HR & HF & HY & KY & HO).
           assert (Hp : map shape p1 = map shape p2).
           { apply (equal_shapes compare); auto. intros a' b' z Ha'. apply IA. rewrite E1. apply in_or_app; auto. }
           assert (Ga : good y (shape a) (shape b)) by (apply IA; auto; rewrite E1; apply in_elt).
           apply AF.
           ++ intros ->. destruct HO as [[P HL']|[_ Q]]; [|discriminate].
              assert (Hab : less (shape a) (shape b)) by (eapply good_pos; eauto).
              unfold s, t. cbn. rewrite HC. rewrite E1, E2, !map_app, Hp. cbn [map]. apply less_lex; auto; [rewrite !map_length; auto|].
              replace (N q (map shape p2 ++ shape b :: map shape r2)) with (shape t) by (unfold t; cbn; rewrite E2, map_app; reflexivity).
              intros u Hu. apply in_app_or in Hu as [Hu|[<-|Hu]].
              ** apply less_arg. rewrite E2, map_app. apply in_or_app; auto.
              ** eapply less_in; [|exact Hab]. rewrite E2, map_app. apply in_elt.
              ** apply in_map_iff in Hu as (v & <- & Hv). destruct (loop_done _ _ _ HL' v Hv) as (z & Hz & Kz & Sz).
                 eapply good_pos; [apply IA|exact Kz|]; [|exact Hz|lia]. rewrite E1. apply in_or_app; cbn; auto.
           ++ intros -> HB. destruct HO as [[P HL']|[P _]].
              ** apply loop_stopped in HL' as (v & z & Hv & Hz & Kz & Sz). apply (less_leq _ (shape v)).
                 { apply in_map. rewrite E1. apply in_or_app; cbn; auto. }
                 eapply good_le; [apply IA|exact Kz|]; [|exact Hz|lia]. rewrite E1. apply in_or_app; cbn; auto.
              ** assert (Hab : less (shape b) (shape a)) by (eapply good_neg; eauto).
                 assert (HB' : forall u, In u (map shape ts) -> less u (shape s)).
                 { intros u Hu. apply in_map_iff in Hu as (v & <- & Hv). auto. }
                 unfold s, t in *. cbn in *. rewrite HC in *. rewrite E1, E2, !map_app, Hp in *. cbn [map] in *. apply less_lex; auto. rewrite !map_length; auto.
      * destruct (loop _ _ ss) as [o|] eqn:L; [|discriminate]. apply AF.
        -- intros ->. apply less_prec; auto. intros u Hu. apply in_map_iff in Hu as (v & <- & Hv).
           destruct (loop_done _ _ _ L v Hv) as (z & Hz & Kz & Sz). apply (good_pos z (shape v) (shape t)); auto. lia.
        -- intros -> _. apply loop_stopped in L as (v & z & Hv & Hz & Kz & Sz). apply (less_leq _ (shape v)); [apply in_map; auto|].
           eapply good_le; eauto. lia.
      * apply default_good; auto. intros HB. apply less_prec; auto. intros u Hu. apply in_map_iff in Hu as (v & <- & Hv). auto.
    + rewrite compare_fm. destruct (inside _ _ ss) as [[y|]|] eqn:L; try discriminate; intros [= <-] K; [|discriminate K].
      apply inside_found in L as (a & z & Ha & Hz & Kz & ->). cbn. right; right.
      pose proof (IHs a Ha _ _ Hz Kz) as G. destruct G as [[E G]|[[E G]|[E G]]].
      * inversion G.
      * rewrite E. split; auto. cbn in G. rewrite <- G. apply less_arg. apply in_map; auto.
      * rewrite E. split; auto. eapply less_in; [apply in_map; eauto|exact G].
  - induction t as [i|q tys' ts IHt|i n|m'] using term_ind'; intros x; try discriminate.
    + rewrite Forall_forall in IHt. rewrite compare_mf. destruct (inside _ _ ts) as [[y|]|] eqn:L; try discriminate; intros [= <-] K; [|discriminate K].
      apply inside_found in L as (a & z & Ha & Hz & Kz & ->). cbn. left.
      pose proof (IHt a Ha _ Hz Kz) as G. destruct G as [[E G]|[[E G]|[E G]]].
      * rewrite E. split; auto. eapply less_in; [apply in_map; eauto|exact G].
      * rewrite E. split; auto. cbn in G. rewrite G. apply less_arg. apply in_map; auto.
      * inversion G.
    + cbn. unfold meta_eqb. destruct (Z.eqb_spec (m_index m) (m_index m')) as [E|_]; intros [= <-] K; [|discriminate K].
      right; left. cbn. rewrite E. auto.
Qed.

(** ** The comparison does not fail *)
Theorem compare_some ar s : forall t, proper ar s -> proper ar t -> exists x, compare s t = Some x.
Proof.
  induction s as [i|p tys ss IHs|i n|m] using term_ind'; intros t Ps; inversion Ps as [|p0 tys0 l0 Hl Hf]; subst.
  - rewrite Forall_forall in IHs, Hf. induction t as [i|q tys' ts IHt|i n|m] using term_ind'; intros Pt; inversion Pt as [|q0 tys1 l1 Hl' Hf']; subst.
    + rewrite Forall_forall in IHt, Hf'. rewrite compare_ff. set (s := Fun p tys ss) in *. set (t := Fun q tys' ts) in *. cbn zeta.
      assert (DF : exists x, default s t ts = Some x).
      { unfold default. destruct (loop_some (fun o => 0 <=? o) (compare s) ts) as [[| |] ->]; eauto. }
      assert (AF : forall o, exists x, after s t ts o = Some x) by (intros [| |]; cbn; eauto).
      pose proof (cw_spec p q) as HC. destruct (compare_with p q).
      * subst q. rewrite Hl, Hl', Nat.eqb_refl.
        destruct (lex_some (fun a b => compare a b) (fun a => compare a t) ss ts) as [[|np|o] ->]; eauto.
      * destruct (loop_some (fun o => o <=? 0) (fun a => compare a t) ss) as [o ->]; eauto.
      * exact DF.
    + rewrite compare_fm. destruct (inside_some (-1) (fun a => compare a (Meta m)) ss) as [[y|] ->]; eauto.
  - induction t as [i|q tys' ts IHt|i n|m'] using term_ind'; intros Pt; inversion Pt as [|q0 tys1 l1 Hl' Hf']; subst.
    + rewrite Forall_forall in IHt, Hf'. rewrite compare_mf. destruct (inside_some 1 (compare (Meta m)) ts) as [[y|] ->]; eauto.
    + cbn. destruct (meta_eqb m m'); eauto.
Qed.
Theorem compare_ground ar s : forall t, ground ar s -> ground ar t -> exists x, compare s t = Some x /\ c_ok x = true.
Proof.
  induction s as [i|p tys ss IHs|i n|m] using term_ind'; intros t Ps; inversion Ps as [p0 tys0 l0 Hl Hf]; subst.
  rewrite Forall_forall in IHs, Hf. induction t as [i|q tys' ts IHt|i n|m] using term_ind'; intros Pt; inversion Pt as [q0 tys1 l1 Hl' Hf']; subst.
  rewrite Forall_forall in IHt, Hf'. rewrite compare_ff. set (s := Fun p tys ss) in *. set (t := Fun q tys' ts) in *. cbn zeta.
  assert (DF : exists x, default s t ts = Some x /\ c_ok x = true).
  { unfold default. destruct (loop_ok (fun o => 0 <=? o) (compare s) ts) as ([| |] & -> & Ho); eauto. }
  assert (AF : forall o, o <> Incomparable -> exists x, after s t ts o = Some x /\ c_ok x = true) by (intros [| |] Ho; cbn; eauto; congruence).
  pose proof (cw_spec p q) as HC. destruct (compare_with p q).
  - subst q. rewrite Hl, Hl', Nat.eqb_refl.
    destruct (lex_ok (fun a b => compare a b) (fun a => compare a t) ss ts) as (r & -> & [-> |(o & -> & Ho)]); eauto.
  - destruct (loop_ok (fun o => o <=? 0) (fun a => compare a t) ss) as (o & -> & Ho); eauto.
  - exact DF.
Qed.

(** ** The order of ground terms *)
(** the answer of the comparison, when it is one *)
Definition ordered (s t : term) (o : Z) : Prop := exists x, compare s t = Some x /\ c_ok x = true /\ c_order x = o.
Lemma ordered_good s t o : ordered s t o -> (o = 1 /\ less (shape s) (shape t)) \/ (o = 0 /\ shape s = shape t) \/ (o = -1 /\ less (shape t) (shape s)).
Proof. intros (x & Hx & K & <-). exact (compare_good s t x Hx K). Qed.
Section Ground.
Variable ar : ident -> nat.
Lemma ordered_total s t : ground ar s -> ground ar t -> ordered s t 1 \/ ordered s t 0 \/ ordered s t (-1).
Proof.
  intros Hs Ht. destruct (compare_ground ar s t Hs Ht) as (x & Hx & K). pose proof (compare_good s t x Hx K) as G.
  unfold ordered. destruct G as [[E _]|[[E _]|[E _]]]; rewrite <- E; eauto 6.
Qed.
Lemma ordered_less s t : ground ar s -> ground ar t -> (ordered s t 1 <-> less (shape s) (shape t)).
Proof.
  intros Hs Ht. split; intros H.
  - apply ordered_good in H as [[_ H]|[[E _]|[E _]]]; [auto|lia|lia].
  - destruct (ordered_total s t Hs Ht) as [K|[K|K]]; auto; apply ordered_good in K as [[E K]|[[E K]|[E K]]]; try lia.
    + rewrite K in H. exfalso. eapply less_irrefl; eauto.
    + exfalso. eapply less_asym; eauto.
Qed.
Lemma ordered_equal s t : ground ar s -> ground ar t -> (ordered s t 0 <-> shape s = shape t).
Proof.
  intros Hs Ht. split; intros H.
  - apply ordered_good in H as [[E _]|[[_ H]|[E _]]]; [lia|auto|lia].
  - destruct (ordered_total s t Hs Ht) as [K|[K|K]]; auto; apply ordered_good in K as [[E K]|[[E K]|[E K]]]; try lia;
      rewrite H in K; exfalso; eapply less_irrefl; eauto.
Qed.
Lemma ordered_more s t : ground ar s -> ground ar t -> (ordered s t (-1) <-> less (shape t) (shape s)).
Proof.
  intros Hs Ht. split; intros H.
  - apply ordered_good in H as [[E _]|[[E _]|[_ H]]]; [lia|lia|auto].
  - destruct (ordered_total s t Hs Ht) as [K|[K|K]]; auto; apply ordered_good in K as [[E K]|[[E K]|[E K]]]; try lia.
    + exfalso. eapply less_asym; eauto.
    + rewrite K in H. exfalso. eapply less_irrefl; eauto.
Qed.
Theorem ordered_sym s t o : ground ar s -> ground ar t -> ordered s t o -> ordered t s (- o).
Proof.
  intros Hs Ht H. pose proof (ordered_good _ _ _ H) as [[-> K]|[[-> K]|[-> K]]]; cbn.
  - apply ordered_more; auto.
  - apply ordered_equal; auto.
  - apply ordered_less; auto.
Qed.
Theorem ordered_fun s t o o' : ordered s t o -> ordered s t o' -> o = o'.
Proof. intros (x & H1 & _ & <-) (y & H2 & _ & <-). congruence. Qed.
Theorem ordered_trans s t u : ground ar s -> ground ar t -> ground ar u -> ordered s t 1 -> ordered t u 1 -> ordered s u 1.
Proof. intros Hs Ht Hu. rewrite !ordered_less by auto. apply less_trans. Qed.
Theorem ordered_sub p tys l t : ground ar (Fun p tys l) -> In t l -> ordered t (Fun p tys l) 1.
Proof.
  intros H Ht. assert (ground ar t) by (inversion H as [? ? ? ? HF]; subst; rewrite Forall_forall in HF; auto).
  apply ordered_less; auto. apply less_arg. apply in_map; auto.
Qed.
Theorem ordered_mono p tys pre s t post : ground ar (Fun p tys (pre ++ s :: post)) -> ground ar t -> ordered s t 1 ->
  ordered (Fun p tys (pre ++ s :: post)) (Fun p tys (pre ++ t :: post)) 1.
Proof.
  intros H Ht Hst. inversion H as [? ? ? HL HF]; subst. rewrite Forall_forall in HF.
  assert (Hs : ground ar s) by (apply HF, in_elt). apply ordered_less; auto.
  - constructor; [rewrite <- HL, !app_length; reflexivity|]. rewrite Forall_forall. intros u Hu. apply in_app_or in Hu as [Hu|[<-|Hu]]; auto;
      apply HF; apply in_or_app; cbn; auto.
  - cbn. rewrite !map_app. cbn. apply less_mono. apply ordered_less; auto.
Qed.
(** no infinite descent over finitely many symbols *)
Theorem ordered_wf F : well_founded (fun s t => ground ar s /\ incl (symbols (shape s)) F /\ ordered s t 1).
Proof.
  assert (K : forall T, Acc (lessF F) T -> forall t, shape t = T -> Acc (fun s t => ground ar s /\ incl (symbols (shape s)) F /\ ordered s t 1) t).
  { intros T H. induction H as [T _ IH]. intros t <-. constructor. intros s (_ & Ho & Hst). apply (IH (shape s)); auto. split; auto.
    apply ordered_good in Hst as [[_ H]|[[E _]|[E _]]]; [auto|lia|lia]. }
  intros t. apply (K (shape t)); auto. apply less_wf.
Qed.
End Ground.

(** ** Instances *)
Lemma shape_tsub w t : shape (tsub w t) = plug (fun i => shape (w i)) (shape t).
Proof.
  induction t as [i|p tys l IH|i n|m] using term_ind'; cbn; auto. f_equal. rewrite !map_map. apply map_ext_in. rewrite Forall_forall in IH. auto.
Qed.
Lemma ground_tsub ar w t : proper ar t -> (forall i, ground ar (w i)) -> ground ar (tsub w t).
Proof.
  intros P Hw. induction t as [i|p tys l IH|i n|m] using term_ind'; inversion P as [|? ? ? HL HF]; subst; cbn; auto.
  constructor; [rewrite map_length; auto|]. rewrite Forall_forall in *. intros u Hu. apply in_map_iff in Hu as (v & <- & Hv). auto.
Qed.
Theorem ordered_inst ar w s t o : proper ar s -> proper ar t -> (forall i, ground ar (w i)) ->
  ordered s t o -> ordered (tsub w s) (tsub w t) o.
Proof.
  intros Ps Pt Hw H. assert (Gs : ground ar (tsub w s)) by (apply ground_tsub; auto). assert (Gt : ground ar (tsub w t)) by (apply ground_tsub; auto).
  apply ordered_good in H as [[-> H]|[[-> H]|[-> H]]].
  - apply (ordered_less ar); auto. rewrite !shape_tsub. apply less_plug; auto.
  - apply (ordered_equal ar); auto. rewrite !shape_tsub. congruence.
  - apply (ordered_more ar); auto. rewrite !shape_tsub. apply less_plug; auto.
Qed.
(** an instance of a pair reported comparable by open terms is ordered, whatever the instance *)
Theorem order_inst w s t o : ordered s t o ->
  (o = 1 /\ less (shape (tsub w s)) (shape (tsub w t))) \/ (o = 0 /\ shape (tsub w s) = shape (tsub w t)) \/
  (o = -1 /\ less (shape (tsub w t)) (shape (tsub w s))).
Proof.
  intros H. rewrite !shape_tsub. apply ordered_good in H as [[-> H]|[[-> H]|[-> H]]].
  - left. split; auto. apply less_plug; auto.
  - right; left. split; congruence.
  - right; right. split; auto. apply less_plug; auto.
Qed.

(** ** Constraints *)
Definition holds_on (w : Z -> term) (k : constr) : Prop :=
  if k_prec k then less (shape (tsub w (k_left k))) (shape (tsub w (k_right k))) else shape (tsub w (k_left k)) = shape (tsub w (k_right k)).
Theorem check_decides k b : check_lpo k = Some (b, true) -> forall w, holds_on w k <-> b = true.
Proof.
  unfold check_lpo, holds_on. destruct (compare (k_left k) (k_right k)) as [x|] eqn:Q; [|discriminate]. destruct (c_ok x) eqn:K; [|discriminate].
  intros [= <-] w. assert (O : ordered (k_left k) (k_right k) (c_order x)) by (exists x; auto).
  apply (order_inst w) in O. destruct (k_prec k), O as [[-> H]|[[-> H]|[-> H]]]; cbn; split; intros C; auto; try discriminate; exfalso.
  - rewrite H in C. eapply less_irrefl; eauto.
  - eapply less_asym; eauto.
  - rewrite C in H. eapply less_irrefl; eauto.
  - rewrite C in H. eapply less_irrefl; eauto.
Qed.
