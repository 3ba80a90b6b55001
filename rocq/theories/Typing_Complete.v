(** Boolean combinations of prenex formulas: no schedule of the checker aborts on a well-typed one. *)
From Coq Require Import ZArith List Bool String Ascii Lia.
From Verif Require Import LibSet_Model LibSet_Spec LibSet_Proofs LibSetHeap_Model LibSetHeap_Proofs
  Ast_Model Sem_Spec Ast_Proofs UnifTree_Model Typing_Model Typing_Spec Typing_Proofs.
Import ListNotations.
Open Scope Z_scope.

(** ** The order on names *)
Lemma compare_refl s : String.compare s s = Eq.
Proof. induction s as [|c s IH]; cbn; auto. unfold Ascii.compare. rewrite N.compare_refl. exact IH. Qed.
Lemma compare_trans s : forall t u, String.compare s t = Lt -> String.compare t u = Lt -> String.compare s u = Lt.
Proof.
  induction s as [|c s IH]; intros [|d t] [|e u]; cbn; try discriminate; auto.
  destruct (Ascii.compare c d) eqn:Q1; try discriminate; destruct (Ascii.compare d e) eqn:Q2; try discriminate; intros H1 H2.
  - apply Ascii.compare_eq_iff in Q1 as ->. rewrite Q2. eauto.
  - apply Ascii.compare_eq_iff in Q1 as ->. rewrite Q2. auto.
  - apply Ascii.compare_eq_iff in Q2 as ->. rewrite Q1. auto.
  - assert (Q3 : Ascii.compare c e = Lt).
    { unfold Ascii.compare in *. rewrite N.compare_lt_iff in *. lia. }
    rewrite Q3. reflexivity.
Qed.
Definition d_name_eqb (a b : dty) : bool := String.eqb (fst a) (fst b).
Lemma names_lawful : Lawful d_name_eqb d_ltb.
Proof.
  unfold d_name_eqb, d_ltb, String.ltb. split.
  - intros x. rewrite compare_refl. reflexivity.
  - intros x y z. destruct (String.compare (fst x) (fst y)) eqn:Q1; try discriminate.
    destruct (String.compare (fst y) (fst z)) eqn:Q2; try discriminate. rewrite (compare_trans _ _ _ Q1 Q2). auto.
  - intros x y. rewrite String.eqb_eq. split.
    + intros ->. rewrite compare_refl. auto.
    + rewrite (String.compare_antisym (fst y)). destruct (String.compare (fst x) (fst y)) eqn:Q; cbn; intros [H1 H2]; try discriminate.
      apply String.compare_eq_iff; exact Q.
  - intros x y z. rewrite !String.eqb_eq. congruence.
Qed.
Notation nok := (ok d_ltb).

(** ** Contexts as trees *)
Definition content (t : tree dty) (G : ctx) : Prop :=
  ok d_ltb t /\ (forall y, InT y t <-> In y G) /\ NoDup (map fst G).

Lemma insert_names t x : (forall y : dty, InT y t -> String.eqb (fst y) (fst x) = false) ->
  LibSet_Model.insert d_eqb d_ltb t x = LibSet_Model.insert d_name_eqb d_ltb t x.
Proof.
  induction t as [|h l IHl v r IHr]; intros H; [reflexivity|]. cbn [LibSet_Model.insert].
  assert (Hv : String.eqb (fst v) (fst x) = false) by (apply H; cbn; auto).
  unfold d_eqb at 1, d_name_eqb at 1. rewrite Hv. cbn [andb].
  rewrite IHl by (intros y Hy; apply H; cbn; auto). rewrite IHr by (intros y Hy; apply H; cbn; auto). reflexivity.
Qed.
Lemma content_insert t G x : content t G -> ~ In (fst x) (map fst G) ->
  exists t', LibSet_Model.insert d_eqb d_ltb t x = Some t' /\ content t' (x :: G).
Proof.
  intros (Ho & HI & ND) Hx.
  assert (Hn : forall y, InT y t -> String.eqb (fst y) (fst x) = false).
  { intros y Hy. apply String.eqb_neq. intros Q. apply Hx. rewrite <- Q. apply in_map. apply HI; exact Hy. }
  rewrite insert_names by exact Hn.
  destruct (insert_ok d_name_eqb d_ltb names_lawful t x Ho) as (t' & E1 & Ho' & H1 & H2).
  exists t'. split; [exact E1|]. split; [exact Ho'|]. split; [|cbn; constructor; auto].
  intros y. split.
  - intros Hy. apply H2 in Hy as [Hy| ->]; [right; apply HI; exact Hy|left; reflexivity].
  - intros Hy. assert (K : InE d_name_eqb y t').
    { apply H1. destruct Hy as [<-|Hy]; [right; apply String.eqb_refl|left].
      exists y. split; [apply HI; exact Hy|apply String.eqb_refl]. }
    destruct K as (z & Hz & Q). apply String.eqb_eq in Q.
    assert (z = y); [|subst; exact Hz]. apply H2 in Hz. destruct z as [n z], y as [m y]. cbn in Q. subst m. f_equal.
    assert (ND' : NoDup (map fst (x :: G))) by (cbn; constructor; auto).
    eapply (nodup_fst (x :: G) n); [exact ND'| |exact Hy].
    destruct Hz as [Hz| <-]; [right; apply HI; exact Hz|left; reflexivity].
Qed.
Lemma find_content t n T T' : bst d_ltb t -> InT (n, T') t -> same_ty T' T -> find d_eqb d_ltb t (n, T) = true.
Proof.
  intros Hb Hi HT. assert (HE : ty_eqb T T' = true) by (apply ty_eqb_reflect, same_ty_sym; exact HT).
  induction t as [|h l IHl v r IHr]; [destruct Hi|]. cbn [find]. cbn [bst] in Hb. destruct Hb as (B1 & B2 & B3 & B4).
  destruct Hi as [<-|[Hi|Hi]].
  - unfold d_eqb; cbn. rewrite String.eqb_refl, HE. reflexivity.
  - apply B1 in Hi as Lt. destruct (d_eqb (n, T) v); [reflexivity|].
    unfold d_ltb in Lt |- *. cbn [fst] in Lt |- *. rewrite Lt. auto.
  - apply B2 in Hi as Lt. destruct (d_eqb (n, T) v); [reflexivity|].
    assert (Q : d_ltb (n, T) v = false).
    { unfold d_ltb, String.ltb in *. cbn [fst] in *. rewrite String.compare_antisym. destruct (String.compare (fst v) n); try discriminate. reflexivity. }
    rewrite Q. auto.
Qed.

(** sizes *)
Lemma repr_size h p (t : tree dty) fp : repr h p t fp -> List.length fp = List.length (elements t).
Proof.
  induction 1 as [|a ht pl pr v l r fl fr Ea Hl IHl Hr IHr N]; [reflexivity|]. cbn. rewrite !app_length. cbn.
  rewrite IHl, IHr. lia.
Qed.
Lemma depth_size (t : tree dty) : (depth t <= List.length (elements t))%nat.
Proof.
  unfold depth. induction t as [|h l IHl v r IHr]; [cbn; lia|]. cbn [theight elements]. rewrite !app_length. cbn [List.length].
  pose proof (theight_nn l). pose proof (theight_nn r). lia.
Qed.
Lemma repr_fits h p (t : tree dty) fp : repr h p t fp -> (List.length fp <= List.length h)%nat.
Proof.
  intros R. pose proof (repr_nodup _ _ _ _ R) as ND. rewrite <- (seq_length (List.length h) 0).
  apply NoDup_incl_length; [exact ND|]. intros a Ha. apply in_seq. pose proof (repr_bound _ _ _ _ R a Ha). lia.
Qed.
Lemma content_le t G : content t G -> (List.length (elements t) <= List.length G)%nat.
Proof.
  intros (Ho & HI & ND). apply NoDup_incl_length.
  - assert (HD : NoDupE d_name_eqb (elements t)) by (apply (elements_nodup d_name_eqb d_ltb names_lawful); apply Ho).
    clear - HD. induction HD as [|x l Hx Hl IH]; constructor; auto. intros Hi.
    specialize (Hx x Hi). unfold d_name_eqb in Hx. rewrite String.eqb_refl in Hx. discriminate.
  - intros y Hy. apply HI, elements_InT; exact Hy.
Qed.
Lemma content_ge t G : content t G -> (List.length G <= List.length (elements t))%nat.
Proof.
  intros (Ho & HI & ND). apply NoDup_incl_length.
  - apply (NoDup_map_inv fst); exact ND.
  - intros y Hy. apply elements_InT, HI; exact Hy.
Qed.
Lemma contains_ok h p t fp G n T T' : repr h p t fp -> content t G -> In (n, T') G -> same_ty T' T ->
  con_contains h p n T = Ok true.
Proof.
  intros R C Hi HT. unfold con_contains. rewrite (hfind_ok _ _ t h p fp (n, T)); [|exact R|].
  - f_equal. destruct C as ([Hb _] & HI & _). eapply find_content; eauto. apply HI; exact Hi.
  - pose proof (depth_size t). pose proof (repr_size _ _ _ _ R). pose proof (repr_fits _ _ _ _ R). lia.
Qed.

Lemma hadd_ok vs : forall fuel h p t fp G, repr h p t fp -> content t G ->
  NoDup (map fst vs ++ map fst G) -> (List.length G + List.length vs < fuel)%nat ->
  exists h' p' t' fp', hadd d_eqb d_ltb fuel h p vs = Ok (h', p') /\ repr h' p' t' fp' /\ content t' (rev vs ++ G) /\
    grown h fp h' fp'.
Proof.
  induction vs as [|x vs IH]; intros fuel h p t fp G R C ND HF; cbn [hadd].
  - exists h, p, t, fp. split; [reflexivity|]. split; [exact R|]. split; [exact C|]. split; [auto|]. split; [lia|auto].
  - cbn in ND. inversion ND as [|? ? Nx ND']; subst.
    destruct (content_insert t G x C) as (t1 & E1 & C1).
    { intros Hi. apply Nx, in_app_iff; auto. }
    destruct (hinsert_ok d_eqb d_ltb t h p fp x t1 fuel R E1) as (h1 & p1 & fp1 & E2 & R1 & (F1 & F2 & F3)).
    { pose proof (depth_size t). pose proof (content_le _ _ C). cbn in HF. lia. }
    rewrite E2. cbn [rbind fst snd].
    destruct (IH fuel h1 p1 t1 fp1 (x :: G) R1 C1) as (h2 & p2 & t2 & fp2 & E3 & R2 & C2 & (F4 & F5 & F6)).
    { cbn. apply NoDup_Add with (a := fst x) (l := map fst vs ++ map fst G); [apply Add_app|auto]. }
    { cbn in HF |- *. lia. }
    exists h2, p2, t2, fp2. split; [exact E3|]. split; [exact R2|]. split.
    + cbn [rev]. rewrite <- app_assoc. exact C2.
    + split; [|split; [lia|]].
      * intros b Hb Nb. rewrite F4; [auto|lia|]. intros K. apply F3 in K as [K|K]; [tauto|lia].
      * intros b Hb. apply F6 in Hb as [Hb|Hb]; [|right; lia]. apply F3 in Hb as [Hb|Hb]; auto.
Qed.

(** ** Types of the arguments *)
Section Complete.
Variable E : env.
Hypothesis HE : env_ok E.

Lemma sch_is_type G s vs : Forall (is_type E G) (map s vs) -> forall t, sch_type E vs t -> is_type E G (tsubst s t).
Proof.
  intros Hs t. induction t as [r|n i|n i f|c l IH|l IH|a b IHa IHb|ws b IHb] using ty_ind'; intros K; inversion K; subst; cbn [tsubst].
  - rewrite Forall_forall in Hs. apply Hs, in_map; assumption.
  - econstructor; [eassumption|rewrite map_length; assumption|].
    rewrite Forall_map. rewrite Forall_forall in *. auto.
Qed.
Lemma sch_closed G t : sch_type E [] t -> is_type E G t.
Proof.
  induction t as [r|n i|n i f|c l IH|l IH|a b IHa IHb|ws b IHb] using ty_ind'; intros K; inversion K as [r' Hr|c' args' U HU Hk HF]; subst.
  - destruct Hr.
  - econstructor; [exact HU|exact Hk|]. rewrite Forall_forall in *. auto.
Qed.
Lemma tType_type G : is_type E G tType.
Proof. destruct HE as [H _]. unfold tType. econstructor; [exact H|constructor|constructor]. Qed.
Lemma decl_types G n U tys J As o : E n = Some U -> instance U tys J -> profile J As o -> Forall (is_type E G) tys ->
  get_args_ty J = Some As /\ Forall (is_type E G) As /\ exists o', get_out_ty J = Some o' /\ is_type E G o'.
Proof.
  intros EU HI HP Ht. destruct HE as [_ HD]. specialize (HD _ _ EU).
  assert (KC : forall c l, is_type E G (TyConstr c l) -> J = TyConstr c l ->
    get_args_ty J = Some As /\ Forall (is_type E G) As /\ exists o', get_out_ty J = Some o' /\ is_type E G o').
  { intros c l Hc ->. inversion HP; subst. split; [reflexivity|]. split; [constructor|]. exists tType. split; [reflexivity|apply tType_type]. }
  assert (KU : forall a b, is_type E G a -> is_type E G b -> J = TyFunc a b ->
    get_args_ty J = Some As /\ Forall (is_type E G) As /\ exists o', get_out_ty J = Some o' /\ is_type E G o').
  { intros a b Ha Hb ->. inversion HP; subst; try (split; [reflexivity|]; split; [constructor; auto|]; eexists; split; [reflexivity|auto]).
    inversion Ha. }
  assert (KP : forall l b, Forall (is_type E G) l -> is_type E G b -> J = TyFunc (TyProd l) b ->
    get_args_ty J = Some As /\ Forall (is_type E G) As /\ exists o', get_out_ty J = Some o' /\ is_type E G o').
  { intros l b Hl Hb ->. inversion HP; subst. split; [reflexivity|]; split; [auto|]; eexists; split; [reflexivity|auto]. }
  inversion HD as [b Hb|vs b ND Hb]; subst.
  - assert (J = U) as -> by (inversion HI; subst; auto; inversion Hb).
    inversion Hb as [c l H1|a b0 H1 H2|l b0 H1 H2]; subst.
    + eapply KC; [apply sch_closed; exact H1|reflexivity].
    + eapply KU; [apply sch_closed; exact H1|apply sch_closed; exact H2|reflexivity].
    + eapply KP; [|apply sch_closed; exact H2|reflexivity]. eapply Forall_impl; [|exact H1]. intros; apply sch_closed; auto.
  - inversion HI as [| |vs0 b0 tys0 s ND0 Hs P I]; subst.
    inversion Hb as [c l H1|a b0 H1 H2|l b0 H1 H2]; subst.
    + eapply (sch_is_type G s vs Ht) in H1. eapply KC; [exact H1|reflexivity].
    + eapply KU; [| |reflexivity]; eapply sch_is_type; eauto.
    + eapply KP; [| |reflexivity]; [|eapply sch_is_type; eauto].
      rewrite Forall_map. eapply Forall_impl; [|exact H1]. intros t Hkt. eapply sch_is_type; eauto.
Qed.
Lemma kind_get U k : kind U k -> exists As, get_args_ty U = Some As /\ List.length As = k.
Proof. intros [| |n]; eexists; (split; [reflexivity|]); auto. apply repeat_length. Qed.

(** ** The pool of calls *)
Record ghost := mkG { gt : task; gG : ctx; gtr : tree dty; gfp : list nat }.
Definition handle (t : task) : ptr := match t with TForm p _ | TTerm p _ _ | TTy p _ => p end.
Definition reader (g : ghost) : Prop := match gt g with TForm _ f => quant_free f | _ => True end.
Definition ready (g : ghost) : Prop :=
  match gt g with
  | TForm _ f => wt E same_ty (gG g) f /\ (exists N, fresh_binders N f /\ incl (map fst (gG g)) N) /\
                 (prenex f \/ gfp g = [] /\ prenex_parts f)
  | TTerm _ t T => has_ty E same_ty (gG g) t T /\ is_type E (gG g) T
  | TTy _ T => is_type E (gG g) T
  end.
Definition live (h : heap dty) (g : ghost) : Prop :=
  repr h (handle (gt g)) (gtr g) (gfp g) /\ content (gtr g) (gG g) /\ ready g.
Definition apart (g o : ghost) : Prop := forall a, In a (gfp g) -> ~ In a (gfp o).
Definition disj (g o : ghost) : Prop := (reader g /\ reader o) \/ apart g o.

Definition next_ok (h : heap dty) (g : ghost) : Prop :=
  exists h' gks, exec E h (gt g) = Some (h', map gt gks) /\ Forall (live h') gks /\ ForallOrdPairs disj gks /\
    forall o, live h o -> disj g o -> live h' o /\ Forall (fun k => disj k o) gks.

Lemma FOP_all {A} (R : A -> A -> Prop) (P : A -> Prop) l : (forall x y, P x -> P y -> R x y) -> Forall P l -> ForallOrdPairs R l.
Proof. intros HR. induction 1 as [|x l Hx Hl IH]; constructor; auto. eapply Forall_impl; [|exact Hl]; auto. Qed.
(** children that inherit the context of a call *)
Definition child (g : ghost) (t : task) : ghost := mkG t (gG g) (gtr g) (gfp g).
Lemma children_ok h g ks : live h g -> exec E h (gt g) = Some (h, ks) ->
  Forall (fun t => handle t = handle (gt g)) ks ->
  Forall (fun t => ready (child g t)) ks ->
  (reader g -> Forall (fun t => reader (child g t)) ks) ->
  (Forall (fun t => reader (child g t)) ks \/ gfp g = [] \/ (exists t, ks = [t])) -> next_ok h g.
Proof.
  intros (R & C & Y) Q Hh Hr Hrd Hs. exists h, (map (child g) ks).
  assert (Em : map gt (map (child g) ks) = ks) by (rewrite map_map; apply map_id).
  rewrite Em. split; [exact Q|]. split; [|split].
  - rewrite Forall_map. rewrite Forall_forall in *. intros t Ht. split; [|split; [exact C|apply Hr; exact Ht]].
    cbn. rewrite (Hh t Ht). exact R.
  - destruct Hs as [Hs|[Hs|[t ->]]].
    + eapply FOP_all with (P := reader); [intros x y; left; auto|]. rewrite Forall_map; exact Hs.
    + eapply FOP_all with (P := fun k => gfp k = []).
      * intros x y Hx Hy. right. intros a Ha. rewrite Hx in Ha. destruct Ha.
      * rewrite Forall_map. apply Forall_forall. intros t _. exact Hs.
    + repeat constructor.
  - intros o Lo D. split; [exact Lo|]. rewrite Forall_map. destruct D as [[D1 D2]|D].
    + specialize (Hrd D1). eapply Forall_impl; [|exact Hrd]. intros t Ht. left; auto.
    + apply Forall_forall. intros t _. right. exact D.
Qed.
Lemma F2_length {A C} (R : A -> C -> Prop) l l' : Forall2 R l l' -> List.length l = List.length l'.
Proof. induction 1; cbn; auto. Qed.
(** the calls made for an application *)
Lemma functional_ok h g p n tys args U J As o :
  live h g -> handle (gt g) = p -> E n = Some U -> instance U tys J -> profile J As o -> Forall (is_type E (gG g)) tys ->
  Forall2 (has_ty E same_ty (gG g)) args As -> exists ks, functional E p n tys args = Some ks /\
    Forall (fun t => handle t = p) ks /\ Forall (fun t => ready (child g t)) ks /\ Forall (fun t => reader (child g t)) ks.
Proof.
  intros Lg Hp EU HI HP Ht Ha.
  destruct (decl_types (gG g) n U tys J As o EU HI HP Ht) as (EA & TA & o' & EO & TO).
  assert (EJ : instantiate U tys = Some J).
  { apply instantiate_ok; [|exact HI]. intros vs b ->. inversion HI; auto. }
  unfold functional. rewrite EU, EJ, EA, EO. rewrite (F2_length _ _ _ Ha), Nat.eqb_refl.
  eexists; split; [reflexivity|]. rewrite !Forall_app. split; [|split].
  - split; apply Forall_forall; intros t Hin; apply in_map_iff in Hin as (x & <- & _); reflexivity.
  - split.
    + clear EA EO HP HI EJ. revert TA. induction Ha as [|a T args As Hat HA IH]; intros TA; cbn [combine map]; constructor.
      * inversion TA; subst. cbn. auto.
      * inversion TA; subst. auto.
    + rewrite Forall_map, Forall_app. split; [exact Ht|]. repeat constructor. exact TO.
  - split; apply Forall_forall; intros t Hin; apply in_map_iff in Hin as (x & <- & _); exact Logic.I.
Qed.

Lemma quantifier_ok h g p vs f h' p' t' fp' ix (Q : Z -> list tvar -> form -> form) :
  gt g = TForm p (Q ix vs f) ->
  live h g -> ~ quant_free (Q ix vs f) ->
  exec E h (gt g) = Some (h', [TForm p' f]) -> repr h' p' t' fp' -> content t' (bind (gG g) vs) -> grown h (gfp g) h' fp' ->
  ready (mkG (TForm p' f) (bind (gG g) vs) t' fp') -> next_ok h g.
Proof.
  intros Eg (R & C & Y) NQ Ex R' C' (F1 & F2 & F3) Y'.
  exists h', [mkG (TForm p' f) (bind (gG g) vs) t' fp']. split; [exact Ex|]. split; [|split].
  - constructor; [|constructor]. split; [exact R'|split; [exact C'|exact Y']].
  - repeat constructor.
  - intros o (Ro & Co & Yo) [[D _]|D].
    + unfold reader in D. rewrite Eg in D. elim NQ; exact D.
    + split.
      * split; [|split; [exact Co|exact Yo]]. eapply repr_frame; [exact Ro|]. intros a Ha. apply F1.
        -- eapply repr_bound; eauto.
        -- intros K. apply (D a K Ha).
      * constructor; [|constructor]. right. intros a Ha Ho. apply F3 in Ha as [Ha|Ha]; [apply (D a Ha Ho)|].
        pose proof (repr_bound _ _ _ _ Ro a Ho). lia.
Qed.
Lemma fst_tv vs : map fst (map (fun v => (tv_name v, tv_ty v)) vs) = map tv_name vs.
Proof. rewrite map_map. reflexivity. Qed.
Lemma add_vars_ok h g p vs N : handle (gt g) = p -> live h g -> NoDup (map tv_name vs ++ N) -> incl (map fst (gG g)) N ->
  exists h' p' t' fp', add_vars h p vs = Ok (h', p') /\ repr h' p' t' fp' /\ content t' (bind (gG g) vs) /\ grown h (gfp g) h' fp' /\
   incl (map fst (bind (gG g) vs)) (map tv_name vs ++ N).
Proof.
  intros Hp (R & C & Y) ND HI. rewrite Hp in R.
  destruct (hadd_ok (map (fun v => (tv_name v, tv_ty v)) vs) (S (List.length h + List.length vs)) h p (gtr g) (gfp g) (gG g) R C)
    as (h' & p' & t' & fp' & Q & R' & C' & F).
  - rewrite fst_tv. apply NoDup_app_inv in ND as (N1 & N2 & N3).
    pose proof (proj2 (proj2 C)) as N4. clear - N1 N3 N4 HI. induction (map tv_name vs) as [|a l IH]; cbn; [exact N4|].
    inversion N1; subst. constructor.
    + rewrite in_app_iff. intros [K|K]; [tauto|]. apply (N3 a); [left; reflexivity|]. apply HI; exact K.
    + apply IH; auto. intros x Hx. apply N3. right; exact Hx.
  - rewrite map_length. pose proof (content_ge _ _ C). pose proof (repr_size _ _ _ _ R). pose proof (repr_fits _ _ _ _ R). lia.
  - exists h', p', t', fp'. split; [exact Q|]. split; [exact R'|]. split; [exact C'|]. split; [exact F|].
    rewrite bind_names. apply incl_app.
    + intros x Hx. apply in_app_iff; left. apply in_rev; exact Hx.
    + intros x Hx. apply in_app_iff; right; auto.
Qed.

Lemma exec_ok h g : live h g -> next_ok h g.
Proof.
  intros L. pose proof L as (R & C & Y). destruct g as [t G tr fp]. cbn [gt gG gtr gfp] in *.
  destruct t as [p f|p t T|p T]; cbn [handle] in R; unfold ready in Y; cbn [gt gG gfp] in Y.
  - destruct Y as (W & (N & FB & HI) & SH).
    destruct f as [ix vs f|ix vs f|ix fs|ix fs|ix a b|ix a b|ix f|ix q tys args|ix|ix].
    + inversion W; subst. inversion FB; subst.
      destruct (add_vars_ok h (mkG (TForm p (All ix vs f)) G tr fp) p vs N eq_refl L) as (h' & p' & t' & fp' & Q & R' & C' & F & HI'); auto. cbn [gG gfp] in *.
      assert (P : prenex f).
      { assert (SH0 : prenex (All ix vs f)) by (destruct SH as [SH|[_ SH]]; [exact SH|inversion SH; auto]).
        inversion SH0 as [f1 QF| | |]; subst; auto; inversion QF. }
      eapply (quantifier_ok h (mkG (TForm p (All ix vs f)) G tr fp) p vs f h' p' t' fp' ix All); eauto; cbn [gt exec gG gfp].
      * intros K; inversion K.
      * rewrite Q. reflexivity.
      * unfold ready; cbn [gt gG gfp]. split; [assumption|]. split; [eexists; split; eassumption|auto].
    + inversion W; subst. inversion FB; subst.
      destruct (add_vars_ok h (mkG (TForm p (Ex ix vs f)) G tr fp) p vs N eq_refl L) as (h' & p' & t' & fp' & Q & R' & C' & F & HI'); auto. cbn [gG gfp] in *.
      assert (P : prenex f).
      { assert (SH0 : prenex (Ex ix vs f)) by (destruct SH as [SH|[_ SH]]; [exact SH|inversion SH; auto]).
        inversion SH0 as [f1 QF| | |]; subst; auto; inversion QF. }
      eapply (quantifier_ok h (mkG (TForm p (Ex ix vs f)) G tr fp) p vs f h' p' t' fp' ix Ex); eauto; cbn [gt exec gG gfp].
      * intros K; inversion K.
      * rewrite Q. reflexivity.
      * unfold ready; cbn [gt gG gfp]. split; [assumption|]. split; [eexists; split; eassumption|auto].
    + inversion W; subst. inversion FB; subst.
      assert (SH' : Forall quant_free fs \/ fp = [] /\ Forall prenex_parts fs).
      { destruct SH as [SH|[Hf SH]]; [left; inversion SH as [f1 QF| | |]; subst; inversion QF; auto|].
        inversion SH as [f0 SH0| | | | |]; subst; auto. left. inversion SH0 as [f1 QF| | |]; subst. inversion QF; auto. }
      eapply children_ok with (ks := map (TForm p) fs); [exact L|reflexivity| | | |]; rewrite ?Forall_map.
      * apply Forall_forall; reflexivity.
      * unfold ready, child; cbn [gt gG gfp]. rewrite Forall_forall in *. intros f Hf. split; [auto|]. split; [exists N; auto|].
        destruct SH' as [SH'|[Hfp SH']]; rewrite ?Forall_forall in SH'; [left; apply pn_free; auto|right; auto].
      * unfold reader, child; cbn [gt]. intros K; inversion K; auto.
      * unfold reader, child; cbn [gt gfp]. destruct SH' as [SH'|[Hfp SH']]; auto.
    + inversion W; subst. inversion FB; subst.
      assert (SH' : Forall quant_free fs \/ fp = [] /\ Forall prenex_parts fs).
      { destruct SH as [SH|[Hf SH]]; [left; inversion SH as [f1 QF| | |]; subst; inversion QF; auto|].
        inversion SH as [f0 SH0| | | | |]; subst; auto. left. inversion SH0 as [f1 QF| | |]; subst. inversion QF; auto. }
      eapply children_ok with (ks := map (TForm p) fs); [exact L|reflexivity| | | |]; rewrite ?Forall_map.
      * apply Forall_forall; reflexivity.
      * unfold ready, child; cbn [gt gG gfp]. rewrite Forall_forall in *. intros f Hf. split; [auto|]. split; [exists N; auto|].
        destruct SH' as [SH'|[Hfp SH']]; rewrite ?Forall_forall in SH'; [left; apply pn_free; auto|right; auto].
      * unfold reader, child; cbn [gt]. intros K; inversion K; auto.
      * unfold reader, child; cbn [gt gfp]. destruct SH' as [SH'|[Hfp SH']]; auto.
    + inversion W; subst. inversion FB; subst.
      assert (SH' : (quant_free a /\ quant_free b) \/ fp = [] /\ prenex_parts a /\ prenex_parts b).
      { destruct SH as [SH|[Hf SH]]; [left; inversion SH as [f1 QF| | |]; subst; inversion QF; auto|].
        inversion SH as [f0 SH0| | | | |]; subst; auto. left. inversion SH0 as [f1 QF| | |]; subst. inversion QF; auto. }
      eapply children_ok with (ks := [TForm p a; TForm p b]); [exact L|reflexivity|auto| | |].
      * unfold ready, child; cbn [gt gG gfp]. constructor; [|constructor; [|constructor]];
          (split; [auto|]; split; [exists N; auto|]; destruct SH' as [[S1 S2]|(Hfp & S1 & S2)]; [left; apply pn_free; auto|right; auto]).
      * unfold reader, child; cbn [gt]. intros K; inversion K; auto.
      * unfold reader, child; cbn [gt gfp]. destruct SH' as [[S1 S2]|(Hfp & S1 & S2)]; auto.
    + inversion W; subst. inversion FB; subst.
      assert (SH' : (quant_free a /\ quant_free b) \/ fp = [] /\ prenex_parts a /\ prenex_parts b).
      { destruct SH as [SH|[Hf SH]]; [left; inversion SH as [f1 QF| | |]; subst; inversion QF; auto|].
        inversion SH as [f0 SH0| | | | |]; subst; auto. left. inversion SH0 as [f1 QF| | |]; subst. inversion QF; auto. }
      eapply children_ok with (ks := [TForm p a; TForm p b]); [exact L|reflexivity|auto| | |].
      * unfold ready, child; cbn [gt gG gfp]. constructor; [|constructor; [|constructor]];
          (split; [auto|]; split; [exists N; auto|]; destruct SH' as [[S1 S2]|(Hfp & S1 & S2)]; [left; apply pn_free; auto|right; auto]).
      * unfold reader, child; cbn [gt]. intros K; inversion K; auto.
      * unfold reader, child; cbn [gt gfp]. destruct SH' as [[S1 S2]|(Hfp & S1 & S2)]; auto.
    + inversion W; subst. inversion FB; subst.
      eapply children_ok with (ks := [TForm p f]); [exact L|reflexivity|auto| | |right; right; eauto].
      * constructor; [|constructor]. unfold ready, child; cbn [gt gG gfp]. split; [auto|]. split; [exists N; auto|].
        destruct SH as [SH|[Hf SH]].
        -- left. inversion SH as [f1 QF| | |]; subst; auto. inversion QF; subst. apply pn_free; auto.
        -- inversion SH as [f0 SH0| | | | |]; subst; auto. left. inversion SH0 as [f1 QF| | |]; subst; auto. inversion QF; subst. apply pn_free; auto.
      * unfold reader, child; cbn [gt]. intros K; inversion K; auto.
    + inversion W; subst.
      edestruct (functional_ok h (mkG (TForm p (Pred ix q tys args)) G tr fp) p (id_name q) tys args) as (ks & Q & H1' & H2' & H3'); eauto.
      eapply children_ok with (ks := ks); [exact L| |exact H1'|exact H2'|auto|auto]. cbn. rewrite Q. reflexivity.
    + eapply children_ok with (ks := []); [exact L|reflexivity|auto|auto|auto|auto].
    + eapply children_ok with (ks := []); [exact L|reflexivity|auto|auto|auto|auto].
  - destruct Y as [HT TT]. inversion HT as [i n T0 T' CG ST|q tys args U J As o T0 EU HIn HP Ht Ha HR]; subst.
    + eapply children_ok with (ks := [TTy p T]); [exact L| |auto| | |].
      * cbn [exec gt]. rewrite (contains_ok h p tr fp G n T T'); auto. apply ctx_get_in; exact CG.
      * constructor; [|constructor]. exact TT.
      * intros _. repeat constructor.
      * left. repeat constructor.
    + edestruct (functional_ok h (mkG (TTerm p (Fun q tys args) T) G tr fp) p (id_name q) tys args) as (ks & Q & H1' & H2' & H3'); eauto.
      eapply children_ok with (ks := ks); [exact L| |exact H1'|exact H2'|auto|auto]. cbn. rewrite Q. reflexivity.
  - inversion Y as [n i T' CG ST|c l U EU Hk HF]; subst.
    + eapply children_ok with (ks := []); [exact L| |auto|auto|auto|auto].
      cbn [exec gt]. rewrite (contains_ok h p tr fp G n tType T'); auto. apply ctx_get_in; exact CG.
    + destruct (kind_get _ _ Hk) as (As & EA & EL).
      eapply children_ok with (ks := map (TTy p) l); [exact L| | | | |]; rewrite ?Forall_map.
      * cbn. rewrite EU, EA, EL, Nat.eqb_refl. reflexivity.
      * apply Forall_forall; reflexivity.
      * exact HF.
      * intros _. apply Forall_forall; intros; exact Logic.I.
      * left. apply Forall_forall; intros; exact Logic.I.
Qed.

Definition inv (s : state) : Prop :=
  exists gs, map gt gs = snd s /\ Forall (live (fst s)) gs /\ ForallOrdPairs disj gs.
Lemma disj_sym g o : disj g o -> disj o g.
Proof. intros [[A B]|D]; [left; auto|right]. intros a Ha Hb. apply (D a Hb Ha). Qed.
Lemma FOP_app {A} (R : A -> A -> Prop) l1 l2 : ForallOrdPairs R (l1 ++ l2) <->
  ForallOrdPairs R l1 /\ ForallOrdPairs R l2 /\ Forall (fun x => Forall (R x) l2) l1.
Proof.
  induction l1 as [|a l1 IH]; cbn.
  - split; [intros H; repeat split; auto; constructor|tauto].
  - split.
    + intros H. inversion H as [|? ? Ha Hr]; subst. apply IH in Hr as (H1 & H2 & H3). apply Forall_app in Ha as [Ha1 Ha2].
      repeat split; auto. constructor; auto.
    + intros (H1 & H2 & H3). inversion H1; subst. inversion H3; subst. constructor; [apply Forall_app; auto|apply IH; auto].
Qed.
Lemma map_split {A B} (f : A -> B) l l1 t l2 : map f l = l1 ++ t :: l2 ->
  exists g1 g g2, l = g1 ++ g :: g2 /\ map f g1 = l1 /\ f g = t /\ map f g2 = l2.
Proof.
  intros H. apply map_eq_app in H as (g1 & r & -> & H1 & H2). destruct r as [|g g2]; [discriminate|].
  injection H2 as H2 H3. exists g1, g, g2. auto.
Qed.
Lemma inv_safe h l1 t l2 : inv (h, l1 ++ t :: l2) -> exec E h t <> None.
Proof.
  intros (gs & Em & Lv & _). cbn [fst snd] in *. apply map_split in Em as (g1 & g & g2 & -> & _ & <- & _).
  apply Forall_app in Lv as [_ Lv]. inversion Lv as [|? ? Lg _]; subst.
  destruct (exec_ok h g Lg) as (h' & gks & Q & _). congruence.
Qed.
Lemma inv_step s s' : inv s -> step E s s' -> inv s'.
Proof.
  intros HI St. destruct St as [h h' l1 t ks l2 Q]. destruct HI as (gs & Em & Lv & D). cbn [fst snd] in *.
  apply map_split in Em as (g1 & g & g2 & -> & <- & <- & <-).
  apply Forall_app in Lv as [Lv1 Lv]. inversion Lv as [|? ? Lg Lv2]; subst.
  apply FOP_app in D as (D1 & D2 & D3). inversion D2 as [|? ? D4 D5]; subst.
  destruct (exec_ok h g Lg) as (h1 & gks & Q1 & Lk & Dk & Fr). rewrite Q in Q1. injection Q1 as -> ->.
  assert (F1 : Forall (fun o => live h1 o /\ Forall (fun k => disj k o) gks) g1).
  { rewrite Forall_forall in *. intros o Ho. apply Fr; [auto|]. apply disj_sym. specialize (D3 o Ho). inversion D3; auto. }
  assert (F2 : Forall (fun o => live h1 o /\ Forall (fun k => disj k o) gks) g2).
  { rewrite Forall_forall in *. intros o Ho. apply Fr; auto. }
  exists (g1 ++ gks ++ g2). cbn [fst snd]. split; [rewrite !map_app; reflexivity|]. split.
  - rewrite !Forall_app. repeat split; auto; [eapply Forall_impl; [|exact F1]|eapply Forall_impl; [|exact F2]]; cbn; tauto.
  - apply FOP_app. split; [exact D1|]. split.
    + apply FOP_app. split; [exact Dk|]. split; [exact D5|]. rewrite Forall_forall in F2 |- *.
      intros k Hk. apply Forall_forall. intros o Ho. specialize (F2 o Ho) as [_ F2]. rewrite Forall_forall in F2. auto.
    + rewrite Forall_forall in *. intros o Ho. apply Forall_app. split.
      * apply Forall_forall. intros k Hk. apply disj_sym. specialize (F1 o Ho) as [_ F1]. rewrite Forall_forall in F1. auto.
      * specialize (D3 o Ho). inversion D3; auto.
Qed.
Lemma inv_steps s s' : steps E s s' -> inv s -> inv s'.
Proof. induction 1; eauto using inv_step. Qed.
Lemma inv_start f : well_typed E f -> fresh_binders [] f -> prenex_parts f -> inv (start f).
Proof.
  intros W FB P. exists [mkG (TForm None f) [] Leaf []]. split; [reflexivity|]. split; [|repeat constructor].
  constructor; [|constructor]. split; [constructor|]. split.
  - split; [split; exact Logic.I|]. split; [cbn; tauto|constructor].
  - split; [exact W|]. split; [exists []; split; [exact FB|intros ? []]|]. right; auto.
Qed.
Theorem never_aborts f : well_typed E f -> fresh_binders [] f -> prenex_parts f -> ~ aborts E f.
Proof.
  intros W FB P (h & l1 & t & l2 & St & Q). eapply inv_safe; [|exact Q]. eapply inv_steps; [exact St|]. apply inv_start; auto.
Qed.
End Complete.
