(** What the equality reasoning of a branch answers closes the branch. *)
From Coq Require Import ZArith List Bool String Lia PeanoNat.
From Verif Require Import Ast_Model Ast_Proofs Occ_Spec Sem_Spec Unif_Model Unif_Spec Elim_Proofs UnifRun_Proofs UnifLoss_Model UnifLoss_Proofs
  Unif_Final UnifMgu_Proofs UnifTree_Model UnifTree_Spec UnifTree_Proofs UnifTree_Final UnifItem_Proofs Closure_Model Lpo_Model Bse_Model Bse_Spec Bse_Proofs Bse_Final
  EqBuild_Model EqBuild_Spec EqBuild_Proofs.
Import ListNotations.
Open Scope list_scope.
Open Scope Z_scope.

(** ** Lists without repetitions *)
Section Absent.
Context {A : Type}.
Variable eqb : A -> A -> bool.
Lemma absent_in l : forall acc x, In x (fold_left (add_absent eqb) l acc) -> In x acc \/ In x l.
Proof.
  induction l as [|y l IH]; intros acc x H; [auto|]. cbn in H. apply IH in H. destruct H as [H|H]; [|cbn; auto].
  unfold add_absent in H. destruct (existsb _ acc); [auto|]. apply in_app_iff in H. destruct H as [H|[<-|[]]]; cbn; auto.
Qed.
Lemma absent_acc l : forall acc x, In x acc -> In x (fold_left (add_absent eqb) l acc).
Proof.
  induction l as [|y l IH]; intros acc x H; [exact H|]. cbn. apply IH. unfold add_absent. destruct (existsb _ acc); [exact H|]. apply in_app_iff. auto.
Qed.
Lemma absent_has l : (forall x, eqb x x = true) -> forall acc x, In x l -> exists y, In y (fold_left (add_absent eqb) l acc) /\ eqb y x = true.
Proof.
  intros R. induction l as [|z l IH]; intros acc x H; [destruct H|]. cbn. destruct H as [->|H]; [|apply IH, H].
  unfold add_absent at 2. destruct (existsb (fun y => eqb y x) acc) eqn:Ex.
  - apply existsb_exists in Ex. destruct Ex as (y & Hy & E). exists y. split; [apply absent_acc, Hy|exact E].
  - exists x. split; [apply absent_acc, in_app_iff; right; left; reflexivity|apply R].
Qed.
End Absent.
Lemma pair_eqb_refl x : pair_eqb x x = true.
Proof. unfold pair_eqb. rewrite andb_true_iff. split; apply term_eqb_reflect, same_term_refl. Qed.

(** ** Where the goals come from *)
Lemma atoms_pos fs f : In f (atoms true fs) -> exists ix p tys args, f = IPred ix p tys args /\ In (Pred ix p tys args) fs.
Proof.
  unfold atoms. intros H. apply in_flat_map in H. destruct H as (g & Hg & H). destruct g; cbn in H; try (destruct H; fail).
  - destruct g; destruct H.
  - destruct H as [<-|[]]. eauto 6.
Qed.
Lemma atoms_neg fs f : In f (atoms false fs) -> exists j ix p tys args, f = IPred ix p tys args /\ In (Not j (Pred ix p tys args)) fs.
Proof.
  unfold atoms. intros H. apply in_flat_map in H. destruct H as (g & Hg & H). destruct g as [| | | | | |j g| | |]; cbn in H; try (destruct H; fail).
  destruct g; try (destruct H; fail). destruct H as [<-|[]]. eauto 7.
Qed.
Lemma pairs_eq A v l1 : forall l2 g, pairs l1 l2 = Some g -> List.length l1 = List.length l2 ->
  (forall a b, In (a, b) g -> tev A v a = tev A v b) -> map (tev A v) l1 = map (tev A v) l2.
Proof.
  induction l1 as [|x l1 IH]; intros [|y l2] g E L H; try discriminate; [reflexivity|]. cbn in E. destruct (pairs l1 l2) as [g'|] eqn:E'; [|discriminate].
  cbn in E. injection E as <-. cbn. f_equal; [apply H; left; reflexivity|]. apply (IH l2 g' E'); [cbn in L; lia|]. intros; apply H; right; assumption.
Qed.
Lemma complements_in args l : forall gs g, complements args l = Ok gs -> In g gs -> exists ix p tys args' s, In (IPred ix p tys args', s) l /\ pairs args args' = Some g.
Proof.
  induction l as [|[[ix p tys args'|] s] l IH]; intros gs g E Hg; cbn in E; try discriminate; [injection E as <-; destruct Hg|].
  destruct (pairs args args') as [g0|] eqn:Ep; [|discriminate]. apply bind_ok in E. destruct E as (gs' & E1 & E). injection E as <-.
  destruct Hg as [<-|Hg]; [exists ix, p, tys, args', s; split; [left; reflexivity|exact Ep]|].
  destruct (IH gs' g E1 Hg) as (a & b & c & d & f & H1 & H2). exists a, b, c, d, f. split; [right; exact H1|exact H2].
Qed.

Section Final.
Variables (id_eq : ident) (ar : signature) (name_id : string -> ident) (ty_arity : string -> nat) (arg_tys : ident -> list ty -> list term -> list ty) (n fe : nat).
Local Notation e := (id_index id_eq).
Local Notation query := (unify_real name_id n fe).
Hypothesis Hty : forall p, symbol ar p -> ty_arity (id_name p) = 0%nat.
Hypothesis Heq : symbol ar id_eq /\ ar e = 3%nat.
Variables (fs fl : list form) (kp kn : node).
Hypothesis Hfs : Forall (lit_ok e ar name_id) fs.
Hypothesis Hfl : incl fl fs.
Hypothesis Tp : make_tree name_id (atoms true fs) = Some kp.
Hypothesis Tn : make_tree name_id (atoms false fs) = Some kn.

Lemma pos_items : Forall (item_ok e ar name_id) (atoms true fs).
Proof.
  apply Forall_forall. intros f Hf. destruct (atoms_pos fs f Hf) as (ix & p & tys & args & -> & H). rewrite Forall_forall in Hfs. exact (Hfs _ H).
Qed.
Lemma neg_items : Forall (item_ok e ar name_id) (atoms false fs).
Proof.
  apply Forall_forall. intros f Hf. destruct (atoms_neg fs f Hf) as (j & ix & p & tys & args & -> & H). rewrite Forall_forall in Hfs. exact (Hfs _ H).
Qed.
Lemma goals_pred_in ct p tys args gs g : goals_of_pred ty_arity arg_tys query kn ct p tys args = Ok gs -> In g gs ->
  exists j ix p' tys' args', In (Not j (Pred ix p' tys' args')) fs /\ id_index p = id_index p' /\ pairs args args' = Some g.
Proof.
  unfold goals_of_pred. destruct (patterns ct args (arg_tys p tys args)) as [ms|]; [|discriminate]. intros E Hg. apply bind_ok in E. destruct E as (l & El & E).
  destruct (all_some _); [|discriminate]. destruct (complements_in args l gs g E Hg) as (ix & p' & tys' & args' & s & H1 & H2).
  pose proof El as El'. unfold unify_real, unify_tree in El'. destruct (query_term name_id (IPred 0 p tys ms)) as [t|] eqn:Q; [|discriminate]. clear El'.
  pose proof Q as Q'. cbn in Q'. destruct (functional_args name_id tys ms) as [z|]; [|discriminate]. cbn in Q'. injection Q' as <-.
  pose proof (answer_head name_id _ _ _ kn _ p [] z l Tn Q El ix p' tys' args' s H1) as Ep.
  destruct (search_direct name_id _ _ _ kn _ l Tn El) as [D _]. destruct (D _ _ H1) as [Hin _].
  destruct (atoms_neg fs _ Hin) as (j & ix0 & p0 & tys0 & args0 & E0 & H). injection E0 as <- <- <- <-. exists j, ix, p', tys', args'. auto.
Qed.
Lemma goals_forms_in : forall l ct gs g, incl l fs -> goals_of_forms id_eq ty_arity arg_tys query kn ct l = Ok gs -> In g gs ->
  exists i j ix p tys args p' tys' args', In (Pred i p tys args) fs /\ In (Not j (Pred ix p' tys' args')) fs /\ id_index p = id_index p' /\ id_index p <> e /\ pairs args args' = Some g.
Proof.
  induction l as [|f l IH]; intros ct gs g I E Hg; cbn in E; [injection E as <-; destruct Hg|].
  assert (I' : incl l fs) by (intros x Hx; apply I; right; exact Hx).
  destruct f as [| | | | | | |i p tys args| |]; try exact (IH _ _ _ I' E Hg). unfold id_eqb in E. destruct (Z.eqb_spec (id_index p) e) as [|Ne]; [exact (IH _ _ _ I' E Hg)|].
  apply bind_ok in E. destruct E as (g1 & E1 & E). apply bind_ok in E. destruct E as (g2 & E2 & E). injection E as <-. apply in_app_iff in Hg. destruct Hg as [Hg|Hg]; [|exact (IH _ _ _ I' E2 Hg)].
  destruct (goals_pred_in _ _ _ _ _ _ E1 Hg) as (j & ix & p' & tys' & args' & H1 & H2 & H3). exists i, j, ix, p, tys, args, p', tys', args'. split; [apply I; left; reflexivity|]. auto.
Qed.

Variables (ct cm : Z).
Hypothesis Hc : counters ar ct cm.
(** a goal whose pairs are equal contradicts the branch *)
Definition contradicts (g : list (term * term)) : Prop :=
  forall A P v, (forall f, In f fs -> lit e A P v f) -> (forall a b, In (a, b) g -> tev A v a = tev A v b) -> False.
Lemma build_ok E gs : build id_eq ty_arity arg_tys query fe fl kp kn ct cm = Ok (Some (E, gs)) ->
  wellE ar E /\ (forall A P v, (forall f, In f fs -> lit e A P v f) -> eqs A v E) /\ Forall (fun g => wellE ar g /\ contradicts g) gs.
Proof.
  intros B. destruct Hc as (C0 & C1 & C2). unfold build in B. apply bind_ok in B. destruct B as (E0 & EE & B). destruct E0 as [|e0 E0]; [discriminate|]. set (E1 := e0 :: E0) in *.
  apply bind_ok in B. destruct B as (N & EN & B). apply bind_ok in B. destruct B as (G & EG & B).
  assert (BB : E = E1 /\ gs = map (fun x => [x]) N ++ G) by (destruct (map (fun x => [x]) N ++ G); [discriminate|]; injection B as <- <-; auto). destruct BB as [-> ->]. clear B.
  assert (L1 : cm < ct) by lia. assert (L2 : 0 <= cm + 1) by lia. assert (L3 : cm + 1 < ct + 2) by lia.
  assert (K1 : forall m, known ar m -> m_index m < ct /\ m_index m <> cm) by (intros m Km; destruct (C2 m Km) as (? & ? & ?); auto).
  assert (K2 : forall m, known ar m -> m_index m < ct + 2 /\ m_index m <> cm + 1) by (intros m Km; destruct (C2 m Km) as (? & ? & ?); split; [lia|assumption]).
  assert (RE := retrieve_ok id_eq ar name_id ty_arity n fe Hty Heq _ kp pos_items Tp _ _ _ ct cm E1 C0 L1 K1 EE).
  assert (RN := retrieve_ok id_eq ar name_id ty_arity n fe Hty Heq _ kn neg_items Tn _ _ _ (ct + 2) (cm + 1) N L2 L3 K2 EN).
  assert (WE : forall p tys args, atom_ok e ar name_id p tys args -> Forall (well ar) args) by (intros p tys args H; apply H).
  split; [|split].
  - intros a b Hab. destruct (RE a b Hab) as (W1 & W2 & _). auto.
  - intros A P v Hv a b Hab. destruct (RE a b Hab) as (W1 & W2 & ix & p & ty & l & r & Hin & Ep & S1 & S2).
    destruct (atoms_pos fs _ Hin) as (ix0 & p0 & tys0 & args0 & E0' & H). injection E0' as <- <- <- <-. pose proof (Hv _ H) as HA. cbn in HA. unfold atom in HA. rewrite Ep, Z.eqb_refl in HA.
    rewrite Forall_forall in Hfs. pose proof (WE _ _ _ (Hfs _ H)) as WA. inversion WA as [|? ? Wl WA']; subst. inversion WA' as [|? ? Wr _]; subst.
    rewrite (same_tev ar A v a l W1 Wl (proj2 (term_eqb_reflect a l) S1)), (same_tev ar A v b r W2 Wr (proj2 (term_eqb_reflect b r) S2)). exact HA.
  - apply Forall_forall. intros g Hg. apply in_app_iff in Hg. destruct Hg as [Hg|Hg].
    + apply in_map_iff in Hg. destruct Hg as ([a b] & <- & Hab). destruct (RN a b Hab) as (W1 & W2 & ix & p & ty & l & r & Hin & Ep & S1 & S2).
      split; [intros x y [Exy|[]]; injection Exy as <- <-; auto|]. intros A P v Hv Hg.
      destruct (atoms_neg fs _ Hin) as (j & ix0 & p0 & tys0 & args0 & E0' & H). injection E0' as <- <- <- <-. apply (Hv _ H). unfold atom. rewrite Ep, Z.eqb_refl.
      rewrite Forall_forall in Hfs. pose proof (WE _ _ _ (Hfs _ H)) as WA. inversion WA as [|? ? Wl WA']; subst. inversion WA' as [|? ? Wr _]; subst.
      rewrite <- (same_tev ar A v a l W1 Wl (proj2 (term_eqb_reflect a l) S1)), <- (same_tev ar A v b r W2 Wr (proj2 (term_eqb_reflect b r) S2)). apply Hg. left. reflexivity.
    + destruct (goals_forms_in fl _ G g Hfl EG Hg) as (i & j & ix & p & tys & args & p' & tys' & args' & H1 & H2 & H3 & H4 & H5).
      rewrite Forall_forall in Hfs. pose proof (Hfs _ H1) as (Wa & _ & La & Ta). pose proof (Hfs _ H2) as (Wa' & _ & La' & Ta').
      rewrite (proj2 (Z.eqb_neq _ _) H4) in Ta. rewrite <- H3 in Ta', La'. rewrite (proj2 (Z.eqb_neq _ _) H4) in Ta'. subst tys tys'. cbn in La, La'. rewrite <- La in La'.
      split.
      * clear -Wa Wa' H5. revert args' g Wa' H5. induction Wa as [|x r Wx Wr IH]; intros [|y r'] g Wa' H5 a b Hab; cbn in H5; try discriminate; try (injection H5 as <-; destruct Hab).
        destruct (pairs r r') as [g'|] eqn:E'; [|discriminate]. injection H5 as <-. inversion Wa'; subst. destruct Hab as [Hab|Hab]; [injection Hab as <- <-; auto|]. eapply IH; eauto.
      * intros A P v Hv Hg'. apply (Hv _ H2). pose proof (Hv _ H1) as HA. cbn in HA. unfold atom in *. rewrite <- H3. rewrite (proj2 (Z.eqb_neq _ _) H4) in *.
        rewrite <- (pairs_eq A v args args' g H5 (eq_sym La') Hg'). exact HA.
Qed.

(** ** The answers *)
Hypothesis Dn : distinct_names ar.
Local Notation strict := (add_unif_s true n fe).
Lemma goals_nonempty eps : forall sl l, goals name_id query strict fe kept eps sl l -> eps <> [] -> l <> [].
Proof.
  intros sl l H. induction H as [sl|ep r b l res H1 H2 H3 IH|ep r s sl l res H1 H2 H3 IH]; intros Hne; [congruence| |].
  - destruct r; [inversion H3; subst; exact H2|]. apply IH. discriminate.
  - destruct r; [inversion H3; subst; exact H2|]. apply IH. discriminate.
Qed.
Lemma solve_ok E gs acc b res : solve name_id query strict fe kept E gs acc b res ->
  (forall sg, In sg res -> In sg acc \/ exists g l, In g gs /\ goals name_id query strict fe kept (problems E g) [] l /\ In sg l) /\
  (incl acc res) /\ (b = true -> exists g l, In g gs /\ goals name_id query strict fe kept (problems E g) [] l /\ forall sg, In sg l -> exists sg', In sg' res).
Proof.
  induction 1 as [acc|g gs acc l b res H1 H2 (IH1 & IH2 & IH3)|g gs acc b res H1 H2 (IH1 & IH2 & IH3)].
  - split; [auto|]. split; [apply incl_refl|discriminate].
  - split; [|split].
    + intros sg Hsg. destruct (IH1 sg Hsg) as [Ha|(g' & l' & G1 & G2 & G3)].
      * apply absent_in in Ha. destruct Ha as [Ha|Ha]; [left; exact Ha|right]. exists g, l. split; [left; reflexivity|]. auto.
      * right. exists g', l'. split; [right; exact G1|]. auto.
    + intros x Hx. apply IH2. apply absent_acc, Hx.
    + intros _. exists g, l. split; [left; reflexivity|]. split; [exact H1|]. intros sg Hsg.
      destruct l as [|s0 l]; [destruct Hsg|]. cbn in IH2. destruct (add_absent substs_eqb acc s0) as [|s1 a1] eqn:Ea.
      { unfold add_absent in Ea. destruct (existsb _ acc) eqn:Ex; [subst acc; discriminate|]. destruct acc; discriminate. }
      exists s1. apply IH2. rewrite <- Ea. apply absent_acc. rewrite Ea. left. reflexivity.
  - split; [|split].
    + intros sg Hsg. destruct (IH1 sg Hsg) as [Ha|(g' & l' & G1 & G2 & G3)]; [auto|right]. exists g', l'. split; [right; exact G1|]. auto.
    + exact IH2.
    + intros Hb. destruct (IH3 Hb) as (g' & l' & G1 & G2 & G3). exists g', l'. split; [right; exact G1|]. auto.
Qed.
Lemma goal_list_in gs : forall acc g, In g (fold_left (fun l g => add_absent (list_eqb pair_eqb) l (fold_left (add_absent pair_eqb) g [])) gs acc) ->
  In g acc \/ exists g0, In g0 gs /\ g = fold_left (add_absent pair_eqb) g0 [].
Proof.
  induction gs as [|g0 gs IH]; intros acc g H; [auto|]. cbn in H. destruct (IH _ _ H) as [Ha|(g1 & G1 & G2)].
  - unfold add_absent at 1 in Ha. destruct (existsb _ acc); [auto|]. apply in_app_iff in Ha. destruct Ha as [Ha|[<-|[]]]; [auto|]. right. exists g0. split; [left; reflexivity|reflexivity].
  - right. exists g1. split; [right; exact G1|exact G2].
Qed.
Theorem reasoning_ok b res : reasoning id_eq name_id ty_arity arg_tys query strict fe kept fl kp kn ct cm b res ->
  (forall sg, In sg res -> closes e fs sg) /\ (b = true -> res = [] -> closes e fs []).
Proof.
  intros [B|E g gs b' res' B Hg S]; [split; [intros ? []|discriminate]|].
  destruct (build_ok E (g :: gs) B) as (WE & HE & HG).
  assert (WA : wellE ar (assumptions E)).
  { intros x y Hxy. apply WE. apply absent_in in Hxy. destruct Hxy as [[]|Hxy]. exact Hxy. }
  assert (HA : forall A P v, (forall f, In f fs -> lit e A P v f) -> eqs A v (assumptions E)).
  { intros A P v Hv x y Hxy. apply (HE A P v Hv). apply absent_in in Hxy. destruct Hxy as [[]|Hxy]. exact Hxy. }
  assert (Cl : forall g' l sg, In g' (goal_list (g :: gs)) -> goals name_id query strict fe kept (problems (assumptions E) g') [] l -> In sg l \/ g' = [] -> closes e fs sg).
  { intros g' l sg Hg' Hl Hsg A P v Hs Hv. unfold goal_list in Hg'. apply goal_list_in in Hg'. destruct Hg' as [[]|(g0 & G0 & ->)].
    rewrite Forall_forall in HG. destruct (HG g0 G0) as [W0 C0']. apply (C0' A P v Hv). intros x y Hxy.
    destruct (absent_has pair_eqb g0 pair_eqb_refl [] (x, y) Hxy) as ([x' y'] & Hin & Exy). unfold pair_eqb in Exy. cbn in Exy. rewrite andb_true_iff in Exy. destruct Exy as [Ex Ey].
    pose proof (absent_in pair_eqb g0 [] _ Hin) as [[]|Hin0]. destruct (W0 _ _ Hin0) as [Wx' Wy']. destruct (W0 _ _ Hxy) as [Wx Wy].
    rewrite <- (same_tev ar A v x' x Wx' Wx Ex), <- (same_tev ar A v y' y Wy' Wy Ey).
    destruct Hsg as [Hsg|E0]; [|rewrite E0 in Hin; destruct Hin].
    assert (W1 : wellE ar (fold_left (add_absent pair_eqb) g0 [])) by (intros u w Huw; apply W0; apply absent_in in Huw; destruct Huw as [[]|Huw]; exact Huw).
    exact (goals_sound ar name_id n fe (assumptions E) _ l Dn WA W1 Hl sg Hsg x' y' Hin A v Hs (HA A P v Hv)). }
  destruct (solve_ok _ _ _ _ _ S) as (S1 & _ & S3). split.
  - intros sg Hsg. destruct (S1 sg Hsg) as [[]|(g' & l & G1 & G2 & G3)]. exact (Cl g' l sg G1 G2 (or_introl G3)).
  - intros -> ->. destruct (S3 eq_refl) as (g' & l & G1 & G2 & G3). apply (Cl g' l [] G1 G2). right.
    destruct g' as [|x g']; [reflexivity|]. exfalso. assert (l <> []) by (apply (goals_nonempty _ _ _ G2); discriminate). destruct l as [|s0 l]; [congruence|]. destruct (G3 s0 (or_introl eq_refl)) as (? & []).
Qed.
End Final.

(** ** These runs are runs of the prover *)
Lemma fails_real name_id query add1 add2 (Hr : forall a b s, refines (add1 a b s) (add2 a b s)) keep fe eps sl : fails name_id query add1 fe keep eps sl -> fails name_id query add2 fe (fun _ => true) eps sl.
Proof.
  induction 1 as [ep r b H|ep r s sl H|ep r b l H Hne _ IH|ep r s sl l H Hne _ IH].
  - eapply fails_first. apply (proj1 (runs_real name_id query add1 add2 Hr keep)), H.
  - apply fails_next. apply (each_real name_id query add1 add2 Hr keep fe), H.
  - eapply fails_later; [apply (proj1 (runs_real name_id query add1 add2 Hr keep)), H|exact Hne|exact IH].
  - eapply fails_further; [apply (each_real name_id query add1 add2 Hr keep fe), H|exact Hne|exact IH].
Qed.
Theorem reasoning_real id_eq name_id ty_arity arg_tys n fe fl kp kn ct cm b res :
  reasoning id_eq name_id ty_arity arg_tys (unify_real name_id n fe) (add_unif_s true n fe) fe kept fl kp kn ct cm b res ->
  reasoning id_eq name_id ty_arity arg_tys (unify_real name_id n fe) (add_unif n fe) fe (fun _ => true) fl kp kn ct cm b res.
Proof.
  intros [B|E g gs b' res' B Hg S]; [apply reasoning_none, B|]. apply (reasoning_some _ _ _ _ _ _ _ _ _ _ _ _ _ E g gs _ _ B Hg).
  induction S as [acc|g' gs' acc l b1 res1 H _ IH|g' gs' acc b1 res1 H _ IH]; [apply solve_nil| |].
  - eapply solve_yes; [apply (goals_real name_id _ _ _ (strict_refines n fe) kept fe), H|exact IH].
  - apply solve_no; [apply (fails_real _ _ _ _ (strict_refines n fe) kept), H|exact IH].
Qed.

(** ** The equalities and disequalities of a branch *)
Theorem read_branch id_eq ar name_id ty_arity n fe fs : (forall p, symbol ar p -> ty_arity (id_name p) = 0%nat) -> symbol ar id_eq /\ ar (id_index id_eq) = 3%nat ->
  Forall (lit_ok (id_index id_eq) ar name_id) fs -> forall ct cm, counters ar ct cm ->
  (forall k E, make_tree name_id (atoms true fs) = Some k -> retrieve_eqs id_eq ty_arity (unify_real name_id n fe) fe k ct cm = Ok E ->
     forall a b, In (a, b) E -> exists l r, equality_of (id_index id_eq) true fs l r /\ same_term a l /\ same_term b r) /\
  (forall k E, make_tree name_id (atoms false fs) = Some k -> retrieve_neqs id_eq ty_arity (unify_real name_id n fe) fe k (ct + 2) (cm + 1) = Ok E ->
     forall a b, In (a, b) E -> exists l r, equality_of (id_index id_eq) false fs l r /\ same_term a l /\ same_term b r).
Proof.
  intros Hty Heq Hfs ct cm (C0 & C1 & C2). split; intros k E T R a b Hab.
  - destruct (retrieve_ok id_eq ar name_id ty_arity n fe Hty Heq _ k (pos_items id_eq ar name_id fs Hfs) T "META_TY_EQ"%string "METAEQ1"%string "METAEQ2"%string ct cm E C0) with (a := a) (b := b) as (_ & _ & ix & p & ty & l & r & Hin & Ep & S1 & S2).
    1: lia. 2: exact R. 2: exact Hab. { intros m Km. destruct (C2 m Km) as (? & ? & ?). auto. }
    destruct (atoms_pos fs _ Hin) as (ix0 & p0 & tys0 & args0 & E0 & H). injection E0 as <- <- <- <-. exists l, r. split; [exists ix, ix, p, ty; auto|auto].
  - destruct (retrieve_ok id_eq ar name_id ty_arity n fe Hty Heq _ k (neg_items id_eq ar name_id fs Hfs) T "META_TY_NEQ"%string "META_NEQ_1"%string "META_NEQ_2"%string (ct + 2) (cm + 1) E) with (a := a) (b := b) as (_ & _ & ix & p & ty & l & r & Hin & Ep & S1 & S2).
    1, 2: lia. 2: exact R. 2: exact Hab. { intros m Km. destruct (C2 m Km) as (? & ? & ?). split; [lia|assumption]. }
    destruct (atoms_neg fs _ Hin) as (j & ix0 & p0 & tys0 & args0 & E0 & H). injection E0 as <- <- <- <-. exists l, r. split; [exists ix, j, p, ty; auto|auto].
Qed.
