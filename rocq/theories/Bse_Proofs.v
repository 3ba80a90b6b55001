(** The steps and the answers of the equality reasoning. *)
From Coq Require Import ZArith List Bool String Ascii Lia.
From Verif Require Import Ast_Model Ast_Proofs Sem_Spec Subst_Model Unif_Model Unif_Spec UnifLoss_Model UnifRun_Proofs UnifLoss_Proofs
  UnifTree_Model UnifTree_Spec UnifTree_Proofs UnifTree_Final Lpo_Model Bse_Model Bse_Spec.
Import ListNotations.
Open Scope list_scope.
Open Scope Z_scope.

(** ** Strings *)
Lemma sapp_assoc a b c : ((a ++ b) ++ c)%string = (a ++ (b ++ c))%string.
Proof. induction a as [|x a IH]; [reflexivity|]. cbn. f_equal. exact IH. Qed.
Definition special (c : ascii) : Prop := c = "("%char \/ c = ")"%char \/ c = ","%char.
(** the rest of a string after a name *)
Definition ends (r : string) : Prop := match r with EmptyString => True | String c _ => special c end.
Lemma name_split a b r1 r2 : plain a -> plain b -> ends r1 -> ends r2 -> (a ++ r1 = b ++ r2)%string -> a = b /\ r1 = r2.
Proof.
  revert b. induction a as [|x a IH]; intros [|y b] Pa Pb E1 E2 E; cbn in *.
  - auto.
  - subst r1. cbn in E1. destruct Pb as (P1 & P2 & P3 & _). destruct E1 as [?|[?|?]]; congruence.
  - subst r2. cbn in E2. destruct Pa as (P1 & P2 & P3 & _). destruct E2 as [?|[?|?]]; congruence.
  - injection E as -> E. destruct (IH b) as [-> ->]; intuition.
Qed.

Section Show.
Variable ar : signature.
Hypothesis D : distinct_names ar.
(** the arguments, in parentheses *)
Definition tail_of (l : list string) : string := match join ", " l with EmptyString => EmptyString | a => ("(" ++ a ++ ")")%string end.
Lemma show_fun p tys l : show (Fun p tys l) = (id_name p ++ tail_of (map show l))%string.
Proof.
  cbn [show]. unfold tail_of. destruct (join ", " (map show l)); [|reflexivity].
  induction (id_name p) as [|c s IH]; [reflexivity|]. cbn. f_equal. exact IH.
Qed.
Lemma show_nonempty t : well ar t -> show t <> EmptyString.
Proof.
  destruct D as (_ & _ & _ & D4 & D5). destruct t as [i|p tys l|i n|m]; intros W; [destruct W| |destruct W|].
  - rewrite show_fun. apply well_fun in W. destruct W as (_ & _ & Hs & _). destruct (D5 p Hs) as [N _]. destruct (id_name p); [congruence|discriminate].
  - apply (D4 m (proj2 W)).
Qed.
Lemma tail_cons t l : well ar t -> tail_of (map show (t :: l)) = ("(" ++ join ", " (map show (t :: l)) ++ ")")%string.
Proof.
  intros W. unfold tail_of. destruct (join ", " (map show (t :: l))) eqn:E; [|reflexivity]. exfalso. apply (show_nonempty t W).
  cbn in E. destruct (map show l); [exact E|]. destruct (show t); [reflexivity|discriminate].
Qed.
Lemma show_prefix t : forall u r1 r2, well ar t -> well ar u -> ends r1 -> ends r2 -> (forall c s, r1 = String c s -> c <> "("%char) ->
  (forall c s, r2 = String c s -> c <> "("%char) -> (show t ++ r1 = show u ++ r2)%string -> same_term t u /\ r1 = r2.
Proof.
  destruct D as (D1 & D2 & D3 & D4 & D5).
  induction t as [i|p tys l IH|i n|m] using term_ind'; intros u r1 r2 Wt Wu E1 E2 N1 N2 E; [destruct Wt| |destruct Wt|].
  - pose proof Wt as Wt'. apply well_fun in Wt'. destruct Wt' as (-> & _ & Hp & Wl).
    assert (Et : forall l r, ends r -> (forall t, In t l -> well ar t) -> ends (tail_of (map show l) ++ r)%string).
    { intros [|a l0] r Er Ha; [exact Er|]. rewrite tail_cons by (apply Ha; left; reflexivity). cbn. left. reflexivity. }
    destruct u as [j|q tys' l'|j n'|m']; [destruct Wu| |destruct Wu|].
    + pose proof Wu as Wu'. apply well_fun in Wu'. destruct Wu' as (-> & _ & Hq & Wl').
      rewrite !show_fun, !sapp_assoc in E. rewrite Forall_forall in Wl, Wl'.
      destruct (name_split _ _ _ _ (proj2 (D5 p Hp)) (proj2 (D5 q Hq)) (Et l r1 E1 Wl) (Et l' r2 E2 Wl') E) as [En El].
      assert (G : forall l, Forall (fun t => forall u r1 r2, well ar t -> well ar u -> ends r1 -> ends r2 -> (forall c s, r1 = String c s -> c <> "("%char) ->
                     (forall c s, r2 = String c s -> c <> "("%char) -> (show t ++ r1 = show u ++ r2)%string -> same_term t u /\ r1 = r2) l ->
                forall l' x y, l <> [] -> l' <> [] -> (forall t, In t l -> well ar t) -> (forall t, In t l' -> well ar t) ->
                (join ", " (map show l) ++ String ")" x = join ", " (map show l') ++ String ")" y)%string -> Forall2 same_term l l' /\ x = y).
      { clear. induction l as [|a l IHl]; intros HF [|b l'] x y Ne Ne' Wl Wl' Ej; try congruence. inversion HF as [|? ? Ha Hl]; subst.
        pose proof (Wl a (or_introl eq_refl)) as Wa. pose proof (Wl' b (or_introl eq_refl)) as Wb.
        assert (sp1 : ends (String ")" x)) by (right; left; reflexivity). assert (sp2 : ends (String ")" y)) by (right; left; reflexivity).
        assert (pp1 : forall z c s, String ")" z = String c s -> c <> "("%char) by (intros z c s Q; injection Q as <- _; discriminate).
        assert (pp2 : forall z c s, String "," z = String c s -> c <> "("%char) by (intros z c s Q; injection Q as <- _; discriminate).
        assert (cm : forall z, ends (String "," z)) by (intros z; right; right; reflexivity).
        destruct l as [|a2 l]; destruct l' as [|b2 l'].
        - cbn [map join] in Ej. destruct (Ha b _ _ Wa Wb sp1 sp2 (pp1 _) (pp1 _) Ej) as [S Q]. injection Q as <-. split; [constructor; [exact S|constructor]|reflexivity].
        - change (join ", " (map show (b :: b2 :: l'))) with (show b ++ ", " ++ join ", " (map show (b2 :: l')))%string in Ej. rewrite !sapp_assoc in Ej.
          cbn [map join] in Ej. change (", " ++ ?z)%string with (String "," (String " " z)) in Ej.
          destruct (Ha b _ _ Wa Wb sp1 (cm _) (pp1 _) (pp2 _) Ej) as [S Q]. discriminate Q.
        - change (join ", " (map show (a :: a2 :: l))) with (show a ++ ", " ++ join ", " (map show (a2 :: l)))%string in Ej. rewrite !sapp_assoc in Ej.
          cbn [map join] in Ej. change (", " ++ ?z)%string with (String "," (String " " z)) in Ej.
          destruct (Ha b _ _ Wa Wb (cm _) sp2 (pp2 _) (pp1 _) Ej) as [S Q]. discriminate Q.
        - change (join ", " (map show (a :: a2 :: l))) with (show a ++ ", " ++ join ", " (map show (a2 :: l)))%string in Ej.
          change (join ", " (map show (b :: b2 :: l'))) with (show b ++ ", " ++ join ", " (map show (b2 :: l')))%string in Ej. rewrite !sapp_assoc in Ej.
          change (", " ++ ?z)%string with (String "," (String " " z)) in Ej.
          destruct (Ha b _ _ Wa Wb (cm _) (cm _) (pp2 _) (pp2 _) Ej) as [S Q]. injection Q as Q.
          destruct (IHl Hl (b2 :: l') x y) as [S2 ->]; [discriminate|discriminate|intros; apply Wl; right; assumption|intros; apply Wl'; right; assumption|exact Q|].
          split; [constructor; assumption|reflexivity]. }
      assert (Hidx : id_index p = id_index q) by (apply D2; assumption).
      destruct l as [|a l]; destruct l' as [|b l'].
      * cbn in El. split; [constructor; [exact Hidx|constructor|constructor]|exact El].
      * rewrite (tail_cons b l' (Wl' b (or_introl eq_refl))) in El. cbn in El. exfalso. apply (N1 _ _ El). reflexivity.
      * rewrite (tail_cons a l (Wl a (or_introl eq_refl))) in El. cbn in El. exfalso. apply (N2 _ _ (eq_sym El)). reflexivity.
      * rewrite (tail_cons a l (Wl a (or_introl eq_refl))), (tail_cons b l' (Wl' b (or_introl eq_refl))) in El.
        rewrite !sapp_assoc in El. injection El as El. change (")" ++ r1)%string with (String ")" r1) in El. change (")" ++ r2)%string with (String ")" r2) in El.
        destruct (G (a :: l) IH (b :: l') r1 r2) as [S2 ->]; [discriminate|discriminate|exact Wl|exact Wl'|exact El|].
        split; [constructor; [exact Hidx|constructor|exact S2]|reflexivity].
    + rewrite show_fun, sapp_assoc in E. cbn [show] in E. destruct Wu as [_ Km]. rewrite Forall_forall in Wl.
      destruct (name_split _ _ _ _ (proj2 (D5 p Hp)) (proj2 (D4 m' Km)) (Et l r1 E1 Wl) E2 E) as [En _].
      destruct (D3 m' p Km Hp). congruence.
  - destruct Wt as [_ Km]. destruct u as [j|q tys' l'|j n'|m']; [destruct Wu| |destruct Wu|].
    + pose proof Wu as Wu'. apply well_fun in Wu'. destruct Wu' as (-> & _ & Hq & Wl'). rewrite show_fun, sapp_assoc in E. cbn [show] in E.
      assert (Et : ends (tail_of (map show l') ++ r2)%string).
      { destruct l' as [|b l']; [exact E2|]. inversion Wl'; subst. rewrite tail_cons by assumption. cbn. left. reflexivity. }
      destruct (name_split _ _ _ _ (proj2 (D4 m Km)) (proj2 (D5 q Hq)) E1 Et E) as [En _]. destruct (D3 m q Km Hq En).
    + destruct Wu as [_ Km']. cbn [show] in E. destruct (name_split _ _ _ _ (proj2 (D4 m Km)) (proj2 (D4 m' Km')) E1 E2 E) as [En ->].
      split; [constructor; apply D1; assumption|reflexivity].
Qed.
Theorem show_inj t u : well ar t -> well ar u -> show t = show u -> same_term t u.
Proof.
  intros Wt Wu E. apply (show_prefix t u EmptyString EmptyString); try assumption; try exact Logic.I; try (intros; discriminate). rewrite E. reflexivity.
Qed.
End Show.

(** ** The parts of a step *)
Section Step.
Variable ar : signature.
Hypothesis D : distinct_names ar.

Lemma replace_sub_ok old new t : well ar old -> well ar new -> well ar t -> well ar (replace_sub old new t) /\
  forall A v, tev A v old = tev A v new -> tev A v (replace_sub old new t) = tev A v t.
Proof.
  intros Wo Wn. induction t as [i|p tys l IH|i n|m] using term_ind'; intros Wt; [destruct Wt| |destruct Wt|].
  - cbn [replace_sub]. destruct (term_eqb (Fun p tys l) old) eqn:E.
    + split; [exact Wn|]. intros A v H. rewrite <- H. symmetry. apply (same_tev ar); assumption.
    + apply well_fun in Wt. destruct Wt as (-> & Hn & Hs & Wl).
      match goal with |- context [Fun p [] (?f false l)] => set (go := f) end.
      assert (G : forall l, Forall (fun t => well ar t -> well ar (replace_sub old new t) /\
                    forall A v, tev A v old = tev A v new -> tev A v (replace_sub old new t) = tev A v t) l -> Forall (well ar) l ->
                  forall b, List.length (go b l) = List.length l /\ Forall (well ar) (go b l) /\
                    forall A v, tev A v old = tev A v new -> map (tev A v) (go b l) = map (tev A v) l).
      { clear l IH E Hn Wl. induction l as [|c r IHl]; intros HF HW b; [cbn; auto|]. inversion HF as [|? ? Hc Hr]; subst. inversion HW as [|? ? Wc Wr]; subst.
        destruct (Hc Wc) as [W1 W2]. cbn. destruct (negb (term_eqb c (replace_sub old new c)) && negb b).
        - destruct (IHl Hr Wr true) as (I1 & I2 & I3). cbn. repeat split; [f_equal; exact I1|constructor; assumption|].
          intros A v H. rewrite W2 by exact H. f_equal. apply I3, H.
        - destruct (IHl Hr Wr b) as (I1 & I2 & I3). cbn. repeat split; [f_equal; exact I1|constructor; assumption|].
          intros A v H. f_equal. apply I3, H. }
      destruct (G l IH Wl false) as (G1 & G2 & G3). split.
      * apply well_fun. repeat split; [congruence|exact Hs|exact G2].
      * intros A v H. cbn. rewrite G3 by exact H. reflexivity.
  - cbn [replace_sub]. destruct (term_eqb (Meta m) old) eqn:E; [|auto].
    split; [exact Wn|]. intros A v H. rewrite <- H. symmetry. apply (same_tev ar); assumption.
Qed.

Lemma in_add_new l : forall acc x, In x (fold_left add_new l acc) -> In x acc \/ In x l.
Proof.
  induction l as [|a l IH]; intros acc x H; [auto|]. cbn in H. apply IH in H. destruct H as [H|H]; [|cbn; auto].
  unfold add_new in H. destruct (existsb _ acc); [auto|]. apply in_app_iff in H. cbn in *. tauto.
Qed.
Lemma sub_terms_well t : well ar t -> forall x, In x (sub_terms t) -> well ar x.
Proof.
  induction t as [i|p tys l IH|i n|m] using term_ind'; intros W x H; try (destruct H as [<-|[]]; exact W).
  cbn in H. apply in_add_new in H. destruct H as [[<-|[]]|H]; [exact W|]. apply well_fun in W. destruct W as (_ & _ & _ & Wl).
  apply in_flat_map in H. destruct H as (a & Ha & Hx). rewrite Forall_forall in IH, Wl. apply (IH a Ha (Wl a Ha) x Hx).
Qed.

(** all terms of the equalities are proper *)
Definition wellE (E : list (term * term)) : Prop := forall a b, In (a, b) E -> well ar a /\ well ar b.
Lemma e_map_ok E l r : wellE E -> well ar l -> In r (e_map E (show l)) -> well ar r /\ forall A v, eqs A v E -> tev A v l = tev A v r.
Proof.
  intros WE Wl H. apply in_flat_map in H. destruct H as ([a b] & Hin & H). cbn [fst snd] in H. destruct (WE a b Hin) as [Wa Wb].
  assert (Q : forall x y A v, well ar x -> show x = show l -> tev A v x = tev A v y -> tev A v l = tev A v y).
  { intros x y A v Wx Ex Exy. rewrite <- Exy. symmetry. apply (same_tev ar); [exact Wx|exact Wl|]. apply term_eqb_reflect. apply (show_inj ar D); assumption. }
  destruct (String.eqb (show a) (show b)) eqn:Eab.
  - destruct (String.eqb (show a) (show l)) eqn:Ea; [|destruct H]. destruct H as [<-|[]]. apply String.eqb_eq in Ea.
    split; [exact Wa|]. intros A v HE. apply (Q a a A v Wa Ea eq_refl).
  - apply in_app_iff in H. destruct H as [H|H].
    + destruct (String.eqb (show a) (show l)) eqn:Ea; [|destruct H]. destruct H as [<-|[]]. apply String.eqb_eq in Ea.
      split; [exact Wb|]. intros A v HE. apply (Q a b A v Wa Ea (HE a b Hin)).
    + destruct (String.eqb (show b) (show l)) eqn:Ea; [|destruct H]. destruct H as [<-|[]]. apply String.eqb_eq in Ea.
      split; [exact Wa|]. intros A v HE. apply (Q b a A v Wb Ea). symmetry. apply HE, Hin.
Qed.

(** *** Constraints *)
Variable add : term -> term -> substs -> out substs.
Hypothesis Hadd : add_ok ar True add.
Lemma add_good a b s s' : okS ar s -> well ar a -> well ar b -> add a b s = Ok s' -> is_failure s' = false ->
  okS ar s' /\ forall A w, solves A w s' -> solves A w s /\ tev A w a = tev A w b.
Proof. intros O Wa Wb E F. pose proof (Hadd a b s O Wa Wb) as Q. rewrite E in Q. cbn in Q. destruct Q as [Q|(Q1 & Q2)]; [congruence|]. split; [exact Q1|]. intros A w. apply Q2. exact Logic.I. Qed.

Definition wellC (k : constr) : Prop := well ar (k_left k) /\ well ar (k_right k).
(** the equations of the constraints follow from the substitution *)
Definition goodC (c : cstruct) : Prop :=
  okS ar (c_sub c) /\ forall k, In k (c_all c) -> wellC k /\
    (k_prec k = false -> forall A v, solves A v (c_sub c) -> tev A v (k_left k) = tev A v (k_right k)).
Lemma okS_nil : okS ar []. Proof. split; [constructor|intros ? ? []]. Qed.
Lemma goodC_empty : goodC empty_c. Proof. split; [exact okS_nil|intros ? []]. Qed.

Lemma consistent_good k c c' : goodC c -> wellC k -> consistent_with add k c = Ok (Some c') ->
  goodC c' /\ entails (c_sub c') (c_sub c) /\ (k_prec k = false -> forall A v, solves A v (c_sub c') -> tev A v (k_left k) = tev A v (k_right k)).
Proof.
  intros [O HC] [Wl Wr] H. unfold consistent_with in H. destruct (k_prec k) eqn:Ek.
  - destruct (check_out (apply_constr (c_sub c) k)) as [[x y]| | |]; cbn [bind] in H; try discriminate. cbn [fst snd] in H.
    destruct y.
    { destruct x; [|discriminate]. injection H as <-. split; [split; assumption|]. split; [intros A w Hw; exact Hw|discriminate]. }
    destruct (check_list (c_prec c ++ [k])); [|discriminate]. injection H as <-. cbn. split; [|split; [intros A w Hw; exact Hw|discriminate]].
    split; [exact O|]. cbn. intros k0 Hk. apply in_app_iff in Hk. destruct Hk as [Hk|[<-|[]]]; [apply HC, Hk|]. split; [split; assumption|]. congruence.
  - destruct (add (k_left k) (k_right k) []) as [s0| | |] eqn:E0; cbn [bind] in H; try discriminate.
    destruct (is_failure s0) eqn:F0; [discriminate|]. destruct (add_good _ _ _ _ okS_nil Wl Wr E0 F0) as [_ Q0].
    assert (Same : forall c0, Some c = Some c0 -> (forall A v, solves A v (c_sub c) -> tev A v (k_left k) = tev A v (k_right k)) ->
              goodC c0 /\ entails (c_sub c0) (c_sub c) /\ (false = false -> forall A v, solves A v (c_sub c0) -> tev A v (k_left k) = tev A v (k_right k))).
    { intros c0 Ec T. injection Ec as <-. split; [split; assumption|]. split; [intros A w Hw; exact Hw|auto]. }
    destruct s0 as [|b0 s0].
    { injection H as H. apply Same; [congruence|]. intros A v _. apply (Q0 A v). intros ? ? []. }
    destruct (add (k_left k) (k_right k) (c_sub c)) as [s1| | |] eqn:E1; cbn [bind] in H; try discriminate.
    destruct (is_failure s1) eqn:F1; [discriminate|]. destruct (add_good _ _ _ _ O Wl Wr E1 F1) as [O1 Q1].
    destruct s1 as [|b1 s1].
    { injection H as H. apply Same; [congruence|]. intros A v _. apply (Q1 A v). intros ? ? []. }
    destruct (consistent_subst (c_prec c) (b1 :: s1)) as [b| | |]; cbn [bind] in H; try discriminate. destruct b; [|discriminate]. injection H as <-. cbn.
    split; [|split; [intros A w Hw; apply (Q1 A w Hw)|intros _ A v Hv; apply (Q1 A v Hv)]].
    split; [exact O1|]. cbn. intros k0 Hk. apply in_app_iff in Hk. destruct Hk as [Hk|[<-|[]]].
    + destruct (HC k0 Hk) as [W0 H0]. split; [exact W0|]. intros P A v Hv. apply (H0 P). apply (Q1 A v Hv).
    + split; [split; assumption|]. intros _ A v Hv. apply (Q1 A v Hv).
Qed.
Lemma append_good k c c' : goodC c -> wellC k -> append_if add k c = Ok (Some c') ->
  goodC c' /\ entails (c_sub c') (c_sub c) /\ (k_prec k = false -> forall A v, solves A v (c_sub c') -> tev A v (k_left k) = tev A v (k_right k)).
Proof.
  intros G W H. unfold append_if in H. destruct (existsb (constr_eqb k) (c_all c)) eqn:Ex; [|apply (consistent_good k c c' G W H)].
  injection H as <-. split; [exact G|]. split; [intros A w Hw; exact Hw|]. intros P A v Hv.
  apply existsb_exists in Ex. destruct Ex as (k0 & Hk & E). unfold constr_eqb in E. apply andb_true_iff in E. destruct E as [E E3].
  apply andb_true_iff in E. destruct E as [E1 E2]. apply eqb_prop in E1. destruct G as [_ HC]. destruct (HC k0 Hk) as [[W1 W2] H0].
  destruct W as [W3 W4]. rewrite (same_tev ar A v _ _ W3 W1 E2), (same_tev ar A v _ _ W4 W2 E3). apply H0; [congruence|exact Hv].
Qed.
Lemma eq_rule_good l r sub s t c new c' : goodC c -> well ar l -> well ar r -> well ar sub -> well ar s -> well ar t ->
  eq_rule add l r sub s t c = Ok (Some (new, c')) ->
  goodC c' /\ entails (c_sub c') (c_sub c) /\ well ar new /\
  (forall A v, solves A v (c_sub c') -> tev A v l = tev A v r -> tev A v new = tev A v s).
Proof.
  intros G Wl Wr Wsub Ws Wt H. unfold eq_rule in H.
  destruct (append_if add (mkConstr true r l) c) as [[c1|]| | |] eqn:E1; cbn [bind] in H; try discriminate.
  destruct (append_good (mkConstr true r l) c c1 G (conj Wr Wl) E1) as (G1 & N1 & _).
  destruct (append_if add (mkConstr true t s) c1) as [[c2|]| | |] eqn:E2; cbn [bind] in H; try discriminate.
  destruct (append_good (mkConstr true t s) c1 c2 G1 (conj Wt Ws) E2) as (G2 & N2 & _).
  destruct (append_if add (mkConstr false l sub) c2) as [[c3|]| | |] eqn:E3; cbn [bind] in H; try discriminate.
  destruct (append_good (mkConstr false l sub) c2 c3 G2 (conj Wl Wsub) E3) as (G3 & N3 & Q). injection H as <- <-.
  destruct (replace_sub_ok sub r s Wsub Wr Ws) as [R1 R2].
  split; [exact G3|]. split; [intros A w Hw; apply N1, N2, N3, Hw|]. split; [exact R1|].
  intros A v Hv Hlr. apply R2. rewrite <- Hlr. symmetry. apply (Q eq_refl A v Hv).
Qed.

(** *** Rules *)
Variable name_id : string -> ident.
Variable query : node -> item -> out (list (item * substs)).
Hypothesis Hq : forall fs k q l, make_tree name_id fs = Some k -> query k q = Ok l -> forall f s, In (f, s) l -> In f fs.
Definition rule_ok (E : list (term * term)) (u : rule) : Prop :=
  well ar (r_l u) /\ well ar (r_r u) /\ well ar (r_sub u) /\ forall A v, eqs A v E -> tev A v (r_l u) = tev A v (r_r u).
Lemma search_pairs_in E k : make_tree name_id (eq_items E) = Some k -> forall l ps, search_pairs query k l = Ok ps ->
  forall a u, In (a, u) ps -> In a l /\ In (ITerm 0 u) (eq_items E).
Proof.
  intros T. induction l as [|x l IH]; intros ps H a u Hin; cbn in H; [injection H as <-; destruct Hin|].
  destruct (if is_meta x then Ok [] else _) as [here| | |] eqn:Eh; cbn [bind] in H; try discriminate.
  destruct (search_pairs query k l) as [rest| | |] eqn:Er; cbn [bind] in H; try discriminate. injection H as <-.
  apply in_app_iff in Hin. destruct Hin as [Hin|Hin]; [|destruct (IH rest eq_refl a u Hin); split; [right|]; assumption].
  destruct (is_meta x); [injection Eh as <-; destruct Hin|].
  destruct (query k (ITerm 0 x)) as [res| | |] eqn:Eq; cbn [bind] in Eh; try discriminate. injection Eh as <-.
  apply in_flat_map in Hin. destruct Hin as ([f s] & Hf & Hin). cbn in Hin. destruct f as [|ix w]; [destruct Hin|]. destruct Hin as [E1|[]].
  injection E1 as <- <-. split; [left; reflexivity|]. pose proof (Hq _ _ _ _ T Eq _ _ Hf) as Hi.
  assert (ix = 0) as ->; [|exact Hi]. apply in_flat_map in Hi. destruct Hi as ([p q] & _ & [Q|[Q|[]]]); injection Q as <- _; reflexivity.
Qed.
Lemma try_rule_ok E left smod ix s t rs : wellE E -> well ar s -> try_rule name_id query E left smod ix s t = Ok rs ->
  forall u, In u rs -> rule_ok E u /\ r_left u = left /\ r_smod u = smod /\ r_s u = s /\ r_t u = t /\ r_ix u = ix.
Proof.
  intros WE Ws H u Hu. unfold try_rule in H. destruct (make_tree name_id (eq_items E)) as [k|] eqn:T; [|discriminate].
  destruct (search_pairs query k (sub_terms s)) as [ps| | |] eqn:Ep; cbn [bind] in H; try discriminate. injection H as <-.
  apply in_flat_map in Hu. destruct Hu as ([a w] & Hp & Hu). apply in_flat_map in Hu. destruct Hu as (r & Hr & Hu). cbn [fst snd] in *.
  destruct (negb (eq_modulo s t w r) || negb left); [|destruct Hu]. destruct Hu as [<-|[]]. cbn.
  destruct (search_pairs_in E k T _ _ Ep a w Hp) as [Ha Hw].
  assert (Ww : well ar w).
  { apply in_flat_map in Hw. destruct Hw as ([p q] & Hpq & [Q|[Q|[]]]); injection Q as <-; apply (WE p q Hpq). }
  destruct (e_map_ok E w r WE Ww Hr) as [Wr Hlr]. repeat split; try assumption. apply (sub_terms_well s Ws a Ha).
Qed.
(** what a rule works on *)
Definition rule_at (ep : problem) (u : rule) : Prop :=
  if r_left u then In (r_s u, r_t u) (p_E ep) \/ In (r_t u, r_s u) (p_E ep)
  else if r_smod u then r_s u = p_s ep /\ r_t u = p_t ep else r_s u = p_t ep /\ r_t u = p_s ep.
Definition goodP (ep : problem) : Prop := wellE (p_E ep) /\ well ar (p_s ep) /\ well ar (p_t ep) /\ goodC (p_c ep).
Lemma right_rules_ok ep rs : goodP ep -> right_rules name_id query ep = Ok rs -> forall u, In u rs -> rule_ok (p_E ep) u /\ rule_at ep u /\ r_left u = false.
Proof.
  intros (WE & Ws & Wt & _) H u Hu. unfold right_rules in H.
  destruct (try_rule name_id query (p_E ep) false true 0 (p_s ep) (p_t ep)) as [a| | |] eqn:Ea; cbn [bind] in H; try discriminate.
  destruct (try_rule name_id query (p_E ep) false false 0 (p_t ep) (p_s ep)) as [b| | |] eqn:Eb; cbn [bind] in H; try discriminate.
  injection H as <-. unfold rule_at. apply in_app_iff in Hu. destruct Hu as [Hu|Hu].
  - destruct (try_rule_ok _ _ _ _ _ _ _ WE Ws Ea u Hu) as (R & -> & -> & -> & -> & _). auto.
  - destruct (try_rule_ok _ _ _ _ _ _ _ WE Wt Eb u Hu) as (R & -> & -> & -> & -> & _). auto.
Qed.
Lemma left_rules_ok E : wellE E -> forall todo i rs, incl todo E -> left_rules_from name_id query E todo i = Ok rs ->
  forall u, In u rs -> rule_ok E u /\ r_left u = true /\ (In (r_s u, r_t u) E \/ In (r_t u, r_s u) E).
Proof.
  intros WE. induction todo as [|[x y] todo IH]; intros i rs Hi H u Hu; cbn in H; [injection H as <-; destruct Hu|].
  pose proof (Hi _ (or_introl eq_refl)) as Hxy. destruct (WE x y Hxy) as [Wx Wy].
  destruct (try_rule name_id query E true true i x y) as [a| | |] eqn:Ea; cbn [bind] in H; try discriminate.
  destruct (try_rule name_id query E true false i y x) as [b| | |] eqn:Eb; cbn [bind] in H; try discriminate.
  destruct (left_rules_from name_id query E todo (S i)) as [c| | |] eqn:Ec; cbn [bind] in H; try discriminate. injection H as <-.
  apply in_app_iff in Hu. destruct Hu as [Hu|Hu]; [|apply in_app_iff in Hu; destruct Hu as [Hu|Hu]].
  - destruct (try_rule_ok _ _ _ _ _ _ _ WE Wx Ea u Hu) as (R & -> & _ & -> & -> & _). auto.
  - destruct (try_rule_ok _ _ _ _ _ _ _ WE Wy Eb u Hu) as (R & -> & _ & -> & -> & _). auto.
  - apply (IH (S i) c); auto. intros z Hz. apply Hi. right. exact Hz.
Qed.

Lemma in_set_nth {T} (x : T) : forall n l y, In y (set_nth n x l) -> y = x \/ In y l.
Proof.
  induction n as [|n IH]; intros [|a l] y H; cbn in *; try contradiction; destruct H as [H|H]; auto. destruct (IH l y H); auto.
Qed.

(** *** One step.  A right rule on the second side of the goal is the exception. *)
Definition kept (u : rule) : bool := r_left u || r_smod u.
Lemma apply_rule_good ep u ep' last : goodP ep -> rule_ok (p_E ep) u -> rule_at ep u -> apply_rule add u ep = Ok (Some (ep', last)) ->
  goodP ep' /\ entails (c_sub (p_c ep')) (c_sub (p_c ep)) /\
  (forall A v, solves A v (c_sub (p_c ep')) -> eqs A v (p_E ep) -> eqs A v (p_E ep') /\
     (kept u = true -> tev A v (p_s ep') = tev A v (p_t ep') -> tev A v (p_s ep) = tev A v (p_t ep))).
Proof.
  intros (WE & Ws & Wt & GC) (Wl & Wr & Wsub & Hlr) At H. unfold apply_rule in H.
  destruct (eq_rule add (r_l u) (r_r u) (r_sub u) (r_s u) (r_t u) (p_c ep)) as [[[new c]|]| | |] eqn:Ee; cbn [bind] in H; try discriminate.
  assert (Wst : well ar (r_s u) /\ well ar (r_t u)).
  { unfold rule_at in At. destruct (r_left u); [destruct At as [Q|Q]; apply WE in Q; tauto|]. destruct (r_smod u); destruct At as [-> ->]; auto. }
  destruct Wst as [Wrs Wrt]. destruct (eq_rule_good _ _ _ _ _ _ _ _ GC Wl Wr Wsub Wrs Wrt Ee) as (G' & N & Wn & Hn).
  unfold kept, rule_at in *. destruct (r_left u).
  - injection H as <- <-. cbn.
    assert (HE : forall A v, eqs A v (p_E ep) -> tev A v (r_s u) = tev A v (r_t u)) by (intros A v He; destruct At as [Q|Q]; [apply He, Q|symmetry; apply He, Q]).
    split; [split; [|auto]|split; [exact N|]].
    + intros a b Hab. apply in_set_nth in Hab. destruct Hab as [Q|Hab]; [|apply WE, Hab]. destruct (r_smod u); injection Q as -> ->; auto.
    + intros A v Hv He. split; [|auto]. intros a b Hab. apply in_set_nth in Hab. destruct Hab as [Q|Hab]; [|apply He, Hab].
      pose proof (Hn A v Hv (Hlr A v He)) as Q1. pose proof (HE A v He). destruct (r_smod u); injection Q as -> ->; congruence.
  - destruct (r_smod u); destruct At as [E1 E2]; injection H as <- <-; cbn; (split; [split; [exact WE|rewrite ?E1, ?E2 in *; auto]|split; [exact N|]]).
    + intros A v Hv He. split; [exact He|]. intros _ Q. rewrite <- E1, <- E2, <- Q. symmetry. apply (Hn A v Hv (Hlr A v He)).
    + intros A v Hv He. split; [exact He|]. discriminate.
Qed.

(** *** Answers *)
Lemma check_unif_good ep sl : goodP ep -> check_unif add ep = Ok sl -> forall s, In s sl ->
  okS ar s /\ entails s (c_sub (p_c ep)) /\ forall A v, solves A v s -> tev A v (p_s ep) = tev A v (p_t ep).
Proof.
  intros (_ & Ws & Wt & O & _) H s Hs. unfold check_unif in H.
  destruct (add (p_s ep) (p_t ep) []) as [s0| | |]; cbn [bind] in H; try discriminate. destruct (is_failure s0); [injection H as <-; destruct Hs|].
  destruct (add (p_s ep) (p_t ep) (c_sub (p_c ep))) as [s1| | |] eqn:E1; cbn [bind] in H; try discriminate.
  destruct (is_failure s1) eqn:F1; [injection H as <-; destruct Hs|]. destruct (add_good _ _ _ _ O Ws Wt E1 F1) as [O1 Q1].
  destruct (consistent_subst (c_prec (p_c ep)) s1) as [b| | |]; cbn [bind] in H; try discriminate. injection H as <-.
  destruct b; [|destruct Hs]. destruct Hs as [<-|[]]. split; [exact O1|]. split; [intros A w Hw; apply (Q1 A w Hw)|intros A v Hv; apply (Q1 A v Hv)].
Qed.
Lemma in_dedup l : forall acc s, In s (fold_left (fun acc s => if existsb (substs_eqb s) acc then acc else acc ++ [s]) l acc) -> In s acc \/ In s l.
Proof.
  induction l as [|a l IH]; intros acc s H; [auto|]. cbn in H. apply IH in H. destruct H as [H|H]; [|cbn; auto].
  destruct (existsb _ acc); [auto|]. apply in_app_iff in H. cbn in *. tauto.
Qed.

Definition goodA (ep : problem) (l : list substs) : Prop :=
  forall s, In s l -> okS ar s /\ entails s (c_sub (p_c ep)) /\ solution (p_E ep) (p_s ep) (p_t ep) s.
End Step.

Scheme answer_mind := Induction for answer Sort Prop
  with rules_mind := Induction for rules Sort Prop
  with managed_mind := Induction for managed Sort Prop
  with child_mind := Induction for child Sort Prop.
Combined Scheme answer_mutind from answer_mind, rules_mind, managed_mind, child_mind.
