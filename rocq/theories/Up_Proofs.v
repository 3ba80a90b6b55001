(** Proofs about what a node sends to its father (C136-C140). *)
From Coq Require Import ZArith List Bool.
From Verif Require Rules_Proofs.
From Verif Require Import Ast_Model Occ_Spec Sem_Spec Ast_Proofs Unif_Model Unif_Spec UnifLoss_Model Unif_Final UnifMgu_Proofs Closure_Model Dmt_Model Select_Model Select_Spec Select_Proofs Select_Final
  GlobUnif_Model Restrict_Model Restrict_Spec Restrict_Proofs Restrict_Final Leaf_Model Leaf_Spec Leaf_Proofs Leaf_Final Up_Model Up_Spec.
Import ListNotations.
Open Scope list_scope.
Open Scope Z_scope.

Lemma add_to_some c fl res r : add_to c fl res = Some r -> exists r1 e r2, res = r1 ++ e :: r2 /\ same_bindings (fst e) c /\ r = r1 ++ add_formulas e fl :: r2.
Proof.
  revert r. induction res as [|e res IH]; cbn [add_to]; intros r H; [discriminate|]. destruct (same_subst (fst e) c) eqn:E.
  - injection H as <-. exists [], e, res. apply subst_eqb in E. auto.
  - destruct (add_to c fl res) as [r0|]; [|discriminate]. injection H as <-. destruct (IH r0 eq_refl) as (r1 & e' & r2 & -> & S & ->). exists (e :: r1), e', r2. auto.
Qed.
Lemma add_to_none c fl res : add_to c fl res = None -> forall e, In e res -> ~ same_bindings (fst e) c.
Proof.
  induction res as [|e res IH]; cbn [add_to]; intros H x Hx; [destruct Hx|]. destruct (same_subst (fst e) c) eqn:E; [discriminate|].
  destruct (add_to c fl res) eqn:E'; [discriminate|]. destruct Hx as [<-|Hx]; [|exact (IH eq_refl x Hx)]. intros S. apply subst_eqb in S. congruence.
Qed.
Lemma distinct_snoc l c : distinct_substs l -> (forall s, In s l -> ~ same_bindings s c) -> distinct_substs (l ++ [c]).
Proof.
  induction l as [|a l IH]; cbn; intros D H; [repeat constructor|]. inversion D as [|? ? F D']; subst. constructor.
  - apply Forall_app. split; [exact F|]. constructor; [|constructor]. apply H. auto.
  - apply IH; [exact D'|]. intros s Hs. apply H. auto.
Qed.

Section Up.
Variable restr : subst -> list meta -> out subst.
Variable mg : subst -> subst -> out subst.
Variable mm : list meta.
Variable applied : saf.
Notation see := (seen restr mg mm applied).

Lemma see_fun s c c' : see s c -> see s c' -> c = c'.
Proof. intros (m & E & F) (m' & E' & F'). rewrite E in E'. injection E' as <-. rewrite F in F'. injection F' as <-. reflexivity. Qed.

Lemma gathers_more l r s : gathers see l r -> (forall c, see s c -> c = []) -> gathers see (l ++ [s]) r.
Proof.
  intros (D & H1 & H2) N. split; [exact D|]. split.
  - intros e He. destruct (H1 e He) as (K1 & (s' & Hs & K2) & K3). split; [exact K1|]. split.
    + exists s'. split; [apply in_or_app; auto|exact K2].
    + intros f Hf. destruct (K3 f Hf) as (s2 & c & G1 & G). exists s2, c. split; [apply in_or_app; auto|exact G].
  - intros s' c Hs Hc Nc. apply in_app_or in Hs. destruct Hs as [Hs|[<-|[]]]; [exact (H2 s' c Hs Hc Nc)|]. destruct (Nc (N c Hc)).
Qed.
Lemma gathers_record l r s c : gathers see l r -> see s c -> c <> [] -> gathers see (l ++ [s]) (record c (snd s) r).
Proof.
  intros (D & H1 & H2) Hc Nc. unfold record. destruct (add_to c (snd s) r) as [r'|] eqn:E.
  - apply add_to_some in E. destruct E as (r1 & e & r2 & -> & Se & ->). destruct (form_add_all (snd s) (snd e)) as (A1 & A2 & A3). split; [|split].
    + rewrite map_app in *. exact D.
    + assert (Old : forall e', In e' (r1 ++ e :: r2) -> fst e' <> [] /\ (exists s', In s' (l ++ [s]) /\ see s' (fst e')) /\
        forall f, In f (snd e') -> exists s' c, In s' (l ++ [s]) /\ see s' c /\ same_bindings (fst e') c /\ In f (snd s')).
      { intros e' He. destruct (H1 e' He) as (K1 & (s' & Hs & K2) & K3). split; [exact K1|]. split; [exists s'; split; [apply in_or_app; auto|exact K2]|].
        intros f Hf. destruct (K3 f Hf) as (s2 & c2 & G1 & G). exists s2, c2. split; [apply in_or_app; auto|exact G]. }
      intros e' He. apply in_app_or in He. destruct He as [He|[<-|He]]; [apply Old, in_or_app; auto| |apply Old, in_or_app; right; right; exact He].
      destruct (Old e) as (K1 & K2 & K3); [apply in_or_app; right; left; reflexivity|]. cbn [add_formulas fst snd]. split; [exact K1|]. split; [exact K2|].
      intros f Hf. apply A1 in Hf. destruct Hf as [Hf|Hf]; [exact (K3 f Hf)|]. exists s, c. split; [apply in_or_app; right; left; reflexivity|]. auto.
    + intros s' c' Hs Hc' Nc'. apply in_app_or in Hs. destruct Hs as [Hs|[<-|[]]].
      * destruct (H2 s' c' Hs Hc' Nc') as (e' & He & S & F). apply in_app_or in He. destruct He as [He|[<-|He]].
        -- exists e'. split; [apply in_or_app; auto|auto].
        -- exists (add_formulas e (snd s)). split; [apply in_or_app; right; left; reflexivity|]. split; [exact S|]. intros f Hf. destruct (F f Hf) as (f' & Hf' & Ef). exists f'. split; [exact (A2 f' Hf')|exact Ef].
        -- exists e'. split; [apply in_or_app; right; right; exact He|auto].
      * rewrite (see_fun _ _ _ Hc' Hc). exists (add_formulas e (snd s)). split; [apply in_or_app; right; left; reflexivity|]. split; [exact Se|]. exact A3.
  - pose proof (add_to_none _ _ _ E) as N. split; [|split].
    + rewrite map_app. apply distinct_snoc; [exact D|]. intros t Ht. apply in_map_iff in Ht. destruct Ht as (e & <- & He). exact (N e He).
    + intros e He. apply in_app_or in He. destruct He as [He|[<-|[]]].
      * destruct (H1 e He) as (K1 & (s' & Hs & K2) & K3). split; [exact K1|]. split; [exists s'; split; [apply in_or_app; auto|exact K2]|].
        intros f Hf. destruct (K3 f Hf) as (s2 & c2 & G1 & G). exists s2, c2. split; [apply in_or_app; auto|exact G].
      * cbn [fst snd]. split; [exact Nc|]. split; [exists s; split; [apply in_or_app; right; left; reflexivity|exact Hc]|].
        intros f Hf. exists s, c. split; [apply in_or_app; right; left; reflexivity|]. auto using bindings_refl.
    + intros s' c' Hs Hc' Nc'. apply in_app_or in Hs. destruct Hs as [Hs|[<-|[]]].
      * destruct (H2 s' c' Hs Hc' Nc') as (e & He & G). exists e. split; [apply in_or_app; auto|exact G].
      * rewrite (see_fun _ _ _ Hc' Hc). exists (c, snd s). split; [apply in_or_app; right; left; reflexivity|]. split; [apply bindings_refl|].
        intros f Hf. exists f. split; [exact Hf|]. apply Rules_Proofs.form_eqb_refl.
Qed.

Lemma reintroduces_step l s c before a : reintroduces see l before a -> see s c -> reintroduces see (l ++ [s]) before (union_int a (formulas_of c)).
Proof.
  intros [H1 H2] Hc. destruct (union_int_ok (formulas_of c) a) as [U1 U2]. split; [|auto].
  intros i. rewrite U1, H1, formulas_of_in. split.
  - intros [[H|(s' & c' & k & v & Hs & H)]|(k & v & Hk & Ei)]; [auto| |]; right.
    + exists s', c', k, v. split; [apply in_or_app; auto|exact H].
    + exists s, c, k, v. split; [apply in_or_app; right; left; reflexivity|auto].
  - intros [H|(s' & c' & k & v & Hs & H3 & H4 & H5)]; [auto|]. apply in_app_or in Hs. destruct Hs as [Hs|[<-|[]]].
    + left. right. exists s', c', k, v. auto.
    + right. exists k, v. rewrite (see_fun _ _ _ Hc H3). auto.
Qed.

Lemma pass_loop_inv l : forall done res before a x, gathers see done res -> reintroduces see done before a ->
  pass_loop restr mg mm applied l res a = Ok x ->
  gathers see (done ++ l) (fst x) /\ reintroduces see (done ++ l) before (snd x) /\ forall s, In s l -> exists c, see s c.
Proof.
  induction l as [|s l IH]; intros done res before a x G R E; cbn [pass_loop] in E.
  - injection E as <-. rewrite app_nil_r. split; [exact G|]. split; [exact R|]. intros s [].
  - apply out_ok in E. destruct E as (m & Em & E). apply out_ok in E. destruct E as (c & Ec & E).
    assert (Hc : see s c) by (exists m; auto).
    assert (K : exists res' a', gathers see (done ++ [s]) res' /\ reintroduces see (done ++ [s]) before a' /\ pass_loop restr mg mm applied l res' a' = Ok x).
    { destruct c as [|b c].
      - exists res, a. split; [apply gathers_more; [exact G|]; intros c Hc'; symmetry; exact (see_fun _ _ _ Hc Hc')|]. split; [|exact E].
        apply (reintroduces_step _ _ _ _ _ R) in Hc. exact Hc.
      - exists (record (b :: c) (snd s) res), (union_int a (formulas_of (b :: c))). split; [apply gathers_record; [exact G|exact Hc|discriminate]|].
        split; [exact (reintroduces_step _ _ _ _ _ R Hc)|exact E]. }
    destruct K as (res' & a' & G' & R' & E'). destruct (IH _ _ _ _ _ G' R' E') as (I1 & I2 & I3). rewrite <- app_assoc in I1, I2. split; [exact I1|]. split; [exact I2|].
    intros s' [<-|Hs]; [eauto|exact (I3 s' Hs)].
Qed.
Lemma gathers_remove l r : gathers see l r -> remove_empty r = r.
Proof.
  intros (_ & H & _). assert (K : forall e, In e r -> fst e <> []) by (intros e He; exact (proj1 (H e He))). clear H.
  induction r as [|e r IH]; [reflexivity|]. destruct e as [[|b s] fl]; [destruct (K ([], fl) (or_introl eq_refl) eq_refl)|]. unfold remove_empty in IH |- *. cbn [filter fst]. rewrite IH; [reflexivity|]. intros e He. apply K. right. exact He.
Qed.

Theorem pass_up_ok l again st : pass_up restr mg mm applied l again = Ok st ->
  gathers see l (up_substs st) /\ reintroduces see l again (up_again st) /\ (forall s, In s l -> exists c, see s c) /\
  (up_need st = false <-> forall s c, In s l -> see s c -> c = []).
Proof.
  intros E. unfold pass_up in E. apply out_ok in E. destruct E as (x & Ex & E). injection E as <-. cbn [up_substs up_need up_again].
  destruct (pass_loop_inv l [] [] again again x) as (G & R & T); [| |exact Ex|].
  - split; [constructor|]. split; [intros e []|intros s c []].
  - split; [|auto]. intros i. split; [auto|]. intros [H|(s & c & k & v & [] & _)]. exact H.
  - cbn [app] in G, R. rewrite (gathers_remove _ _ G). split; [exact G|]. split; [exact R|]. split; [exact T|]. destruct G as (_ & H1 & H2). destruct (fst x) as [|e r].
    + split; [|reflexivity]. intros _ s c Hs Hc. destruct c as [|b c]; [reflexivity|]. destruct (H2 s (b :: c) Hs Hc) as (e & [] & _). discriminate.
    + split; [discriminate|]. intros H. destruct (H1 e (or_introl eq_refl)) as (N & (s & Hs & Hc) & _). destruct (N (H s _ Hs Hc)).
Qed.
End Up.

(** *** the merge and the restriction of the code *)
Section Node.
Variable ar : signature.
Variables n fe : nat.
Variable mm : list meta.
Variable applied : saf.
Variable l : list saf.
Hypothesis Clean : clean ar n fe mm applied l.
Notation see := (seen (restrict_mixed fe (add_unif n fe)) (merge_mixed n fe) mm applied).

Lemma merged_both s m : In s l -> merge_saf (merge_mixed n fe) s applied = Ok m -> forall A v,
  (solves A v (binds (fst m)) -> solves A v (binds (fst s)) /\ solves A v (binds (fst applied))) /\
  (injective A -> solves A v (binds (fst s)) -> solves A v (binds (fst applied)) -> solves A v (binds (fst m))).
Proof.
  intros Hs E A v. destruct Clean as [Oa C]. destruct (C s Hs) as (Os & K & _). unfold merge_saf in E. destruct (saf_empty s) eqn:Z1.
  - injection E as <-. assert (Z : fst s = []) by (destruct s as [[|] [|]]; cbn in *; congruence). rewrite Z. split; [|auto]. intros H. split; [intros k t []|exact H].
  - destruct (saf_empty applied) eqn:Z2.
    + injection E as <-. assert (Z : fst applied = []) by (destruct applied as [[|] [|]]; cbn in *; congruence). rewrite Z. split; [|auto]. intros H. split; [exact H|intros k t []].
    + apply out_ok in E. destruct E as (q & Eq & E). injection E as <-. cbn [fst]. apply merge_mixed_ok in Eq. destruct Eq as [Eq F]. split.
      * apply (merge_sound ar fe n _ _ _ Os Oa K Eq F A v).
      * intros Inj H1 H2. apply (merge_general ar n fe _ _ _ Os Oa Eq F A v Inj H1 H2).
Qed.
Lemma see_honest s c A (v : Z -> dom A) : In s l -> see s c -> solves A v (binds c) ->
  exists v', agree mm v v' /\ solves A v' (binds (fst s)) /\ solves A v' (binds (fst applied)).
Proof.
  intros Hs (m & Em & Ec) Sv. destruct Clean as [_ C]. destruct (C s Hs) as (_ & _ & Sm). destruct (Sm m Em) as (T & Om & So & NS & NL).
  apply restrict_mixed_ok in Ec; [|exact T]. destruct Ec as [Ec _].
  destruct (restrict_keeps ar n fe (binds (fst m)) mm (binds c) Om So NS NL Ec A v Sv) as (v' & Ag & Hv). exists v'. split; [exact Ag|]. exact (proj1 (merged_both s m Hs Em A v') Hv).
Qed.
Lemma see_complete s c A (v : Z -> dom A) : In s l -> see s c -> injective A -> solves A v (binds (fst s)) -> solves A v (binds (fst applied)) -> solves A v (binds c).
Proof.
  intros Hs (m & Em & Ec) Inj S1 S2. destruct Clean as [_ C]. destruct (C s Hs) as (_ & _ & Sm). destruct (Sm m Em) as (T & Om & So & _).
  apply restrict_mixed_ok in Ec; [|exact T]. destruct Ec as [Ec _]. apply (restrict_invents_nothing ar n fe _ _ _ Om So Ec A v Inj).
  exact (proj2 (merged_both s m Hs Em A v) Inj S1 S2).
Qed.

Theorem node_honest again st : node_pass n fe mm applied l again = Ok st -> forall t, In t (up_substs st) -> honest mm applied l t.
Proof.
  intros E t Ht A v Sv. destruct (pass_up_ok _ _ _ _ _ _ _ E) as ((_ & H1 & _) & _). destruct (H1 t Ht) as (_ & (s & Hs & Hc) & _).
  destruct (see_honest s _ A v Hs Hc Sv) as (v' & Ag & S1 & S2). exists (fst s), v'. split; [apply in_map, Hs|]. auto.
Qed.
Theorem node_complete again st : node_pass n fe mm applied l again = Ok st ->
  forall s, In s l -> ~ see s [] -> forall A v, injective A -> typeless A -> solves A v (binds (fst s)) -> solves A v (binds (fst applied)) ->
  exists t, In t (up_substs st) /\ solves A v (binds (fst t)).
Proof.
  intros E s Hs N A v Inj TA S1 S2. destruct (pass_up_ok _ _ _ _ _ _ _ E) as ((_ & _ & H2) & _ & T & _). destruct (T s Hs) as (c & Hc).
  destruct (H2 s c Hs Hc) as (e & He & Sc & _); [intros ->; exact (N Hc)|]. exists e. split; [exact He|].
  apply (solves_same A v c); [exact TA|apply bindings_sym, Sc|]. exact (see_complete s c A v Hs Hc Inj S1 S2).
Qed.
Theorem node_alone again st : node_pass n fe mm applied l again = Ok st -> up_need st = false -> l <> [] ->
  forall A v, closable mm (fst applied) (map fst l) A v.
Proof.
  intros E Nd Nl A v. destruct (pass_up_ok _ _ _ _ _ _ _ E) as (_ & _ & T & Need). destruct l as [|s r] eqn:El; [congruence|]. destruct (T s (or_introl eq_refl)) as (c & Hc).
  pose proof (proj1 Need Nd s c (or_introl eq_refl) Hc) as ->. rewrite <- El in *. assert (Hs : In s l) by (rewrite El; left; reflexivity).
  destruct (see_honest s [] A v Hs Hc) as (v' & Ag & S1 & S2); [intros k t []|]. exists (fst s), v'. split; [apply in_map, Hs|]. auto.
Qed.
End Node.

(** *** the choice of the node and what it sends *)
Theorem node_up ar n fe mm applied current l r again st :
  no_drop ar n fe current l -> at_most (wants current) 2 l -> Forall distinct l ->
  (Forall (fun a => ~ returns_just current a) l \/ at_most (wants current) 1 l \/
   Forall (fun a => wants current a -> Forall (fun t => consequence (fst t) (fst current)) (an_substs a)) l) ->
  select (merge_mixed n fe) current (List.length l) (map Answer l) = Ok (SubstForParent, r) ->
  clean ar n fe mm applied r -> node_pass n fe mm applied r again = Ok st ->
  forall t, In t (up_substs st) -> forall A v, typeless A -> solves A v (binds (fst t)) ->
  exists v', agree mm v v' /\ solves A v' (binds (fst applied)) /\
    forall a, In a l -> an_substs a <> [] -> exists u, In u (an_substs a) /\ solves A v' (binds (fst u)).
Proof.
  intros N A2 D C H Cl E t Ht A v TA Sv. destruct (pass_up_ok _ _ _ _ _ _ _ E) as ((_ & H1 & _) & _). destruct (H1 t Ht) as (_ & (s & Hs & Hc) & _).
  destruct (see_honest ar n fe mm applied r Cl s _ A v Hs Hc Sv) as (v' & Ag & S1 & S2). exists v'. split; [exact Ag|]. split; [exact S2|].
  intros a Ha Na. destruct (node_closes_all ar n fe current l r N A2 D C H s Hs a Ha Na) as (u & Hu & Cu). exists u. split; [exact Hu|]. exact (Cu A v' TA S1).
Qed.

(** *** the node whose children close by themselves *)
Theorem itself_ok restr mm applied current again x : by_itself restr mm applied current again = Ok x ->
  exists c, restr (fst applied) mm = Ok c /\
    ((saf_empty current = false /\ x = None) \/
     (saf_empty current = true /\ exists st, x = Some st /\ up_need st = false /\ up_again st = again /\
      (c = [] -> up_substs st = []) /\ (c <> [] -> up_substs st = [(c, snd applied)]))).
Proof.
  intros E. unfold by_itself in E. apply out_ok in E. destruct E as (c & Ec & E). exists c. split; [exact Ec|]. destruct (saf_empty current); injection E as <-; [right|auto].
  split; [reflexivity|]. eexists. split; [reflexivity|]. cbn. destruct c; repeat split; congruence.
Qed.
Theorem itself_keeps ar n fe mm applied current again st : sane ar n fe mm (fst applied) -> node_itself n fe mm applied current again = Ok (Some st) ->
  forall A v, (forall t, In t (up_substs st) -> solves A v (binds (fst t))) -> exists v', agree mm v v' /\ solves A v' (binds (fst applied)).
Proof.
  intros (T & Oa & Sa & NS & NL) E A v H. apply itself_ok in E. destruct E as (c & Ec & [[_ E]|(_ & st' & E & _ & _ & E1 & E2)]); [discriminate|]. injection E as <-.
  apply restrict_mixed_ok in Ec; [|exact T]. destruct Ec as [Ec _]. assert (Sc : solves A v (binds c)).
  { destruct c as [|b c]; [intros k t []|]. apply (H (b :: c, snd applied)). rewrite E2; [left; reflexivity|discriminate]. }
  exact (restrict_keeps ar n fe (binds (fst applied)) mm (binds c) Oa Sa NS NL Ec A v Sc).
Qed.
