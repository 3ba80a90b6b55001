(** Concrete cases for C23: hypotheses that are met, and Skolemizations that lose models. *)
From Coq Require Import ZArith List Bool String Lia.
From Verif Require Import LibSet_Model Ast_Model Problem_Model Rules_Model Sem_Spec Occ_Spec Free_Spec Rules_Spec Skolem_Spec
  LibSet_Proofs Ast_Proofs.
Import ListNotations.
Open Scope Z_scope.

Definition gS : gen := mkGen 30 40 0 [] [] [].
Definition mX : meta := mkMeta 25 0 "X" 0 (TyConstr "$i" []).
Definition setX : mset := Node 1 Leaf mX Leaf.
(** ? [Y,Z] : p(X,Y,Z) with metavariable X *)
Definition dS : form :=
  Ex 2 [mkTV "Y" 20 (TyConstr "$i" []); mkTV "Z" 21 (TyConstr "$i" [])]
    (Pred 3 (mkId 5 "p") [] [Meta mX; Var 20 "Y"; Var 21 "Z"]).
Lemma dS_ok k : delta_ok 22 k gS setX Leaf dS.
Proof.
  constructor.
  - constructor; vm_compute; auto.
    + intros b [<-|[<-|[<-|[]]]]; reflexivity.
    + repeat constructor; cbn; intuition discriminate.
    + repeat constructor; cbn; intuition discriminate.
    + intros i [[]|[[<-|[]]|[<-|[<-|[]]]]]; reflexivity.
  - intros x [<-|[<-|[]]]; reflexivity.
  - eexists _, _. split; reflexivity.
  - reflexivity.
  - split; [|apply mleaf_ok]. split; cbn.
    + repeat split; intros y [].
    + repeat split; auto.
  - intros m [(y & H & E)|(y & [] & _)]. destruct H as [->|[[]|[]]]. apply Z.eqb_eq in E. rewrite E. reflexivity.
  - intros _ m [H|[]]. left. exists mX. split; [cbn; auto|]. apply Z.eqb_eq. auto.
  - intros _ x [<-|[<-|[]]]; reflexivity.
Qed.
(** the same formula with other bound variables *)
Definition dS2 : form :=
  Ex 7 [mkTV "U" 18 (TyConstr "$i" []); mkTV "V" 19 (TyConstr "$i" [])]
    (Pred 8 (mkId 5 "p") [] [Meta mX; Var 18 "U"; Var 19 "V"]).
Definition syms (r : option (fat * sko * gen)) : list Z := match r with Some (y, _, _) => f_funs (ft_form y) | None => [] end.
Definition sk_of (r : option (fat * sko * gen)) : sko := match r with Some (_, s, _) => s | None => mkSko Outer 0 [] end.
Definition gen_of (r : option (fat * sko * gen)) : gen := match r with Some (_, _, g) => g | None => gS end.
(** two applications: the same symbol for pre-inner Skolemization, two symbols for the others *)
Definition two (k : sko_kind) : list Z * list Z :=
  let r1 := apply_delta (mkSko k 0 []) (mkFat dS []) setX Leaf gS in
  let r2 := apply_delta (sk_of r1) (mkFat dS2 []) setX Leaf (gen_of r1) in (syms r1, syms r2).
Lemma two_ok : two Outer = ([30], [31]) /\ two Inner = ([30], [31]) /\ two PreInner = ([30], [30]).
Proof. vm_compute. auto. Qed.

(** *** types: ? [A : $tType] : p(A) and ? [B : $tType] : ~ p(B) get the same constant *)
Definition tT : ty := TyConstr "$tType" [].
Definition dA : form := Ex 1 [mkTV "A" 20 tT] (Pred 2 (mkId 5 "p") [TyBound "A" 20] []).
Definition dB : form := Ex 3 [mkTV "B" 21 tT] (Not 4 (Pred 5 (mkId 5 "p") [TyBound "B" 21] [])).
Definition boolI : interp := mkInterp bool bool (fun _ _ _ => true) (fun _ ts _ => match ts with [b] => b = true | _ => False end)
  (fun _ _ => true) (fun _ => true) (fun _ => true) (fun _ _ => true) (fun _ _ => true).
Definition boolV : val boolI := @mkVal boolI (fun _ => true) (fun _ => true) (fun _ => true) (fun _ _ => true).
Lemma type_constant_shared k : exists y1 s1 g1 y2 s2 g2,
  apply_delta (mkSko k 0 []) (mkFat dA []) Leaf Leaf gS = Some (y1, s1, g1) /\
  apply_delta s1 (mkFat dB []) Leaf Leaf g1 = Some (y2, s2, g2) /\
  (exists I (v : val I), holds dA v /\ holds dB v) /\
  (forall I (v : val I), ~ (holds (ft_form y1) v /\ holds (ft_form y2) v)).
Proof.
  eexists _, _, _, _, _, _. split; [vm_compute; reflexivity|]. split; [vm_compute; reflexivity|]. split.
  - exists boolI, boolV. split.
    + exists true. reflexivity.
    + exists false. cbn. discriminate.
  - intros I v [H1 H2]. cbn in *. auto.
Qed.

(** *** type metavariables: ? [X] : p(T,X) with type metavariable T gets a constant that does not depend
    on T *)
Definition dT : form := Ex 1 [mkTV "X" 20 (TyConstr "$i" [])] (Pred 2 (mkId 5 "p") [TyMeta "T" 0 0] [Var 20 "X"]).
(** ! [Y] : ~ (p(a,Y) & p(b,Y)) *)
Definition cT : form := All 3 [mkTV "Y" 21 (TyConstr "$i" [])]
  (Not 4 (And 5 [Pred 6 (mkId 5 "p") [TyConstr "a" []] [Var 21 "Y"]; Pred 7 (mkId 5 "p") [TyConstr "b" []] [Var 21 "Y"]])).
Definition boolJ : interp := mkInterp bool bool (fun _ _ _ => true)
  (fun _ ts ds => match ts, ds with [t], [d] => t = d | _, _ => False end)
  (fun s _ => String.eqb s "a") (fun _ => true) (fun _ => true) (fun _ _ => true) (fun _ _ => true).
Lemma type_meta_ignored k : exists y s g,
  apply_delta (mkSko k 0 []) (mkFat dT []) Leaf Leaf gS = Some (y, s, g) /\
  (exists I, inhabited (val I) /\ forall v : val I, holds dT v /\ holds cT v) /\
  (forall I, inhabited (val I) -> ~ forall v : val I, holds (ft_form y) v /\ holds cT v).
Proof.
  assert (R : exists s g, apply_delta (mkSko k 0 []) (mkFat dT []) Leaf Leaf gS =
    Some (mkFat (Pred 2 (mkId 5 "p") [TyMeta "T" 0 0] [Fun (mkId 30 "skolem@X@0") [] []]) [], s, g)).
  { destruct k; eexists _, _; vm_compute; reflexivity. }
  destruct R as (s & g & R). eexists _, s, g. split; [exact R|]. split.
  - exists boolJ. split; [constructor; exact (@mkVal boolJ (fun _ => true) (fun _ => true) (fun _ => true) (fun _ _ => true))|].
    intros v. split.
    + exists (tmv v "T"%string 0). reflexivity.
    + intros d. cbn. intros (A & B & _). congruence.
  - intros I [v] H.
    pose proof (proj1 (H (set_tmv v "T" 0 (tcon I "a" [])))) as A.
    pose proof (proj1 (H (set_tmv v "T" 0 (tcon I "b" [])))) as B.
    destruct (H v) as [_ C]. cbn in A, B, C. apply (C (fn I 30 [] [])).
    unfold upd. rewrite ?Z.eqb_refl. auto.
Qed.
