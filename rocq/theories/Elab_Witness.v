(** Concrete cases for the theorems on elaboration. *)
From Coq Require Import ZArith List Bool String.
From Verif Require Import Ast_Model Sem_Spec Typing_Model Typing_Spec Ast_Proofs Elab_Model Elab_Spec Elab_Proofs Elab_Final Elab_Context.
Import ListNotations.
Open Scope Z_scope.
Open Scope string_scope.

Notation tyc s := (PTyFun s []).
Notation cst s := (PFun s [] None).
Definition num (s : string) : pterm := PFun s [] (Some (tyc "$int")).

Lemma gen0_ok : tab_ok gen0.
Proof. repeat split; cbn; discriminate. Qed.

(** ** A file with declarations: nat : $tType, list : $tType > $tType, nil : !>[A : $tType] : list(A),
    cons : !>[A : $tType] : (A * list(A)) > list(A), mem : !>[A : $tType] : (A * list(A)) > $o,
    z : nat *)
Definition w_decls : list (string * ptype) :=
  [("nat", tyc "$tType");
   ("list", PTyBin PTypeMap (tyc "$tType") (tyc "$tType"));
   ("nil", PTyQuant [("A", tyc "$tType")] (PTyFun "list" [PTyVar "A"]));
   ("cons", PTyQuant [("A", tyc "$tType")]
              (PTyBin PTypeMap (PTyBin PTypeProd (PTyVar "A") (PTyFun "list" [PTyVar "A"])) (PTyFun "list" [PTyVar "A"])));
   ("mem", PTyQuant [("A", tyc "$tType")]
              (PTyBin PTypeMap (PTyBin PTypeProd (PTyVar "A") (PTyFun "list" [PTyVar "A"])) (tyc "$o")));
   ("z", tyc "nat")].

(** ! [A : $tType, X : A, L : list(A)] : mem(A, X, cons(A, X, L)) *)
Definition w_ax : pform :=
  PQuant PQuantAll [("A", tyc "$tType"); ("X", PTyVar "A"); ("L", PTyFun "list" [PTyVar "A"])]
    (PPred "mem" [PVar "A"; PVar "X"; PFun "cons" [PVar "A"; PVar "X"; PVar "L"] None]).
(** mem(nat, z, cons(nat, z, nil(nat))) & mem($int, 3, cons($int, 3, nil($int)))
    & ~ (? [L : list(nat)] : L = nil(nat) <~> $less($sum(1, 2), 4)) *)
Definition w_cj : pform :=
  PBin PBinaryAnd
    (PPred "mem" [cst "nat"; cst "z"; PFun "cons" [cst "nat"; cst "z"; PFun "nil" [cst "nat"] None] None])
    (PBin PBinaryAnd
       (PPred "mem" [cst "$int"; num "3"; PFun "cons" [cst "$int"; num "3"; PFun "nil" [cst "$int"] None] None])
       (mk_pxor (PQuant PQuantEx [("L", PTyFun "list" [tyc "nat"])] (PPred "=" [PVar "L"; PFun "nil" [cst "nat"] None]))
                (PPred "$less" [PFun "$sum" [num "1"; num "2"] None; num "4"]))).
Definition w_file : list pstmt := [PSForm RAxiom w_ax; PSForm RConjecture w_cj].
Definition w_kappa (s : string) : option bool :=
  if String.eqb s "A" then Some true else if String.eqb s "X" || String.eqb s "L" then Some false else None.

Lemma w_runs : exists l' b g',
  to_internal_syntax true (map (fun d => PSType RType (fst d) (snd d)) w_decls ++ w_file) gen0 = EOk (l', b, g').
Proof.
  destruct (to_internal_syntax true (map (fun d => PSType RType (fst d) (snd d)) w_decls ++ w_file) gen0) as [[[l' b] g']| | |] eqn:E.
  - eauto.
  - vm_compute in E. discriminate.
  - vm_compute in E. discriminate.
  - vm_compute in E. discriminate.
Qed.
Lemma w_kinds s t : In (s, t) (initial_context ++ w_decls) -> w_kappa s = None.
Proof.
  assert (H : Forall (fun d => w_kappa (fst d) = None) (initial_context ++ w_decls)) by (repeat constructor).
  rewrite Forall_forall in H. exact (H (s, t)).
Qed.
Lemma w_tops s t : In (s, t) w_decls -> top_type t.
Proof.
  assert (H : Forall (fun d => top_type (snd d)) w_decls) by (repeat constructor). rewrite Forall_forall in H. exact (H (s, t)).
Qed.
Ltac wk_step :=
  match goal with
  | |- _ /\ _ => split
  | |- True => exact Logic.I
  | |- Forall _ _ => constructor
  | |- _ <> _ => discriminate
  | |- _ -> False => discriminate
  | |- _ \/ _ => (left; reflexivity) || right
  | |- ex _ => eexists; split; [reflexivity | discriminate]
  | |- _ = true -> _ => intros ?; try discriminate
  | |- _ = _ => reflexivity
  end.
Ltac wk := vm_compute; repeat wk_step.
Lemma w_wk r f : In (PSForm r f) w_file -> wk_form w_kappa (sig_tysym (initial_context ++ w_decls)%list) [] f.
Proof. intros [[= <- <-]|[[= <- <-]|[]]]; wk. Qed.

(** ** The variables of an inner quantifier stay in the context after it *)

(** ! [X : $i] : ((! [X : $tType] : p(X)) & q(X)): the last X is read as the type variable *)
Definition leak : pform :=
  PQuant PQuantAll [("X", tyc "$i")]
    (PBin PBinaryAnd (PQuant PQuantAll [("X", tyc "$tType")] (PPred "p" [PVar "X"])) (PPred "q" [PVar "X"])).
Definition leak_out : eres (context * form * bool * gen) := elab_form false initial_context leak gen0.
Definition i_names : ninterp unit unit :=
  mkN (fun _ _ _ => tt) (fun s _ ds => s = "q" -> ds <> []) (fun _ _ => tt).
(** p has the number 1, q the number 2 *)
Definition i_numbers : interp :=
  mkInterp unit unit (fun _ _ _ => tt) (fun i _ ds => i = 2 -> ds <> []) (fun _ _ => tt) (fun _ => tt) (fun _ => tt)
           (fun _ _ => tt) (fun _ _ => tt).
Definition v_any (I : interp) (d : D I) (t : T I) : val I := mkVal (fun _ => d) (fun _ => d) (fun _ => t) (fun _ _ => t).

Lemma leak_wrong : exists con' f' b g',
  leak_out = EOk (con', f', b, g') /\ tab_ok gen0 /\
  scoped_form (fun _ => None) (sig_tysym initial_context) [] leak /\
  matches i_numbers i_names g' /\ defined_untyped i_names /\
  (forall env, psat i_names (sig_tysym initial_context) leak env) /\
  (forall v : val i_numbers, ~ holds f' v).
Proof.
  destruct leak_out as [[[[con' f'] b] g']| | |] eqn:E; [|vm_compute in E; discriminate E..].
  exists con', f', b, g'. vm_compute in E. injection E as _ <- _ <-.
  split; [reflexivity|]. split; [exact gen0_ok|]. split; [wk|]. split; [|split; [|split]].
  - split; [|reflexivity]. intros s i Hs. cbn in Hs.
    destruct (String.eqb_spec s "q") as [->|Hq]; [injection Hs as <-; split; [reflexivity|]; cbn; tauto|].
    destruct (String.eqb_spec s "p") as [->|Hp]; [|discriminate]. injection Hs as <-. split; [reflexivity|].
    intros ts ds. cbn. split; intros _ H; discriminate H.
  - intros s Hs. split; [reflexivity|]. intros ts ds. cbn. tauto.
  - intros env. cbn. intros d. split; [intros _ H; discriminate H | intros _ H; discriminate H].
  - intros v H. cbn in H. destruct (H tt) as (_ & Hq & _). now apply Hq.
Qed.

(** ! [X : a] : ((! [X : b] : r(X)) & X = X): the equality of the two X of type a is taken at b *)
Definition leak_eq : pform :=
  PQuant PQuantAll [("X", tyc "a")]
    (PBin PBinaryAnd (PQuant PQuantAll [("X", tyc "b")] (PPred "r" [PVar "X"])) (PPred "=" [PVar "X"; PVar "X"])).
Definition leak_eq_decls : list (string * ptype) :=
  [("a", tyc "$tType"); ("b", tyc "$tType"); ("r", PTyBin PTypeMap (tyc "b") (tyc "$o"))].
Lemma leak_eq_out : exists con' b g',
  elab_form false (initial_context ++ leak_eq_decls)%list leak_eq gen0 =
    EOk (con',
         All 4 [mkTV "X" 0 (TyConstr "a" [])]
           (And 3 [All 1 [mkTV "X" 0 (TyConstr "b" [])] (Pred 0 (mkId 1 "r") [] [Var 0 "X"]);
                   Pred 2 (mkId 2 "=") [TyConstr "b" []] [Var 0 "X"; Var 0 "X"]]), b, g').
Proof. eexists _, _, _. vm_compute. reflexivity. Qed.

Definition E_leak : env :=
  declare (declare (declare env0 "a" tType) "b" tType) "r" (TyFunc (TyConstr "b" []) (TyConstr "$o" [])).
Definition leak_form (eq_ty : string) : form :=
  All 4 [mkTV "X" 0 (TyConstr "a" [])]
    (And 3 [All 1 [mkTV "X" 0 (TyConstr "b" [])] (Pred 0 (mkId 1 "r") [] [Var 0 "X"]);
            Pred 2 (mkId 2 "=") [TyConstr eq_ty []] [Var 0 "X"; Var 0 "X"]]).
Lemma leak_intended : well_typed E_leak (leak_form "a").
Proof.
  apply wt_all, wt_and. constructor; [|constructor; [|constructor]].
  - apply wt_all. eapply wt_pred with (J := TyFunc (TyConstr "b" []) (TyConstr "$o" [])); try reflexivity; try constructor.
    + eapply ht_var; [reflexivity | apply ty_eqb_reflect; reflexivity].
    + constructor.
    + constructor.
  - eapply wt_pred with (U := scheme_eq) (J := TyFunc (TyProd [TyConstr "a" []; TyConstr "a" []]) (TyConstr "$o" []));
      [reflexivity| | | | | ].
    + refine (inst_poly ["a"] (TyFunc (TyProd [TyVar "a"; TyVar "a"]) (TyConstr "$o" [])) [TyConstr "a" []] (fun _ => TyConstr "a" []) _ _ _ _).
      * repeat constructor. intros [].
      * reflexivity.
      * repeat constructor.
      * intros x Hx. cbn in Hx |- *. tauto.
    + constructor.
    + constructor; [|constructor]. eapply it_constr; [reflexivity | constructor | constructor].
    + repeat constructor; (eapply ht_var; [reflexivity | apply ty_eqb_reflect; reflexivity]).
    + apply ty_eqb_reflect. reflexivity.
Qed.
Lemma leak_ill_typed : ~ well_typed E_leak (leak_form "b").
Proof.
  intros W. inversion W as [| | | | | | | |G i vs f Wf|]; subst.
  inversion Wf as [| | | |G i fs Wfs| | | | |]; subst. inversion Wfs as [|x l _ Wl]; subst. inversion Wl as [|x l Wp _]; subst.
  inversion Wp as [| |G i p tys args U J As o EU EI EP ET EA ER| | | | | | |]; subst. injection EU as <-.
  inversion EI as [| |vs b tys s Hnd Hs Hpl Hincl]; subst. cbn in Hs. injection Hs as Hs. cbn [tsubst map] in EP. rewrite Hs in EP.
  inversion EP; subst. inversion EA as [|x y l1 l2 HX HL]; subst.
  inversion HX as [i n T T' HT Hsame|]; subst. cbn in HT. injection HT as <-. apply ty_eqb_reflect in Hsame. discriminate Hsame.
Qed.

(** ** The typed flag is lost: p(f($i, c)) *)
Definition flag_f : pform := PPred "p" [PFun "f" [cst "$i"; cst "c"] None].
Lemma flag_lost : exists con' f' g',
  elab_form true initial_context flag_f gen0 = EOk (con', f', false, g') /\ typed_form f' = true.
Proof. eexists _, _, _. split; [vm_compute; reflexivity | reflexivity]. Qed.
(** and set: p($i, c) *)
Lemma flag_set : exists con' f' g',
  elab_form true initial_context (PPred "p" [cst "$i"; cst "c"]) gen0 = EOk (con', f', true, g') /\ typed_pred f' = true.
Proof. eexists _, _, _. split; [vm_compute; reflexivity | reflexivity]. Qed.

(** ** Declarations of an included file *)
(** The included file declares nat : $tType and q : !>[A : $tType] : A > $o.  The main file includes it and states
    ! [X : nat] : q(nat, X). *)
Definition inc_decls : list (string * ptype) :=
  [("nat", tyc "$tType");
   ("q", PTyQuant [("A", tyc "$tType")] (PTyBin PTypeMap (PTyVar "A") (tyc "$o")))].
Definition inc_main : list pstmt := [PSForm RConjecture (PQuant PQuantAll [("X", tyc "nat")] (PPred "q" [cst "nat"; PVar "X"]))].
Lemma inc_alone : exists g', to_internal_syntax true inc_main gen0 =
  EOk ([CSForm RConjecture (All 1 [mkTV "X" 0 (TyConstr "nat" [])]
          (Pred 0 (mkId 2 "q") [] [Fun (mkId 1 "nat") [] []; Var 0 "X"]))], false, g').
Proof. eexists. vm_compute. reflexivity. Qed.
Lemma inc_inlined : exists g', elab_stmts true (initial_context ++ inc_decls)%list inc_main gen0 =
  EOk ([CSForm RConjecture (All 1 [mkTV "X" 0 (TyConstr "nat" [])]
          (Pred 0 (mkId 1 "q") [TyConstr "nat" []] [Var 0 "X"]))], true, g').
Proof. eexists. vm_compute. reflexivity. Qed.
(** a file that does not use the declared names *)
Lemma inc_unrelated : forall s t, In (s, t) inc_decls -> ~ In s (flat_map pstmt_names [PSForm RAxiom w_ax]).
Proof.
  intros s t H. cbn. intros Hin.
  destruct H as [[= <- <-]|[[= <- <-]|[]]];
    repeat match goal with H : _ \/ _ |- _ => destruct H as [H|H] | H : ?a = ?b |- _ => discriminate H | H : False |- _ => destruct H end.
Qed.
