(** Concrete instantiations and the terms recovered from them. *)
From Coq Require Import ZArith List Bool String Lia.
From Verif Require Import Ast_Model Sem_Spec Occ_Spec Subst_Model Rules_Model LibSet_Model Unif_Model GsTerm_Model GsTerm_Spec.
Import ListNotations.
Open Scope list_scope.
Open Scope string_scope.
Open Scope Z_scope.

Definition iota : ty := TyConstr "$i" [].
Definition tx : tvar := mkTV "x" 1 iota.
Definition ty' : tvar := mkTV "y" 2 iota.
Definition X : term := Var 1 "x".
Definition Y : term := Var 2 "y".
Definition a : term := Fun (mkId 10 "a") [] [].
Definition f2 (s t : term) : term := Fun (mkId 11 "f") [] [s; t].
Definition p1 (t : term) : form := Pred 0 (mkId 12 "p") [] [t].
Definition g0 : gen := mkGen 50 50 50 [] [] [].
Definition mx : meta := mkMeta 50 0 "X" 0 iota.

(** ~ exists x y, p(f(y,x)) \/ p(x) *)
Definition body2 : form := Or 3 [p1 (f2 Y X); p1 X].
Definition nex : form := Not 1 (Ex 2 [tx; ty'] body2).
Definition nex_r : form := Not 51 (Ex 50 [ty'] (Or 3 [p1 (f2 Y (Meta mx)); p1 (Meta mx)])).
Lemma nex_rule : apply_gamma (mkFat nex []) 0 g0 = Some (mkFat nex_r [Meta mx], Some mx, mkGen 51 52 50 [] [] [("X", 1)]).
Proof. vm_compute. reflexivity. Qed.
Lemma nex_instance : gamma_instance nex tx body2 (Meta mx) nex_r.
Proof. right; right; right. exists 1, 2, 51, 50, ty', []. split; reflexivity. Qed.
Lemma nex_occurs : In (tv_index tx) (f_vars body2).
Proof. cbn. auto. Qed.
Lemma nex_funs : ~ In (tv_index tx) (f_funs body2).
Proof. cbn. intros [K|[]]; discriminate. Qed.
Lemma nex_term : gamma_term nex nex_r = Ok (Some (Meta mx)).
Proof. vm_compute. reflexivity. Qed.
(** after X := a *)
Definition sa : list mixed := [MTerm mx a].
Lemma nex_linear : stays_linear sa nex /\ stays_linear sa nex_r.
Proof.
  split; (split; [|exact Logic.I]); (split; [intros m' K; discriminate|]); repeat constructor; cbn; repeat (constructor; [cbn; lia|]); try constructor.
Qed.
Lemma nex_avoids : avoids (tv_index tx) sa.
Proof. intros m u [K|[]]. injection K as <- <-. intros []. Qed.
Lemma nex_final : gamma_term (apply_substs_on_form sa nex) (apply_substs_on_form sa nex_r) = Ok (Some a).
Proof. vm_compute. reflexivity. Qed.

(** exists x, p(x) *)
Definition ex : form := Ex 1 [tx] (p1 X).
Definition sk : term := Fun (mkId 50 "skolem@x@0") [] [].
Definition all0 : sko := mkSko Outer 0 [].
Lemma ex_rule : exists s g, apply_delta all0 (mkFat ex []) Leaf Leaf g0 = Some (mkFat (p1 sk) [], s, g).
Proof. eexists; eexists. vm_compute. reflexivity. Qed.
Lemma ex_instance : delta_instance ex tx (p1 X) sk (p1 sk).
Proof. left. exists 1. split; reflexivity. Qed.
Lemma ex_term : delta_term ex (p1 sk) = Ok (Some sk).
Proof. vm_compute. reflexivity. Qed.

(** forall x, p(f(x,x)), instantiated by X, after X := a *)
Definition allf : form := All 1 [tx] (p1 (f2 X X)).
Definition allf_r : form := p1 (f2 (Meta mx) (Meta mx)).
Lemma allf_rule : apply_gamma (mkFat allf []) 0 g0 = Some (mkFat allf_r [Meta mx], Some mx, mkGen 51 50 50 [] [] [("X", 1)]).
Proof. vm_compute. reflexivity. Qed.
Lemma allf_crash : gamma_term (apply_substs_on_form sa allf) (apply_substs_on_form sa allf_r) = Crash.
Proof. vm_compute. reflexivity. Qed.
