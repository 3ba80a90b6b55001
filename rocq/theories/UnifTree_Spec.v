(** What the index should contain, and what a query should answer. *)
From Coq Require Import ZArith List Bool String Permutation.
From Verif Require Import Ast_Model Occ_Spec Sem_Spec Unif_Model UnifTree_Model.
Import ListNotations.
Open Scope list_scope.
Open Scope Z_scope.

(** The same formula: same symbols, types and terms, whatever the index of the formula and the names *)
Inductive same_item : item -> item -> Prop :=
| same_pred ix1 ix2 p1 p2 t1 t2 l1 l2 : id_index p1 = id_index p2 -> Forall2 same_ty t1 t2 -> Forall2 same_term l1 l2 ->
    same_item (IPred ix1 p1 t1 l1) (IPred ix2 p2 t2 l2)
| same_iterm ix1 ix2 t1 t2 : same_term t1 t2 -> same_item (ITerm ix1 t1) (ITerm ix2 t2).

(** [f] is reached by following the instructions [path] from the root *)
Inductive stored : node -> list instr -> item -> Prop :=
| stored_here v cs fs f : In f fs -> stored (Node v cs fs) v f
| stored_below v cs fs c path f : In c cs -> stored c path f -> stored (Node v cs fs) (v ++ path) f.

(** Instructions that do the same *)
Definition same_instr (i j : instr) : Prop :=
  match i, j with
  | Check p, Check q => id_index p = id_index q /\ id_name p = id_name q
  | _, _ => i = j
  end.

(** The answer for one formula, without index: run its own instructions. *)
Definition direct (name_id : string -> ident) (add : term -> term -> substs -> out substs)
    (comp : list (nat * term) -> list meta -> substs -> out substs) (q f : item) (s : substs) : Prop :=
  exists t is mt m, query_term name_id q = Some t /\ parse_item name_id f = Some is /\ item_metas name_id f = Some mt /\
    exec_all add is (make_machine [t] []) = Ok m /\ comp (mc_subst m) mt (mc_meta m) = Ok s /\ is_failure s = false.
