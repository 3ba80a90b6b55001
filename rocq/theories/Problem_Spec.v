(** What a problem means, independently of the code. *)
From Coq Require Import ZArith List Bool String.
From Verif Require Import Ast_Model Problem_Model Sem_Spec Occ_Spec Rename_Spec.
Import ListNotations.
Open Scope Z_scope.

(** The statement is compatible with a counter-model: axioms true, conjecture false. *)
Fixpoint counter {I} (v : val I) (s : stmt) : Prop :=
  match s with
  | SAxiom (Some f) => holds f v
  | SConjecture (Some f) => ~ holds f v
  | SNegConjecture (Some f) => holds f v
  | SInclude (Some (_, l)) => fold_right (fun s P => counter v s /\ P) True l
  | _ => True
  end.
Definition countermodel {I} (v : val I) (l : list stmt) : Prop :=
  fold_right (fun s P => counter v s /\ P) True l.

Definition is_conjecture (s : stmt) : bool :=
  match s with SConjecture _ | SNegConjecture _ => true | _ => false end.

(** conditions under which RenameVariables is known to be right (C16) *)
Definition good_form (g : gen) (f : form) : Prop :=
  drawn_from g f /\ sorted_use f /\ f_noid f /\
  (forall x, In x (f_binders f) -> ends_digit (tv_name x) = false).

(** every formula is good, nothing is missing, every file has at most one conjecture *)
Fixpoint good_stmt (g : gen) (s : stmt) : Prop :=
  match s with
  | SAxiom (Some f) | SConjecture (Some f) | SNegConjecture (Some f) => good_form g f
  | SType b => b = true
  | SInclude (Some (_, l)) =>
    fold_right (fun s P => good_stmt g s /\ P) True l /\ (List.length (filter is_conjecture l) <= 1)%nat
  | _ => False
  end.
Definition good_file (g : gen) (l : list stmt) : Prop :=
  fold_right (fun s P => good_stmt g s /\ P) True l /\ (List.length (filter is_conjecture l) <= 1)%nat.

(** a formula occurs in the statements (included files too) *)
Fixpoint has_form (s : stmt) : bool :=
  match s with
  | SAxiom _ | SConjecture _ | SNegConjecture _ => true
  | SInclude (Some (_, l)) => existsb has_form l
  | _ => false
  end.
Fixpoint has_conj (s : stmt) : bool :=
  match s with
  | SConjecture _ | SNegConjecture _ => true
  | SInclude (Some (_, l)) => existsb has_conj l
  | _ => false
  end.
