(** What is expected of a solver on literals. *)
From Coq Require Import List Bool.
From Verif Require Import SatLit_Model.

Definition holds (g : nat -> bool) (ns : list (list nat)) : Prop := forall c, In c ns -> exists n, In n c /\ value g n = true.
Definition sound_on_literals (solver : list (list nat) -> option (nat -> bool)) : Prop := forall ns g, solver ns = Some g -> holds g ns.
Definition complete_on_literals (solver : list (list nat) -> option (nat -> bool)) : Prop := forall ns, solver ns = None -> forall g, ~ holds g ns.

