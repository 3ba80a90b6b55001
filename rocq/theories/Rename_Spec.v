(** Conditions on the input of RenameVariables. *)
From Coq Require Import ZArith List Bool String Ascii.
From Verif Require Import Ast_Model Sem_Spec Occ_Spec.
Import ListNotations.
Open Scope Z_scope.

(** the generator already knows a variable of that name *)
Definition known_var (g : gen) (s : string) : Prop := exists i, lookup s (idVar g) = Some i.

(** All indices and variable names of [f] were handed out by the generator, and no bound variable
    shares its index with a function symbol. *)
Definition drawn_from (g : gen) (f : form) : Prop :=
  (forall i, In i (f_vars f) -> i < cpt_term g) /\
  (forall s, In s (f_tyvars f) -> known_var g s) /\
  (forall x, In x (f_binders f) -> tv_index x < cpt_term g /\ known_var g (tv_name x) /\
                                   ~ In (tv_index x) (f_funs f)).

(** No name of the form  <bound name><number not yet drawn>  is in use, and these names
    determine the number. *)
Definition no_name_clash (g : gen) (names : list string) : Prop :=
  (forall s k, In s names -> cpt_term g <= k -> ~ known_var g (append s (dec k))) /\
  (forall s s' k k', In s names -> In s' names -> cpt_term g <= k -> cpt_term g <= k' ->
     append s (dec k) = append s' (dec k') -> k = k').

Definition is_digit (c : ascii) : bool :=
  (48 <=? Z.of_nat (nat_of_ascii c)) && (Z.of_nat (nat_of_ascii c) <=? 57).
Fixpoint ends_digit (s : string) : bool :=
  match s with
  | EmptyString => false
  | String c EmptyString => is_digit c
  | String _ r => ends_digit r
  end.

(** every variable name known to the generator is either a name without trailing digit or such a
    name followed by a number already drawn: what a run starting from such names produces *)
Definition clean (g : gen) : Prop :=
  0 <= cpt_term g /\
  forall s, known_var g s -> ends_digit s = false \/
    exists s' k, ends_digit s' = false /\ 0 <= k < cpt_term g /\ s = append s' (dec k).
