(** The lexicographic path ordering, as in the literature. *)
From Coq Require Import ZArith List Bool String.
From Verif Require Import Ast_Model Sem_Spec.
Import ListNotations.
Open Scope Z_scope.

(** Terms without their types. *)
Inductive tree : Type := V (x : Z) | N (f : ident) (l : list tree).
Fixpoint shape (t : term) : tree :=
  match t with
  | TId i => N i []
  | Var i n => N (mkId i n) []
  | Meta m => V (m_index m)
  | Fun p _ l => N p (map shape l)
  end.
Fixpoint plug (w : Z -> tree) (t : tree) : tree :=
  match t with
  | V x => w x
  | N f l => N f (map (plug w) l)
  end.

(** the order of the symbols: by name, then by index *)
Definition prec (p q : ident) : Prop :=
  String.compare (id_name p) (id_name q) = Lt \/ (id_name p = id_name q /\ id_index p < id_index q).

(** [less s t]: s is smaller than t *)
Inductive less : tree -> tree -> Prop :=
| less_arg t g l : In t l -> less t (N g l)
| less_in s t g l : In t l -> less s t -> less s (N g l)
| less_prec f g l l' : prec f g -> (forall s, In s l -> less s (N g l')) -> less (N f l) (N g l')
| less_lex f pre s t l l' : less s t -> List.length l = List.length l' ->
    (forall u, In u (pre ++ s :: l) -> less u (N f (pre ++ t :: l'))) ->
    less (N f (pre ++ s :: l)) (N f (pre ++ t :: l')).

(** terms without variables, whose symbols have a number of arguments that depends on the symbol only *)
Inductive proper (ar : ident -> nat) : term -> Prop :=
| pr_meta m : proper ar (Meta m)
| pr_fun p tys l : List.length l = ar p -> Forall (proper ar) l -> proper ar (Fun p tys l).
Inductive ground (ar : ident -> nat) : term -> Prop :=
| gr_fun p tys l : List.length l = ar p -> Forall (ground ar) l -> ground ar (Fun p tys l).
(** the symbols of a tree *)
Fixpoint symbols (t : tree) : list ident :=
  match t with
  | V _ => []
  | N f l => f :: flat_map symbols l
  end.
