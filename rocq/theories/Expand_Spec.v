(** Runs of the expansion: any branch may be expanded next (one goroutine each), the counters and the
    Skolem symbols are shared. *)
From Coq Require Import ZArith List Bool.
From Verif Require Import LibSet_Model Ast_Model Problem_Model Rules_Model Rules_Spec Tableau_Spec Expand_Model.
Import ListNotations.
Open Scope Z_scope.

(** everything a state knows, as a branch of Tableau_Spec.v *)
Definition forms_of (st : state) : list fat :=
  q_lf (st_q st) ++ q_atomic (st_q st) ++ q_alpha (st_q st) ++ q_beta (st_q st) ++ q_delta (st_q st) ++
  q_gamma (st_q st) ++ map fst (st_mg st).
Definition branch_of (st : state) : branch := mkBr (forms_of st) (st_mm st) (st_mc st).

Record forest : Type := mkForest { fo_gen : gen; fo_sko : sko; fo_leaves : list state }.
Definition plant (n : Z) (g : gen) (k : sko_kind) (f : form) : forest := mkForest g (mkSko k 0 []) [first_state n f].

Section Runs.
Variable same : list term -> list term -> bool.
Inductive grow : forest -> forest -> Prop :=
| grow_expand g s l1 st l2 l s' g' : expand same st s g = Some (Expand l s' g') ->
    grow (mkForest g s (l1 ++ st :: l2)) (mkForest g' s' (l1 ++ l ++ l2)).
Inductive grows : forest -> forest -> Prop :=
| grows_refl t : grows t t
| grows_step t t1 t2 : grow t t1 -> grows t1 t2 -> grows t t2.

(** [st'] may come right after [st] on a branch *)
Definition child (st' st : state) : Prop :=
  exists s g l s' g', expand same st s g = Some (Expand l s' g') /\ In st' l.
(** what the state of a branch may be *)
Inductive reaches (st : state) : state -> Prop :=
| re_refl : reaches st st
| re_step st1 st2 : reaches st st1 -> child st2 st1 -> reaches st st2.
End Runs.

(** each quantifier binds a variable *)
Fixpoint binds (f : form) : Prop :=
  match f with
  | All _ vs g | Ex _ vs g => vs <> [] /\ binds g
  | Or _ fs | And _ fs => (fix go l := match l with [] => True | a :: r => binds a /\ go r end) fs
  | Equ _ a b | Imp _ a b => binds a /\ binds b
  | Not _ g => binds g
  | Pred _ _ _ _ | Top _ | Bot _ => True
  end.

(** a literal that is not false by itself *)
Definition quiet (x : fat) : Prop :=
  literal (ft_form x) /\ (forall i, ft_form x <> Bot i) /\ (forall i j, ft_form x <> Not i (Top j)).
