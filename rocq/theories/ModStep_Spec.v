(** Vocabulary of C132-C135: what a branch holds and what a rewriting step should do to it. *)
From Coq Require Import ZArith List Bool.
From Verif Require Import Ast_Model Sem_Spec Rules_Model Rules_Spec Unif_Model Dmt_Model ModStep_Model.
Import ListNotations.

(** every formula of the branch *)
Definition formulas (q : queues) : list fat := q_lf q ++ q_atomic q ++ q_alpha q ++ q_beta q ++ q_delta q ++ q_gamma q.
Definition literal (f : form) : Prop := match f with Pred _ _ _ _ | Top _ | Bot _ | Not _ (Pred _ _ _ _ | Top _ | Bot _) => True | _ => False end.
(** the branch without its new formulas *)
Definition old (q : queues) : list fat := q_atomic q ++ q_alpha q ++ q_beta q ++ q_delta q ++ q_gamma q.
Definition same_old (q q' : queues) : Prop :=
  q_atomic q = q_atomic q' /\ q_alpha q = q_alpha q' /\ q_beta q = q_beta q' /\ q_delta q = q_delta q' /\ q_gamma q = q_gamma q'.
(** the rules rewrite the formula *)
Definition rewritable (rw : form -> out (list candidate)) (f : form) : Prop :=
  exists ix s c cs, rw f = Ok ((ix, (s, c)) :: cs) /\ is_failure s = false.
Definition not_rewritable (rw : form -> out (list candidate)) (f : form) : Prop :=
  exists ix s c cs, rw f = Ok ((ix, (s, c)) :: cs) /\ is_failure s = true.
(** [x] is in the list, up to the equality of the code *)
Definition present (same : list term -> list term -> bool) (x : fat) (l : list fat) : Prop := exists y, In y l /\ fat_eqb same x y = true.
(** the call the code makes for a candidate: the other new literals, then the candidate *)
Definition launched (q : queues) (after : list fat) (f : fat) (c : candidate) (l : launch) : Prop :=
  q_lf (la_q l) = after ++ [mkFat (snd (snd c)) (ft_terms f)] /\ same_old (la_q l) q /\ fst (la_msg l) = fst (snd c).
