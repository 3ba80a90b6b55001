(** C23: Skolemization. *)
From Coq Require Import ZArith List Bool String.
From Verif Require Import LibSet_Model Ast_Model Problem_Model Rules_Model Sem_Spec Occ_Spec Free_Spec Rules_Spec Skolem_Spec
  Ast_Proofs Skolem_Proofs Skolem_Final Skolem_Witness.
Import ListNotations.
Open Scope Z_scope.

(** C23 (partial): for every run of delta rules (outer, inner or pre-inner) and every interpretation, the new
    function symbols can be interpreted so that every Skolemized formula follows from the formula it
    comes from, under every valuation; the symbols older than the run keep their meaning.
    Missing: variables of type $tType and type metavariables (both false, see below); for pre-inner
    Skolemization, formulas that quantify on types. *)
Theorem C23_skolem_partial :
  forall b0 k g s h, sko_run b0 k g s h -> forall I, exists F,
  (forall i, i < b0 -> forall ts ds, F i ts ds = fn I i ts ds) /\
  forall d y, In (d, y) h -> forall v : val (refn I F), holds d v -> holds y v.
Proof. exact sko_run_sound. Qed.
Print Assumptions C23_skolem_partial.

(** C23 (partial): the rule always applies, and its result can be used in turn. *)
Theorem C23_total_partial :
  forall b0 k g s h x mm mc, sko_run b0 k g s h -> delta_ok b0 k g mm mc (ft_form x) ->
  exists y s' g', apply_delta s x mm mc g = Some (y, s', g') /\ cpt_term g <= cpt_term g' /\ wff g' (ft_form y) /\
  f_tymetas (ft_form y) = [] /\ incl (f_binders (ft_form y)) (f_binders (ft_form x)).
Proof. exact sko_run_total. Qed.
Print Assumptions C23_total_partial.

(** ? [Y,Z] : p(X,Y,Z) can be Skolemized with each method; twice, the pre-inner one gives the same symbol. *)
Example C23_hypotheses_met : (forall k, delta_ok 22 k gS setX Leaf dS) /\
  two Outer = ([30], [31]) /\ two Inner = ([30], [31]) /\ two PreInner = ([30], [30]).
Proof. exact (conj dS_ok two_ok). Qed.

(** C23 refuted: all variables of type $tType get the same constant, so {? [A] : p(A), ? [B] : ~p(B)} loses its
    models. *)
Theorem C23_type_constant_refuted :
  forall k, exists y1 s1 g1 y2 s2 g2,
  apply_delta (mkSko k 0 []) (mkFat dA []) Leaf Leaf gS = Some (y1, s1, g1) /\
  apply_delta s1 (mkFat dB []) Leaf Leaf g1 = Some (y2, s2, g2) /\
  (exists I (v : val I), holds dA v /\ holds dB v) /\
  (forall I (v : val I), ~ (holds (ft_form y1) v /\ holds (ft_form y2) v)).
Proof. exact type_constant_shared. Qed.
Print Assumptions C23_type_constant_refuted.

(** C23 refuted: the Skolem term does not depend on the type metavariables of the formula. *)
Theorem C23_type_meta_refuted :
  forall k, exists y s g,
  apply_delta (mkSko k 0 []) (mkFat dT []) Leaf Leaf gS = Some (y, s, g) /\
  (exists I, inhabited (val I) /\ forall v : val I, holds dT v /\ holds cT v) /\
  (forall I, inhabited (val I) -> ~ forall v : val I, holds (ft_form y) v /\ holds cT v).
Proof. exact type_meta_ignored. Qed.
Print Assumptions C23_type_meta_refuted.
