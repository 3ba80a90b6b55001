(** Derivations: a tableau is a list of branches; each step applies one modelled rule to a formula of a
    branch, in any order and on any branch (the counters and the Skolem symbols are shared), keeps any
    part of the formulas at hand, or replaces a metavariable. *)
From Coq Require Import ZArith List Bool String.
From Verif Require Import LibSet_Model Ast_Model Problem_Model Rules_Model Sem_Spec Occ_Spec Free_Spec Rules_Spec Skolem_Spec
  Ast_Proofs.
Import ListNotations.
Open Scope Z_scope.

(** formulas and metavariables of a state: inherited from the parent (mm) and its own (mc) *)
Record branch : Type := mkBr { br_forms : list fat; br_mm : mset; br_mc : mset }.
Record tab : Type := mkTab { tb_gen : gen; tb_sko : sko; tb_branches : list branch }.

(** [u] may replace a metavariable in the formulas of [b]: closed, no type variable or metavariable, its
    symbols are drawn and are not bound variables of [b] *)
Record good_term (g : gen) (k : sko_kind) (u : term) (b : branch) : Prop := {
  gt_noid : t_noid u = true;
  gt_vars : t_vars u = [];
  gt_tyvars : t_tyvars u = [];
  gt_tymetas : t_tymetas u = [];
  gt_lt : forall i, In i (t_funs u) \/ In i (t_metas u) -> i < cpt_term g;
  gt_apart : forall x y, In x (br_forms b) -> In y (f_binders (ft_form x)) -> ~ In (tv_index y) (t_funs u);
  gt_outer : k = Outer -> forall m, In (m_index m) (t_metas u) -> has (br_mm b) m \/ has (br_mc b) m }.

(** at most one occurrence of the metavariable in each argument of each atom: where the program's
    replacement is complete (C14) *)
Definition linear_in (m : meta) (f : form) : Prop := all_atom_args (fun t => mcount (m_index m) t <= 1)%nat f.

Section Steps.
Variable same : list term -> list term -> bool.
(** formulas in which a metavariable may be replaced *)
Variable may : meta -> form -> Prop.

(** replacement of [m] by [u] in a branch; a branch where [m] does not occur may be left as it is *)
Inductive inst_branch (g : gen) (k : sko_kind) (m : meta) (u : term) : branch -> branch -> Prop :=
| ib_same b : (forall x, In x (br_forms b) -> ~ In (m_index m) (f_metas (ft_form x))) -> inst_branch g k m u b b
| ib_repl b fs : good_term g k u b -> (forall x, In x (br_forms b) -> may m (ft_form x)) ->
    Forall2 (fun x y => ft_form y = replace_meta m u (ft_form x)) (br_forms b) fs ->
    inst_branch g k m u b (mkBr fs (br_mm b) (br_mc b)).

Inductive tab_step : tab -> tab -> Prop :=
| ts_alpha g s l1 b l2 x ys g' fs : In x (br_forms b) -> conjunctive (ft_form x) ->
    apply_alpha same x g = (ys, g') -> incl fs (ys ++ br_forms b) ->
    tab_step (mkTab g s (l1 ++ b :: l2)) (mkTab g' s (l1 ++ mkBr fs (br_mm b) (br_mc b) :: l2))
| ts_beta g s l1 b l2 x yss g' fss mm' : In x (br_forms b) -> disjunctive (ft_form x) ->
    apply_beta x g = (yss, g') -> Forall2 (fun ys fs => incl fs (ys ++ br_forms b)) yss fss ->
    mok mm' -> (forall n, has mm' n <-> has (br_mm b) n \/ has (br_mc b) n) ->
    tab_step (mkTab g s (l1 ++ b :: l2)) (mkTab g' s (l1 ++ map (fun fs => mkBr fs mm' Leaf) fss ++ l2))
| ts_gamma g s l1 b l2 x index y m g' fs mc' : In x (br_forms b) -> universal (ft_form x) ->
    apply_gamma x index g = Some (y, m, g') -> incl fs (y :: br_forms b) -> mok mc' ->
    (forall n, has mc' n <-> has (br_mc b) n \/ exists m', m = Some m' /\ m_index n = m_index m') ->
    tab_step (mkTab g s (l1 ++ b :: l2)) (mkTab g' s (l1 ++ mkBr fs (br_mm b) mc' :: l2))
| ts_delta g s l1 b l2 x y s' g' fs : In x (br_forms b) -> existential (ft_form x) ->
    apply_delta s x (br_mm b) (br_mc b) g = Some (y, s', g') -> incl fs (y :: br_forms b) ->
    tab_step (mkTab g s (l1 ++ b :: l2)) (mkTab g' s' (l1 ++ mkBr fs (br_mm b) (br_mc b) :: l2))
| ts_keep g s l1 b l2 fs : incl fs (br_forms b) ->
    tab_step (mkTab g s (l1 ++ b :: l2)) (mkTab g s (l1 ++ mkBr fs (br_mm b) (br_mc b) :: l2))
| ts_inst g s bs bs' m u : (forall m', u = Meta m' -> m_index m' <> m_index m) ->
    Forall2 (inst_branch g (sk_kind s) m u) bs bs' -> tab_step (mkTab g s bs) (mkTab g s bs').

Inductive tab_steps : tab -> tab -> Prop :=
| tss_refl t : tab_steps t t
| tss_step t t1 t2 : tab_step t t1 -> tab_steps t1 t2 -> tab_steps t t2.
End Steps.

(** The tableau the search starts from. *)
Definition start (g : gen) (k : sko_kind) (f : form) : tab :=
  mkTab g (mkSko k 0 []) [mkBr [mkFat f []] Leaf Leaf].

(** It is closed, its indices are drawn, and it does not quantify on types. *)
Definition wf_start (g : gen) (f : form) : Prop := wff g f /\ f_metas f = [] /\ f_tymetas f = [] /\ no_ty_binders f.

(** [s] closes the branch: bottom, negated top, two complementary literals, or a disequality of two
    identical terms ([eqi] is the index of the symbol "="). *)
Inductive closes (eqi : Z) (s : list (meta * term)) (b : branch) : Prop :=
| cl_bot i ts : In (mkFat (Bot i) ts) (br_forms b) -> closes eqi s b
| cl_top i j ts : In (mkFat (Not i (Top j)) ts) (br_forms b) -> closes eqi s b
| cl_pair i p tys args ts i' j' p' tys' args' ts' :
    In (mkFat (Pred i p tys args) ts) (br_forms b) -> In (mkFat (Not i' (Pred j' p' tys' args')) ts') (br_forms b) ->
    id_index p = id_index p' -> Forall2 same_ty tys tys' ->
    Forall2 (fun a a' => same_term (ssubst s a) (ssubst s a')) args args' -> closes eqi s b
| cl_neq i j p tys a a' ts : In (mkFat (Not i (Pred j p tys [a; a'])) ts) (br_forms b) -> id_index p = eqi ->
    same_term (ssubst s a) (ssubst s a') -> closes eqi s b.
(** in the models considered, "=" holds between an element and itself *)
Definition eq_refl_in (eqi : Z) (I : interp) : Prop := forall ts d, pr I eqi ts [d; d].
