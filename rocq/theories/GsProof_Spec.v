(** What a GS3 proof is, and what the translation has to do (C73, C74, C75). *)
From Coq Require Import ZArith List Bool String.
From Verif Require Import Ast_Model Sem_Spec Occ_Spec GsTerm_Spec GsProof_Model.
Import ListNotations.
Open Scope list_scope.
Open Scope Z_scope.

(** ** The rules *)

(** equal up to the indices of the formulas *)
Definition same (f g : form) : Prop := form_eqb f g = true.
Definition neg (f : form) : form := Not 0 f.
(** an alpha formula and its components *)
Inductive alpha_of : rule -> form -> list form -> Prop :=
| A_and i l : alpha_of AND (And i l) l
| A_nor i j l : alpha_of NOR (Not i (Or j l)) (map neg l)
| A_nimp i j a b : alpha_of NIMP (Not i (Imp j a b)) [a; neg b]
| A_nnot i j a : alpha_of NNOT (Not i (Not j a)) [a].
(** a beta formula and the components of each branch *)
Inductive beta_of : rule -> form -> list (list form) -> Prop :=
| B_or i l : beta_of OR (Or i l) (map (fun a => [a]) l)
| B_nand i j l : beta_of NAND (Not i (And j l)) (map (fun a => [neg a]) l)
| B_imp i a b : beta_of IMP (Imp i a b) [[neg a]; [b]]
| B_equ i a b : beta_of EQU (Equ i a b) [[neg a; neg b]; [a; b]]
| B_nequ i j a b : beta_of NEQU (Not i (Equ j a b)) [[neg a; b]; [a; neg b]].
(** a gamma rule and a delta rule with the variable, the body of the quantified formula and the term *)
Inductive gamma_by : rule -> form -> tvar -> form -> term -> form -> Prop :=
| G_all i vs g v b u r : gamma_instance (All i vs g) v b u r -> gamma_by ALL (All i vs g) v b u r
| G_nex i j vs g v b u r : gamma_instance (Not i (Ex j vs g)) v b u r -> gamma_by NEX (Not i (Ex j vs g)) v b u r.
Inductive delta_by : rule -> form -> tvar -> form -> term -> form -> Prop :=
| D_ex i vs g v b u r : delta_instance (Ex i vs g) v b u r -> delta_by EX (Ex i vs g) v b u r
| D_nall i j vs g v b u r : delta_instance (Not i (All j vs g)) v b u r -> delta_by NALL (Not i (All j vs g)) v b u r.
(** formulas taken among the components *)
Definition among (fs l : list form) : Prop := forall f, In f fs -> exists c, In c l /\ same c f.
(** a closed branch *)
Definition clash (Gamma : list form) (f : form) : Prop :=
  (exists i, f = Bot i) \/ (exists i j, f = Not i (Top j)) \/
  exists g, In g Gamma /\ (same (neg f) g \/ same f (neg g)).

(** [u] occurs in a term, in a formula *)
Inductive in_term (u : term) : term -> Prop :=
| I_here t : term_eqb u t = true -> in_term u t
| I_arg p tys l a : In a l -> in_term u a -> in_term u (Fun p tys l).
Inductive in_form (u : term) : form -> Prop :=
| F_pred i p tys l a : In a l -> in_term u a -> in_form u (Pred i p tys l)
| F_all i vs g : in_form u g -> in_form u (All i vs g)
| F_ex i vs g : in_form u g -> in_form u (Ex i vs g)
| F_not i g : in_form u g -> in_form u (Not i g)
| F_or i l g : In g l -> in_form u g -> in_form u (Or i l)
| F_and i l g : In g l -> in_form u g -> in_form u (And i l)
| F_equ_l i a b : in_form u a -> in_form u (Equ i a b)
| F_equ_r i a b : in_form u b -> in_form u (Equ i a b)
| F_imp_l i a b : in_form u a -> in_form u (Imp i a b)
| F_imp_r i a b : in_form u b -> in_form u (Imp i a b).
Definition new_for (u : term) (Gamma : list form) : Prop := forall f, In f Gamma -> ~ in_form u f.

(** ** A closed tableau proof, as the search records it *)
Section Tab.
(** what is asked of the terms of the delta rules: the branch, the variable, the body and the term *)
Variable delta_ok : list form -> tvar -> form -> term -> Prop.
Inductive tab : list form -> list pstep -> Prop :=
| T_close Gamma p : ps_rule p = AX -> In (ps_form p) Gamma -> clash Gamma (ps_form p) -> ps_children p = [] -> tab Gamma [p]
| T_alpha Gamma p rest l fs : In (ps_form p) Gamma -> alpha_of (ps_rule p) (ps_form p) l -> ps_results p = [fs] -> among fs l ->
    tab (Gamma ++ fs) rest -> ps_children p = [] -> tab Gamma (p :: rest)
| T_gamma Gamma p rest v b u r : In (ps_form p) Gamma -> gamma_by (ps_rule p) (ps_form p) v b u r -> ps_results p = [[r]] ->
    tab (Gamma ++ [r]) rest -> ps_children p = [] -> tab Gamma (p :: rest)
| T_delta Gamma p rest v b u r : In (ps_form p) Gamma -> delta_by (ps_rule p) (ps_form p) v b u r -> ps_results p = [[r]] ->
    delta_ok Gamma v b u -> tab (Gamma ++ [r]) rest -> ps_children p = [] -> tab Gamma (p :: rest)
| T_skip Gamma p rest : ps_rule p = R -> tab Gamma rest -> ps_children p = [] -> tab Gamma (p :: rest)
| T_beta Gamma p ls : In (ps_form p) Gamma -> beta_of (ps_rule p) (ps_form p) ls -> Forall2 among (ps_results p) ls -> ls <> [] ->
    Forall2 (fun fs c => tab (Gamma ++ fs) c) (ps_results p) (ps_children p) -> tab Gamma [p].
End Tab.
(** the hypotheses at the root: the registered axioms when dmt is loaded, and the formula of the first step *)
Definition start (axioms : option (list form)) (first : pstep) : list form := match axioms with Some l => l | None => [] end ++ [ps_form first].
(** the variable occurs, and the term is new to the branch *)
Definition fresh_delta (Gamma : list form) (v : tvar) (b : form) (u : term) : Prop := In (tv_index v) (f_vars b) /\ new_for u Gamma.
(** the symbols introduced by the delta rules of a tableau proof, in any order, with the formulas they are introduced from *)
Inductive sko_of : list pstep -> ident -> form -> Prop :=
| S_here p rest v b s tys args r : delta_by (ps_rule p) (ps_form p) v b (Fun s tys args) r -> ps_results p = [[r]] -> In (tv_index v) (f_vars b) -> sko_of (p :: rest) s (ps_form p)
| S_next p rest s f : sko_of rest s f -> sko_of (p :: rest) s f
| S_child p rest c s f : In c (ps_children p) -> sko_of c s f -> sko_of (p :: rest) s f.
(** Skolem symbols are not symbols of the problem, nor of the formula they come from, and two formulas have two symbols *)
Definition skolemized (root : form) (proof : list pstep) : Prop :=
  (forall s f, sko_of proof s f -> ~ In (id_index s) (f_funs root) /\ ~ In (id_index s) (f_funs f)) /\
  forall s s' f f', sko_of proof s f -> sko_of proof s' f' -> id_index s = id_index s' -> same f f'.
(** a delta rule on a variable that does not occur introduces no term; otherwise it introduces a Skolem term *)
Definition any_delta (Gamma : list form) (v : tvar) (b : form) (u : term) : Prop := exists s tys args, u = Fun s tys args.

(** ** A GS3 proof: the sequent [s] is a closed derivation from the hypotheses [Gamma] *)
Definition target (s : sequent) (h : form) : Prop := nth_error (s_hyps s) (s_on s) = Some h.
(** the first occurrence of a hypothesis is dropped *)
Inductive dropped (h : form) : list form -> list form -> Prop :=
| Drop_here g l : same h g -> dropped h (g :: l) l
| Drop_later g l l' : ~ same h g -> dropped h l l' -> dropped h (g :: l) (g :: l').
(** a rule is applied to a formula of [Gamma], the target of the sequent, up to indices *)
Definition applies (Gamma : list form) (s : sequent) (f : form) : Prop := exists h, target s h /\ In h Gamma /\ same f h.
Inductive gs3 : list form -> sequent -> Prop :=
| P_empty Gamma s k : s_hyps s = [] -> s_kids s = [k] -> gs3 Gamma k -> gs3 Gamma s
| P_close Gamma s f : s_hyps s <> [] -> s_rule s = AX -> applies Gamma s f -> clash Gamma f -> s_kids s = [] -> gs3 Gamma s
| P_weaken Gamma s h Gamma' k : s_hyps s <> [] -> s_rule s = W -> s_term s = None -> target s h -> dropped h Gamma Gamma' -> s_kids s = [k] ->
    gs3 Gamma' k -> gs3 Gamma s
| P_forget Gamma s t k : s_hyps s <> [] -> s_rule s = W -> s_term s = Some t -> s_kids s = [k] -> gs3 Gamma k -> gs3 Gamma s
| P_alpha Gamma s f l fs k : s_hyps s <> [] -> applies Gamma s f -> alpha_of (s_rule s) f l -> s_forms s = [fs] -> among fs l -> s_kids s = [k] ->
    gs3 (Gamma ++ fs) k -> gs3 Gamma s
| P_gamma Gamma s f v b u r k : s_hyps s <> [] -> applies Gamma s f -> gamma_by (s_rule s) f v b u r ->
    (In (tv_index v) (f_vars b) -> s_term s = Some u) -> s_forms s = [[r]] -> s_kids s = [k] -> gs3 (Gamma ++ [r]) k -> gs3 Gamma s
| P_delta Gamma s f v b u r k : s_hyps s <> [] -> applies Gamma s f -> delta_by (s_rule s) f v b u r -> s_term s = Some u -> new_for u Gamma ->
    s_forms s = [[r]] -> s_kids s = [k] -> gs3 (Gamma ++ [r]) k -> gs3 Gamma s
| P_vacuous Gamma s f v b u r k : s_hyps s <> [] -> applies Gamma s f -> delta_by (s_rule s) f v b u r -> ~ In (tv_index v) (f_vars b) -> s_term s = None ->
    s_forms s = [[r]] -> s_kids s = [k] -> gs3 (Gamma ++ [r]) k -> gs3 Gamma s
| P_beta Gamma s f ls : s_hyps s <> [] -> applies Gamma s f -> beta_of (s_rule s) f ls -> Forall2 among (s_forms s) ls -> ls <> [] ->
    Forall2 (fun fs k => gs3 (Gamma ++ fs) k) (s_forms s) (s_kids s) -> gs3 Gamma s.

(** ** What every sequent of the result satisfies, reordered or not *)

(** up to indices *)
Definition available (Gamma : list form) (f : form) : Prop := exists h, In h Gamma /\ same h f.
Section All.
Variable empty_eq : form.
(** the rule instances of the tableau: the rule, the formula and the formulas generated for each branch *)
Variable inst : rule -> form -> list (list form) -> Prop.
Inductive sound : list form -> sequent -> Prop :=
| Sound Gamma s :
    (* the hypotheses come from the root or were generated by a rule above, and the rule is one of the tableau, on a hypothesis *)
    (s_hyps s <> [] ->
       (exists l, s_hyps s = l ++ [empty_eq] /\ (forall f, In f l -> available Gamma f) /\
          (is_delta (s_rule s) = true -> forall u, s_term s = Some u -> new_for u l)) /\
       (s_rule s = W /\ s_forms s = [] \/ exists f h, target s h /\ same f h /\ inst (s_rule s) f (s_forms s))) ->
    (* each premise has the hypotheses of the sequent and the formulas generated for it *)
    (forall i k, nth_error (s_kids s) i = Some k -> sound (Gamma ++ nth i (s_forms s) []) k) ->
    sound Gamma s.
End All.
(** what is read in the steps of the tableau *)
Section Good.
Variable empty_eq : form.
Variable inst : rule -> form -> list (list form) -> Prop.
(** the formula that a Skolem term is the witness of *)
Variable witness : term -> form -> Prop.
Inductive good : pstep -> Prop :=
| Good p :
    (ps_rule p = W -> ps_results p = []) ->
    (ps_rule p <> W -> ps_rule p <> R -> inst (ps_rule p) (ps_form p) (post_forms (ps_rule p) (ps_results p))) ->
    (is_delta (ps_rule p) = true -> exists r, ps_results p = [[r]] /\ forall t, GsTerm_Model.delta_term (ps_form p) r = Unif_Model.Ok (Some t) -> witness t r) ->
    (ps_children p <> [] -> (is_beta (ps_rule p) = true \/ ps_rule p = REWRITE /\ List.length (ps_children p) = 1%nat) /\ ~ same (ps_form p) empty_eq) ->
    Forall (Forall good) (ps_children p) ->
    good p.
End Good.
(** the rule instances of a tableau *)
Inductive tableau_rule : rule -> form -> list (list form) -> Prop :=
| U_close f forms : tableau_rule AX f forms
| U_alpha r f l fs : alpha_of r f l -> among fs l -> tableau_rule r f [fs]
| U_beta r f ls forms : beta_of r f ls -> Forall2 among forms ls -> tableau_rule r f forms
| U_gamma r f v b u x : gamma_by r f v b u x -> tableau_rule r f [[x]]
| U_delta r f v b u x : delta_by r f v b u x -> tableau_rule r f [[x]].
(** the terms introduced by the delta rules of a tableau proof, with the formulas they are the witnesses of *)
Inductive introduces : list pstep -> term -> form -> Prop :=
| N_here p rest v b u r : delta_by (ps_rule p) (ps_form p) v b u r -> ps_results p = [[r]] -> In (tv_index v) (f_vars b) -> introduces (p :: rest) u r
| N_next p rest u r : introduces rest u r -> introduces (p :: rest) u r
| N_child p rest c u r : In c (ps_children p) -> introduces c u r -> introduces (p :: rest) u r.
