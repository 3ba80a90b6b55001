(** What a proof printed in TPTP format should be (C96-C98). *)
From Coq Require Import ZArith List Bool String.
From Verif Require Import Ast_Model Sem_Spec Occ_Spec GsTerm_Spec GsProof_Model GsProof_Spec Tptp_Model.
Import ListNotations.
Open Scope list_scope.
Open Scope Z_scope.

Definition sid_eq_dec (a b : sid) : {a = b} + {a <> b}.
Proof. repeat decide equality. Defined.
Definition named (n : sid) (l : list sid) : bool := if in_dec sid_eq_dec n l then true else false.

(** ** C98: names are distinct, and a step uses only what is printed above it *)
Fixpoint ordered (seen : list sid) (ls : list line) : bool :=
  match ls with
  | [] => true
  | LAxiom n _ :: r => negb (named (SAx n) seen) && ordered (SAx n :: seen) r
  | LStep s :: r => negb (named (t_name s) seen) && forallb (fun n => named n seen) (t_prem s) && ordered (t_name s :: seen) r
  | _ :: r => ordered seen r
  end.

(** ** C96: each step is an instance of its rule *)

(** the sequents that are printed, with their names *)
Definition sq : Type := (list form * list form)%type.
Definition seqs (ls : list line) : list (sid * sq) :=
  flat_map (fun l => match l with LAxiom n f => [(SAx n, ([], [f]))] | LStep s => [(t_name s, (t_left s, t_right s))] | _ => [] end) ls.
Definition find_seq (l : list (sid * sq)) (n : sid) : option sq := option_map snd (find (fun x => if sid_eq_dec (fst x) n then true else false) l).
Fixpoint find_all (l : list (sid * sq)) (ns : list sid) : option (list sq) :=
  match ns with
  | [] => Some []
  | n :: r => match find_seq l n, find_all l r with Some q, Some qs => Some (q :: qs) | _, _ => None end
  end.

(** formulas among others, up to the indices of formulas *)
Definition within (l m : list form) : bool := forallb (fun f => mem f m) l.
(** the formulas each premise may use besides those of the conclusion: the connectives *)
Definition parts (r : string) (f : form) : option (list (list form)) :=
  match f with
  | And _ l => if String.eqb r "leftAnd" then Some [l] else None
  | Or _ l => if String.eqb r "leftOr" then Some (map (fun a => [a]) l) else None
  | Imp _ a b => if String.eqb r "leftImp2" then Some [[neg a]; [b]] else None
  | Equ _ a b => if String.eqb r "leftIff" then Some [[Imp 0 a b; Imp 0 b a]] else None
  | Not _ (Not _ a) => if String.eqb r "leftNotNot" then Some [[a]] else None
  | Not _ (And _ l) => if String.eqb r "leftNotAnd" then Some (map (fun a => [neg a]) l) else None
  | Not _ (Or _ l) => if String.eqb r "leftNotOr" then Some [map neg l] else None
  | Not _ (Imp _ a b) => if String.eqb r "leftNotImplies" then Some [[a; neg b]] else None
  | Not _ (Equ _ a b) => if String.eqb r "leftNotIff" then Some [[neg (Imp 0 a b)]; [neg (Imp 0 b a)]] else None
  | _ => None
  end.
(** the first variable may be replaced by the term: no type variable, no capture *)
Definition may_inst (v : tvar) (vs : list tvar) (b : form) (u : term) : bool :=
  negb (is_ttype (tv_ty v)) && match t_vars u, t_tyvars u with [], [] => true | _, _ => false end &&
  negb (existsb (Z.eqb (tv_index v)) (map tv_index (vs ++ f_binders b))).
Definition inst_all (v : tvar) (vs : list tvar) (b : form) (u : term) : form :=
  match vs with [] => fvinst (tv_index v) u b | _ => All 0 vs (fvinst (tv_index v) u b) end.
Definition inst_ex (v : tvar) (vs : list tvar) (b : form) (u : term) : form :=
  match vs with [] => fvinst (tv_index v) u b | _ => Ex 0 vs (fvinst (tv_index v) u b) end.
Definition quantified (r : string) (f : form) (u : term) : option form :=
  match f with
  | All _ (v :: vs) b => if String.eqb r "leftForall" && may_inst v vs b u then Some (inst_all v vs b u) else None
  | Ex _ (v :: vs) b => if String.eqb r "leftExists" && may_inst v vs b u then Some (inst_ex v vs b u) else None
  | Not _ (Ex _ (v :: vs) b) => if String.eqb r "leftNotEx" && may_inst v vs b u then Some (neg (inst_ex v vs b u)) else None
  | Not _ (All _ (v :: vs) b) => if String.eqb r "leftNotAll" && may_inst v vs b u then Some (neg (inst_all v vs b u)) else None
  | _ => None
  end.
(** a constant, new to the sequent: neither the symbol nor a symbol printed with the same name occurs *)
Fixpoint t_syms (t : term) : list ident :=
  match t with TId i => [i] | Fun p _ l => p :: flat_map t_syms l | _ => [] end.
Definition f_syms : form -> list ident := f_collect (fun _ _ args => flat_map t_syms args).
Definition new_constant_in (u : term) (fs : list form) : bool :=
  match u with
  | Fun c [] [] => forallb (fun p => negb (String.eqb (id_name p) (id_name c)) && negb (id_index p =? id_index c)) (flat_map f_syms fs)
  | _ => false
  end.
Definition is_delta_rule (r : string) : bool := String.eqb r "leftExists" || String.eqb r "leftNotAll".

(** The rules. A premise may have fewer formulas than the rule gives it. The rule leftAnd and the others take every
    component at once; congruence is used only between two formulas one of which is the negation of the other. *)
Definition rule_ok (s : tstep) (ps : list sq) : bool :=
  let l := t_left s in
  let r := t_right s in
  let premise extra (p : sq) := within (fst p) (extra ++ l) && within (snd p) r in
  match t_pos s with
  | None =>
    match ps with [] => String.eqb (t_rule s) "congruence" && existsb (fun f => mem (neg f) l) l | _ => false end
  | Some i =>
    if String.eqb (t_rule s) "cut" then
      match ps with
      | [p; q] =>
        match nth_error (snd p) i with
        | Some a => within (fst p) l && within (snd p) (a :: r) && within (fst q) (a :: l) && within (snd q) r
        | None => false
        end
      | _ => false
      end
    else if String.eqb (t_rule s) "rightNot" then
      match nth_error r i, ps with Some (Not _ a), [p] => premise [a] p | _, _ => false end
    else
      match nth_error l i with
      | None => false
      | Some f =>
        if String.eqb (t_rule s) "hyp" then match ps with [] => mem f r | _ => false end
        else if String.eqb (t_rule s) "leftHyp" then match ps with [] => mem (neg f) l | _ => false end
        else if String.eqb (t_rule s) "leftWeaken" then
          match ps with [p] => within (fst p) (remove_at i l) && within (snd p) r | _ => false end
        else
          match t_term s with
          | Some u =>
            match quantified (t_rule s) f u, ps with
            | Some g, [p] => premise [g] p && (negb (is_delta_rule (t_rule s)) || new_constant_in u (l ++ r))
            | _, _ => false
            end
          | None =>
            match parts (t_rule s) f with
            | Some cs => Nat.eqb (List.length cs) (List.length ps) && forallb (fun x => premise (fst x) (snd x)) (combine cs ps)
            | None => false
            end
          end
      end
  end.
Definition axioms_of (ls : list line) : list form := flat_map (fun l => match l with LAxiom _ f => [f] | _ => [] end) ls.
(** the new constants do not occur in the axioms either *)
Definition new_to (s : tstep) (axioms : list form) : bool :=
  negb (is_delta_rule (t_rule s)) || match t_term s with Some u => new_constant_in u axioms | None => false end.
Definition step_ok (ls : list line) (s : tstep) : bool :=
  match find_all (seqs ls) (t_prem s) with Some ps => rule_ok s ps && new_to s (axioms_of ls) | None => false end.
(** a derivation *)
Definition derivation (ls : list line) : bool :=
  ordered [] ls && forallb (fun l => match l with LStep s => step_ok ls s | LText _ => false | _ => true end) ls.
(** the conjecture is declared, and the last step derives it from nothing *)
Definition concludes (ls : list line) (c : form) : Prop :=
  (exists l r, ls = l ++ LConj c :: r) /\ exists l s, ls = l ++ [LStep s] /\ t_left s = [] /\ t_right s = [c].

(** ** The proofs that are printed well *)

(** [u] is the only term with its head symbol in [t], and is there at most once *)
Inductive once (u : term) : term -> Prop :=
| O_none t : ~ In (term_index u) (t_funs t) -> once u t
| O_here : once u u
| O_arg p tys l a r : id_index p <> term_index u -> ~ In (term_index u) (flat_map t_funs l) -> ~ In (term_index u) (flat_map t_funs r) ->
    once u a -> once u (Fun p tys (l ++ a :: r)).
(** something holds of every sequent of a proof *)
Inductive every (P : sequent -> Prop) : sequent -> Prop :=
| Every s : P s -> Forall (every P) (s_kids s) -> every P s.
Definition terms_ok (u : term) (k : sequent) : Prop := every (fun s => forall t, s_term s = Some t -> once u t) k.

Section Ok.
(** the Skolem symbols *)
Variable sk : Z -> Prop.
(** the formula can be instantiated with the term without capture *)
Definition clean (v : tvar) (b : form) (rest : list tvar) : Prop :=
  is_ttype (tv_ty v) = false /\ ~ In (tv_index v) (map tv_index (rest ++ f_binders b)).
Definition rest_vars (f : form) : list tvar :=
  match f with All _ vs _ | Ex _ vs _ | Not _ (All _ vs _) | Not _ (Ex _ vs _) => tl vs | _ => [] end.
Definition positive (f : form) : Prop := match f with Not _ _ => False | _ => True end.

(** [ok I G s]: the sequent [s] is a closed derivation from [G], without weakening, by the rules below; [I] are the Skolem
    symbols introduced above. *)
Inductive ok : list Z -> list form -> sequent -> Prop :=
| K_close I G s f : s_rule s = AX -> target s f -> available G f ->
    (positive f /\ available G (neg f) \/ exists i a, f = Not i a /\ available G a) -> s_kids s = [] -> ok I G s
| K_alpha I G s f l fs k : target s f -> available G f -> alpha_of (s_rule s) f l -> s_forms s = [fs] -> among fs l -> s_kids s = [k] ->
    ok I (G ++ fs) k -> ok I G s
| K_gamma I G s f v b u r k : target s f -> available G f -> gamma_by (s_rule s) f v b u r -> clean v b (rest_vars f) ->
    t_vars u = [] -> t_tyvars u = [] -> (forall p tys l, u = Fun p tys l -> sk (id_index p) -> In (id_index p) I) ->
    (s_term s = Some u \/ s_term s = None /\ ~ In (tv_index v) (f_vars b)) -> s_forms s = [[r]] -> s_kids s = [k] -> ok I (G ++ [r]) k -> ok I G s
| K_delta I G s f v b p tys args r k : target s f -> available G f -> delta_by (s_rule s) f v b (Fun p tys args) r -> clean v b (rest_vars f) ->
    sk (id_index p) -> ~ In (id_index p) I -> ~ In (id_index p) (flat_map f_funs G) ->
    s_term s = Some (Fun p tys args) -> s_forms s = [[r]] -> s_kids s = [k] -> terms_ok (Fun p tys args) k ->
    ok (id_index p :: I) (G ++ [r]) k -> ok I G s
| K_beta I G s f ls : target s f -> available G f -> beta_of (s_rule s) f ls ->
    (forall i a b, f = Equ i a b -> positive a /\ positive b) -> Forall2 among (s_forms s) ls ->
    Forall2 (fun fs k => ok I (G ++ fs) k) (s_forms s) (s_kids s) -> ok I G s.
End Ok.

(** the symbols of a proof: no identifier in the place of a term, no variable with the number of a Skolem symbol, and
    every function symbol is in [good] *)
Section Wf.
Variable sk : Z -> Prop.
Variable good : ident -> Prop.
Definition wf_form (f : form) : Prop :=
  f_noid f /\ (forall i, In i (f_vars f) -> ~ sk i) /\ forall p, In p (f_syms f) -> good p.
Definition wf_term (t : term) : Prop :=
  t_noid t = true /\ (forall i, In i (t_vars t) -> ~ sk i) /\ forall p, In p (t_syms t) -> good p.
Definition wf_seq (s : sequent) : Prop :=
  every (fun s => s_hyps s <> [] /\ (forall f, target s f -> wf_form f) /\ Forall (Forall wf_form) (s_forms s) /\ forall t, s_term s = Some t -> wf_term t) s.
End Wf.
(** the symbols present before printing: below the counter, and not named like the constants that printing creates *)
Definition old_symbol (prefix : string) (n : Z) (p : ident) : Prop :=
  id_index p < n /\ forall k, 0 <= k -> id_name p <> (prefix ++ dec k)%string.

(** the root: the negated conjecture, or the conjunction of the axioms and of the negated conjecture, which is decomposed first; [k] is
    the sequent that is printed *)
Inductive started : sequent -> list form -> form -> sequent -> Prop :=
| St_goal s i c : target s (Not i c) -> started s [] c s
| St_axioms s j axs i c k : axs <> [] -> s_rule s = AND -> target s (And j (axs ++ [Not i c])) -> s_kids s = [k] -> started s axs c k.
(** the depth of a tree *)
Fixpoint seq_depth (s : sequent) : nat := let '(Seq _ _ _ _ _ _ ks _ _) := s in S (list_max (map seq_depth ks)).

(** ** C98: the trees of sequents that have a step for each sequent *)
Definition plain_node (s : sequent) : Prop :=
  s_hyps s <> [] /\ match s_rule s with
    | AX => s_kids s = [] | W => s_term s = None /\ List.length (s_kids s) = 1%nat | R | NOT | REWRITE => False | _ => True end.
Definition plain (s : sequent) : Prop := every plain_node s.
