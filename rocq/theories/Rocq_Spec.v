(** What Rocq does with the scripts that are printed (C99, C100), and the proofs that are printed well. *)
From Coq Require Import ZArith List Bool String.
From Verif Require Import Ast_Model Sem_Spec Occ_Spec GsTerm_Spec GsProof_Model GsProof_Spec Tptp_Model Tptp_Spec Rocq_Model.
Import ListNotations.
Open Scope list_scope.
Open Scope Z_scope.

(** ** The proof assistant

    A goal: the hypotheses with their numbers, the local constants, the number of the next local constant, the conclusion.
    A formula stands for the proposition it is printed as; [Bot] is False. A conjunction of three formulas or more is read as
    A /\ (B /\ C), and so are disjunctions. *)
Record goal : Type := mkGoal { g_hyps : list (nat * form); g_vars : list ident; g_next : Z; g_concl : form }.
Definition hyp (g : goal) (n : nat) : option form := option_map snd (find (fun x => Nat.eqb (fst x) n) (g_hyps g)).
Definition is_false (f : form) : bool := match f with Bot _ => true | _ => false end.

Definition as_and (f : form) : option (form * form) :=
  match f with And _ [a; b] => Some (a, b) | And _ (a :: b :: c :: r) => Some (a, And 0 (b :: c :: r)) | _ => None end.
Definition as_or (f : form) : option (form * form) :=
  match f with Or _ [a; b] => Some (a, b) | Or _ (a :: b :: c :: r) => Some (a, Or 0 (b :: c :: r)) | _ => None end.
(** the lemmas of the preamble (context.go:181-249), applied to a hypothesis *)
Definition alpha_lemma (lemma : string) (f : form) : option (list form) :=
  if String.eqb lemma "" then match f with Not _ (Not _ a) => Some [a] | _ => None end
  else if String.eqb lemma "goeland_and_s" then match as_and f with Some (a, b) => Some [a; b] | None => None end
  else if String.eqb lemma "goeland_notor_s" then
    match f with Not _ g => match as_or g with Some (a, b) => Some [neg a; neg b] | None => None end | _ => None end
  else if String.eqb lemma "goeland_notimply_s" then match f with Not _ (Imp _ a b) => Some [a; neg b] | _ => None end
  else None.
Definition beta_lemma (lemma : string) (f : form) : option (list (list form)) :=
  if String.eqb lemma "goeland_or_s" then match as_or f with Some (a, b) => Some [[a]; [b]] | None => None end
  else if String.eqb lemma "goeland_notand_s" then
    match f with Not _ g => match as_and g with Some (a, b) => Some [[neg a]; [neg b]] | None => None end | _ => None end
  else if String.eqb lemma "goeland_imply_s" then match f with Imp _ a b => Some [[neg a]; [b]] | _ => None end
  else if String.eqb lemma "goeland_equiv_s" then match f with Equ _ a b => Some [[neg a; neg b]; [a; b]] | _ => None end
  else if String.eqb lemma "goeland_notequiv_s" then match f with Not _ (Equ _ a b) => Some [[neg a; b]; [a; neg b]] | _ => None end
  else None.
(** new hypotheses, with names that are not used *)
Definition push (n : nat) (f : form) (g : goal) : goal := mkGoal ((n, f) :: g_hyps g) (g_vars g) (g_next g) (g_concl g).
Fixpoint intro_all (ns : list nat) (fs : list form) (g : goal) : option goal :=
  match ns, fs with
  | [], [] => Some g
  | n :: ns, f :: fs => match hyp g n with None => intro_all ns fs (push n f g) | Some _ => None end
  | _, _ => None
  end.
Fixpoint branches (nss : list (list nat)) (ls : list (list form)) (g : goal) : option (list goal) :=
  match nss, ls with
  | [], [] => Some []
  | ns :: nss, fs :: ls => match intro_all ns fs g, branches nss ls g with Some a, Some r => Some (a :: r) | _, _ => None end
  | _, _ => None
  end.
(** intros on an implication or a negation *)
Fixpoint intros (ns : list nat) (g : goal) : option goal :=
  match ns with
  | [] => Some g
  | n :: ns =>
    match hyp g n, g_concl g with
    | None, Imp _ a b => intros ns (mkGoal ((n, a) :: g_hyps g) (g_vars g) (g_next g) b)
    | None, Not _ a => intros ns (mkGoal ((n, a) :: g_hyps g) (g_vars g) (g_next g) (Bot 0))
    | _, _ => None
    end
  end.
(** two opposite hypotheses, False, or not True: auto concludes. It may conclude elsewhere. *)
Definition auto_closes (l : list form) : bool :=
  existsb (fun f => match f with Bot _ | Not _ (Top _) => true | _ => mem (neg f) l end) l.

Section Machine.
(** congruence concludes from these hypotheses *)
Variable cong : list form -> bool.
(** the symbols declared, with their numbers of arguments *)
Variable globals : list (ident * nat).

(** a name is that of the local constant, if there is one, or else of the global symbol *)
Fixpoint resolve (vars : list ident) (t : pterm) : option term :=
  let '(PT s l) := t in
  match find (fun c => String.eqb (id_name c) s) vars with
  | Some c => match l with [] => Some (Fun c [] []) | _ => None end
  | None =>
    match find (fun x => String.eqb (id_name (fst x)) s) globals with
    | Some (p, n) =>
      if Nat.eqb (List.length l) n then
        match (fix go (l : list pterm) : option (list term) :=
                 match l with
                 | [] => Some []
                 | a :: r => match resolve vars a, go r with Some a, Some r => Some (a :: r) | _, _ => None end
                 end) l with
        | Some l => Some (Fun p [] l)
        | None => None
        end
      else None
    | None => None
    end
  end.
Definition with_var (x : string) (g : goal) : goal :=
  mkGoal (g_hyps g) (mkId (g_next g) x :: g_vars g) (g_next g + 1) (g_concl g).
Definition named (x : string) (c : ident) : bool := String.eqb (id_name c) x.
Definition uses (c : ident) (f : form) : bool := existsb (fun p => id_index p =? id_index c) (f_syms f).
Definition one (g : option goal) : option (list goal) := match g with Some g => Some [g] | None => None end.
(** a step on a goal whose conclusion is False *)
Definition exec_false (t : tactic) (g : goal) : option (list goal) :=
  match t with
  | TAlpha lemma h ns =>
    match hyp g h with
    | Some f => match alpha_lemma lemma f with Some l => one (intro_all ns l g) | None => None end
    | None => None
    end
  | TBeta lemma h nss =>
    match hyp g h with
    | Some f => match beta_lemma lemma f with Some ls => branches nss ls g | None => None end
    | None => None
    end
  | TNotAll h x ns | TElim h x ns =>
    match hyp g h with
    | Some f =>
      if existsb (named x) (g_vars g) then None
      else match quantified (match t with TElim _ _ _ => "leftExists" | _ => "leftNotAll" end) f (Fun (mkId (g_next g) x) [] []) with
           | Some r => one (intro_all ns [r] (with_var x g))
           | None => None
           end
    | None => None
    end
  | TGeneralize h u ns | TNotEx h u ns =>
    match hyp g h, resolve (g_vars g) u with
    | Some f, Some u =>
      match quantified (match t with TGeneralize _ _ _ => "leftForall" | _ => "leftNotEx" end) f u with
      | Some r => one (intro_all ns [r] g)
      | None => None
      end
    | _, _ => None
    end
  | TAuto => if auto_closes (map snd (g_hyps g)) then Some [] else None
  | TCongruence => if cong (map snd (g_hyps g)) then Some [] else None
  | TClear h =>
    match hyp g h with
    | Some _ => Some [mkGoal (filter (fun x => negb (Nat.eqb (fst x) h)) (g_hyps g)) (g_vars g) (g_next g) (g_concl g)]
    | None => None
    end
  | TClearVar x =>
    match find (named x) (g_vars g) with
    | Some c =>
      if existsb (fun y => uses c (snd y)) (g_hyps g) then None
      else Some [mkGoal (g_hyps g) (filter (fun c => negb (named x c)) (g_vars g)) (g_next g) (g_concl g)]
    | None => None
    end
  | _ => None
  end%string.
Definition exec (t : tactic) (g : goal) : option (list goal) :=
  match t with
  | TIntros ns => one (intros ns g)
  | _ => if is_false (g_concl g) then exec_false t g else None
  end.
(** each step is applied to the first goal *)
Fixpoint run (ts : list tactic) (gs : list goal) : option (list goal) :=
  match ts with
  | [] => Some gs
  | TNothing :: ts => run ts gs
  | t :: ts => match gs with [] => None | g :: gs => match exec t g with Some new => run ts (new ++ gs) | None => None end end
  end.
(** the script is accepted as a proof of the statement; local constants are numbered from [base] *)
Definition accepted (base : Z) (st : form) (ts : list tactic) : Prop := run ts [mkGoal [] [] base st] = Some [].
End Machine.

(** interpretations where the equality is the equality *)
Definition real_eq (id_eq : Z) (I : interp) : Prop := forall tys a b, pr I id_eq tys [a; b] <-> a = b.
(** every symbol is numbered below [base] *)
Definition below (base : Z) (f : form) : Prop := forall p, In p (f_syms f) -> id_index p < base.

(** ** The proofs that are printed well *)
Definition sko_name (s : string) : Prop := exists a b, s = (a ++ "sko" ++ b)%string.
Section Ok.
Variable globals : list (ident * nat).
Variable base : Z.
(** the Skolem terms are those created above, the other symbols are declared *)
Inductive printable (C : list term) : term -> Prop :=
| Pr_sko p tys l tys' l' : sko_name (id_name p) -> In (Fun p tys' l') C -> term_eqb (Fun p tys' l') (Fun p tys l) = true -> printable C (Fun p tys l)
| Pr_fun p l : ~ sko_name (id_name p) -> In (p, List.length l) globals -> Forall (printable C) l -> printable C (Fun p [] l).
Definition head_name (t : term) : string := match t with Fun p _ _ => id_name p | _ => "" end.
Definition head_index (t : term) : Z := match t with Fun p _ _ => id_index p | _ => 0 end.
(** a closed branch: $false, a negated $true, or opposite hypotheses *)
Definition closed_on (hyps : list form) (f : form) : Prop :=
  (exists i, f = Bot i) \/ (exists i j, f = Not i (Top j)) \/ available hyps (neg f) \/ exists i a, f = Not i a /\ available hyps a.
Inductive ok : list term -> list form -> sequent -> Prop :=
| K_empty C hyps s k : s_hyps s = [] -> s_kids s = [k] -> ok C hyps k -> ok C hyps s
| K_close C hyps s f : s_rule s = AX -> target s f -> available hyps f -> closed_on hyps f -> s_kids s = [] -> ok C hyps s
| K_alpha C hyps s f l fs k : target s f -> available hyps f -> alpha_of (s_rule s) f l -> (s_rule s = NNOT \/ List.length l = 2%nat) ->
    s_forms s = [fs] -> Forall2 same l fs -> s_kids s = [k] -> ok C (hyps ++ fs) k -> ok C hyps s
| K_beta C hyps s f ls : target s f -> available hyps f -> beta_of (s_rule s) f ls -> List.length ls = 2%nat ->
    Forall2 (Forall2 same) ls (s_forms s) -> Forall2 (fun fs k => ok C (hyps ++ fs) k) (s_forms s) (s_kids s) -> ok C hyps s
| K_gamma C hyps s f v b u r k : target s f -> available hyps f -> gamma_by (s_rule s) f v b u r -> clean v b (rest_vars f) ->
    (s_term s = Some u /\ printable C u \/ s_term s = None /\ ~ In (tv_index v) (f_vars b)) ->
    s_forms s = [[r]] -> s_kids s = [k] -> ok C (hyps ++ [r]) k -> ok C hyps s
| K_delta C hyps s f v b p tys args r k : target s f -> available hyps f -> delta_by (s_rule s) f v b (Fun p tys args) r -> clean v b (rest_vars f) ->
    sko_name (id_name p) -> id_index p < base -> ~ In (id_index p) (flat_map f_funs hyps) ->
    ~ In (id_name p) (map head_name C) -> ~ In (id_index p) (map head_index C) -> ~ In (id_name p) (map (fun x => id_name (fst x)) globals) ->
    ~ In (id_index p) (map (fun x => id_index (fst x)) globals) ->
    s_term s = Some (Fun p tys args) -> s_forms s = [[r]] -> s_kids s = [k] -> ok (Fun p tys args :: C) (hyps ++ [r]) k -> ok C hyps s
| K_vacuous C hyps s f v b u r k : target s f -> available hyps f -> delta_by (s_rule s) f v b u r -> clean v b (rest_vars f) ->
    ~ In (tv_index v) (f_vars b) -> s_term s = None -> s_forms s = [[r]] -> s_kids s = [k] -> ok C (hyps ++ [r]) k -> ok C hyps s
| K_weaken C hyps s f i k : s_rule s = W -> s_term s = None -> target s f -> index_of f hyps = Some i -> (forall j, f <> Top j) -> s_kids s = [k] ->
    ok C (Tptp_Model.upd i (Top 0) hyps) k -> ok C hyps s
| K_forget C1 C2 hyps s f p tys args k : s_rule s = W -> s_term s = Some (Fun p tys args) -> target s f -> available hyps f ->
    ~ In (id_index p) (flat_map f_funs hyps) -> Forall (below base) hyps -> s_kids s = [k] ->
    ok (C1 ++ C2) hyps k -> ok (C1 ++ Fun p tys args :: C2) hyps s.
End Ok.
(** the declarations: one symbol for a name, all below [base]; goeland_I is declared and no name is that of a constant without
    a Skolem term *)
Definition declared (base : Z) (globals : list (ident * nat)) : Prop :=
  NoDup (map (fun x => id_name (fst x)) globals) /\ (exists p, In (p, 0%nat) globals /\ id_name p = "goeland_I"%string) /\
  (forall p n, In (p, n) globals -> id_index p < base /\ forall k, 0 <= k -> id_name p <> ("x" ++ dec k)%string).
(** the root: the negated conjecture, or the axioms and the negated conjecture, which are decomposed first; [k] is what is printed *)
Inductive begins : sequent -> list form -> form -> sequent -> Prop :=
| Be_goal s i c : target s (Not i c) -> begins s [] c s
| Be_axioms s j axs i c k r : axs <> [] -> target s (And j (axs ++ [Not i c])) -> s_kids s = k :: r -> begins s axs c k.

(** ** The trees whose printing ends

    The target of each sequent is among the hypotheses, the formulas of each child are there, and the terms of the delta rules and
    of the weakenings are functions. *)
Definition fun_term (t : option term) : Prop := match t with None | Some (Fun _ _ _) => True | _ => False end.
Inductive shown : list form -> sequent -> Prop :=
| S_empty G s k : s_hyps s = [] -> s_kids s = [k] -> shown G k -> shown G s
| S_close G s f : s_rule s = AX -> target s f -> available G f -> s_kids s = [] -> shown G s
| S_weaken G s f G' k : s_rule s = W -> s_term s = None -> target s f -> dropped f G G' -> s_kids s = [k] -> shown G' k -> shown G s
| S_forget G s f p tys l k : s_rule s = W -> s_term s = Some (Fun p tys l) -> target s f -> available G f -> s_kids s = [k] -> shown G k -> shown G s
| S_one G s f fs k : In (s_rule s) [NNOT; AND; NOR; NIMP; ALL; NEX] -> target s f -> available G f -> s_forms s = [fs] -> s_kids s = [k] -> shown (G ++ fs) k -> shown G s
| S_delta G s f fs k : In (s_rule s) [NALL; EX] -> fun_term (s_term s) -> target s f -> available G f -> s_forms s = [fs] -> s_kids s = [k] -> shown (G ++ fs) k -> shown G s
| S_beta G s f : In (s_rule s) [OR; NAND; IMP; EQU; NEQU] -> target s f -> available G f -> Forall2 (fun fs k => shown (G ++ fs) k) (s_forms s) (s_kids s) -> shown G s.
(** the terms of the delta rules are functions and no term is weakened *)
Definition plain_terms (s : sequent) : Prop := match s_rule s with W => s_term s = None | NALL | EX => fun_term (s_term s) | _ => True end.

(** ** The declarations (C102) *)

(** the symbols of a formula: the name, whether it is a predicate, the number of arguments *)
Fixpoint t_uses (t : term) : list (string * bool * nat) :=
  match t with Fun p _ l => (id_name p, false, List.length l) :: flat_map t_uses l | _ => [] end.
Definition f_uses (id_eq : Z) : form -> list (string * bool * nat) :=
  f_collect (fun p _ args => (if id_index p =? id_eq then [] else [(id_name p, true, List.length args)]) ++ flat_map t_uses args).
(** n individuals to [out] *)
Definition arrow (n : nat) (out : ty) : ty := if Nat.eqb n 0 then out else TyFunc (TyProd (repeat (TyConstr "$i" []) n)) out.
Definition type_of_use (env : string -> option ty) (u : string * bool * nat) : ty :=
  let '(s, p, n) := u in match env s with Some t => t | None => arrow n (TyConstr (if p then "$o" else "$i") []) end.
(** the types of a declaration are known: the universe, Prop, Type, and the names declared before *)
Fixpoint type_ok (known : list string) (t : ty) : Prop :=
  match t with
  | TyVar _ | TyBound _ _ => True
  | TyMeta _ _ _ => False
  | TyConstr s l => In s (["$i"; "$o"; "$tType"]%string ++ known) /\ (fix all (l : list ty) : Prop := match l with [] => True | a :: r => type_ok known a /\ all r end) l
  | TyProd l => (fix all (l : list ty) : Prop := match l with [] => True | a :: r => type_ok known a /\ all r end) l
  | TyFunc a b => type_ok known a /\ type_ok known b
  | TyPi _ b => type_ok known b
  end.
(** Rocq accepts the declarations: each name is new and each type is known *)
Fixpoint decls_ok (known : list string) (l : list (string * ty)) : Prop :=
  match l with [] => True | (s, t) :: r => ~ In s known /\ type_ok known t /\ decls_ok (s :: known) r end.
