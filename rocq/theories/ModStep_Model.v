(** Model of the rewriting of literals inside the search: src/Search/destructive.go (the part of ProofSearch
    that sorts the new literals, getAtomicsForDMT, manageRewriteRules, tryRewrite) and
    src/Search/child_management.go (manageBacktrackForDMT).

    Simplifications: the answer of dmt.Rewrite is the parameter [rw] (Dmt_Model.v models it; the theorems
    that need more than a function use that model); each candidate carries one formula (the code only
    builds such candidates, rewrite.go:133-146 and 124-131); the channels, the node numbers and the goroutines
    are left out, as is the search of contradictions; of the proof only the step of the node is kept.
    The states passed by value and the copies (state.go:385-442) are the values of Coq. *)
From Coq Require Import ZArith List Bool.
From Verif Require Import Ast_Model Rules_Model Expand_Model Unif_Model Dmt_Model.
Import ListNotations.
Open Scope Z_scope.

(** Core/subst_and_form.go:49-53: a substitution with formulas; 67-69 IsEmpty *)
Definition message : Type := (substs * list form)%type.
Definition msg_empty (m : message) : bool := match m with ([], []) => true | _ => false end.

(** destructive.go:418-433 getAtomicsForDMT: the literals to be rewritten and the others. [post]: the step
    after a fruitless attempt; [loaded]: the plugin is loaded; [bt]: the flag bt_on_formulas of the state *)
Definition atomics_for_dmt (post loaded bt : bool) (m : message) (l : list fat) : list fat * list fat :=
  if post then ([], l) else if loaded && negb (bt && negb (msg_empty m)) then (l, []) else ([], l).

(** A call of ProofSearch: its queues, with the new formulas in [q_lf] (the substitution of the message not
    yet applied to them), the flag, the message *)
Record launch : Type := mkLaunch { la_q : queues; la_bt : bool; la_msg : message }.
(** The step of the proof recorded at the node: SetCurrentProofFormula, SetCurrentProofResultFormulas,
    SetCurrentProofIdDMT *)
Record rstep : Type := mkRs { rs_formula : fat; rs_result : fat; rs_id : Z }.
(** A candidate with the terms of the rewritten literal: Core/int_subst_and_form_and_terms.go:39-42 *)
Definition cand : Type := (Z * (substs * fat))%type.
(** A node that waits for its child: child_management.go:46-60 (st, formsBT) *)
Record waiting : Type := mkWait { wa_q : queues; wa_bt : bool; wa_left : list cand; wa_step : rstep }.

(** What manageRewriteRules does: an empty step with the state (line 987), or a child and the node that waits *)
Inductive attempt : Type :=
| EmptyStep (q : queues)
| Rewriting (child : launch) (w : waiting).

Section Mod.
Variable same : list term -> list term -> bool.
Variable rw : form -> out (list candidate).

(** destructive.go:326-345, 353 and 371-373: the new formulas of [q_lf]; the literals not to be rewritten are
    dispatched. [None]: an obvious contradiction *)
Definition sort_new (post loaded bt : bool) (m : message) (q : queues) : option (queues * list fat) :=
  match receive_loop same (q_lf q) q [] with
  | None => None
  | Some (q', atoms) =>
    let '(dmt, others) := atomics_for_dmt post loaded bt m atoms in
    Some (fold_left (fun q x => dispatch same x q) others q', dmt)
  end.

(** destructive.go:1000-1007: the candidates with the terms of the literal *)
Definition with_terms (f : fat) (c : candidate) : cand := (fst c, (fst (snd c), mkFat (snd (snd c)) (ft_terms f))).

(** destructive.go:1029-1031 and Core/subst_and_form_and_terms.go:75-81 ToSubstAndForm *)
Definition first_message (s : substs) (c : fat) : message := match s with [] => ([], []) | _ => (s, [ft_form c]) end.
Definition next_message (s : substs) (c : fat) : message := (s, [ft_form c]).

(** destructive.go:990-1052 tryRewrite: [inl]: not rewritten, the queues with the literal put in [q_lf];
    Unif.UnifSucceeded is the comparison with the failure *)
Definition try_rewrite (cs : list candidate) (f : fat) (q : queues) (rest : list fat) : out (queues + launch * waiting) :=
  match map (with_terms f) cs with
  | [] => Crash                                                     (* 1010: index out of range *)
  | (ix, (s, c)) :: alts =>
    if is_failure s then Ok (inl (with_lf q (fl_append same (q_lf q) f)))
    else
      let q' := with_lf q (rest ++ [c]) in
      Ok (inr (mkLaunch q' false (first_message s c), mkWait q' true alts (mkRs f c ix)))
  end.

(** destructive.go:949-988 manageRewriteRules *)
Fixpoint manage (atoms : list fat) (q : queues) : out attempt :=
  match atoms with
  | [] => Ok (EmptyStep q)
  | f :: rest =>
    if fl_contains same (q_atomic q) f then manage rest q
    else
      do cs <- rw (ft_form f);
      do r <- try_rewrite cs f q rest;
      match r with
      | inl q' => manage rest q'
      | inr (l, w) => Ok (Rewriting l w)
      end
  end.

(** child_management.go:326-356 manageBacktrackForDMT, under the guard of 293. [Ok None]: nothing left to try.
    The slice of line 343 panics on an empty list. *)
Definition backtrack (w : waiting) : out (option (launch * waiting)) :=
  match wa_left w with
  | [] => Ok None
  | (ix, (s, c)) :: alts =>
    if wa_bt w then
      match q_lf (wa_q w) with
      | [] => Crash
      | _ => let q := with_lf (wa_q w) (removelast (q_lf (wa_q w)) ++ [c]) in
             Ok (Some (mkLaunch q (wa_bt w) (next_message s c),
                       mkWait q (wa_bt w) alts (mkRs (rs_formula (wa_step w)) c ix)))
      end
    else Ok None
  end.

(** The children launched one after the other when each of them stays open: [n] bounds the number of them *)
Fixpoint tries (n : nat) (w : waiting) : out (list (launch * waiting)) :=
  match n with
  | O => Out
  | S n' => do r <- backtrack w;
            match r with
            | None => Ok []
            | Some (l, w') => do ls <- tries n' w'; Ok ((l, w') :: ls)
            end
  end.

(** A call of ProofSearch and of applyRules (destructive.go:1248-1250) up to the rewriting: [Ok None] when the
    rewriting is not tried, or the branch is closed *)
Definition rewrite_node (post loaded : bool) (l : launch) : out (option attempt) :=
  match sort_new post loaded (la_bt l) (la_msg l) (la_q l) with
  | None => Ok None
  | Some (_, []) => Ok None
  | Some (q, dmt) => if loaded then do a <- manage dmt q; Ok (Some a) else Ok None
  end.
End Mod.
