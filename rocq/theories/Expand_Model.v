(** Model of the expansion of a branch by the destructive search: src/Search/destructive.go (ProofSearch,
    applyRules and the manage*Rules functions), src/Search/state.go (Copy, CanReintroduce),
    src/Core/meta_gen.go.

    Simplifications: no plugin is loaded (no deduction modulo, no equality reasoning), not in assisted
    mode; the search of contradictions (Closure_Model.v), the communication between the goroutines of
    the branches and the recording of the proof are left out; [None] is a crash (index out of range,
    Glob.Anomaly). *)
From Coq Require Import ZArith List Bool String.
From Verif Require Import LibSet_Model Ast_Model Problem_Model Rules_Model.
Import ListNotations.
Open Scope Z_scope.

(** the fields of Search/state.go:51-70 used by the expansion *)
Record state : Type := mkSt
  { st_n : Z;                       (* number of gamma rules still allowed *)
    st_q : queues;
    st_mg : list (fat * Z);         (* meta_generator: formula, counter *)
    st_mm : mset; st_mc : mset }.

(** Lib.Set.Union of a copy and of the set returned by Instantiate (destructive.go:1356-1359,
    instanciation.go:64-69); then SetMC copies (state.go:177) *)
Definition add_meta (mc : mset) (m : option meta) : option mset :=
  match m with
  | None => Some (nodeCpy mc)
  | Some m => match set_singleton meta_eqb meta_ltb m with
              | Some s => mset_union (nodeCpy mc) s
              | None => None
              end
  end.

Section Same.
Variable same : list term -> list term -> bool.

(** meta_gen.go:100-108 GetIndexMetaGenList *)
Fixpoint mg_index_from (i : nat) (f : fat) (l : list (fat * Z)) : option nat :=
  match l with
  | [] => None
  | (h, _) :: r => if fat_eqb same h f then Some i else mg_index_from (S i) f r
  end.
Definition mg_index (f : fat) (l : list (fat * Z)) : nat * list (fat * Z) :=
  match mg_index_from 0 f l with
  | Some i => (i, l)
  | None => (List.length l, l ++ [(f, 1)])
  end.
(** meta_gen.go:159-169 ReintroduceMeta with index -1 (destructive.go:1383) *)
Fixpoint mg_incr (l : list (fat * Z)) (i : nat) : option (fat * list (fat * Z)) :=
  match l, i with
  | [], _ => None
  | (f, c) :: r, O => Some (f, (f, c + 1) :: r)
  | x :: r, S j => match mg_incr r j with Some (f, r') => Some (f, x :: r') | None => None end
  end.
Definition mg_reintroduce (l : list (fat * Z)) : option (fat * list (fat * Z)) :=
  mg_incr l (choose_less (map snd l)).

(** destructive.go:326-372: what ProofSearch does with the new formulas [lf].  A literal that is an obvious
    contradiction stops the loop ([None]: the branch is closed). The other formulas are dispatched at
    once, the literals after the loop. *)
Fixpoint receive_loop (l : list fat) (q : queues) (atoms : list fat) : option (queues * list fat) :=
  match l with
  | [] => Some (q, atoms)
  | f :: r =>
    match kind_of_rule (ft_form f) with
    | KAtomic => if obvious_closure (ft_form f) then None else receive_loop r q (atoms ++ [f])
    | _ => receive_loop r (dispatch same f q) atoms
    end
  end.
Definition receive (lf : list fat) (q : queues) : option queues :=
  match receive_loop lf (mkQ lf (q_atomic q) (q_alpha q) (q_beta q) (q_delta q) (q_gamma q)) [] with
  | None => None
  | Some (q', atoms) => Some (fold_left (fun q x => dispatch same x q) atoms q')
  end.

Definition with_lf (q : queues) (lf : list fat) : queues :=
  mkQ lf (q_atomic q) (q_alpha q) (q_beta q) (q_delta q) (q_gamma q).

(** What applyRules does next: the states of the next calls of ProofSearch, with their new formulas in
    [q_lf], or the branch is saturated. *)
Inductive next : Type :=
| Children (l : list state) (s : sko) (g : gen)
| Sat.

(** destructive.go:1230-1272 applyRules with 1275-1410 manageAlphaRules, manageDeltaRules, manageBetaRules,
    manageGammaRules, manageReintroductionRules; state.go:385-442 Copy; state.go:445-457 CanReintroduce *)
Definition apply_rules (st : state) (s : sko) (g : gen) : option next :=
  let q := st_q st in
  match q_alpha q with
  | x :: alpha =>
    let '(ys, g') := apply_alpha same x g in
    Some (Children [mkSt (st_n st) (mkQ ys (q_atomic q) alpha (q_beta q) (q_delta q) (q_gamma q))
                      (st_mg st) (st_mm st) (st_mc st)] s g')
  | [] =>
  match q_delta q with
  | x :: delta =>
    match apply_delta s x (st_mm st) (st_mc st) g with
    | None => None
    | Some (y, s', g') =>
      Some (Children [mkSt (st_n st) (mkQ [y] (q_atomic q) (q_alpha q) (q_beta q) delta (q_gamma q))
                        (st_mg st) (st_mm st) (st_mc st)] s' g')
    end
  | [] =>
  match q_beta q with
  | x :: beta =>
    let '(yss, g') := apply_beta x g in
    match mset_union (nodeCpy (st_mm st)) (nodeCpy (st_mc st)) with
    | None => None
    | Some mm =>
      Some (Children (map (fun ys => mkSt (st_n st) (mkQ ys (q_atomic q) (q_alpha q) beta (q_delta q) (q_gamma q))
                                       (st_mg st) (nodeCpy mm) Leaf) yss) s g')
    end
  | [] =>
  match q_gamma q with
  | x :: gamma =>
    let '(index, mg) := mg_index x (st_mg st) in
    match apply_gamma x (Z.of_nat index) g with
    | None => None
    | Some (y, m, g') =>
      match add_meta (nodeCpy (st_mc st)) m with
      | None => None
      | Some mc => Some (Children [mkSt (st_n st - 1) (mkQ [y] (q_atomic q) (q_alpha q) (q_beta q) (q_delta q) gamma)
                                     mg (st_mm st) (nodeCpy mc)] s g')
      end
    end
  | [] =>
    match st_mg st with
    | _ :: _ =>
      if 0 <? st_n st then
        match mg_reintroduce (st_mg st) with
        | None => None
        | Some (f, mg) => Some (Children [mkSt (st_n st) (with_lf q [f]) mg (st_mm st) (st_mc st)] s g)
        end
      else Some Sat
    | [] => Some Sat
    end
  end end end end.

(** destructive.go:259-420: one call of ProofSearch and the rule that follows it *)
Inductive outcome : Type :=
| Obvious                                  (* bottom or negated top among the new formulas *)
| Expand (l : list state) (s : sko) (g : gen)
| Saturated.
Definition expand (st : state) (s : sko) (g : gen) : option outcome :=
  match receive (q_lf (st_q st)) (st_q st) with
  | None => Some Obvious
  | Some q =>
    match apply_rules (mkSt (st_n st) q (st_mg st) (st_mm st) (st_mc st)) s g with
    | None => None
    | Some (Children l s' g') => Some (Expand l s' g')
    | Some Sat => Some Saturated
    end
  end.
End Same.

(** destructive.go:98-154 doOneStep: the first state *)
Definition first_state (n : Z) (f : form) : state :=
  mkSt n (mkQ [mkFat f []] [] [] [] [] []) [] Leaf Leaf.
