(** The processes of the destructive search and the messages they exchange.

    /repo/src/Search/children.go, child_management.go and destructive.go.

    A process is a goroutine running ProofSearch (destructive.go 264-393) and
    what it calls.  The channels are unbuffered (destructive.go 119, 618, 1038,
    1334, child_management.go 345): sending and receiving happen together, and
    a process whose partner is not ready is blocked.  The model is a machine
    whose actions are the steps of one process and the rendez-vous of two; any
    sequence of actions is an interleaving.

    What a process computes between two messages is left open: which rule it
    applies, which substitutions it finds and which ones it keeps for its
    father are part of the action.  A substitution is a number; two
    substitutions are the same when Lib.ListEquals says so (the formulas a
    SubstAndForm carries are left out).  The empty substitution is [None].

    The assisted mode and the non destructive search are left out. *)

Require Import Coq.Lists.List Coq.Arith.PeanoNat Coq.Bool.Bool.
Import ListNotations.

(** The part of Result (children.go 61-71) sent by a child to its father which
    decides what comes next. *)
Record answer := Answer {
  closed : bool;
  need : bool;               (* need_answer *)
  substs : list nat          (* subst_list_for_father *)
}.

(** wcdArgs (child_management.go 46-60).  [w_first], [w_sent], [w_back] and
    [w_failed] are not in the code: they record, for the specification,
    whether the children are in their first round, what they were last told
    to work with, whether that was chosen by a backtrack, and what they failed
    with (and whether a backtrack chose it). *)
Record wargs := WArgs {
  w_alive : list nat;        (* children *)
  w_order : list nat;        (* childOrdering *)
  w_given : list nat;        (* givenSubsts *)
  w_cur : option nat;        (* currentSubst *)
  w_bt : list nat;           (* substsBT *)
  w_forms : nat;             (* len(formsBT) *)
  w_onf : bool;              (* st.GetBTOnFormulas() *)
  w_forb : list (option nat);(* st.GetForbiddenSubsts() *)
  w_first : bool;
  w_sent : option nat;
  w_back : bool;
  w_failed : list (option nat * bool)
}.

(** The local variables of selectChildren (destructive.go 681-704).  [s_got]
    is not in the code: who has answered. *)
Record sel := Sel {
  s_rem : nat;               (* cpt_remaining_children *)
  s_got : list nat;
  s_gone : list nat;         (* delayed_removals *)
  s_cpt : nat;               (* cpt_children_returning_subst *)
  s_seen : bool;             (* current_subst_seen *)
  s_res : list nat;          (* result_subst *)
  s_com : list nat;          (* common_substs *)
  s_tab : list (option nat)  (* proof_tab: whose proof is in the slot *)
}.

(** What follows a call of closeChildren. *)
Inductive cont :=
| KSend (a : answer) (g : list nat)  (* sendSubToFather *)
| KWait (g : list nat)               (* waitFather *)
| KDead                              (* return *)
| KOpened (w : wargs)                (* the rest of manageOpenedChild *)
| KCrash.                            (* Glob.Anomaly *)

(** Where a process is.  [g] is given_substs. *)
Inductive ctl :=
| Compute                                (* ProofSearch, applyRules, ... *)
| Sending (a : answer) (g : list nat)    (* the select of sendSubToFather *)
| WaitFather (g : list nat)              (* the select of waitFather *)
| Got (m : option nat) (g : list nat)    (* waitFather, an answer received *)
| Waiting (w : wargs) (s : sel)          (* the loop of selectChildren *)
| Opened (w : wargs)                     (* manageOpenedChild, line 283 *)
| Closing (kill : bool) (todo kept : list nat) (k : cont)
| ClosingQuit (v : nat) (kill : bool) (todo kept : list nat) (k : cont)
                                         (* children.go 143 *)
| SendSub (m : option nat) (todo : list nat) (w : wargs)
                                         (* children.go 163-175, 183-188 *)
| Dead.

(** manageResult (destructive.go 1412-1427). *)
Inductive mstate := MRecv | MQuit | MDone.

Record event := Event { e_pid : nat; e_ans : answer; e_kids : list nat }.

(** A configuration: the processes are numbered in the order in which they
    are launched, 0 is the one launched by doOneStep.  [c_fa] is the process
    at the other end of the channels, [c_orig] is original_node_id.  [c_kids]
    (the children last launched) and [c_log] (the answers received, last one
    first) are not in the code. *)
Record cfg := Cfg {
  c_n : nat;
  c_ctl : nat -> ctl;
  c_fa : nat -> nat;
  c_orig : nat -> nat;
  c_kids : nat -> list nat;
  c_main : mstate;
  c_crash : bool;            (* Glob.Anomaly or a panic ended the program *)
  c_log : list event
}.

Definition upd {A : Type} (f : nat -> A) (p : nat) (x : A) : nat -> A :=
  fun q => if q =? p then x else f q.

Definition memb (x : nat) (l : list nat) : bool := existsb (Nat.eqb x) l.

(** removeChildren (children.go 109-117). *)
Definition drop (gone l : list nat) : list nat :=
  filter (fun x => negb (memb x gone)) l.

(** The locals of selectChildren when it is called (681-704). *)
Definition sel0 (w : wargs) : sel :=
  Sel (length (w_alive w)) [] [] 0 false [] []
      (repeat None (length (w_order w))).

(** The arguments of the waitChildren that follows a launch: beta rule
    (destructive.go 945-947), rewriting (1042), waitFather (638). *)
Definition wargs0 (kids order given : list nat) (cur : option nat)
  (forms : nat) (onf : bool) : wargs :=
  WArgs kids order given cur [] forms onf [] true cur false [].

Definition set_alive (w : wargs) (l : list nat) : wargs :=
  WArgs l (w_order w) (w_given w) (w_cur w) (w_bt w) (w_forms w) (w_onf w)
        (w_forb w) (w_first w) (w_sent w) (w_back w) (w_failed w).

(** Lines 732-738. *)
Fixpoint index (o : nat) (order : list nat) : option nat :=
  match order with
  | [] => None
  | x :: l => if x =? o then Some 0 else option_map S (index o l)
  end.

Fixpoint set_nth {A : Type} (i : nat) (x : A) (l : list A) : list A :=
  match l, i with
  | [], _ => []
  | _ :: r, 0 => x :: r
  | y :: r, S j => y :: set_nth j x r
  end.

Definition eqo (x y : option nat) : bool :=
  match x, y with
  | None, None => true
  | Some a, Some b => a =? b
  | _, _ => false
  end.

(** Lines 803-854: the substitutions of a child are added to those found. *)
Definition add_res (cur : option nat) (res : list nat) (v : nat) : list nat :=
  if eqo (Some v) cur then res
  else if memb v res then res else res ++ [v].

(** Lines 780-800. *)
Definition common (l res : list nat) : list nat :=
  flat_map (fun v => filter (Nat.eqb v) res) l.

(** Lines 752-857: a child answers closed. *)
Definition take_substs (cur : option nat) (l : list nat) (s : sel) : sel :=
  match l with
  | [] => s
  | _ =>
      if match l with [x] => eqo (Some x) cur | _ => false end
      then Sel (s_rem s) (s_got s) (s_gone s) (s_cpt s) true (s_res s)
               (s_com s) (s_tab s)
      else Sel (s_rem s) (s_got s) (s_gone s) (S (s_cpt s)) (s_seen s)
               (fold_left (add_res cur) l (s_res s))
               (common l (s_res s)) (s_tab s)
  end.

Inductive outcome := No | Crash | To (x : ctl).

(** A father receives the answer [a] of its child [c], whose original node id
    is [o].  Waiting: lines 716-870, the slot of proof_tab is -1 when the id
    is not in child_order and line 740 panics.  Closing: children.go 134-150. *)
Definition gets (x : ctl) (c o : nat) (a : answer) : outcome :=
  match x with
  | Waiting w s =>
      if memb c (w_alive w) then
        match s_rem s with
        | 0 => No
        | S r =>
          match index o (w_order w) with
          | None => Crash
          | Some i =>
            let s1 := Sel r (c :: s_got s)
                          (if need a then s_gone s else c :: s_gone s)
                          (s_cpt s) (s_seen s) (s_res s) (s_com s)
                          (set_nth i (Some c) (s_tab s)) in
            if closed a then To (Waiting w (take_substs (w_cur w) (substs a) s1))
            else To (Closing false (drop (s_gone s1) (w_alive w)) []
                             (KOpened (set_alive w (drop (s_gone s1) (w_alive w)))))
          end
        end
      else No
  | Closing kill (v :: todo) kept k =>
      if v =? c then
        if need a then To (ClosingQuit v kill todo kept k)
        else To (Closing kill todo kept k)
      else No
  | _ => No
  end.

(** A father sends an order to quit: children.go 132 and 143, 151-153. *)
Definition quits (x : ctl) (c : nat) : option (bool * ctl) :=
  match x with
  | Closing kill (v :: todo) kept k
  | ClosingQuit v kill todo kept k =>
      if v =? c
      then Some (kill, Closing kill todo (if kill then kept else kept ++ [v]) k)
      else None
  | _ => None
  end.

(** A father sends a substitution or the forbidden ones: children.go 163-175,
    183-188. *)
Definition tells (x : ctl) (c : nat) : option (option nat * ctl) :=
  match x with
  | SendSub m (v :: todo) w =>
      if v =? c then Some (m, SendSub m todo w) else None
  | _ => None
  end.

(** A child receives an order to quit: destructive.go 291-292, 440-443,
    474-482, 510-513, children.go 242-243, manageQuitOrder (644-655).  In
    ProofSearch the given substitutions are st.GetSubstsFound(), which is empty
    (state.go 420-421). *)
Definition told_quit (x : ctl) (kill : bool) : option ctl :=
  match x with
  | Compute => Some (if kill then Dead else WaitFather [])
  | Sending _ g => Some (if kill then Dead else WaitFather g)
  | WaitFather g => Some (if kill then Dead else WaitFather g)
  | Waiting w s =>
      match s_rem s, w_alive w with
      | 0, _ :: _ => None    (* the loop is over *)
      | _, _ => Some (Closing true (drop (s_gone s) (w_alive w)) []
                        (if kill then KDead else KWait (w_given w)))
      end
  | _ => None
  end.

(** The end of selectChildren (lines 883-940). *)
Inductive decision := DClose | DParent (l : list nat) | DChildren (l : list nat).

Definition decide (w : wargs) (s : sel) : decision :=
  match s_cpt s with
  | 0 => if s_seen s
         then DParent (s_res s ++ match w_cur w with Some c => [c] | None => [] end)
         else DClose
  | 1 => DParent (s_res s)
  | _ => match s_com s, s_res s with
         | _ :: _, _ => DParent (s_com s)
         | _, [_] => DParent (s_res s)
         | _, _ => DChildren (s_res s)
         end
  end.

(** chooseSubstitutionDestructive (destructive.go 173-205), any choice. *)
Fixpoint remove_nth (i : nat) (l : list nat) : list nat :=
  match l, i with
  | [], _ => []
  | _ :: r, 0 => r
  | y :: r, S j => y :: remove_nth j r
  end.

Definition choose (i : nat) (l : list nat) : option (nat * list nat) :=
  match nth_error l i with
  | Some x => Some (x, remove_nth i l)
  | None => None
  end.

(** childrenClosedByThemselves (122-158), passSubstToParent (160-251) and
    passSubstToChildren (254-273).  [l] are the substitutions kept for the
    father, which the model leaves open; [i] is the substitution chosen. *)
Definition after_select (w : wargs) (s : sel) (i : nat) (l : list nat) : option ctl :=
  let al := drop (s_gone s) (w_alive w) in
  match decide w s with
  | DClose =>
      match w_cur w with
      | None => Some (Closing true al [] (KSend (Answer true false l) (w_given w)))
      | Some _ => Some (Closing true al [] KCrash)
      end
  | DParent _ =>
      Some (Closing true al []
              (KSend (Answer true (match l with [] => false | _ => true end) l)
                     (w_given w)))
  | DChildren r =>
      match choose i r with
      | Some (x, r') =>
          Some (SendSub (Some x) al
                  (WArgs al (w_order w) (w_given w) (Some x) (w_bt w ++ r')
                         (w_forms w) false (w_forb w) false (Some x) false
                         (w_failed w)))
      | None => None
      end
  end.

(** The process ends the program: an error of MergeSubstAndForm
    (destructive.go 909, child_management.go 197), of MergeSubstAndForm or of
    the rewriting in a computation (1162, 1186, 980), and the index 0 of an
    empty list (174). *)
Definition may_crash (x : ctl) : bool :=
  match x with
  | Compute => true
  | Waiting w s =>
      match s_rem s with
      | 0 => match decide w s with
             | DParent _ => true
             | DChildren [] => true
             | _ => false
             end
      | S _ => false
      end
  | Closing _ [] _ KCrash => true
  | _ => false
  end.

(** What a process that has no children answers: ManageClosureRule (1105,
    1142, 1224) and the end of applyRules (1271). *)
Definition leaf_answer (a : answer) : bool :=
  if closed a then true else negb (need a).

(** The steps of one process.  [complete] is Glob.GetCompleteness(), [dmt] is
    Glob.IsLoaded("dmt"), [o] its original node id and [n] the number of the
    next process.  The result is its next place and the original node ids of
    the processes it launches. *)
Inductive choice :=
| CBeta (ids : list nat)
| CRewrite (id : nat) (cur : option nat) (forms : nat)
| CLeaf (a : answer)
| CSelect (i : nat) (l : list nat)
| COpened (i : nat) (id : nat) (cur : option nat)
| CDone.

Definition add_forb (x : option nat) (l : list (option nat)) : list (option nat) :=
  if existsb (eqo x) l then l else l ++ [x].

(** manageOpenedChild from line 283, and manageBacktrackForDMT (326-356). *)
Definition opened (complete : bool) (o n : nat) (w : wargs) (i id : nat)
  (cur : option nat) : option (ctl * option (list nat)) :=
  let forb := if complete then add_forb (w_cur w) (w_forb w) else w_forb w in
  let failed := (w_sent w, w_back w) :: w_failed w in
  match w_onf w, w_forms w with
  | true, S k =>
      let w' := WArgs [n] [id] (w_given w) cur (w_bt w) k (w_onf w) forb true cur
                      false failed in
      Some (Waiting w' (sel0 w'), Some [o])
  | _, _ =>
    match w_bt w with
    | _ :: _ =>
        match choose i (w_bt w) with
        | Some (x, r) =>
            Some (SendSub (Some x) (w_alive w)
                    (WArgs (w_alive w) (w_order w) (w_given w) (w_cur w) r
                           (w_forms w) false forb false (Some x) true failed), None)
        | None => None
        end
    | [] =>
        if complete && (1 <? length (w_alive w))
           && match w_cur w with None => false | Some _ => true end
        then Some (SendSub None (w_alive w)
                     (WArgs (w_alive w) (w_order w) (w_given w) None (w_bt w)
                            (w_forms w) (w_onf w) forb false None false failed), None)
        else Some (Closing true (w_alive w) []
                     (KSend (Answer false true []) (w_given w)), None)
    end
  end.

Definition internal (complete dmt : bool) (o n : nat) (x : ctl) (ch : choice) :
  option (ctl * option (list nat)) :=
  match x, ch with
  | Compute, CBeta ids =>
      let w := wargs0 (seq n (length ids)) ids [] None 0 false in
      Some (Waiting w (sel0 w), Some ids)
  | Compute, CRewrite id cur forms =>
      if dmt then
        let w := wargs0 [n] [id] [] cur forms true in
        Some (Waiting w (sel0 w), Some [id])
      else None
  | Compute, CLeaf a => if leaf_answer a then Some (Sending a [], None) else None
  | Got m g, CDone =>
      match m with
      | Some x =>
          if memb x g then Some (Sending (Answer true true [x]) g, None)
          else let w := wargs0 [n] [o] g m 0 false in
               Some (Waiting w (sel0 w), Some [o])
      | None => let w := wargs0 [n] [o] g m 0 false in
                Some (Waiting w (sel0 w), Some [o])
      end
  | Waiting w s, CSelect i l =>
      match s_rem s with
      | 0 => match after_select w s i l with
             | Some y => Some (y, None)
             | None => None
             end
      | S _ => None
      end
  | Opened w, COpened i id cur => opened complete o n w i id cur
  | Closing _ [] kept k, CDone =>
      match k with
      | KSend a g => Some (Sending a g, None)
      | KWait g => Some (WaitFather g, None)
      | KDead => Some (Dead, None)
      | KOpened w => Some (Opened (set_alive w kept), None)
      | KCrash => None
      end
  | SendSub _ [] w, CDone => Some (Waiting w (sel0 w), None)
  | _, _ => None
  end.

Inductive action :=
| AInt (p : nat) (ch : choice)   (* a step of the process [p] *)
| ACrash (p : nat)               (* the process [p] ends the program *)
| AAnswer (c : nat)              (* the process [c] gives its answer *)
| AQuit (c : nat)                (* the process [c] is told to quit *)
| ATell (c : nat).               (* the process [c] is told a substitution *)

Definition set_ctl (g : cfg) (f : nat -> ctl) : cfg :=
  Cfg (c_n g) f (c_fa g) (c_orig g) (c_kids g) (c_main g) (c_crash g) (c_log g).

Definition set_crash (g : cfg) : cfg :=
  Cfg (c_n g) (c_ctl g) (c_fa g) (c_orig g) (c_kids g) (c_main g) true (c_log g).

Definition set_main (g : cfg) (m : mstate) : cfg :=
  Cfg (c_n g) (c_ctl g) (c_fa g) (c_orig g) (c_kids g) m (c_crash g) (c_log g).

Definition add_log (g : cfg) (e : event) : cfg :=
  Cfg (c_n g) (c_ctl g) (c_fa g) (c_orig g) (c_kids g) (c_main g) (c_crash g)
      (e :: c_log g).

(** The launches: the [i]-th new process is number [c_n g + i]. *)
Definition launch (g : cfg) (p : nat) (x : ctl) (os : list nat) : cfg :=
  let n := c_n g in
  let new q := (n <=? q) && (q <? n + length os) in
  Cfg (n + length os)
      (fun q => if q =? p then x else if new q then Compute else c_ctl g q)
      (fun q => if new q then p else c_fa g q)
      (fun q => if new q then nth (q - n) os 0 else c_orig g q)
      (fun q => if q =? p then seq n (length os)
                else if new q then [] else c_kids g q)
      (c_main g) (c_crash g) (c_log g).

(** After its answer a process waits for its father or dies (children.go
    237-241). *)
Definition after_answer (a : answer) (g : list nat) : ctl :=
  if need a then WaitFather (substs a ++ g) else Dead.

Definition exec (complete dmt : bool) (g : cfg) (act : action) : option cfg :=
  if c_crash g then None else
  match act with
  | AInt p ch =>
      if p <? c_n g then
        match internal complete dmt (c_orig g p) (c_n g) (c_ctl g p) ch with
        | Some (x, None) => Some (set_ctl g (upd (c_ctl g) p x))
        | Some (x, Some os) => Some (launch g p x os)
        | None => None
        end
      else None
  | ACrash p =>
      if (p <? c_n g) && may_crash (c_ctl g p) then Some (set_crash g) else None
  | AAnswer c =>
      if c <? c_n g then
        match c_ctl g c with
        | Sending a gv =>
            let g1 := add_log g (Event c a (c_kids g c)) in
            match c with
            | 0 =>
                match c_main g with
                | MRecv =>
                    Some (set_main (set_ctl g1 (upd (c_ctl g) c (after_answer a gv)))
                                   (if need a then MQuit else MDone))
                | _ => None
                end
            | S _ =>
                match gets (c_ctl g (c_fa g c)) c (c_orig g c) a with
                | No => None
                | Crash => Some (set_crash g1)
                | To x =>
                    Some (set_ctl g1 (upd (upd (c_ctl g) (c_fa g c) x) c
                                          (after_answer a gv)))
                end
            end
        | _ => None
        end
      else None
  | AQuit c =>
      if c <? c_n g then
        match c with
        | 0 =>
            match c_main g with
            | MQuit =>
                match told_quit (c_ctl g c) true with
                | Some y => Some (set_main (set_ctl g (upd (c_ctl g) c y)) MDone)
                | None => None
                end
            | _ => None
            end
        | S _ =>
            match quits (c_ctl g (c_fa g c)) c with
            | Some (kill, x) =>
                match told_quit (c_ctl g c) kill with
                | Some y => Some (set_ctl g (upd (upd (c_ctl g) (c_fa g c) x) c y))
                | None => None
                end
            | None => None
            end
        end
      else None
  | ATell c =>
      if (c <? c_n g) && negb (c =? 0) then
        match tells (c_ctl g (c_fa g c)) c, c_ctl g c with
        | Some (m, x), WaitFather gv =>
            Some (set_ctl g (upd (upd (c_ctl g) (c_fa g c) x) c (Got m gv)))
        | _, _ => None
        end
      else None
  end.

(** doOneStep (destructive.go 98-154): the first process. *)
Definition start (id : nat) : cfg :=
  Cfg 1 (fun _ => Compute) (fun _ => 0) (fun _ => id) (fun _ => []) MRecv false [].

Fixpoint run (complete dmt : bool) (g : cfg) (l : list action) : option cfg :=
  match l with
  | [] => Some g
  | a :: r => match exec complete dmt g a with
              | Some g' => run complete dmt g' r
              | None => None
              end
  end.
