(** Model of /repo/src/navigation_demand.rs (lines 1-391): the bounded queue through which
    navigation requests ask the indexer to process particular names first.

    A key is its list of code points.  [alnum] and [lower] stand for char::is_alphanumeric and
    char::to_lowercase (Unicode tables, not modelled).  Each BTreeSet is a strictly increasing
    list.  Every lock section is one step; every [notify_change] that follows it outside the
    lock is a separate step ([ONotify], one per owed notification), and so are the steps of a
    ticket: subscribing, looking at the outcome, sleeping on the watch channel.
    A failed assertion is the output [Panic] and sets [panicked]; the mutex does not poison, so
    the controller remains in use afterwards.  Not modelled: overflow of the revision counter
    at 2^64, the closed-channel panic (a ticket keeps the sender alive). *)
From Coq Require Import List Arith Bool.
From Verif Require Import Lib.
Import ListNotations.

Definition key := list nat.

(** String ordering used by BTreeSet<String>. *)
Fixpoint kcmp (a b : key) : comparison :=
  match a, b with
  | [], [] => Eq
  | [], _ :: _ => Lt
  | _ :: _, [] => Gt
  | x :: a', y :: b' => match Nat.compare x y with Eq => kcmp a' b' | c => c end
  end.
Definition keq (a b : key) : bool := match kcmp a b with Eq => true | _ => false end.

(** BTreeSet contains / insert / remove *)
Definition mem (k : key) (s : list key) : bool := existsb (keq k) s.
Fixpoint ins (k : key) (s : list key) : list key :=
  match s with
  | [] => [k]
  | x :: r => match kcmp k x with Lt => k :: s | Eq => s | Gt => x :: ins k r end
  end.
Definition del (k : key) (s : list key) : list key := filter (fun x => negb (keq k x)) s.

(** MAX_PENDING_NAVIGATION_DEMAND_KEYS 6-7, MAX_PROJECT_NAVIGATION_DEMAND_KEYS in
    src/indexer/indexer_project.rs:20 *)
Definition max_keys : nat := 16.

(** NavigationDemandStage 16-20 *)
Inductive stage := Project | Dependency.

(** NavigationDemandOutcome 22-29 *)
Inductive outcome := TargetProcessed | StageComplete | Superseded | Cancelled | Saturated.

(** StageState 31-37 *)
Record sstate := mkS { pending : list key; in_flight : list key; processed : list key; complete : bool }.
Definition s0 : sstate := mkS [] [] [] false.

(** outstanding_len 40-46 *)
Definition outstanding_len (s : sstate) : nat := length (pending s) + length (in_flight s).

(** The life of a NavigationDemandTicket 352-391. *)
Inductive tphase :=
| Opening (notify_first : bool)  (* request 165-173: notification owed, not yet subscribed *)
| Looking (seen : nat)           (* wait 376-382, about to call outcome_for *)
| Sleeping (seen : nat)          (* wait 383, in changed().await *)
| Answered (o : outcome).
Record ticket := mkT { t_gen : nat; t_stage : stage; t_key : key; t_imm : option outcome; t_phase : tphase }.

(** NavigationDemandState 49-55 and the watch channel 73-77.  [owed] counts the notifications
    of finished lock sections that have not been sent yet. *)
Record state := mkState {
  generation : option nat; terminal : option outcome;
  project : sstate; dependency : sstate;
  revision : nat; owed : nat; tickets : list ticket; panicked : bool }.

(** default 84-94 *)
Definition init : state := mkState None None s0 s0 0 0 [] false.

(** stage / stage_mut 57-71 *)
Definition get (s : state) (st : stage) : sstate :=
  match st with Project => project s | Dependency => dependency s end.
Definition put (s : state) (st : stage) (x : sstate) : state :=
  match st with
  | Project => mkState (generation s) (terminal s) x (dependency s) (revision s) (owed s) (tickets s) (panicked s)
  | Dependency => mkState (generation s) (terminal s) (project s) x (revision s) (owed s) (tickets s) (panicked s)
  end.
Definition owe (b : bool) (s : state) : state :=
  if b then mkState (generation s) (terminal s) (project s) (dependency s) (revision s) (S (owed s)) (tickets s) (panicked s)
  else s.
Definition with_tickets (s : state) (t : list ticket) : state :=
  mkState (generation s) (terminal s) (project s) (dependency s) (revision s) (owed s) t (panicked s).
Definition panic (s : state) : state :=
  mkState (generation s) (terminal s) (project s) (dependency s) (revision s) (owed s) (tickets s) true.
(** notify_change 341-349 *)
Definition bump (s : state) : state :=
  mkState (generation s) (terminal s) (project s) (dependency s) (S (revision s)) (owed s) (tickets s) (panicked s).

Definition is_gen (s : state) (g : nat) : bool :=
  match generation s with Some x => Nat.eqb x g | None => false end.
Definition is_none {A} (o : option A) : bool := match o with None => true | Some _ => false end.
(** the guard [generation != Some(g) || terminal.is_some()], negated *)
Definition live (s : state) (g : nat) : bool := is_gen s g && is_none (terminal s).

(** outcome_for 318-339 *)
Definition outcome_for (s : state) (g : nat) (st : stage) (k : key) : option outcome :=
  if negb (is_gen s g) then Some Superseded
  else match terminal s with
  | Some o => Some o
  | None =>
      if mem k (processed (get s st)) then Some TargetProcessed
      else if complete (get s st) then Some StageComplete
      else None
  end.

Inductive op :=
| OBegin (g : nat)
| ORequest (g : nat) (st : stage) (k : key)
| ODrain (g : nat) (st : stage)
| OClaim (g : nat) (st : stage) (k : key)
| OComplete (g : nat) (st : stage) (ks : list key)
| OCompleteStage (g : nat) (st : stage)
| OCancel (g : nat)
| ONotify                 (* one owed notification is sent *)
| OTicket (i : nat).      (* the next step of ticket i *)

Inductive out :=
| Done
| Ticket (i : nat) (imm : option outcome)
| Keys (ks : list key)
| Bool (b : bool)
| Panic.

(** complete_keys, loop 261-270: [None] is the failed assertion, with the keys handled so far *)
Fixpoint complete_loop (s : sstate) (ks : list key) (changed : bool) : sstate * option bool :=
  match ks with
  | [] => (s, Some changed)
  | k :: r =>
      if mem k (in_flight s) then
        complete_loop (mkS (pending s) (del k (in_flight s)) (ins k (processed s)) (complete s)) r
          (changed || negb (mem k (processed s)))
      else (s, None)
  end.

(** drain, loop 189-196 *)
Fixpoint drain_loop (ks fl : list key) : option (list key) :=
  match ks with
  | [] => Some fl
  | k :: r => if mem k fl then None else drain_loop r (ins k fl)
  end.

Section Unicode.
Variable alnum : nat -> bool.
Variable lower : nat -> list nat.

(** normalize_navigation_key 9-14 *)
Definition normalize (name : list nat) : key := flat_map lower (filter alnum name).

(** the assertion of request 130-135 and claim_if_requested 211-216 *)
Definition valid_key (k : key) : bool :=
  match k with [] => false | _ => forallb alnum k end.

(** request, lock section 136-164: immediate outcome and whether the key was inserted *)
Definition accept_request (s : state) (g : nat) (st : stage) (k : key) : state * option outcome * bool :=
  if negb (is_gen s g) then (s, Some Superseded, false)
  else match terminal s with
  | Some o => (s, Some o, false)
  | None =>
      let x := get s st in
      if mem k (processed x) then (s, Some TargetProcessed, false)
      else if complete x then (s, Some StageComplete, false)
      else if mem k (pending x) || mem k (in_flight x) then (s, None, false)
      else if Nat.leb max_keys (outstanding_len x) then (s, Some Saturated, false)
      else (put s st (mkS (ins k (pending x)) (in_flight x) (processed x) (complete x)), None, true)
  end.

Definition step (s : state) (o : op) : state * out :=
  match o with
  | OBegin g =>                                                        (* 97-122 *)
      if Nat.eqb g 0 then (panic s, Panic)
      else if match generation s with Some p => Nat.leb g p | None => false end then (panic s, Panic)
      else (owe true (mkState (Some g) None s0 s0 (revision s) (owed s) (tickets s) (panicked s)), Done)
  | ORequest g st k =>                                                 (* 124-176 *)
      if negb (valid_key k) then (panic s, Panic)
      else
        let '(s', imm, inserted) := accept_request s g st k in
        (with_tickets s' (tickets s' ++ [mkT g st k imm (Opening inserted)]),
         Ticket (length (tickets s)) imm)
  | ODrain g st =>                                                     (* 178-203 *)
      if negb (live s g) then (s, Keys [])
      else
        let x := get s st in
        if complete x then (s, Keys [])
        else match drain_loop (pending x) (in_flight x) with
        | None => (panic s, Panic)
        | Some fl =>
            (owe (negb (is_none (hd_error (pending x))))
               (put s st (mkS [] fl (processed x) (complete x))), Keys (pending x))
        end
  | OClaim g st k =>                                                   (* 205-246 *)
      if negb (valid_key k) then (panic s, Panic)
      else if negb (live s g) then (s, Bool false)
      else
        let x := get s st in
        if complete x || mem k (processed x) then (s, Bool false)
        else if mem k (in_flight x) then (s, Bool true)
        else if mem k (pending x) then
          (owe true (put s st (mkS (del k (pending x)) (ins k (in_flight x)) (processed x) (complete x))), Bool true)
        else (s, Bool false)
  | OComplete g st ks =>                                               (* 248-276 *)
      if negb (live s g) then (s, Done)
      else
        match complete_loop (get s st) ks false with
        | (x, Some c) => (owe c (put s st x), Done)
        | (x, None) => (panic (put s st x), Panic)
        end
  | OCompleteStage g st =>                                             (* 278-297 *)
      if negb (live s g) then (s, Done)
      else
        let x := get s st in
        if complete x then (s, Done)
        else (owe true (put s st (mkS [] [] (processed x) true)), Done)
  | OCancel g =>                                                       (* 299-316 *)
      if negb (live s g) then (s, Done)
      else
        let clear x := mkS [] [] (processed x) (complete x) in
        (owe true (mkState (generation s) (Some Cancelled) (clear (project s)) (clear (dependency s))
                     (revision s) (owed s) (tickets s) (panicked s)), Done)
  | ONotify =>
      match owed s with
      | 0 => (s, Done)
      | S n => (mkState (generation s) (terminal s) (project s) (dependency s) (S (revision s)) n
                  (tickets s) (panicked s), Done)
      end
  | OTicket i =>
      match nth_error (tickets s) i with
      | None => (s, Done)
      | Some t =>
          let set p := with_tickets s (upd (tickets s) i (mkT (t_gen t) (t_stage t) (t_key t) (t_imm t) p)) in
          match t_phase t with
          | Opening true => (bump (set (Opening false)), Done)         (* 165-167 *)
          | Opening false =>                                           (* 173, then 373-375 *)
              (set (match t_imm t with Some o => Answered o | None => Looking (revision s) end), Done)
          | Looking n =>                                               (* 377-383 *)
              (set (match outcome_for s (t_gen t) (t_stage t) (t_key t) with
                    | Some o => Answered o | None => Sleeping n end), Done)
          | Sleeping n =>                                              (* changed() 383 *)
              if Nat.eqb (revision s) n then (s, Done) else (set (Looking (revision s)), Done)
          | Answered _ => (s, Done)
          end
      end
  end.

Fixpoint run (s : state) (h : list op) : state :=
  match h with [] => s | o :: r => run (fst (step s o)) r end.
Fixpoint outputs (s : state) (h : list op) : list out :=
  match h with [] => [] | o :: r => snd (step s o) :: outputs (fst (step s o)) r end.
End Unicode.
