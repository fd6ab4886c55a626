(** Independent vocabulary for the scheduler properties: what a caller can observe. *)
From Coq Require Import List Arith Bool.
From Verif Require Import Lib Scheduler_Model.
Import ListNotations.

Definition reachable (lim : nat) (s : state) : Prop := exists ops, s = run (init lim) ops.

(** A caller owns a permit for project [root] (index [i] is the request's ticket). *)
Definition holds (s : state) (i root : nat) : Prop :=
  exists t, nth_error (tasks s) i = Some t /\ t_root t = root /\
            (t_phase t = PAdmitted \/ t_phase t = PHolding).

Definition holding_phase (t : task) : bool :=
  match t_phase t with PAdmitted | PHolding => true | _ => false end.

(** Number of permits in callers' hands. *)
Definition permits (s : state) : nat := count holding_phase (tasks s).

(** No caller owns a permit for [root]. *)
Definition idle (s : state) (root : nat) : Prop := forall i, ~ holds s i root.

(** Request [i] of project [root] waits in the queue with effective priority [p]. *)
Definition waiting (s : state) (i root : nat) (p : priority) : Prop :=
  exists e, In e (queued s) /\ e_id e = i /\ e_root e = root /\ e_priority e = p.

(** A background request of an idle project is waiting. *)
Definition background_waits (s : state) : Prop :=
  exists i root, waiting s i root Background /\ idle s root.

(** The step from [s] by [o] admits request [i] of project [root] at priority [p]. *)
Definition admits (s : state) (o : op) (i root : nat) (p : priority) : Prop :=
  waiting s i root p /\ (forall r, ~ holds s i r) /\ holds (step s o) i root.

(** The states passed through while executing [ops] from [s], including both ends. *)
Fixpoint states (s : state) (ops : list op) : list state :=
  s :: match ops with [] => [] | o :: rest => states (step s o) rest end.

(** Number of admissions (a queued request turning into a held permit) along a run. *)
Fixpoint admissions (s : state) (ops : list op) : nat :=
  match ops with
  | [] => 0
  | o :: rest =>
      count (fun i => match nth_error (tasks s) i, nth_error (tasks (step s o)) i with
                      | Some t, Some t' => negb (holding_phase t) && holding_phase t'
                      | _, _ => false end) (seq 0 (length (tasks s)))
      + admissions (step s o) rest
  end.

(** The most recent admission of a run overtook waiting background work: it admitted a
    non-background request while a background request of an idle project was waiting. *)
Inductive last_overtook : state -> list op -> Prop :=
| lo_here s ops o i root p :
    admits (run s ops) o i root p -> p <> Background -> background_waits (run s ops) ->
    last_overtook s (ops ++ [o])
| lo_later s ops o :
    last_overtook s ops ->
    (forall i root p, ~ admits (run s ops) o i root p) ->
    last_overtook s (ops ++ [o]).

(** Admission order: [(p,i)] is served before [(p',i')] . *)
Definition before (p : priority) (i : nat) (p' : priority) (i' : nat) : Prop :=
  rank p < rank p' \/ (rank p = rank p' /\ i <= i').

(** A request that has not been admitted, cancelled or dropped, and has ticket < i. *)
Definition pending_phase (t : task) : bool :=
  match t_phase t with
  | PTicketed | PPushed | PTop | PArmed _ | PBlocked _ | PDropping => true
  | _ => false
  end.

Definition older_pending (s : state) (i : nat) : nat :=
  count pending_phase (firstn i (tasks s)).

(** Some thread has changed the scheduler and has not yet executed its notify. *)
Definition owes_phase (t : task) : bool :=
  match t_phase t with
  | PPushed | PAdmitted | PDropOwes | PReleaseOwes => true
  | _ => false
  end.

Definition notify_outstanding (s : state) : Prop :=
  owed s > 0 \/ exists t, In t (tasks s) /\ owes_phase t = true.

(** Caller [i] sleeps with no wake-up delivered. *)
Definition asleep (s : state) (i : nat) : Prop :=
  exists t, nth_error (tasks s) i = Some t /\ t_phase t = PBlocked false.

(** Number of admissions of requests that were waiting with effective priority [p]. *)
Definition becomes_held (s s' : state) (i : nat) : bool :=
  match nth_error (tasks s) i, nth_error (tasks s') i with
  | Some t, Some t' => negb (holding_phase t) && holding_phase t'
  | _, _ => false
  end.

Fixpoint admissions_of (p : priority) (s : state) (ops : list op) : nat :=
  match ops with
  | [] => 0
  | o :: rest =>
      count (fun e => Nat.eqb (rank (e_priority e)) (rank p) &&
                      becomes_held s (step s o) (e_id e)) (queued s)
      + admissions_of p (step s o) rest
  end.

(** The requests made so far, in ticket order: (project, requested priority). *)
Fixpoint tickets (ops : list op) : list (nat * priority) :=
  match ops with
  | [] => []
  | OTicket r p :: rest => (r, p) :: tickets rest
  | _ :: rest => tickets rest
  end.

(** The project most recently declared active by the editor. *)
Fixpoint last_prioritized (cur : option nat) (ops : list op) : option nat :=
  match ops with
  | [] => cur
  | OPrioritize r :: rest => last_prioritized (Some r) rest
  | _ :: rest => last_prioritized cur rest
  end.
