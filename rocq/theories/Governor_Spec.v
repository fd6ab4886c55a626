(** What a caller of the resource governor observes. *)
From Coq Require Import List Arith Bool.
From Verif Require Import Lib Governor_Model.
Import ListNotations.

Definition reachable (p : policy) (s : state) : Prop := exists ops, s = run (init p) ops.

Definition leased (t : task) : bool := match t_phase t with PHolding => true | _ => false end.

(** Sum of [f] over the leases in callers' hands. *)
Fixpoint total (f : spec -> nat) (l : list task) : nat :=
  match l with
  | [] => 0
  | t :: rest => (if leased t then f (t_spec t) else 0) + total f rest
  end.

Definition leases (s : state) : nat := count leased (tasks s).

(** Request [i] with requirements [w] waits at effective priority [p]. *)
Definition waiting (s : state) (i : nat) (w : spec) (p : priority) : Prop :=
  exists q, In q (queued (adm s)) /\ q_id q = i /\ q_spec q = w /\ q_prio q = p.

Definition holds (s : state) (i : nat) (w : spec) : Prop :=
  exists t, nth_error (tasks s) i = Some t /\ t_spec t = w /\ t_phase t = PHolding.

(** The request could start now: enough free task slots, lanes, memory, I/O, and it is not
    project-parallel work of a project other than the one whose navigation is pending. *)
Definition could_start (s : state) (w : spec) : Prop :=
  leases s < p_tasks (pol s) /\
  total w_cpu (tasks s) + w_cpu w <= p_cpu (pol s) /\
  total w_mem (tasks s) + w_mem w <= p_mem (pol s) /\
  total w_io (tasks s) + w_io w <= p_io (pol s) /\
  (w_par w = true -> nav_pending (adm s) = true -> active_project (adm s) = w_root w).

Definition admits (s : state) (o : op) (i : nat) (w : spec) (p : priority) : Prop :=
  waiting s i w p /\ (forall w', ~ holds s i w') /\ holds (step s o) i w.

Fixpoint states (s : state) (ops : list op) : list state :=
  s :: match ops with [] => [] | o :: rest => states (step s o) rest end.

(** Number of admissions along a run. *)
Definition newly (s s' : state) : nat :=
  count (fun i => match nth_error (tasks s) i, nth_error (tasks s') i with
                  | Some t, Some t' => negb (leased t) && leased t'
                  | _, _ => false end) (seq 0 (length (tasks s))).
Fixpoint admissions (s : state) (ops : list op) : nat :=
  match ops with [] => 0 | o :: rest => newly s (step s o) + admissions (step s o) rest end.

Definition pending_phase (t : task) : bool :=
  match t_phase t with
  | PTicketed | PTop | PArmed _ | PBlocked _ | PCancelling | PDropping => true
  | _ => false
  end.
Definition older_pending (s : state) (i : nat) : nat := count pending_phase (firstn i (tasks s)).

Definition owes_phase (t : task) : bool :=
  match t_phase t with PDropOwes | PReleaseOwes => true | _ => false end.
Definition notify_outstanding (s : state) : Prop :=
  owed s > 0 \/ exists t, In t (tasks s) /\ owes_phase t = true.
Definition asleep (s : state) (i : nat) : Prop :=
  exists t, nth_error (tasks s) i = Some t /\ t_phase t = PBlocked false.

(** The project last declared active, and whether its navigation is pending, from the history. *)
Fixpoint nav_history (cur : option nat * bool) (ops : list op) : option nat * bool :=
  match ops with
  | [] => cur
  | OPrioritize r nav :: rest => nav_history (Some r, nav) rest
  | ONavPending r :: rest =>
      nav_history (fst cur, if match fst cur with Some a => Nat.eqb a r | None => false end
                            then true else snd cur) rest
  | ONavComplete r :: rest =>
      nav_history (fst cur, if match fst cur with Some a => Nat.eqb a r | None => false end
                            then false else snd cur) rest
  | _ :: rest => nav_history cur rest
  end.
