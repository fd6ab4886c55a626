(** Model of /repo/src/indexing_resources.rs (lines 1-998): the process-wide resource governor.

    As in [Scheduler_Model], every critical section is one step, ticket allocation and every
    [notify_waiters] call are separate steps, disabled operations change nothing, and a fired
    assertion sets [panicked].  [notify_waiters] follows tokio's documented contract.

    Simplifications: project roots are numbers; usize/u64 overflow is not modelled (so
    [checked_add] always succeeds; [checked_sub] underflow is modelled as a panic); the work
    itself (spawn_blocking, rayon) is the time between admission and [ORelease]. *)
From Coq Require Import List Arith Bool.
From Verif Require Import Lib.
Import ListNotations.

(** indexing_resources.rs 17 *)
Definition MAX_BURST : nat := 1.

(** indexing_resources.rs 19-25; the positivity assertions of 43-58 are not needed below *)
Record policy := mkPolicy { p_cpu : nat; p_tasks : nat; p_mem : nat; p_io : nat }.

(** indexing_resources.rs 105-110 *)
Inductive priority := ActiveDocument | OpenDocument | Background.
Definition rank (p : priority) : nat :=
  match p with ActiveDocument => 0 | OpenDocument => 1 | Background => 2 end.
Definition prio_eqb (a b : priority) : bool := Nat.eqb (rank a) (rank b).

(** indexing_resources.rs 112-120 *)
Record spec := mkSpec {
  w_root : option nat; w_prio : priority; w_cpu : nat; w_mem : nat; w_io : nat; w_par : bool }.

(** indexing_resources.rs 200-206 *)
Record work := mkWork { q_id : nat; q_spec : spec; q_prio : priority; q_order : nat }.

(** indexing_resources.rs 208-227 *)
Record admission := mkAdm {
  queued : list work;
  a_tasks : nat; a_cpu : nat; a_mem : nat; a_io : nat;
  peak_tasks : nat; peak_cpu : nat; peak_mem : nat; peak_io : nat;
  completed : nat; panicked_tasks : nat; cancelled_before : nat; cancelled_after : nat;
  active_project : option nat; reprioritizations : nat; burst : nat; nav_pending : bool }.

(** Where the caller of one [acquire] (614-720) / lease (900-974) is. *)
Inductive phase :=
| PTicketed            (* after line 621 *)
| PTop                 (* queued, at the head of the loop (643) *)
| PArmed (n : bool)    (* Notified created (652) *)
| PBlocked (n : bool)  (* awaiting (704-718) *)
| PHolding             (* lease held *)
| PCancelling          (* about to record the cancellation (647, 660, 709) *)
| PDropping            (* QueuedTaskRegistration::drop about to run (883) *)
| PDropOwes            (* owes the notify of 895 *)
| PReleaseOwes         (* owes the notify of 972 *)
| PDone.

Record task := mkTask { t_spec : spec; t_cancelled : bool; t_phase : phase }.

Record state := mkState {
  pol : policy; adm : admission; tasks : list task; owed : nat; panicked : bool }.

(** [new] 252-290 *)
Definition init (p : policy) : state :=
  mkState p (mkAdm [] 0 0 0 0 0 0 0 0 0 0 0 0 None 0 0 false) [] 0 false.

Definition root_eqb (a b : option nat) : bool :=
  match a, b with
  | None, None => true
  | Some x, Some y => Nat.eqb x y
  | _, _ => false
  end.

(** effective_priority 729-738 *)
Definition effective_priority (w : spec) (act : option nat) : priority :=
  match act with
  | Some _ => if root_eqb (w_root w) act then ActiveDocument else w_prio w
  | None => w_prio w
  end.

(** validate_request_fits_policy 740-759 *)
Definition fits_policy (w : spec) (p : policy) : bool :=
  Nat.leb (w_cpu w) (p_cpu p) && Nat.leb (w_mem w) (p_mem p) && Nat.leb (w_io w) (p_io p).

(** project_parallel_blocked_by_active_navigation 782-789 *)
Definition blocked_by_navigation (w : spec) (a : admission) : bool :=
  w_par w && nav_pending a && negb (root_eqb (active_project a) (w_root w)).

(** request_fits_available 761-780 *)
Definition fits (p : policy) (a : admission) (w : spec) : bool :=
  negb (blocked_by_navigation w a)
  && Nat.ltb (a_tasks a) (p_tasks p)
  && Nat.leb (a_cpu a + w_cpu w) (p_cpu p)
  && Nat.leb (a_mem a + w_mem w) (p_mem p)
  && Nat.leb (a_io a + w_io w) (p_io p).

Definition root_rank (r : option nat) : nat := match r with None => 0 | Some x => S x end.

(** the sort keys of 816-821 and 806 *)
Definition order_lt (a b : work) : bool :=
  Nat.ltb (q_order a) (q_order b)
  || (Nat.eqb (q_order a) (q_order b)
      && Nat.ltb (root_rank (w_root (q_spec a))) (root_rank (w_root (q_spec b)))).
Definition work_lt (a b : work) : bool :=
  Nat.ltb (rank (q_prio a)) (rank (q_prio b))
  || (Nat.eqb (rank (q_prio a)) (rank (q_prio b)) && order_lt a b).

Definition fits_q (p : policy) (a : admission) (q : work) : bool := fits p a (q_spec q).
Definition fits_bg (p : policy) (a : admission) (q : work) : bool :=
  prio_eqb (q_prio q) Background && fits_q p a q.

(** best_admissible_entry_index 791-824 *)
Definition winner (p : policy) (a : admission) : option nat :=
  if Nat.leb MAX_BURST (burst a) then
    match best_index (fits_bg p a) order_lt (queued a) with
    | Some i => Some i
    | None => best_index (fits_q p a) work_lt (queued a)
    end
  else best_index (fits_q p a) work_lt (queued a).

(** reserve_resources 835-864 together with the queue removal (676) and the fairness
    counter (678-694); the assertions of 831 and 689 are checked in [lock_step] *)
Definition reserve (a : admission) (q' : list work) (w : spec) (b' : nat) : admission :=
  let t := S (a_tasks a) in let c := a_cpu a + w_cpu w in
  let m := a_mem a + w_mem w in let i := a_io a + w_io w in
  mkAdm q' t c m i
    (Nat.max (peak_tasks a) t) (Nat.max (peak_cpu a) c)
    (Nat.max (peak_mem a) m) (Nat.max (peak_io a) i)
    (completed a) (panicked_tasks a) (cancelled_before a) (cancelled_after a)
    (active_project a) (reprioritizations a) b' (nav_pending a).

Definition set_queue (a : admission) (q : list work) : admission :=
  mkAdm q (a_tasks a) (a_cpu a) (a_mem a) (a_io a)
    (peak_tasks a) (peak_cpu a) (peak_mem a) (peak_io a)
    (completed a) (panicked_tasks a) (cancelled_before a) (cancelled_after a)
    (active_project a) (reprioritizations a) (burst a) (nav_pending a).

Definition set_active (a : admission) (q : list work) (r : option nat) (n : nat) (nav : bool) : admission :=
  mkAdm q (a_tasks a) (a_cpu a) (a_mem a) (a_io a)
    (peak_tasks a) (peak_cpu a) (peak_mem a) (peak_io a)
    (completed a) (panicked_tasks a) (cancelled_before a) (cancelled_after a)
    r n (burst a) nav.

(** record_cancelled_before_start 867-874 *)
Definition add_cancelled_before (a : admission) : admission :=
  mkAdm (queued a) (a_tasks a) (a_cpu a) (a_mem a) (a_io a)
    (peak_tasks a) (peak_cpu a) (peak_mem a) (peak_io a)
    (completed a) (panicked_tasks a) (S (cancelled_before a)) (cancelled_after a)
    (active_project a) (reprioritizations a) (burst a) (nav_pending a).

(** How a lease ends: 952-970 *)
Inductive ending := Completed | Panicked | Cancelled.

(** ActiveResourceLease::drop 930-971; [None] is the checked_sub panic *)
Definition release (a : admission) (w : spec) (e : ending) : option admission :=
  if Nat.leb 1 (a_tasks a) && Nat.leb (w_cpu w) (a_cpu a)
     && Nat.leb (w_mem w) (a_mem a) && Nat.leb (w_io w) (a_io a)
  then Some (mkAdm (queued a) (a_tasks a - 1) (a_cpu a - w_cpu w) (a_mem a - w_mem w) (a_io a - w_io w)
    (peak_tasks a) (peak_cpu a) (peak_mem a) (peak_io a)
    (match e with Completed => S (completed a) | _ => completed a end)
    (match e with Panicked => S (panicked_tasks a) | _ => panicked_tasks a end)
    (cancelled_before a)
    (match e with Cancelled => S (cancelled_after a) | _ => cancelled_after a end)
    (active_project a) (reprioritizations a) (burst a) (nav_pending a))
  else None.

Definition with_phase (t : task) (p : phase) : task := mkTask (t_spec t) (t_cancelled t) p.

Definition wake (t : task) : task :=
  match t_phase t with
  | PArmed _ => with_phase t (PArmed true)
  | PBlocked _ => with_phase t (PBlocked true)
  | _ => t
  end.

Definition set_tasks (s : state) (ts : list task) : state :=
  mkState (pol s) (adm s) ts (owed s) (panicked s).
Definition set_phase (s : state) (i : nat) (t : task) (p : phase) : state :=
  set_tasks s (upd (tasks s) i (with_phase t p)).
Definition notify_all (s : state) : state := set_tasks s (map wake (tasks s)).
Definition panic (s : state) : state := mkState (pol s) (adm s) (tasks s) (owed s) true.
Definition set_adm (s : state) (a : admission) (ts : list task) : state :=
  mkState (pol s) a ts (owed s) (panicked s).

Inductive op :=
| OTicket (w : spec)
| OPush (i : nat)
| OCancel (i : nat)
| OTop (i : nat)
| OLock (i : nat)
| OWake (i : nat)
| ODropFuture (i : nat)         (* the acquiring future is dropped at its await point *)
| ORecordCancel (i : nat)
| ODropLock (i : nat)
| ORelease (i : nat) (e : ending)
| ONotify (i : nat)
| OPrioritize (r : nat) (nav : bool)   (* 326-359 *)
| ONavPending (r : nat)                (* 361-375 *)
| ONavComplete (r : nat)               (* 377-391, and ProjectNavigationReservation::drop 911-927 *)
| ONotifyOwed.

(** The critical section 653-703 *)
Definition lock_step (s : state) (i : nat) (t : task) (n : bool) : state :=
  if t_cancelled t then set_phase s i t PCancelling
  else
    let sleep := set_phase s i t (PBlocked n) in
    match winner (pol s) (adm s) with
    | None => sleep
    | Some w =>
        match nth_error (queued (adm s)) w with
        | None => panic s
        | Some q =>
            if Nat.eqb (q_id q) i then
              let bg := existsb (fun x => negb (Nat.eqb (q_id x) i) && fits_bg (pol s) (adm s) x)
                                (queued (adm s)) in
              let b' := if prio_eqb (q_prio q) Background || negb bg then 0
                        else S (burst (adm s)) in
              if negb (fits (pol s) (adm s) (q_spec q)) then panic s       (* 831 *)
              else if Nat.ltb MAX_BURST b' then panic s                    (* 689 *)
              else set_adm s (reserve (adm s) (swap_remove (queued (adm s)) w) (q_spec q) b')
                     (upd (tasks s) i (mkTask (q_spec q) (t_cancelled t) PHolding))
            else sleep
        end
    end.

(** prioritize_active_project_with_navigation_pending 326-359 *)
Definition prioritize_step (s : state) (r : nat) (nav : bool) : state :=
  let a := adm s in
  let changed1 := negb (root_eqb (active_project a) (Some r)) in
  let changed2 := negb (Bool.eqb (nav_pending a) nav) in
  let changed3 := existsb (fun q => negb (prio_eqb (q_prio q)
                    (effective_priority (q_spec q) (Some r)))) (queued a) in
  let q' := map (fun q => mkWork (q_id q) (q_spec q)
                    (effective_priority (q_spec q) (Some r)) (q_order q)) (queued a) in
  mkState (pol s)
    (set_active a q' (Some r) (if changed1 then S (reprioritizations a) else reprioritizations a) nav)
    (tasks s) (if changed1 || changed2 || changed3 then S (owed s) else owed s) (panicked s).

(** mark_project_navigation_{pending,complete}_if_active 361-391 *)
Definition nav_step (s : state) (r : nat) (v : bool) : state :=
  let a := adm s in
  if root_eqb (active_project a) (Some r) && negb (Bool.eqb (nav_pending a) v) then
    mkState (pol s) (set_active a (queued a) (active_project a) (reprioritizations a) v)
      (tasks s) (S (owed s)) (panicked s)
  else s.

Definition step_ok (s : state) (o : op) : state :=
  match o with
  | OTicket w =>                                                       (* 620-621 *)
      if fits_policy w (pol s)
      then set_tasks s (tasks s ++ [mkTask w false PTicketed]) else s
  | OPrioritize r nav => prioritize_step s r nav
  | ONavPending r => nav_step s r true
  | ONavComplete r => nav_step s r false
  | ONotifyOwed =>
      match owed s with
      | 0 => s
      | S k => notify_all (mkState (pol s) (adm s) (tasks s) k (panicked s))
      end
  | OPush i | OCancel i | OTop i | OLock i | OWake i | ODropFuture i | ORecordCancel i
  | ODropLock i | ORelease i _ | ONotify i =>
      match nth_error (tasks s) i with
      | None => s
      | Some t =>
          match o, t_phase t with
          | OPush _, PTicketed =>                                      (* 626-635 *)
              set_adm s (set_queue (adm s) (queued (adm s) ++
                 [mkWork i (t_spec t) (effective_priority (t_spec t) (active_project (adm s))) i]))
                 (upd (tasks s) i (with_phase t PTop))
          | OCancel _, _ =>
              set_tasks s (upd (tasks s) i (mkTask (t_spec t) true (t_phase t)))
          | OTop _, PTop =>                                            (* 643-652 *)
              if t_cancelled t then set_phase s i t PCancelling
              else set_phase s i t (PArmed false)
          | OLock _, PArmed n => lock_step s i t n
          | OWake _, PBlocked n =>                                     (* 704-718 *)
              if t_cancelled t then set_phase s i t PCancelling
              else if n then set_phase s i t PTop else s
          | ODropFuture _, PBlocked _ => set_phase s i t PDropping
          | ORecordCancel _, PCancelling =>
              set_adm s (add_cancelled_before (adm s)) (upd (tasks s) i (with_phase t PDropping))
          | ODropLock _, PDropping =>                                  (* 883-897 *)
              match position (fun q => Nat.eqb (q_id q) i) (queued (adm s)) with
              | Some k => set_adm s (set_queue (adm s) (swap_remove (queued (adm s)) k))
                            (upd (tasks s) i (with_phase t PDropOwes))
              | None => set_phase s i t PDone
              end
          | ORelease _ e, PHolding =>
              match release (adm s) (t_spec t) e with
              | None => panic s
              | Some a => set_adm s a (upd (tasks s) i (with_phase t PReleaseOwes))
              end
          | ONotify _, PDropOwes => notify_all (set_phase s i t PDone)
          | ONotify _, PReleaseOwes => notify_all (set_phase s i t PDone)
          | _, _ => s
          end
      end
  end.

Definition step (s : state) (o : op) : state :=
  if panicked s then s else step_ok s o.

Fixpoint run (s : state) (ops : list op) : state :=
  match ops with [] => s | o :: rest => run (step s o) rest end.

(** cooperative_parallel_cpu_lanes 83-92 and project_parallel_cpu_lanes 403-412 *)
Definition cooperative_lanes (p : policy) : nat := Nat.max (p_cpu p / p_tasks p) 1.
Definition project_parallel_lanes (s : state) (r : nat) : nat :=
  if root_eqb (active_project (adm s)) (Some r) && nav_pending (adm s)
  then Nat.max (p_cpu (pol s) - 1) 1 else cooperative_lanes (pol s).
