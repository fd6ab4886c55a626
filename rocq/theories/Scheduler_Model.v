(** Model of /repo/src/indexing_scheduler.rs (lines 1-369).

    Every critical section of the Rust code (the code between [state.lock()] and the unlock)
    is one step; every [notify_waiters] call is a separate later step of the same thread, and
    the ticket counter ([next_id.fetch_add]) is a separate earlier step, as in the code.
    Disabled operations leave the state unchanged.  A fired assertion moves the whole system
    to [panicked = true].

    Simplifications:
    - project roots are natural numbers (paths are only compared);
    - u64/usize overflow (2^64 registrations) is not modelled;
    - each admission has its own cancellation flag; one token shared by several admissions is
      a sequence of [OCancel] steps;
    - tokio's [Notify] is modelled by its documented contract: [notify_waiters] wakes every
      [Notified] future that has already been created. *)
From Coq Require Import List Arith Bool.
From Verif Require Import Lib.
Import ListNotations.

(** indexing_scheduler.rs 9 *)
Definition MAX_BURST : nat := 1.

(** indexing_scheduler.rs 11-16 (derived [Ord]: declaration order) *)
Inductive priority := ActiveDocument | OpenDocument | Background.

Definition rank (p : priority) : nat :=
  match p with ActiveDocument => 0 | OpenDocument => 1 | Background => 2 end.

Definition prio_eqb (a b : priority) : bool := Nat.eqb (rank a) (rank b).

(** indexing_scheduler.rs 18-25 *)
Record entry := mkEntry {
  e_id : nat; e_root : nat; e_requested : priority; e_priority : priority; e_order : nat }.

(** Where the caller of one admission is.  [register_cancellable] 102-134,
    [IndexingAdmission::wait] 142-210, [QueueRegistration::drop] 333-345,
    [IndexingPermit::drop] 352-369. *)
Inductive phase :=
| PTicketed              (* after line 108, before the push *)
| PPushed                (* after the push, owes the notify of line 125 *)
| PTop                   (* admission returned / at the head of the loop (line 145) *)
| PArmed (n : bool)      (* [Notified] created (line 148); [n]: already notified *)
| PBlocked (n : bool)    (* in the select (line 203) *)
| PAdmitted              (* permit created, owes the notify of line 197 *)
| PHolding               (* caller owns the permit *)
| PDropping              (* [QueueRegistration::drop] about to run, not admitted *)
| PDropOwes              (* entry removed, owes the notify of line 342 *)
| PReleaseOwes           (* permit released, owes the notify of line 367 *)
| PDone.

Record task := mkTask {
  t_root : nat; t_prio : priority; t_cancelled : bool; t_phase : phase }.

Record state := mkState {
  limit : nat;
  active : nat;
  active_projects : list nat;   (* BTreeSet: kept duplicate free by [insert] *)
  queued : list entry;
  active_project : option nat;
  reprioritizations : nat;
  burst : nat;                  (* priority_admissions_while_background_waits *)
  tasks : list task;            (* index = ticket id; length = next_id *)
  owed : nat;                   (* prioritize callers that still owe line 240 *)
  panicked : bool }.

(** [new] 51-71; the assertion [limit > 0] is a hypothesis of the theorems *)
Definition init (lim : nat) : state :=
  mkState lim 0 [] [] None 0 0 [] 0 false.

(** effective_priority 256-266 *)
Definition effective_priority (root : nat) (requested : priority) (act : option nat) : priority :=
  match act with
  | Some a => if Nat.eqb a root then ActiveDocument else requested
  | None => requested
  end.

Definition mem (r : nat) (l : list nat) : bool := existsb (Nat.eqb r) l.

Definition lex2 (a1 a2 b1 b2 : nat) : bool :=
  Nat.ltb a1 b1 || (Nat.eqb a1 b1 && Nat.ltb a2 b2).

(** key (priority, insertion_order, project_root) of 285-291 *)
Definition entry_lt (a b : entry) : bool :=
  Nat.ltb (rank (e_priority a)) (rank (e_priority b))
  || (Nat.eqb (rank (e_priority a)) (rank (e_priority b))
      && lex2 (e_order a) (e_root a) (e_order b) (e_root b)).

(** key (insertion_order, project_root) of 309 *)
Definition bg_lt (a b : entry) : bool := lex2 (e_order a) (e_root a) (e_order b) (e_root b).

Definition admissible (act : list nat) (e : entry) : bool := negb (mem (e_root e) act).

Definition admissible_bg (act : list nat) (e : entry) : bool :=
  prio_eqb (e_priority e) Background && admissible act e.

(** best_admissible_entry_index 277-293 *)
Definition best_admissible (q : list entry) (act : list nat) : option nat :=
  best_index (admissible act) entry_lt q.

(** best_admissible_entry_index_with_fairness 295-316 *)
Definition best_with_fairness (q : list entry) (act : list nat) (b : nat) : option nat :=
  if Nat.leb MAX_BURST b then
    match best_index (admissible_bg act) bg_lt q with
    | Some i => Some i
    | None => best_admissible q act
    end
  else best_admissible q act.

(** ** Small state updates *)
Definition set_task (s : state) (i : nat) (t : task) : state :=
  mkState (limit s) (active s) (active_projects s) (queued s) (active_project s)
          (reprioritizations s) (burst s) (upd (tasks s) i t) (owed s) (panicked s).

Definition with_phase (t : task) (p : phase) : task :=
  mkTask (t_root t) (t_prio t) (t_cancelled t) p.

Definition set_phase (s : state) (i : nat) (t : task) (p : phase) : state :=
  set_task s i (with_phase t p).

Definition panic (s : state) : state :=
  mkState (limit s) (active s) (active_projects s) (queued s) (active_project s)
          (reprioritizations s) (burst s) (tasks s) (owed s) true.

(** tokio [Notify::notify_waiters]: every existing [Notified] future becomes ready *)
Definition wake (t : task) : task :=
  match t_phase t with
  | PArmed _ => with_phase t (PArmed true)
  | PBlocked _ => with_phase t (PBlocked true)
  | _ => t
  end.

Definition notify_all (s : state) : state :=
  mkState (limit s) (active s) (active_projects s) (queued s) (active_project s)
          (reprioritizations s) (burst s) (map wake (tasks s)) (owed s) (panicked s).

Inductive op :=
| OTicket (root : nat) (p : priority)
| OPush (i : nat)
| ONotify (i : nat)          (* the notify_waiters call owed by task i *)
| OCancel (i : nat)
| OTop (i : nat)
| OLock (i : nat)
| OWake (i : nat)
| ODropAdmission (i : nat)   (* the caller drops the admission / its wait future *)
| ODropLock (i : nat)
| ORelease (i : nat)
| OPrioritize (root : nat)
| ONotifyPrio.

(** Critical section of [wait], 150-202 *)
Definition lock_step (s : state) (i : nat) (t : task) (n : bool) : state :=
  if t_cancelled t then set_phase s i t PDropping
  else
    let sleep := set_phase s i t (PBlocked n) in
    if Nat.ltb (active s) (limit s) then
      match best_with_fairness (queued s) (active_projects s) (burst s) with
      | None => sleep
      | Some w =>
          match nth_error (queued s) w with
          | None => panic s                       (* index out of bounds *)
          | Some e =>
              if Nat.eqb (e_id e) i then
                let bg_waiting := existsb (admissible_bg (active_projects s)) (queued s) in
                if mem (e_root e) (active_projects s) then panic s   (* 168-172 *)
                else
                  let b' := if prio_eqb (e_priority e) Background || negb bg_waiting
                            then 0 else S (burst s) in
                  if Nat.ltb MAX_BURST b' then panic s               (* 185-189 *)
                  else
                    mkState (limit s) (S (active s)) (e_root e :: active_projects s)
                            (swap_remove (queued s) w) (active_project s)
                            (reprioritizations s) b'
                            (upd (tasks s) i
                               (mkTask (e_root e) (t_prio t) (t_cancelled t) PAdmitted))
                            (owed s) (panicked s)
              else sleep
          end
      end
    else sleep.

(** prioritize_active_project 213-242 *)
Definition prioritize_step (s : state) (root : nat) : state :=
  let changed1 := match active_project s with
                  | Some a => negb (Nat.eqb a root) | None => true end in
  let q' := map (fun e => mkEntry (e_id e) (e_root e) (e_requested e)
                    (effective_priority (e_root e) (e_requested e) (Some root)) (e_order e))
                (queued s) in
  let changed2 := existsb (fun e => negb (prio_eqb (e_priority e)
                    (effective_priority (e_root e) (e_requested e) (Some root)))) (queued s) in
  mkState (limit s) (active s) (active_projects s) q' (Some root)
          (if changed1 then S (reprioritizations s) else reprioritizations s)
          (burst s) (tasks s)
          (if changed1 || changed2 then S (owed s) else owed s) (panicked s).

(** [BTreeSet::remove] *)
Definition remove_root (r : nat) (l : list nat) : list nat :=
  filter (fun x => negb (Nat.eqb x r)) l.

Definition step_ok (s : state) (o : op) : state :=
  match o with
  | OTicket root p =>                                                       (* 108 *)
      mkState (limit s) (active s) (active_projects s) (queued s) (active_project s)
              (reprioritizations s) (burst s)
              (tasks s ++ [mkTask root p false PTicketed]) (owed s) (panicked s)
  | OPrioritize root => prioritize_step s root
  | ONotifyPrio =>
      match owed s with
      | 0 => s
      | S k => notify_all (mkState (limit s) (active s) (active_projects s) (queued s)
                 (active_project s) (reprioritizations s) (burst s) (tasks s) k (panicked s))
      end
  | OPush i | ONotify i | OCancel i | OTop i | OLock i | OWake i
  | ODropAdmission i | ODropLock i | ORelease i =>
      match nth_error (tasks s) i with
      | None => s
      | Some t =>
          match o, t_phase t with
          | OPush _, PTicketed =>                                           (* 113-124 *)
              let e := mkEntry i (t_root t) (t_prio t)
                         (effective_priority (t_root t) (t_prio t) (active_project s)) i in
              mkState (limit s) (active s) (active_projects s) (queued s ++ [e])
                      (active_project s) (reprioritizations s) (burst s)
                      (upd (tasks s) i (with_phase t PPushed)) (owed s) (panicked s)
          | ONotify _, PPushed => notify_all (set_phase s i t PTop)         (* 125 *)
          | ONotify _, PAdmitted => notify_all (set_phase s i t PHolding)   (* 197 *)
          | ONotify _, PDropOwes => notify_all (set_phase s i t PDone)      (* 342 *)
          | ONotify _, PReleaseOwes => notify_all (set_phase s i t PDone)   (* 367 *)
          | OCancel _, _ =>
              set_task s i (mkTask (t_root t) (t_prio t) true (t_phase t))
          | OTop _, PTop =>                                                 (* 145-148 *)
              if t_cancelled t then set_phase s i t PDropping
              else set_phase s i t (PArmed false)
          | OLock _, PArmed n => lock_step s i t n                          (* 149-202 *)
          | OWake _, PBlocked n =>                                          (* 203-207 *)
              if t_cancelled t then set_phase s i t PDropping
              else if n then set_phase s i t PTop else s
          | ODropAdmission _, PTop => set_phase s i t PDropping
          | ODropAdmission _, PBlocked _ => set_phase s i t PDropping
          | ODropLock _, PDropping =>                                       (* 338-344 *)
              match position (fun e => Nat.eqb (e_id e) i) (queued s) with
              | Some k =>
                  mkState (limit s) (active s) (active_projects s) (swap_remove (queued s) k)
                          (active_project s) (reprioritizations s) (burst s)
                          (upd (tasks s) i (with_phase t PDropOwes)) (owed s) (panicked s)
              | None => set_phase s i t PDone
              end
          | ORelease _, PHolding =>                                         (* 354-366 *)
              if Nat.eqb (active s) 0 then panic s
              else if negb (mem (t_root t) (active_projects s)) then panic s
              else mkState (limit s) (active s - 1)
                     (remove_root (t_root t) (active_projects s)) (queued s)
                     (active_project s) (reprioritizations s) (burst s)
                     (upd (tasks s) i (with_phase t PReleaseOwes)) (owed s) (panicked s)
          | _, _ => s
          end
      end
  end.

Definition step (s : state) (o : op) : state :=
  if panicked s then s else step_ok s o.

Fixpoint run (s : state) (ops : list op) : state :=
  match ops with
  | [] => s
  | o :: rest => run (step s o) rest
  end.
