(** Model of /repo/src/single_flight.rs (lines 1-741): the three single-flight caches.

    One state machine covers them; [kind] selects the variant:
    - [Unbounded]        SingleFlightCache 54-204
    - [Bounded e w]      BoundedSingleFlightCache 211-415 ([Bounded 0 0] is [ephemeral] 238-247)
    - [Blocking e w]     BlockingBoundedSingleFlightCache 494-685
    A flight is one [FlightState] / [BlockingFlightState] together with the producer job that
    owns it; flights are numbered in creation order, which is also the order of the cache's
    generation counter (it is advanced under the entries lock, 293-299 and 565-571).
    Each critical section of the entries lock, each atomic counter update that is separated
    from it, each publication and each notification is one step.  The eviction loop keeps the
    entries lock ([evictor]) while results may be published between its iterations; within one
    iteration the results are read once.
    For [Blocking], publication and wake-up are one critical section of the flight's own lock
    and so is check-and-sleep; the model separates them as for the asynchronous variants, which
    only adds interleavings.
    Producers may fail or panic; a panic inside an asynchronous producer's task reaches the
    cache as an error (150-152, the error [join_error]), a panic of the closure that builds
    the future (142, 316) is [OStartPanic].
    Values and errors are numbers.  Not modelled: wall-clock counters, overflow of counters and
    of the weight sum at 2^64, runtime shutdown. *)
From Coq Require Import List Arith Bool.
From Verif Require Import Lib.
Import ListNotations.

Inductive kind := Unbounded | Bounded (max_entries max_weight : nat) | Blocking (max_entries max_weight : nat).
Definition is_blocking (k : kind) : bool := match k with Blocking _ _ => true | _ => false end.

(** SharedResult 11, BlockingFlightCompletion 417-421 *)
Inductive res := ROk (v : nat) | RErr (e : nat) | RPanicked.
Definition is_ok (r : res) : bool := match r with ROk _ => true | _ => false end.
Definition join_error : nat := 0.

(** The producer job of a flight. *)
Inductive fphase :=
| FNew          (* entry inserted, producer not started *)
| FRun          (* the producer runs *)
| FGot (r : res)      (* it returned; failures counted *)
| FRemoved (r : res)  (* Blocking: entry removed before publication (592, 601) *)
| FSet          (* result published, waiters not yet notified (45 / 449) *)
| FPost         (* waiters notified (48 / 450) *)
| FEvict        (* inside evict_completed_to_limits, holding the entries lock *)
| FDone
| FLost.        (* the future could not be built: nobody will publish *)

Record flight := mkF { f_key : nat; f_res : option res; f_rung : bool; f_phase : fphase }.

(** A call of get_or_try_init. *)
Inductive kphase :=
| KStart                 (* lookup counted, lock not yet taken *)
| KOwner (c : nat)       (* inserted flight c *)
| KReg (c : nat)         (* wait: about to create the Notified future (35) *)
| KCheck (c : nat) (rung : bool)   (* created; about to look at the result (36) *)
| KSleep (c : nat) (rung : bool)   (* awaiting (39 / 472) *)
| KGot (c : nat) (r : res)
| KPanic
| KDropped.
Record caller := mkK { k_key : nat; k_phase : kphase }.

Record counters := mkC { lookups : nat; hits : nat; joined : nat; misses : nat;
                         producers : nat; failures : nat; evictions : nat }.

Record state := mkState {
  entries : list (nat * nat);      (* key, flight *)
  flights : list flight;
  callers : list caller;
  evictor : option nat;            (* flight whose job is inside the eviction loop *)
  cnt : counters }.

Definition init : state := mkState [] [] [] None (mkC 0 0 0 0 0 0 0).

Definition find_entry (k : nat) (l : list (nat * nat)) : option nat :=
  match find (fun e => Nat.eqb (fst e) k) l with Some e => Some (snd e) | None => None end.
Definition remove_entry (k : nat) (l : list (nat * nat)) : list (nat * nat) :=
  filter (fun e => negb (Nat.eqb (fst e) k)) l.
(** remove_if_owned 652-660; 159-166; 334-341 *)
Definition remove_if_owned (k c : nat) (l : list (nat * nat)) : list (nat * nat) :=
  match find_entry k l with Some c' => if Nat.eqb c' c then remove_entry k l else l | None => l end.

Definition result (s : state) (c : nat) : option res :=
  match nth_error (flights s) c with Some f => f_res f | None => None end.
Definition completed_ok (s : state) (e : nat * nat) : bool :=
  match result s (snd e) with Some (ROk _) => true | _ => false end.
(** the entries counted by evict_completed_to_limits 394-397, 665-668 *)
Definition retained (s : state) : list (nat * nat) := filter (completed_ok s) (entries s).

Section Weight.
Variable weight : nat -> nat.

(** completed_weight 709-723, blocking_completed_weight 725-741 *)
Definition entry_weight (s : state) (e : nat * nat) : nat :=
  match result s (snd e) with Some (ROk v) => weight v | _ => 0 end.
Definition retained_weight (s : state) : nat := list_sum (map (entry_weight s) (retained s)).

Definition limits (k : kind) : option (nat * nat) :=
  match k with Unbounded => None | Bounded e w | Blocking e w => Some (e, w) end.
Definition within (k : kind) (s : state) : bool :=
  match limits k with
  | None => true
  | Some (e, w) => Nat.leb (length (retained s)) e && Nat.leb (retained_weight s) w
  end.

(** oldest completed entry 403-407, 673-677 *)
Fixpoint oldest (l : list (nat * nat)) : option (nat * nat) :=
  match l with
  | [] => None
  | e :: r => match oldest r with
              | Some e' => if Nat.leb (snd e) (snd e') then Some e else Some e'
              | None => Some e
              end
  end.

Inductive op :=
| OCall (k : nat)
| OLock (i : nat)
| OStart (i : nat)
| OStartPanic (i : nat)
| OFinish (c : nat) (r : res)
| OStep (c : nat)         (* next bookkeeping step of flight c's job *)
| OOwner (i : nat)        (* Blocking: the owner's call continues after its job *)
| OWait (i : nat)         (* next step of a waiting call *)
| ODrop (i : nat).        (* a waiting asynchronous call is dropped *)

Definition with_caller (s : state) (i : nat) (c : caller) (p : kphase) : state :=
  mkState (entries s) (flights s) (upd (callers s) i (mkK (k_key c) p)) (evictor s) (cnt s).
Definition with_flight (s : state) (c : nat) (f : flight) : state :=
  mkState (entries s) (upd (flights s) c f) (callers s) (evictor s) (cnt s).
Definition with_entries (s : state) (e : list (nat * nat)) : state :=
  mkState e (flights s) (callers s) (evictor s) (cnt s).
Definition with_evictor (s : state) (e : option nat) : state :=
  mkState (entries s) (flights s) (callers s) e (cnt s).
Definition with_cnt (s : state) (c : counters) : state :=
  mkState (entries s) (flights s) (callers s) (evictor s) c.
Definition at_phase (f : flight) (p : fphase) : flight := mkF (f_key f) (f_res f) (f_rung f) p.
Definition free (s : state) : bool := match evictor s with None => true | Some _ => false end.

Definition step (kd : kind) (s : state) (o : op) : state :=
  match o with
  | OCall k =>                                                   (* 119, 277, 549 *)
      let n := cnt s in
      mkState (entries s) (flights s) (callers s ++ [mkK k KStart]) (evictor s)
        (mkC (S (lookups n)) (hits n) (joined n) (misses n) (producers n) (failures n) (evictions n))
  | OLock i =>                                                   (* 120-138, 278-312, 550-580 *)
      match nth_error (callers s) i with
      | Some c =>
          match k_phase c with
          | KStart =>
              if free s then
                let n := cnt s in
                match find_entry (k_key c) (entries s) with
                | Some fl =>
                    let hit := match result s fl with
                               | Some r => if is_blocking kd then is_ok r else true
                               | None => false end in
                    with_cnt (with_caller s i c (KReg fl))
                      (if hit then mkC (lookups n) (S (hits n)) (joined n) (misses n) (producers n) (failures n) (evictions n)
                       else mkC (lookups n) (hits n) (S (joined n)) (misses n) (producers n) (failures n) (evictions n))
                | None =>
                    let fl := length (flights s) in
                    mkState (entries s ++ [(k_key c, fl)]) (flights s ++ [mkF (k_key c) None false FNew])
                      (upd (callers s) i (mkK (k_key c) (KOwner fl))) (evictor s)
                      (mkC (lookups n) (hits n) (joined n) (S (misses n)) (producers n) (failures n) (evictions n))
                end
              else s
          | _ => s
          end
      | None => s
      end
  | OStart i =>                                                  (* 139-147, 313-320, 582-585 *)
      match nth_error (callers s) i with
      | Some c =>
          match k_phase c with
          | KOwner fl =>
              match nth_error (flights s) fl with
              | Some f =>
                  match f_phase f with
                  | FNew =>
                      let n := cnt s in
                      let s1 := with_flight s fl (at_phase f FRun) in
                      let s2 := with_cnt s1 (mkC (lookups n) (hits n) (joined n) (misses n) (S (producers n)) (failures n) (evictions n)) in
                      if is_blocking kd then s2 else with_caller s2 i c (KReg fl)
                  | _ => s
                  end
              | None => s
              end
          | _ => s
          end
      | None => s
      end
  | OStartPanic i =>                                             (* producer() of 142, 316 *)
      if is_blocking kd then s else
      match nth_error (callers s) i with
      | Some c =>
          match k_phase c with
          | KOwner fl =>
              match nth_error (flights s) fl with
              | Some f =>
                  match f_phase f with
                  | FNew =>
                      let n := cnt s in
                      with_caller (with_cnt (with_flight s fl (at_phase f FLost))
                        (mkC (lookups n) (hits n) (joined n) (misses n) (S (producers n)) (failures n) (evictions n))) i c KPanic
                  | _ => s
                  end
              | None => s
              end
          | _ => s
          end
      | None => s
      end
  | OFinish c r =>                                               (* 148-157, 321-332, 586-591, 597-600 *)
      match nth_error (flights s) c with
      | Some f =>
          match f_phase f with
          | FRun =>
              let r' := match r with RPanicked => if is_blocking kd then RPanicked else RErr join_error | _ => r end in
              let n := cnt s in
              with_cnt (with_flight s c (at_phase f (FGot r')))
                (mkC (lookups n) (hits n) (joined n) (misses n) (producers n)
                   (if is_ok r' then failures n else S (failures n)) (evictions n))
          | _ => s
          end
      | None => s
      end
  | OStep c =>
      match nth_error (flights s) c with
      | Some f =>
          match f_phase f with
          | FGot r =>
              if is_blocking kd && negb (is_ok r) then           (* 592, 601 *)
                if free s then
                  with_flight (with_entries s (remove_if_owned (f_key f) c (entries s))) c (at_phase f (FRemoved r))
                else s
              else with_flight s c (mkF (f_key f) (Some r) (f_rung f) FSet)   (* 45, 449 *)
          | FRemoved r => with_flight s c (mkF (f_key f) (Some r) (f_rung f) FSet)
          | FSet => with_flight s c (mkF (f_key f) (f_res f) true FPost)      (* 48, 450, 460 *)
          | FPost =>
              match f_res f with
              | None => s
              | Some RPanicked => with_flight s c (at_phase f FDone)          (* 603 *)
              | Some r =>
                  if is_blocking kd then                                      (* 595 *)
                    if free s then with_evictor (with_flight s c (at_phase f FEvict)) (Some c) else s
                  else if is_ok r then
                    match limits kd with
                    | None => with_flight s c (at_phase f FDone)
                    | Some _ =>                                               (* 343 *)
                        if free s then with_evictor (with_flight s c (at_phase f FEvict)) (Some c) else s
                    end
                  else if free s then                                         (* 159-166, 334-341 *)
                    with_flight (with_entries s (remove_if_owned (f_key f) c (entries s))) c (at_phase f FDone)
                  else s
              end
          | FEvict =>                                                         (* 391-414, 662-684 *)
              if within kd s then with_evictor (with_flight s c (at_phase f FDone)) None
              else
                match oldest (retained s) with
                | None => with_evictor (with_flight s c (at_phase f FDone)) None
                | Some e =>
                    let n := cnt s in
                    with_cnt (with_entries s (remove_entry (fst e) (entries s)))
                      (mkC (lookups n) (hits n) (joined n) (misses n) (producers n) (failures n) (S (evictions n)))
                end
          | _ => s
          end
      | None => s
      end
  | OOwner i =>                                                  (* 597-609 *)
      if negb (is_blocking kd) then s else
      match nth_error (callers s) i with
      | Some c =>
          match k_phase c with
          | KOwner fl =>
              match nth_error (flights s) fl with
              | Some f =>
                  match f_phase f with
                  | FDone => with_caller s i c (match f_res f with Some RPanicked => KPanic | _ => KReg fl end)
                  | _ => s
                  end
              | None => s
              end
          | _ => s
          end
      | None => s
      end
  | OWait i =>                                                   (* 31-41, 468-483 *)
      match nth_error (callers s) i with
      | Some c =>
          match k_phase c with
          | KReg fl =>
              match nth_error (flights s) fl with
              | Some f => with_caller s i c (KCheck fl (f_rung f)) | None => s end
          | KCheck fl b =>
              match result s fl with
              | Some RPanicked => with_caller s i c KPanic
              | Some r => with_caller s i c (KGot fl r)
              | None => with_caller s i c (KSleep fl b)
              end
          | KSleep fl b =>
              match nth_error (flights s) fl with
              | Some f => if Bool.eqb (f_rung f) b then s else with_caller s i c (KReg fl)
              | None => s
              end
          | _ => s
          end
      | None => s
      end
  | ODrop i =>
      if is_blocking kd then s else
      match nth_error (callers s) i with
      | Some c =>
          match k_phase c with
          | KReg _ | KCheck _ _ | KSleep _ _ => with_caller s i c KDropped
          | _ => s
          end
      | None => s
      end
  end.

Definition run (kd : kind) (s : state) (h : list op) : state := fold_left (step kd) h s.
End Weight.
