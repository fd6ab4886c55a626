(** What callers and producers of a single-flight cache observe. *)
From Coq Require Import List Arith Bool.
From Verif Require Import Lib Flight_Model.
Import ListNotations.

Definition reachable (w : nat -> nat) (kd : kind) (s : state) : Prop :=
  exists h, s = run w kd init h.

(** Flight [c] was started for key [k]. *)
Definition for_key (s : state) (c k : nat) : Prop :=
  exists f, nth_error (flights s) c = Some f /\ f_key f = k.
(** A producer for key [k] is running in flight [c]. *)
Definition producing (s : state) (c k : nat) : Prop :=
  exists f, nth_error (flights s) c = Some f /\ f_key f = k /\ f_phase f = FRun.
Definition phase_of (s : state) (c : nat) : option fphase :=
  option_map f_phase (nth_error (flights s) c).
(** The result published by flight [c]: [result s c]. *)
Definition failure (r : res) : Prop := forall v, r <> ROk v.

Definition call (s : state) (i : nat) (k : nat) (p : kphase) : Prop :=
  nth_error (callers s) i = Some (mkK k p).
(** Call [i] takes its result from flight [c]. *)
Definition attached_phase (p : kphase) (c : nat) : Prop :=
  match p with
  | KOwner c' | KReg c' | KCheck c' _ | KSleep c' _ | KGot c' _ => c' = c
  | _ => False
  end.
Definition attached (s : state) (i c : nat) : Prop :=
  exists k p, call s i k p /\ attached_phase p c.

(** A successful product that was published, whose producer has not yet enforced the limits. *)
Definition unsettled (s : state) (c : nat) : Prop :=
  exists f v, nth_error (flights s) c = Some f /\ f_res f = Some (ROk v) /\
              (f_phase f = FSet \/ f_phase f = FPost \/ f_phase f = FEvict).
(** Key [k] is served from flight [c]. *)
Definition cached (s : state) (k c : nat) : Prop := In (k, c) (entries s).
Definition retained_value (s : state) (k c v : nat) : Prop :=
  cached s k c /\ result s c = Some (ROk v).

Definition past_lookup (c : caller) : bool := match k_phase c with KStart => false | _ => true end.
Definition begun (f : flight) : bool := match f_phase f with FNew => false | _ => true end.
Definition failed_result (r : res) : bool := match r with ROk _ => false | _ => true end.
(** The producer has returned a failure. *)
Definition failed (f : flight) : bool :=
  match f_phase f with
  | FGot r | FRemoved r => failed_result r
  | _ => match f_res f with Some r => failed_result r | None => false end
  end.
(** The failed flight's entry has been dropped (immediately for [Blocking], last otherwise). *)
Definition dropped (kd : kind) (f : flight) : bool :=
  match f_phase f with
  | FGot _ => false
  | FSet | FPost => is_blocking kd && failed f
  | _ => failed f
  end.
