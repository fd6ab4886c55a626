(** Model of /repo/src/indexing_status.rs (lines 8-421): the per-project indexing status.

    Every public method is one critical section, hence one step.  A failing assertion is the
    output [Panic]; the assertions run before any write, and the mutex does not poison, so the
    state is then unchanged.  Times come from a clock passed with each call.  Cancellation
    tokens are numbered; [cancelled] lists the tokens that have been cancelled.
    Not modelled: the project path, counter overflow at 2^64. *)
From Coq Require Import List Arith Bool String.
Import ListNotations.

(** IndexingPhase 10-25 *)
Inductive phase :=
| Discovered | Queued | ResolvingRuntime | DiscoveringInputs | IndexingCore | IndexingProject
| ProjectNavigationReady | IndexingDependencies | ResolvingSemantics | DependencyNavigationReady
| PublishingDiagnostics | Ready | Failed | Cancelled.

(** rank 28-45 *)
Definition rank (p : phase) : nat :=
  match p with
  | Discovered => 0 | Queued => 1 | ResolvingRuntime => 2 | DiscoveringInputs => 3
  | IndexingCore => 4 | IndexingProject => 5 | ProjectNavigationReady => 6
  | IndexingDependencies => 7 | ResolvingSemantics => 8 | DependencyNavigationReady => 9
  | PublishingDiagnostics => 10 | Ready => 11 | Failed | Cancelled => 12
  end.

(** is_terminal 46-48 *)
Definition is_terminal (p : phase) : bool :=
  match p with Ready | Failed | Cancelled => true | _ => false end.

(** project_navigation_pending 50-60 and dependency_navigation_pending 62-75 *)
Definition project_navigation_pending (p : phase) : bool :=
  match p with
  | Discovered | Queued | ResolvingRuntime | DiscoveringInputs | IndexingCore | IndexingProject => true
  | _ => false
  end.
Definition dependency_navigation_pending (p : phase) : bool :=
  match p with
  | Discovered | Queued | ResolvingRuntime | DiscoveringInputs | IndexingCore | IndexingProject
  | ProjectNavigationReady | IndexingDependencies | ResolvingSemantics => true
  | _ => false
  end.

Definition phase_eq_dec (a b : phase) : {a = b} + {a <> b}.
Proof. decide equality. Defined.
Definition phase_eqb (a b : phase) : bool := if phase_eq_dec a b then true else false.

(** ProjectIndexingSnapshot 80-91 *)
Record snapshot := mkSnap {
  n_generation : nat; n_sequence : nat; n_phase : phase;
  n_completed : option nat; n_total : option nat; n_elapsed : nat;
  n_project_ready : option nat; n_dependency_ready : option nat; n_failure : option string }.

(** ProjectIndexingState 188-200 *)
Record state := mkState {
  generation : nat; sequence : nat; ph : phase;
  completed : option nat; total : option nat;
  started_at : option nat; completed_elapsed : option nat;
  project_ready : option nat; dependency_ready : option nat;
  failure : option string; token : nat;
  cancelled : list nat; next_token : nat }.

(** new 209-226 *)
Definition init : state :=
  mkState 0 0 Discovered None None None None None None None 0 [] 1.

(** elapsed_ms 411-421 *)
Definition elapsed_ms (s : state) (now : nat) : nat :=
  match started_at s with Some t => now - t | None => 0 end.

(** snapshot_locked 393-408 *)
Definition snap (s : state) (now : nat) : snapshot :=
  mkSnap (generation s) (sequence s) (ph s) (completed s) (total s)
    (match completed_elapsed s with Some e => e | None => elapsed_ms s now end)
    (project_ready s) (dependency_ready s) (failure s).

(** IndexingRun 155-158: a generation and its token *)
Inductive op :=
| OBegin                                                  (* begin_run *)
| OTransition (g : nat) (p : phase) (c t : option nat)
| OFail (g : nat) (msg : string)
| OCancel (g : nat)
| OIsCurrent (g tok : nat)                                (* is_current_run *)
| OSnapshot.

Inductive out :=
| Run (g tok : nat)
| Published (n : option snapshot)
| Bool (b : bool)
| Read (n : snapshot)
| Panic.

Definition is_some {A} (o : option A) : bool := match o with Some _ => true | None => false end.

(** the argument checks 264-277 *)
Definition args_ok (p : phase) (c t : option nat) : bool :=
  Bool.eqb (is_some c) (is_some t)
  && match c, t with Some c, Some t => Nat.leb c t | _, _ => true end
  && negb (phase_eqb p Discovered || phase_eqb p Queued).

(** the monotonicity checks 283-304 *)
Definition forward_ok (s : state) (p : phase) (c t : option nat) : bool :=
  Nat.leb (rank (ph s)) (rank p)
  && (if phase_eqb p (ph s) then
        (match completed s, c with Some a, Some b => Nat.leb a b | _, _ => true end)
        && (match total s, t with Some a, Some b => Nat.eqb b a | _, _ => true end)
      else true).

(** [failure.trim().is_empty()] 341; only ASCII blanks are trimmed here *)
Definition is_blank (c : Ascii.ascii) : bool :=
  let n := Ascii.nat_of_ascii c in Nat.eqb n 32 || (Nat.leb 9 n && Nat.leb n 13).
Fixpoint blank (m : string) : bool :=
  match m with EmptyString => true | String c r => is_blank c && blank r end.

Definition stale (s : state) (g : nat) : bool :=
  negb (Nat.eqb g (generation s)) || is_terminal (ph s).

Definition step (now : nat) (s : state) (o : op) : state * out :=
  match o with
  | OBegin =>                                                            (* 233-255 *)
      let s' := mkState (S (generation s)) (S (sequence s)) Queued None None
                  (Some now) None None None None (next_token s)
                  (token s :: cancelled s) (S (next_token s)) in
      (s', Run (generation s') (token s'))
  | OTransition g p c t =>                                               (* 257-337 *)
      if negb (args_ok p c t) then (s, Panic)
      else if stale s g then (s, Published None)
      else if negb (forward_ok s p c t) then (s, Panic)
      else
        let e := elapsed_ms s now in
        let s' := mkState (generation s) (S (sequence s)) p c t (started_at s)
                    (match p with Ready => Some e | _ => completed_elapsed s end)
                    (match p with ProjectNavigationReady => Some e | _ => project_ready s end)
                    (match p with DependencyNavigationReady => Some e | _ => dependency_ready s end)
                    None (token s) (cancelled s) (next_token s) in
        (s', Published (Some (snap s' now)))
  | OFail g m =>                                                         (* 339-357 *)
      if blank m then (s, Panic)
      else if stale s g then (s, Published None)
      else
        let s' := mkState (generation s) (S (sequence s)) Failed None None (started_at s)
                    (Some (elapsed_ms s now)) (project_ready s) (dependency_ready s)
                    (Some m) (token s) (cancelled s) (next_token s) in
        (s', Published (Some (snap s' now)))
  | OCancel g =>                                                         (* 359-374; cancel_current 376-379 reads the generation first, then calls this *)
      if stale s g then (s, Published None)
      else
        let s' := mkState (generation s) (S (sequence s)) Cancelled None None (started_at s)
                    (Some (elapsed_ms s now)) (project_ready s) (dependency_ready s)
                    None (token s) (token s :: cancelled s) (next_token s) in
        (s', Published (Some (snap s' now)))
  | OIsCurrent g tok =>                                                  (* 381-386 *)
      (s, Bool (Nat.eqb (generation s) g && negb (is_terminal (ph s))
                && negb (existsb (Nat.eqb tok) (cancelled s))))
  | OSnapshot => (s, Read (snap s now))                                  (* 388-391 *)
  end.

(** A history is a list of calls with the clock reading at each. *)
Fixpoint run (s : state) (h : list (nat * op)) : state :=
  match h with [] => s | (now, o) :: rest => run (fst (step now s o)) rest end.

Fixpoint outputs (s : state) (h : list (nat * op)) : list out :=
  match h with
  | [] => []
  | (now, o) :: rest => snd (step now s o) :: outputs (fst (step now s o)) rest
  end.
