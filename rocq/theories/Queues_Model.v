(** Two queues of the server: watched-file changes, debounced, and diagnostics on their way to the editor.

    Code: src/server.rs:158-218, 1296-1335; src/handlers/notification.rs:369-378. *)
From Coq Require Import List Bool NArith String.
Import ListNotations.
Open Scope list_scope.

Section Map.
Context {A : Type}.
(** A BTreeMap<String, _>, as a list of entries with distinct keys in increasing order. *)
Fixpoint put (m : list (string * A)) (k : string) (a : A) : list (string * A) :=
  match m with
  | [] => [(k, a)]
  | (w, b) :: r => match String.compare k w with Lt => (k, a) :: m | Eq => (k, a) :: r | Gt => (w, b) :: put r k a end
  end.
Definition puts (m : list (string * A)) (l : list (string * A)) := fold_left (fun m p => put m (fst p) (snd p)) l m.
End Map.

(** ** Watched files *)

Inductive change := Created | Changed | Deleted.
Definition changes := list (string * change).

(** WatchedFileChangeBatch (server.rs:188-192) *)
Record batch := Batch { generation : N; pending : changes }.
(** WatchedFileChangeBatch::queue (195-203); the overflow of the counter is not modelled *)
Definition queue (b : batch) (cs : changes) : batch := Batch (generation b + 1) (puts (pending b) cs).
(** take (205-210) *)
Definition take (b : batch) (g : N) : batch * option changes :=
  if negb (g =? generation b)%N || match pending b with [] => true | _ => false end then (b, None)
  else (Batch (generation b) [], Some (pending b)).
(** cancel (212-217) *)
Definition cancel (b : batch) : batch := Batch (generation b + 1) [].

(** handle_did_change_watched_files (notification.rs:365-373): queue, sleep, take; every handler has its own sleep, and
    the sleeps may end in any order.  [who] numbers the notifications. *)
Record wstate := WState { held : batch; count : nat; asleep : list (nat * N) }.
Inductive wobs := Notified (who : nat) (cs : changes) | Handed (who : nat) (cs : changes) | Cancelled.

Inductive wstep : wstate -> list wobs -> wstate -> Prop :=
| w_notify b n l cs :
    wstep (WState b n l) [Notified n cs] (WState (queue b cs) (S n) (l ++ [(n, generation (queue b cs))]))
| w_wake b n l1 i g l2 :
    wstep (WState b n (l1 ++ (i, g) :: l2))
          (match snd (take b g) with Some cs => [Handed i cs] | None => [] end)
          (WState (fst (take b g)) n (l1 ++ l2))
| w_cancel b n l : wstep (WState b n l) [Cancelled] (WState (cancel b) n l).
Inductive wrun : list wobs -> wstate -> Prop :=
| wr_start : wrun [] (WState (Batch 0 []) 0 [])
| wr_step tr x o y : wrun tr x -> wstep x o y -> wrun (tr ++ o) y.

(** ** Diagnostics *)

Section Diag.
Variable D : Type.     (* the diagnostics of one document *)

(** DiagnosticPublicationState (158-165) *)
Record publication := Publication { waits : list (string * D); scheduled : bool }.
(** queue (168-175): the flag tells whether a sender must be spawned *)
Definition offer (p : publication) (u : string) (d : D) : publication * bool :=
  (Publication (put (waits p) u d) true, negb (scheduled p)).
(** take_next (177-185) *)
Definition take_next (p : publication) : publication * option (string * D) :=
  match waits p with
  | e :: r => (Publication r (scheduled p), Some e)
  | [] => (Publication [] false, None)
  end.

(** drain_diagnostic_publishes (1320-1335): the senders alive, each between two sends or sending; a client is
    connected. *)
Record pstate := PState { pub : publication; senders : list (option (string * D)) }.
Inductive pobs := Published (u : string) (d : D) | Received (u : string) (d : D).

Inductive pstep : pstate -> list pobs -> pstate -> Prop :=
| p_publish p l u d :
    pstep (PState p l) [Published u d] (PState (fst (offer p u d)) (l ++ if snd (offer p u d) then [None] else []))
| p_take p l1 l2 :
    pstep (PState p (l1 ++ None :: l2)) []
          (PState (fst (take_next p)) (l1 ++ match snd (take_next p) with Some e => [Some e] | None => [] end ++ l2))
| p_sent p l1 u d l2 :
    pstep (PState p (l1 ++ Some (u, d) :: l2)) [Received u d] (PState p (l1 ++ None :: l2)).
Inductive prun : list pobs -> pstate -> Prop :=
| pr_start : prun [] (PState (Publication [] false) [])
| pr_step tr x o y : prun tr x -> pstep x o y -> prun (tr ++ o) y.
End Diag.
Arguments Publication {D}. Arguments waits {D}. Arguments scheduled {D}. Arguments PState {D}. Arguments pub {D}.
Arguments senders {D}. Arguments Published {D}. Arguments Received {D}. Arguments offer {D}. Arguments take_next {D}.
Arguments pstep {D}. Arguments prun {D}.
