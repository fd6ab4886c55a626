(** Model of cleanup_to_limits (/repo/src/persistent_cache.rs 584-634) and of the in-memory
    accounting that decides when to run it (ensure_accounting 541-565, record_publication_and_cleanup
    567-582, clear 449-480, invalidate_compiled_wasm 300-329).
    A product file is its path, size and modification time, paths and times being numbers (the code
    compares SystemTime and PathBuf, both totally ordered).  [outcome] is what remove_file says for a
    path.  Simplifications: u64/usize overflow of the sums is left out (2^64 bytes do not fit a disk);
    the accounting part treats one operation of one process as atomic (see Disk_Model for the locks). *)
From Coq Require Import List NArith Bool Arith.
Import ListNotations.

Record entry := mkE { path : nat; size : N; modified : nat }.
Inductive rm := Removed | NotFound | Failed.

(** sort_by modified then path 588-592 *)
Definition older (a b : entry) : bool :=
  (modified a <? modified b) || ((modified a =? modified b) && (path a <=? path b)).
Fixpoint insert (x : entry) (l : list entry) : list entry :=
  match l with [] => [x] | y :: r => if older x y then x :: l else y :: insert x r end.
Fixpoint sort (l : list entry) : list entry :=
  match l with [] => [] | x :: r => insert x (sort r) end.

Fixpoint total (l : list entry) : N := match l with [] => 0%N | x :: r => (size x + total r)%N end.

Section Cleanup.
Variable max_entries : nat.
Variable max_bytes : N.
Variable outcome : nat -> rm.

Definition fits (count : nat) (bytes : N) : bool := (count <=? max_entries) && (bytes <=? max_bytes)%N.

(** the loop 598-626: files it deleted, the final count and total, and whether it ran to the end *)
Fixpoint evict (l : list entry) (count : nat) (bytes : N) : list entry * nat * N * bool :=
  if fits count bytes then ([], count, bytes, true)
  else match l with
       | [] => ([], count, bytes, true)
       | x :: r =>
           match outcome (path x) with
           | Removed => let '(d, c, b, ok) := evict r (count - 1) (bytes - size x)%N in (x :: d, c, b, ok)
           | NotFound => evict r count bytes
           | Failed => ([], count, bytes, false)
           end
       end.

Definition cleanup (disk : list entry) : list entry * nat * N * bool :=
  evict (sort disk) (length disk) (total disk).
End Cleanup.

(** *** Accounting *)
Record acct := mkAc { initialized : bool; entries : nat; abytes : N; since_scan : nat }.
Definition no_acct : acct := mkAc false 0 0%N 0.

Record st := mkSt { disk : list entry; accts : nat -> acct }.   (* one accounting per process *)

Inductive aop :=
| Work (pid : nat) (e : entry)        (* lookup of a path; when missing, publish a file of this size and time *)
| Corrupt (pid : nat) (e : entry)     (* lookup finds a corrupt file, removes it and publishes *)
| Invalidate (pid p : nat)
| Clear (pid : nat)
| Restart (pid : nat).

Definition without (p : nat) (l : list entry) : list entry := filter (fun e => negb (path e =? p)) l.
Definition present (p : nat) (l : list entry) : bool := existsb (fun e => path e =? p) l.
Definition minus (l d : list entry) : list entry := filter (fun e => negb (present (path e) d)) l.
Definition fset (f : nat -> acct) (k : nat) (v : acct) : nat -> acct := fun x => if x =? k then v else f x.

Section Accounting.
Variable max_entries : nat.
Variable max_bytes : N.

Definition ensure (s : st) (q : nat) : st :=                                  (* 541-565 *)
  if initialized (accts s q) then s
  else mkSt (disk s) (fset (accts s) q (mkAc true (length (disk s)) (total (disk s)) 0)).

Definition record (s : st) (q : nat) (bytes : N) : st :=                      (* 567-582, then 584-634 *)
  let a := accts s q in
  let a := mkAc (initialized a) (S (entries a)) (abytes a + bytes)%N (S (since_scan a)) in
  if (max_entries <? entries a) || (max_bytes <? abytes a)%N || (64 <=? since_scan a) then
    let '(d, c, b, _) := cleanup max_entries max_bytes (fun _ => Removed) (disk s) in
    mkSt (minus (disk s) d) (fset (accts s) q (mkAc true c b 0))
  else mkSt (disk s) (fset (accts s) q a).

Definition publish (s : st) (q : nat) (e : entry) : st :=
  record (mkSt (e :: without (path e) (disk s)) (accts s)) q (size e).

Definition step (s : st) (o : aop) : st :=
  match o with
  | Work q e =>
      let s := ensure s q in
      if present (path e) (disk s) then s else publish s q e
  | Corrupt q e =>
      let s := ensure s q in
      if present (path e) (disk s) then publish (mkSt (without (path e) (disk s)) (accts s)) q e else s
  | Invalidate q p =>
      if present p (disk s) then mkSt (without p (disk s)) (fset (accts s) q no_acct) else s
  | Clear q => mkSt [] (fset (accts s) q (mkAc true 0 0%N 0))
  | Restart q => mkSt (disk s) (fset (accts s) q no_acct)
  end.
Definition run (s : st) (h : list aop) : st := fold_left step h s.
End Accounting.
