(** Model of how the persistent product cache (/repo/src/persistent_cache.rs) uses the file system
    and its lock files, with any number of processes and threads.
    One step = one system call (or one lock attempt that succeeds).  Covered: lookup_derived_product
    339-431, lookup_disk 486-539 (open and read are separate steps), publish_payload/publish_inner
    691-777, unlock/Drop 779-806, the exclusive-lock holders cleanup_to_limits 584-634,
    invalidate_compiled_wasm 300-329, ensure_accounting 541-565 and clear 449-480, acquire_lock
    932-961 (a waiter may give up), the death of a process, and a power failure.
    File system: a product path holds nothing, a file that was there initially, or an inode created
    in this run.  After a power failure an inode that was not fsynced holds arbitrary bytes; a path
    holds any of the values it had since its directory was last fsynced; a directory whose own entry
    was never fsynced may be gone altogether with its files.
    Lock files live inside the namespace that [clear] deletes: [gen] numbers the incarnations, and
    locks on different incarnations do not exclude each other.  The maintenance lock file lies
    outside and is never deleted.
    Simplifications: a product is named by a number (kind and identity together), [shard] gives its
    directory; the temporary file has a name no one else uses (pid and sequence number, create_new);
    the bytes of a file are a list of numbers; a payload is what [enc] turns into bytes. *)
From Coq Require Import List Arith Bool.
From Verif Require Import Lib.
Import ListNotations.

Definition bytes := list nat.
Inductive ref := Old (b : bytes) | New (i : nat).

Section Disk.
Variable payload : Type.
Variable enc : payload -> bytes.                 (* encode_envelope of the encoded product *)
Variable dec : nat -> bytes -> option payload.   (* decode_envelope and the product's own decoder, for a key *)
Variable shard : nat -> nat.

Record inode := mkI { data : bytes; synced : bool; linked : bool; iowner : nat; ikey : nat; ipay : payload }.

Inductive phase :=
| Idle
| Rd1 (k : nat) (r : option ref)                 (* first lookup_disk: file opened *)
| WantS (k : nat)                                (* waiting for the shared maintenance lock *)
| HaveS (k : nat)
| WantK (k g : nat)                              (* key lock file of incarnation g opened *)
| Have (k g : nat)                               (* both locks *)
| Rd2 (k g : nat) (r : option ref)               (* second lookup_disk: file opened *)
| Cor (k g : nat)                                (* found corrupt under the lock *)
| Resv (k g : nat)                               (* caller owns a reservation *)
| Tmp (k g i : nat) (p : payload) (w : nat)      (* temporary file, w bytes written *)
| Full (k g i : nat) (p : payload)               (* all written and fsynced *)
| Ren (k g : nat) (p : payload)                  (* renamed *)
| Rel (k g : nat) (p : payload)                  (* directory fsynced *)
| Pub (k : nat) (p : payload)                    (* publish returned Ok *)
| Hit (k : nat) (p : payload)                    (* lookup returned a product *)
| WantX | HaveX                                  (* exclusive maintenance lock *)
| HaveXK (k g : nat)                             (* and a key lock (invalidate) *)
| Dead.

Record actor := mkA { pid : nat; ph : phase }.

Record path := mkP { cur : option ref; past : list (option ref) }.  (* past includes cur *)

Record state := mkS {
  inodes : list inode;
  paths : nat -> path;
  dir_there : nat -> bool;      (* the shard directory exists *)
  dir_safe : nat -> bool;       (* ... and its entry survives a power failure *)
  gen : nat;
  actors : list actor
}.

Definition fupd {A} (f : nat -> A) (k : nat) (v : A) : nat -> A := fun x => if x =? k then v else f x.

Definition init (files : nat -> option bytes) (dirs : nat -> bool) : state :=
  mkS [] (fun k => let r := option_map Old (files k) in mkP r [r]) dirs dirs 0 [].

Definition read (s : state) (r : ref) : bytes :=
  match r with
  | Old b => b
  | New i => match nth_error (inodes s) i with Some n => data n | None => [] end
  end.
(** What a reader finds under a key now. *)
Definition file (s : state) (k : nat) : option bytes := option_map (read s) (cur (paths s k)).

(** Which locks a phase holds. *)
Definition holds_shared (p : phase) : bool :=
  match p with
  | HaveS _ | WantK _ _ | Have _ _ | Rd2 _ _ _ | Cor _ _ | Resv _ _ | Tmp _ _ _ _ _ | Full _ _ _ _
  | Ren _ _ _ | Rel _ _ _ => true
  | _ => false
  end.
Definition holds_excl (p : phase) : bool :=
  match p with HaveX | HaveXK _ _ => true | _ => false end.
Definition key_lock (p : phase) : option (nat * nat) :=
  match p with
  | Have k g | Rd2 k g _ | Cor k g | Resv k g | Tmp k g _ _ _ | Full k g _ _ | Ren k g _ | Rel k g _
  | HaveXK k g => Some (k, g)
  | _ => None
  end.
Definition holds_key (k g : nat) (p : phase) : bool :=
  match key_lock p with Some (k', g') => (k' =? k) && (g' =? g) | None => false end.

Inductive op :=
| OSpawn (pid : nat)
| OLookup (a k : nat)         (* File::open of the first lookup *)
| ORead (a : nat)             (* read and decode *)
| OShared (a : nat)           (* take the maintenance lock shared *)
| OOpenKey (a : nat)
| OKey (a : nat)
| OOpen2 (a : nat)
| ORead2 (a : nat)
| ORemove (a : nat)           (* remove the corrupt file *)
| OCreate (a : nat) (p : payload)
| OWrite (a n : nat)
| OFsync (a : nat)
| ORename (a : nat)
| ODirSync (a : nat)
| OUnlock (a : nat)
| OStop (a : nat)             (* any error, time-out, dropped reservation, or the caller is done *)
| OWantX (a : nat)
| OTakeX (a : nat)
| OKeyX (a k : nat)
| ORmX (a k : nat)            (* eviction, invalidation, or one step of clear *)
| OClearDirX (a d : nat)      (* remove_dir of a shard directory, with what is left in it *)
| OLocksX (a : nat)           (* remove_dir_all deletes lock files *)
| OKill (pid : nat)
| OPower (pick : nat -> nat) (lose : nat -> bool) (junk : nat -> bytes).

Definition setA (s : state) (a : nat) (x : actor) : state :=
  mkS (inodes s) (paths s) (dir_there s) (dir_safe s) (gen s) (upd (actors s) a x).
Definition setp (s : state) (a : nat) (p : phase) : state :=
  match nth_error (actors s) a with Some x => setA s a (mkA (pid x) p) | None => s end.
Definition phase_of (s : state) (a : nat) : option phase := option_map ph (nth_error (actors s) a).
Definition set_inodes (s : state) (l : list inode) : state :=
  mkS l (paths s) (dir_there s) (dir_safe s) (gen s) (actors s).
Definition link (s : state) (k : nat) (r : option ref) : state :=
  let p := paths s k in
  mkS (inodes s) (fupd (paths s) k (mkP r (r :: past p))) (dir_there s) (dir_safe s) (gen s) (actors s).
Definition mkdir (s : state) (d : nat) : state :=
  if dir_there s d then s
  else mkS (inodes s) (paths s) (fupd (dir_there s) d true) (fupd (dir_safe s) d false) (gen s) (actors s).

Definition others (f : phase -> bool) (s : state) (a : nat) : bool :=
  existsb (fun b => negb (b =? a) && match nth_error (actors s) b with Some x => f (ph x) | None => false end)
          (seq 0 (length (actors s))).

Definition kill (dead : actor -> bool) (l : list actor) : list actor :=
  map (fun x => if dead x then mkA (pid x) Dead else x) l.

(** After the power failure only what was safe is there. *)
Definition reboot_path (s : state) (pick : nat -> nat) (lose : nat -> bool) (k : nat) : path :=
  let p := paths s k in
  let r := if lose (shard k) && negb (dir_safe s (shard k)) then None
           else nth (pick k) (past p) (cur p) in
  mkP r [r].
Definition reboot_dir (s : state) (lose : nat -> bool) (d : nat) : bool :=
  dir_there s d && negb (lose d && negb (dir_safe s d)).
(** What was not fsynced holds arbitrary bytes. *)
Fixpoint reboot_inodes (junk : nat -> bytes) (i : nat) (l : list inode) : list inode :=
  match l with
  | [] => []
  | n :: r => (if synced n then n else mkI (junk i) false (linked n) (iowner n) (ikey n) (ipay n))
              :: reboot_inodes junk (S i) r
  end.

Definition step (s : state) (o : op) : state :=
  match o with
  | OSpawn q => mkS (inodes s) (paths s) (dir_there s) (dir_safe s) (gen s) (actors s ++ [mkA q Idle])
  | OLookup a k =>
      match phase_of s a with Some Idle => setp s a (Rd1 k (cur (paths s k))) | _ => s end
  | ORead a =>
      match phase_of s a with
      | Some (Rd1 k r) =>
          match option_map (read s) r with
          | Some b => match dec k b with Some p => setp s a (Hit k p) | None => setp s a (WantS k) end
          | None => setp s a (WantS k)
          end
      | _ => s
      end
  | OShared a =>
      match phase_of s a with
      | Some (WantS k) => if others holds_excl s a then s else setp s a (HaveS k)
      | _ => s
      end
  | OOpenKey a => match phase_of s a with Some (HaveS k) => setp s a (WantK k (gen s)) | _ => s end
  | OKey a =>
      match phase_of s a with
      | Some (WantK k g) => if others (holds_key k g) s a then s else setp s a (Have k g)
      | _ => s
      end
  | OOpen2 a => match phase_of s a with Some (Have k g) => setp s a (Rd2 k g (cur (paths s k))) | _ => s end
  | ORead2 a =>
      match phase_of s a with
      | Some (Rd2 k g r) =>
          match option_map (read s) r with
          | Some b => match dec k b with Some p => setp s a (Hit k p) | None => setp s a (Cor k g) end
          | None => setp s a (Resv k g)
          end
      | _ => s
      end
  | ORemove a => match phase_of s a with Some (Cor k g) => setp (link s k None) a (Resv k g) | _ => s end
  | OCreate a p =>
      match phase_of s a with
      | Some (Resv k g) =>
          let s := mkdir s (shard k) in
          setp (set_inodes s (inodes s ++ [mkI [] false false a k p])) a (Tmp k g (length (inodes s)) p 0)
      | _ => s
      end
  | OWrite a n =>
      match phase_of s a with
      | Some (Tmp k g i p w) =>
          match nth_error (inodes s) i with
          | Some nd =>
              setp (set_inodes s (upd (inodes s) i (mkI (firstn (w + n) (enc p)) false (linked nd) (iowner nd) (ikey nd) (ipay nd))))
                   a (Tmp k g i p (Nat.min (w + n) (length (enc p))))
          | None => s
          end
      | _ => s
      end
  | OFsync a =>
      match phase_of s a with
      | Some (Tmp k g i p w) =>
          match nth_error (inodes s) i with
          | Some nd =>
              if length (enc p) <=? w then
                setp (set_inodes s (upd (inodes s) i (mkI (data nd) true (linked nd) (iowner nd) (ikey nd) (ipay nd))))
                     a (Full k g i p)
              else s
          | None => s
          end
      | _ => s
      end
  | ORename a =>
      match phase_of s a with
      | Some (Full k g i p) =>
          match nth_error (inodes s) i with
          | Some nd =>
              setp (link (set_inodes s (upd (inodes s) i (mkI (data nd) (synced nd) true (iowner nd) (ikey nd) (ipay nd)))) k (Some (New i)))
                   a (Ren k g p)
          | None => s
          end
      | _ => s
      end
  | ODirSync a =>
      match phase_of s a with
      | Some (Ren k g p) =>
          setp (mkS (inodes s)
                    (fun x => if shard x =? shard k then mkP (cur (paths s x)) [cur (paths s x)] else paths s x)
                    (dir_there s) (dir_safe s) (gen s) (actors s)) a (Rel k g p)
      | _ => s
      end
  | OUnlock a => match phase_of s a with Some (Rel k g p) => setp s a (Pub k p) | _ => s end
  | OStop a => match phase_of s a with Some Dead => s | Some _ => setp s a Idle | None => s end
  | OWantX a => match phase_of s a with Some Idle => setp s a WantX | _ => s end
  | OTakeX a =>
      match phase_of s a with
      | Some WantX => if others (fun p => holds_shared p || holds_excl p) s a then s else setp s a HaveX
      | _ => s
      end
  | OKeyX a k =>
      match phase_of s a with
      | Some HaveX => if others (holds_key k (gen s)) s a then s else setp s a (HaveXK k (gen s))
      | _ => s
      end
  | ORmX a k =>
      match phase_of s a with
      | Some p => if holds_excl p then link s k None else s
      | None => s
      end
  | OClearDirX a d =>
      match phase_of s a with
      | Some HaveX =>
          mkS (inodes s) (fun x => if shard x =? d then mkP None (None :: past (paths s x)) else paths s x)
              (fupd (dir_there s) d false) (fupd (dir_safe s) d false) (gen s) (actors s)
      | _ => s
      end
  | OLocksX a =>
      match phase_of s a with
      | Some HaveX => mkS (inodes s) (paths s) (dir_there s) (dir_safe s) (S (gen s)) (actors s)
      | _ => s
      end
  | OKill q => mkS (inodes s) (paths s) (dir_there s) (dir_safe s) (gen s) (kill (fun x => pid x =? q) (actors s))
  | OPower pick lose junk =>
      mkS (reboot_inodes junk 0 (inodes s)) (reboot_path s pick lose)
          (reboot_dir s lose) (reboot_dir s lose) (gen s) (kill (fun _ => true) (actors s))
  end.

Definition run (s : state) (h : list op) : state := fold_left step h s.
End Disk.
