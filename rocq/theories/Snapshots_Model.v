(** Source snapshots: registration of file contents, and fact commits that name the content they were
    collected from.

    Code: crates/ruby-analysis/src/engine/state.rs.  Several engines live in one process; clones share
    nothing.  What the stores do with facts is a parameter (the other areas model it). *)
From Coq Require Import List Arith NArith Bool.
From Verif Require Import Text_Lib Position_Model FileIds_Model.
Import ListNotations.

Section Snapshots.
(** source_hash (state.rs:3867-3871): SipHash with fixed keys; any function here. *)
Variable hash : text -> N.
(** The rest of an engine, a file's facts, the outcome of a replacement, and replace_facts
    (state.rs:1603-1620) on it. *)
Variables core facts change : Type.
Variable empty_core : core.
Variable replace_facts : N -> facts -> bool -> core -> core * change.

Definition path := list N.
(** SourceKind (a number; [gem] is SourceKind::Gem) and LibraryPackageId (a number). *)
Definition gem : N := 2%N.

(** SourceFile (state.rs:97-108); its path is kept by the id map. *)
Record source := mkSource { shape : source_file; content_hash : N; kind : N; revision : N; package : option N }.
(** SourceFileSnapshot (state.rs:114-120) *)
Record snapshot := mkSnapshot { snap_instance : N; snap_file : N; snap_revision : N }.
(** AnalysisEngine (state.rs:1364-1387), as far as sources go. *)
Record engine := mkEngine { instance : N; next_revision : N; ids : FileIds_Model.map; files : list (N * source); rest : core }.

Definition file (e : engine) (i : N) : option source :=
  option_map snd (find (fun x => (fst x =? i)%N) (files e)).

Definition file_dec : forall a b : source_file, {a = b} + {a <> b}.
Proof. decide equality; [|apply bool_dec|apply Nat.eq_dec|apply (list_eq_dec Nat.eq_dec)]. decide equality. apply (list_eq_dec N.eq_dec). Defined.
Definition package_dec : forall a b : option N, {a = b} + {a <> b}.
Proof. decide equality. apply N.eq_dec. Defined.

(** u64::checked_add(1).expect(..) *)
Definition bump (n : N) : option N := if (n <? 18446744073709551615)%N then Some (n + 1)%N else None.

(** register_indexed_file (state.rs:1521-1558).  The stored path always equals the given one, as paths with
    one id have the same components. *)
Definition register_indexed_file (e : engine) (p : path) (k : N) (s : source_file) (h : N) (pkg : option N) : option (N * engine) :=
  match get_or_insert (ids e) p with
  | None => None
  | Some (i, m) =>
    if match file e i with
       | Some x => (kind x =? k)%N && (if file_dec (shape x) s then true else false) && (content_hash x =? h)%N
                   && (if package_dec (package x) pkg then true else false)
       | None => false
       end
    then Some (i, mkEngine (instance e) (next_revision e) m (files e) (rest e))
    else match bump (next_revision e) with
         | None => None
         | Some r => Some (i, mkEngine (instance e) r m ((i, mkSource s h k r pkg) :: files e) (rest e))
         end
  end.

(** register_file (state.rs:1461-1470), register_file_borrowed (1502-1519) and, with a package,
    register_gem_file (1473-1498): the text is kept unless it is ASCII. *)
Definition register (e : engine) (p : path) (t : text) (k : N) (pkg : option N) : option (N * engine) :=
  if match pkg with Some _ => negb (k =? gem)%N | None => false end then None
  else match index_file t (negb (forallb (fun c => (c <? 128)%N) t)) with
       | None => None
       | Some s => register_indexed_file e p k s (hash t) pkg
       end.

(** source_snapshot_for_path (state.rs:1560-1568) *)
Definition source_snapshot_for_path (e : engine) (p : path) : option snapshot :=
  match FileIds_Model.get (ids e) p with
  | None => None
  | Some i => match file e i with
              | None => None
              | Some x => Some (mkSnapshot (instance e) i (revision x))
              end
  end.

Definition snapshot_dec : forall a b : option snapshot, {a = b} + {a <> b}.
Proof. decide equality. decide equality; apply N.eq_dec. Defined.

(** register_file_borrowed_if_snapshot (state.rs:1572-1601): outer None is a panic. *)
Definition register_if (e : engine) (p : path) (t : text) (k : N) (expected : option snapshot) : option (engine * option snapshot) :=
  if match expected with Some s => negb (snap_instance s =? instance e)%N | None => false end then None
  else if snapshot_dec (source_snapshot_for_path e p) expected then
    match register e p t k None with
    | None => None
    | Some (i, e') => match file e' i with
                      | None => None
                      | Some x => Some (e', Some (mkSnapshot (instance e') i (revision x)))
                      end
    end
  else Some (e, None).

(** replace_facts_if_source_snapshot (state.rs:1624-1643): outer None is a panic. *)
Definition commit (e : engine) (s : snapshot) (f : facts) (immediate : bool) : option (engine * option change) :=
  if (snap_instance s =? instance e)%N then
    if match file e (snap_file s) with Some x => (revision x =? snap_revision s)%N | None => false end then
      let (c, ch) := replace_facts (snap_file s) f immediate (rest e) in
      Some (mkEngine (instance e) (next_revision e) (ids e) (files e) c, Some ch)
    else Some (e, None)
  else None.

(** The process: its engines, by the order of their creation, and the next instance id
    (state.rs:1389-1402). *)
Record world := mkWorld { engines : list engine; next_instance : N }.
Definition start : world := mkWorld [] 1.

(** Calls on the engines; [Other] is any call that changes no source (resolve, replace_facts, ...). *)
Inductive call :=
  | New
  | Clone (e : nat)
  | Register (e : nat) (p : path) (t : text) (k : N) (pkg : option N)
  | Snapshot (e : nat) (p : path)
  | RegisterIf (e : nat) (p : path) (t : text) (k : N) (expected : option snapshot)
  | Commit (e : nat) (s : snapshot) (f : facts) (immediate : bool)
  | Other (e : nat) (f : core -> core).
Inductive answer := Done | Snapped (s : option snapshot) | Committed (c : option change).

Fixpoint set {A} (l : list A) (n : nat) (x : A) : list A :=
  match l, n with
  | [], _ => []
  | _ :: r, 0 => x :: r
  | y :: r, S n' => y :: set r n' x
  end.

(** One call; None is a panic (or a call on an engine that does not exist). *)
Definition step (w : world) (c : call) : option (world * answer) :=
  let on e (f : engine -> option (engine * answer)) :=
    match nth_error (engines w) e with
    | None => None
    | Some x => match f x with
                | None => None
                | Some (x', a) => Some (mkWorld (set (engines w) e x') (next_instance w), a)
                end
    end in
  let create (x : N -> engine) :=
    match bump (next_instance w) with
    | None => None
    | Some n => Some (mkWorld (engines w ++ [x (next_instance w)]) n, Done)
    end in
  match c with
  | New => create (fun i => mkEngine i 0 new [] empty_core)
  | Clone e => match nth_error (engines w) e with
               | None => None
               | Some x => create (fun i => mkEngine i (next_revision x) (ids x) (files x) (rest x))
               end
  | Register e p t k pkg => on e (fun x => option_map (fun y => (snd y, Done)) (register x p t k pkg))
  | Snapshot e p => on e (fun x => Some (x, Snapped (source_snapshot_for_path x p)))
  | RegisterIf e p t k ex => on e (fun x => option_map (fun y => (fst y, Snapped (snd y))) (register_if x p t k ex))
  | Commit e s f m => on e (fun x => option_map (fun y => (fst y, Committed (snd y))) (commit x s f m))
  | Other e f => on e (fun x => Some (mkEngine (instance x) (next_revision x) (ids x) (files x) (f (rest x)), Done))
  end.

Fixpoint run (w : world) (h : list call) : option (world * list answer) :=
  match h with
  | [] => Some (w, [])
  | c :: h' => match step w c with
               | None => None
               | Some (w', a) => match run w' h' with
                                 | None => None
                                 | Some (w'', l) => Some (w'', a :: l)
                                 end
               end
  end.
End Snapshots.
