(** Model of crates/ruby-analysis/src/engine/file_id_map.rs: FileIdMap on Unix paths (bytes). *)
From Coq Require Import List Arith NArith Bool.
Import ListNotations.

Definition SLASH := 47%N.
Definition DOT := 46%N.
Definition bytes_dec : forall a b : list N, {a = b} + {a <> b} := list_eq_dec N.eq_dec.

(** std::path::Component on Unix. *)
Inductive component := RootDir | CurDir | ParentDir | Normal (s : list N).

Fixpoint split (l : list N) : list (list N) :=
  match l with
  | [] => [[]]
  | c :: r =>
      if (c =? SLASH)%N then [] :: split r
      else match split r with s :: ss => (c :: s) :: ss | [] => [[c]] end
  end.

(** Path::components (std): the root, a leading ".", then the segments without empty ones and ".". *)
Definition body (s : list N) : list component :=
  if bytes_dec s [] then [] else if bytes_dec s [DOT] then []
  else if bytes_dec s [DOT; DOT] then [ParentDir] else [Normal s].
Definition head (p : list N) : list component :=
  match p with
  | c :: _ => if (c =? SLASH)%N then [RootDir] else if bytes_dec (hd [] (split p)) [DOT] then [CurDir] else []
  | [] => []
  end.
Definition components (p : list N) : list component := head p ++ flat_map body (split p).

(** PathBuf::push of a component (std), as collect::<PathBuf>() does. *)
Definition as_os_str (c : component) : list N :=
  match c with RootDir => [SLASH] | CurDir => [DOT] | ParentDir => [DOT; DOT] | Normal s => s end.
Definition push (buf : list N) (c : component) : list N :=
  let s := as_os_str c in
  if (hd 0 s =? SLASH)%N then s
  else match buf with
       | [] => s
       | _ => if (last buf 0 =? SLASH)%N then buf ++ s else buf ++ SLASH :: s
       end.
(** normalize_path (72-74). *)
Definition normalize (p : list N) : list N := fold_left push (components p) [].

(** PathBuf's Eq compares components. *)
Definition component_dec (a b : component) : {a = b} + {a <> b}.
Proof. decide equality. apply bytes_dec. Defined.
Definition same_path (p q : list N) : bool :=
  if list_eq_dec component_dec (components p) (components q) then true else false.

(** FileIdMap (12-16). *)
Record map := mkMap { by_path : list (list N * N); by_id : list (N * list N); next_id : N }.
Definition new : map := mkMap [] [] 0.
Definition find_path (m : map) (p : list N) : option N :=
  option_map snd (find (fun e => same_path (fst e) p) (by_path m)).
(** get_or_insert (23-38): [None] is the overflow panic. *)
Definition get_or_insert (m : map) (path : list N) : option (N * map) :=
  let p := normalize path in
  match find_path m p with
  | Some i => Some (i, m)
  | None =>
      let i := next_id m in
      if (i + 1 <=? 4294967295)%N
      then Some (i, mkMap ((p, i) :: by_path m) ((i, p) :: by_id m) (i + 1)) else None
  end.
(** get (40-42), path (44-46), len (48-50). *)
Definition get (m : map) (path : list N) : option N := find_path m (normalize path).
Definition path (m : map) (i : N) : option (list N) :=
  option_map snd (find (fun e => (fst e =? i)%N) (by_id m)).
Definition len (m : map) : nat := length (by_path m).

(** A history of registrations. *)
Fixpoint run (m : map) (h : list (list N)) : option map :=
  match h with
  | [] => Some m
  | p :: r => match get_or_insert m p with Some (_, m') => run m' r | None => None end
  end.
