(** The check of a JAR's table of contents before it is handed to the ZIP reader:
    /repo/crates/jvm-metadata/src/archive.rs 211-310 (validate_central_directory_names, read_u16_le,
    read_u32_le).  Simplifications: bytes are numbers; sizes and offsets do not overflow usize (they
    are sums of a u32 and of u16s on a file in memory); the texts in the errors are left out. *)
From Coq Require Import List Arith Bool NArith.
Import ListNotations.

Definition bytes := list N.
(** ArchiveError, 57-67, as far as it arises here. *)
Inductive error := Invalid | Limit | Duplicate.
Fixpoint same (a b : bytes) : bool :=
  match a, b with
  | [], [] => true
  | x :: a', y :: b' => N.eqb x y && same a' b'
  | _, _ => false
  end.
(** EOCD_SIGNATURE and CENTRAL_SIGNATURE, 215-216 *)
Definition end_signature : bytes := [80; 75; 5; 6]%N.
Definition central_signature : bytes := [80; 75; 1; 2]%N.
(** read_u16_le, 298-303; read_u32_le, 305-310 *)
Definition u16 (b : bytes) (o : nat) : option N :=
  match skipn o b with x :: y :: _ => Some (x + 256 * y)%N | _ => None end.
Definition u32 (b : bytes) (o : nat) : option N :=
  match skipn o b with
  | x :: y :: z :: w :: _ => Some (x + 256 * (y + 256 * (z + 256 * w)))%N
  | _ => None
  end.
(** The condition of the search, 225-233 *)
Definition ends_at (b : bytes) (o : nat) : bool :=
  same (firstn 4 (skipn o b)) end_signature &&
  match u16 b (o + 20) with Some n => o + 22 + N.to_nat n =? length b | None => false end.
(** The search, 220-234: from the last place where the record fits back to the first one the longest
    comment allows. *)
Fixpoint back (b : bytes) (start n : nat) : option nat :=
  if ends_at b (start + n) then Some (start + n)
  else match n with O => None | S m => back b start m end.
Definition find_end (b : bytes) : option nat :=
  let start := length b - N.to_nat 65557 in
  back b start (length b - 22 - start).
(** One entry of the table, 258-288: its name, and where the next one begins. *)
Definition entry (b : bytes) (stop o : nat) (seen : list bytes) : (bytes * nat) + error :=
  if negb (same (firstn 4 (skipn o b)) central_signature) then inr Invalid
  else
    match u16 b (o + 28), u16 b (o + 30), u16 b (o + 32) with
    | Some n, Some x, Some c =>
        let from := o + 46 in
        let to := from + N.to_nat n in
        if length b <? to then inr Invalid
        else
          let name := firstn (N.to_nat n) (skipn from b) in
          if existsb (same name) seen then inr Duplicate
          else
            let next := to + N.to_nat x + N.to_nat c in
            if stop <? next then inr Invalid else inl (name, next)
    | _, _, _ => inr Invalid
    end.
(** 255-289 *)
Fixpoint walk (b : bytes) (stop n o : nat) (seen : list bytes) : nat + error :=
  match n with
  | O => inl o
  | S m =>
      match entry b stop o seen with
      | inr e => inr e
      | inl (name, next) => walk b stop m next (name :: seen)
      end
  end.
(** validate_central_directory_names, 211-296 *)
Definition validate (b : bytes) (max : nat) : nat + error :=
  match find_end b with
  | None => inr Invalid
  | Some e =>
      match u16 b (e + 4), u16 b (e + 6), u16 b (e + 8), u16 b (e + 10) with
      | Some d, Some cd, Some here, Some total =>
          if negb (N.eqb d 0) || negb (N.eqb cd 0) || negb (N.eqb here total) then inr Invalid
          else if N.eqb total 65535 then inr Invalid
          else if (N.of_nat max <? total)%N then inr Limit
          else
            match u32 b (e + 16) with
            | None => inr Invalid
            | Some o =>
                match walk b e (N.to_nat total) (N.to_nat o) [] with
                | inr x => inr x
                | inl last => if negb (last =? e) then inr Invalid else inl (N.to_nat total)
                end
            end
      | _, _, _, _ => inr Invalid
      end
  end.
