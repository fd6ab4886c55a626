(** Editor positions as the Language Server Protocol defines them (UTF-16 encoding, lines ended by a
    newline). *)
From Coq Require Import List Arith NArith.
From Verif Require Import Text_Lib.
Import ListNotations.

(** How many lines end in [a]. *)
Definition breaks (a : text) : nat := count_occ N.eq_dec a nl.
(** [a] ends where a line begins. *)
Definition at_line_start (a : text) : Prop := a = [] \/ exists a', a = a' ++ [nl].
(** [m] is what [a] has of its last line. *)
Definition last_line (a m : text) : Prop := exists l, a = l ++ m /\ at_line_start l /\ ~ In nl m.

(** The position of the end of [a] in any text that begins with [a]. *)
Definition lsp_position (a : text) (p : nat * nat) : Prop :=
  exists m, last_line a m /\ p = (breaks a, units m).

(** Where position ([line], [character]) is in [a ++ b]: after [a].  A character beyond the end of the
    line means the end of the line, one inside a surrogate pair the character's start. *)
Definition points_at (line character : nat) (a b : text) : Prop :=
  breaks a = line /\ exists m, last_line a m /\ units m <= character /\
    match b with
    | [] => True
    | c :: _ => c = nl \/ character < units m + u16 c
    end.

(** Order of positions. *)
Definition pos_le (p q : nat * nat) : Prop := fst p < fst q \/ (fst p = fst q /\ snd p <= snd q).

(** A text whose length fits the index. *)
Definition short (t : text) : Prop := (N.of_nat (size t) <= 4294967295)%N.
