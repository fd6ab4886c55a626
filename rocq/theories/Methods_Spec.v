(** What the method index should answer, in terms of the history of calls only. *)
From Coq Require Import List Arith NArith Bool Permutation Sorted.
From Verif Require Import Sort_Lib Index_Lib Methods_Model.
Import ListNotations.

(** The facts in force, in the order in which they were supplied: a removal withdraws the facts
    of the file, a replacement withdraws them and supplies new ones. *)
Fixpoint in_force (l : list method) (h : list op) : list method :=
  match h with
  | [] => l
  | Add x :: r => in_force (l ++ [x]) r
  | RemoveFile n :: r => in_force (filter (fun x => negb (file_id (range x) =? n)) l) r
  | ReplaceFile n xs :: r => in_force (filter (fun x => negb (file_id (range x) =? n)) l ++ xs) r
  end.

Definition live (h : list op) : list method := in_force [] h.

(** Every replacement supplies facts of the replaced file only (the documented duty of the
    caller). *)
Definition well_formed (h : list op) : Prop :=
  forall n xs x, In (ReplaceFile n xs) h -> In x xs -> file_id (range x) = n.

(** At no time are more than 2^32 facts in force. *)
Definition fits (h : list op) : Prop :=
  forall h1 h2, h = h1 ++ h2 -> (N.of_nat (length (live h1)) <= 4294967296)%N.

(** Order of the facts of one name, of one owner, and of one file. *)
Definition fqn_position (x : method) : list nat :=
  [file_id (range x); start_byte (range x); end_byte (range x); owner x].
Definition owner_position (x : method) : list nat :=
  [file_id (range x); start_byte (range x); end_byte (range x); fqn x].
Definition file_position (x : method) : list nat := [start_byte (range x); end_byte (range x)].

(** The facts of method [n] of owner [o]. *)
Definition of_method (o n : nat) (x : method) : Prop := owner x = o /\ name x = Some n.

(** The facts that count for a call of [n] on [o]: those that make it unavailable when there is
    one, all of them otherwise. *)
Definition counts (l : list method) (o n : nat) (x : method) : Prop :=
  In x l /\ of_method o n x /\
  ((exists y r, In y l /\ of_method o n y /\ avail y = Unavailable r) ->
   exists r, avail x = Unavailable r).

Definition masked (l : list method) (o n : nat) : Prop :=
  exists x r, In x l /\ of_method o n x /\ avail x = Absent r.
