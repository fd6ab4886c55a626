(** What the symbol index should answer, in terms of the history of calls only. *)
From Coq Require Import List Arith NArith Bool Permutation Sorted.
From Verif Require Import Sort_Lib Index_Lib Symbols_Model.
Import ListNotations.

(** The facts in force, in the order in which they were supplied: a removal withdraws the facts
    of the file, a replacement withdraws them and supplies new ones. *)
Fixpoint in_force (l : list symbol) (h : list op) : list symbol :=
  match h with
  | [] => l
  | Add x :: r => in_force (l ++ [x]) r
  | RemoveFile n :: r => in_force (filter (fun x => negb (file_id (range x) =? n)) l) r
  | ReplaceFile n xs :: r => in_force (filter (fun x => negb (file_id (range x) =? n)) l ++ xs) r
  end.

Definition live (h : list op) : list symbol := in_force [] h.

(** Every replacement supplies facts of the replaced file only (the documented duty of the
    caller). *)
Definition well_formed (h : list op) : Prop :=
  forall n xs x, In (ReplaceFile n xs) h -> In x xs -> file_id (range x) = n.

(** At no time are more than 2^32 facts in force. *)
Definition fits (h : list op) : Prop :=
  forall h1 h2, h = h1 ++ h2 -> (N.of_nat (length (live h1)) <= 4294967296)%N.

(** Position of a fact: file, start, end, then kind. *)
Definition position (x : symbol) : list nat :=
  [file_id (range x); start_byte (range x); end_byte (range x); kind_rank (kind x)].
