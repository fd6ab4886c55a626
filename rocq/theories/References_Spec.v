(** What the reference index should answer, in terms of the history of calls only. *)
From Coq Require Import List Arith Bool Permutation Sorted.
From Verif Require Import Sort_Lib Index_Lib References_Model.
Import ListNotations.

Definition in_file (n : nat) (e : nat * reference) : bool := file_id (range (snd e)) =? n.

(** The references in force, with their targets, in the order in which they were supplied. *)
Fixpoint in_force (l : list (nat * reference)) (h : list op) : list (nat * reference) :=
  match h with
  | [] => l
  | (Add t x | AddSorted t x) :: r => in_force (l ++ [(t, x)]) r
  | SortAll :: r => in_force l r
  | RemoveFile n :: r => in_force (filter (fun e => negb (in_file n e)) l) r
  | Clear :: r => in_force [] r
  | ReplaceFile n xs :: r => in_force (filter (fun e => negb (in_file n e)) l ++ xs) r
  end.

Definition live (h : list op) : list (nat * reference) := in_force [] h.

Definition well_formed (h : list op) : Prop :=
  forall n xs e, In (ReplaceFile n xs) h -> In e xs -> file_id (range (snd e)) = n.

(** Every plain [add] has been followed by a call that sorts. *)
Fixpoint tidy_from (b : bool) (h : list op) : bool :=
  match h with
  | [] => b
  | Add _ _ :: r => tidy_from false r
  | RemoveFile _ :: r => tidy_from b r
  | (AddSorted _ _ | SortAll | Clear | ReplaceFile _ _) :: r => tidy_from true r
  end.

Definition tidy (h : list op) : Prop := tidy_from true h = true.

(** The references to a target. *)
Definition refs_to (t : nat) (l : list (nat * reference)) : list reference :=
  map snd (filter (fun e => fst e =? t) l).

Definition position (x : reference) : list nat :=
  [file_id (range x); start_byte (range x); end_byte (range x)].

(** Order of the references of one file: by target, then position. *)
Definition target_position (e : nat * reference) : list nat := fst e :: position (snd e).
