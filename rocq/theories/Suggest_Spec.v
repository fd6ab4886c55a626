(** "Did you mean": edit distance and nearest names. *)
From Coq Require Import List Arith NArith.
From Verif Require Import Calls_Model.
Import ListNotations.

(** One character inserted, removed or replaced, and a number of such edits one after the other. *)
Inductive edit : name -> name -> Prop :=
| inserted p c q : edit (p ++ q) (p ++ c :: q)
| removed p c q : edit (p ++ c :: q) (p ++ q)
| replaced p c d q : edit (p ++ c :: q) (p ++ d :: q).
Inductive edits : nat -> name -> name -> Prop :=
| unedited a : edits 0 a a
| edited n a b c : edit a b -> edits n b c -> edits (S n) a c.

(** [n] is the least number of edits. *)
Definition distance (a b : name) (n : nat) : Prop := edits n a b /\ forall m, edits m a b -> n <= m.

(** [c] is the nearest of [l] to [target] within [limit] edits, and comes before all that are as near. *)
Definition nearest (target : name) (limit : nat) (l : list name) (r : option name) : Prop :=
  match r with
  | Some c => exists before after n, l = before ++ c :: after /\ distance c target n /\ n <= limit /\
      (forall x m, In x before -> distance x target m -> n < m) /\ (forall x m, In x after -> distance x target m -> n <= m)
  | None => forall x m, In x l -> distance x target m -> limit < m
  end.
