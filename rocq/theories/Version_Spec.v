(** What names a version of Ruby. *)
From Coq Require Import List Arith Bool.
From Verif Require Import Names_Model Yard_Model YardDoc_Spec Version_Model.
Import ListNotations.

(** [t] writes the number [n], at most 255, in digits, perhaps after a plus. *)
Definition decimal (ds : text) : nat := fold_left (fun a c => a * 10 + (c - 48)) ds 0.
Definition writes (t : text) (n : nat) : Prop :=
  exists ds, (t = ds \/ t = 43 :: ds) /\ ds <> [] /\ Forall (fun c => 48 <= c <= 57) ds /\ n = decimal ds /\ n <= 255.
(** [t] begins with the numbers [a] and [b], with a dot between them and the end or a dot after them. *)
Definition numbered (t : text) (a b : nat) : Prop :=
  exists x y r, writes x a /\ writes y b /\ (t = x ++ 46 :: y \/ t = x ++ 46 :: y ++ 46 :: r).
(** The names of versions. *)
Inductive names : text -> version -> Prop :=
| names_bare t a b : numbered t a b -> names t (mkVersion a b Mri)
| names_mri t a b : numbered t a b -> names (v_ruby ++ 45 :: t) (mkVersion a b Mri)
| names_jruby t c d a b : numbered t c d -> In (c, d, (a, b)) jruby_table -> names (v_jruby ++ 45 :: t) (mkVersion a b JRuby)
| names_truffle t c d a b : numbered t c d -> In (c, (a, b)) truffle_table -> names (v_truffleruby ++ 45 :: t) (mkVersion a b TruffleRuby).
(** A word: a text without blanks. *)
Definition a_word (t : text) : Prop := t <> [] /\ forallb (fun c => negb (space c)) t = true.
