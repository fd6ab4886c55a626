(** Java class names, said without splitting. *)
From Coq Require Import List Arith Bool.
From Verif Require Import Archive_Model JName_Model.
Import ListNotations.

(** What is assumed of the two character classes: punctuation is in neither. *)
Definition letters_only (alphabetic alphanumeric : nat -> bool) : Prop :=
  forall c, In c [dot; slash; dollar; colon] -> alphabetic c = false /\ alphanumeric c = false.

(** A Java identifier. *)
Definition java_identifier (alphabetic alphanumeric : nat -> bool) (s : text) : Prop :=
  exists c r, s = c :: r /\
    (alphabetic c = true \/ c = underscore \/ c = dollar) /\
    forall x, In x r -> alphanumeric x = true \/ x = underscore \/ x = dollar.

(** [s] is written as the class [cs], outermost first, in the package [ps]: the packages
    with [/] or [.] between and after them, the classes with [$] between them. *)
Definition written (s : text) (ps cs : list text) : Prop :=
  normalize s = join [slash] ps ++ slash :: join [dollar] cs.

(** A package as Java's conventions have it: every component begins with a small letter
    and has no capital letter in it. *)
Definition small (c : nat) : Prop := 97 <= c <= 122.
Definition capital_letter (c : nat) : Prop := 65 <= c <= 90.
Definition conventional (s : text) : Prop :=
  exists c r, s = c :: r /\ small c /\ forall x, In x r -> ~ capital_letter x.
