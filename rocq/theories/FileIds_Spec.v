(** What a path spells. *)
From Coq Require Import List NArith.
From Verif Require Import FileIds_Model.
Import ListNotations.

(** [written p ss]: [p] is the segments [ss] with slashes between them. *)
Inductive written : list N -> list (list N) -> Prop :=
| one s : ~ In SLASH s -> written s [s]
| more s p ss : ~ In SLASH s -> written p ss -> written (s ++ SLASH :: p) (s :: ss).

Definition idle (s : list N) : Prop := s = [] \/ s = [DOT].
(** The names in a path: empty segments and "." say nothing. *)
Inductive names : list (list N) -> list (list N) -> Prop :=
| none : names [] []
| skip s ss ns : idle s -> names ss ns -> names (s :: ss) ns
| keep s ss ns : ~ idle s -> names ss ns -> names (s :: ss) (s :: ns).

(** Two paths spell the same file: both absolute, or both starting at ".", or neither, and the same names. *)
Definition same_file (p q : list N) : Prop :=
  exists ss ts ns, written p ss /\ written q ts /\ names ss ns /\ names ts ns /\
    (hd 0%N p = SLASH <-> hd 0%N q = SLASH) /\ (hd [] ss = [DOT] <-> hd [] ts = [DOT]).
