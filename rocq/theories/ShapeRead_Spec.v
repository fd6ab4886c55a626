(** What reading a Ruby hash yields, over the values of Types_Spec. *)
From Coq Require Import List.
From Verif Require Import Types_Model Types_Spec.
Import ListNotations.

(** The values nil, true and false are the only instances of their classes. *)
Record singletons (named : meaning) (nil yes no : val) : Prop := {
  nil_only : forall v, named InstanceOfClass (const_name nil_text) v <-> v = nil;
  true_only : forall v, named InstanceOfClass (const_name true_text) v <-> v = yes;
  false_only : forall v, named InstanceOfClass (const_name false_text) v <-> v = no;
  nil_no_hash : forall es, nil <> VHash es }.

(** [h[x]]: what is stored there, or nil. *)
Definition reads (nil : val) (es : list (val * val)) (x y : val) : Prop :=
  In (x, y) es \/ (y = nil /\ forall z, ~ In (x, z) es).
(** [h.fetch(x, d)] returns: what is stored there, or the default given. *)
Definition fetches (es : list (val * val)) (x : val) (default : val -> Prop) (y : val) : Prop :=
  In (x, y) es \/ (default y /\ forall z, ~ In (x, z) es).
(** [h.dig(x, ...)]. *)
Inductive digs (nil : val) : val -> list val -> val -> Prop :=
| digs_last es x y : reads nil es x y -> digs nil (VHash es) [x] y
| digs_nil es x x' xs : reads nil es x nil -> digs nil (VHash es) (x :: x' :: xs) nil
| digs_on es x x' xs y z : reads nil es x y -> digs nil y (x' :: xs) z -> digs nil (VHash es) (x :: x' :: xs) z.

(** The key written in the program: a literal, or some expression. *)
Definition written (k : option lit) (x : val) : Prop := match k with Some k => x = litval k | None => True end.

(** The type of the other keys takes in a literal only together with all the symbols, or strings. *)
Definition whole_key_types (named : meaning) : ty -> Prop :=
  every_shape (fun _ rest _ => forall a b, rest = Some (a, b) ->
    forall k, den named a (litval k) -> is_subtype (widened k) a = Some true).
