(** What the method return solver is meant to do, without its own data structures. *)
From Coq Require Import List Arith.
From Verif Require Import Types_Model Types_Spec Returns_Model.
Import ListNotations.

(** the method has at least one body in the system *)
Definition has_body (eqs : list equation) (m : nat) : Prop := exists e, In e eqs /\ eq_method e = m.
(** some body of [a] returns a call to [b] *)
Definition returns_call (eqs : list equation) (a b : nat) : Prop :=
  exists e, In e eqs /\ eq_method e = a /\ In b (eq_deps e).
Inductive calls (eqs : list equation) : nat -> nat -> Prop :=
| C_here a : calls eqs a a
| C_step a b c : returns_call eqs a b -> calls eqs b c -> calls eqs a c.
(** some body of [m] itself returns a value of type [t] *)
Definition returns_type (eqs : list equation) (m : nat) (t : ty) : Prop :=
  exists e, In e eqs /\ eq_method e = m /\ eq_base e = Proven t.
(** some body of [m] returns something the indexer could not type *)
Definition returns_unproven (eqs : list equation) (m : nat) : Prop :=
  exists e r, In e eqs /\ eq_method e = m /\ eq_base e = Unknown r.

(** [with_resolved_constant_types] and [from_ruby_type] give bases that are the Unknown type or hold no
    union with an Unknown member *)
Definition usable (eqs : list equation) : Prop :=
  forall m t, returns_type eqs m t -> t = TUnknown \/ union_members_contain_unknown t = false.
(** unions in bases are not nested *)
Definition flat_bases (eqs : list equation) : Prop := forall m t, returns_type eqs m t -> flat t.

(** [x] is one of the alternatives some method that [m] can end up returning returns itself *)
Definition ends_in (eqs : list equation) (m : nat) (x : ty) : Prop :=
  exists m' b, calls eqs m m' /\ returns_type eqs m' b /\ In x (members b).
(** Everything the result of [m] depends on is known: every method it can end up returning a call to has a
    body, none of their bodies is untyped, no base is empty or has an Unknown alternative, and none of them
    only ever returns calls. *)
Definition known (eqs : list equation) (m : nat) : Prop := forall m', calls eqs m m' ->
  has_body eqs m' /\ ~ returns_unproven eqs m' /\
  (forall b, returns_type eqs m' b -> members b <> [] /\ ~ In TUnknown (members b)) /\
  exists x, ends_in eqs m' x.
(** at most eight different shapes among the alternatives *)
Definition few_shape_results (eqs : list equation) (m : nat) : Prop :=
  forall ks, NoDup ks -> (forall x, In x ks -> is_shape x = true /\ ends_in eqs m x) -> length ks <= 8.
(** no more than seven methods below [m] call one another in a circle *)
Definition small_circles (eqs : list equation) (m : nat) : Prop :=
  forall m' ks, calls eqs m m' -> NoDup ks -> (forall x, In x ks -> calls eqs m' x /\ calls eqs x m') -> length ks <= 7.
