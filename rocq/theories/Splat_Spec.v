(** What Ruby does with a splat. *)
From Coq Require Import List.
From Verif Require Import Splat_Model.
Import ListNotations.

(** Ruby as far as splats go: the class of a value, whether it has to_hash, what its to_a answers if
    it has one, and whether this version takes nil after two stars (3.4 and later do). *)
Record ruby := mkRuby { val : Type; class_of : val -> path; has_to_hash : val -> Prop;
                        to_a : val -> option val; nil_is_empty : Prop }.
(** [f( **v )] raises a TypeError unless v is a hash, nil where that is taken, or can be converted. *)
Definition double_raises (R : ruby) (v : val R) : Prop :=
  class_of R v <> [hash] /\ ~ (class_of R v = [nil_class] /\ nil_is_empty R) /\ ~ has_to_hash R v.
(** [f( *v )] raises a TypeError only if to_a answers something that is neither an array nor nil. *)
Definition single_raises (R : ruby) (v : val R) : Prop :=
  exists w, class_of R v <> [array] /\ to_a R v = Some w /\ class_of R w <> [array] /\ class_of R w <> [nil_class].

(** The core classes as they come. *)
Record unpatched (R : ruby) : Prop := {
  no_to_hash : forall v n, In n [integer; float; string; symbol; true_class; false_class; array; range; nil_class] ->
    class_of R v = [n] -> ~ has_to_hash R v;
  good_to_a : forall v n w, In n [integer; float; string; symbol; true_class; false_class; hash; range; nil_class] ->
    class_of R v = [n] -> to_a R v = Some w -> class_of R w = [array] }.
(** The value is of the type; only [class_named] says what classes as values are like. *)
Definition described (R : ruby) (class_named : path -> val R -> Prop) (t : ty) (v : val R) : Prop :=
  match t with
  | Class p => class_of R v = p
  | ClassRef p => class_named p v
  | THash => class_of R v = [hash]
  | TArray => class_of R v = [array]
  | TElse => True
  end.
(** What an expression can be evaluated to. *)
Inductive evaluates (R : ruby) (class_named : path -> val R -> Prop) (typed : nat -> nat -> option ty) (e : expr) (v : val R) : Prop :=
| ev_literal k n : what e = k -> In (k, n) [(KNil, nil_class); (KInteger, integer); (KFloat, float); (KString, string); (KSymbol, symbol);
    (KTrue, true_class); (KFalse, false_class); (KHash, hash); (KArray, array); (KRange, range)] -> class_of R v = [n] -> evaluates R class_named typed e v
| ev_local n : what e = KLocal n -> (forall t, typed n (from e) = Some t -> described R class_named t v) -> evaluates R class_named typed e v
| ev_else : what e = KElse -> evaluates R class_named typed e v.
(** The splats of a list of arguments. *)
Inductive splatted (args : list arg) : operator -> expr -> nat * nat -> Prop :=
| s_single e a b : In (Splat (Some e) a b) args -> splatted args Single e (a, b)
| s_double e l a b : In (Keywords l) args -> In (Some (Some e, a, b)) l -> splatted args Double e (a, b).
