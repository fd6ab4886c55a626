(** What a user expects of workspace symbol search. *)
From Coq Require Import List Arith Bool QArith.
From Verif Require Import Sort_Lib Names_Model WsSymbols_Model.
Import ListNotations.
Open Scope nat_scope.

(** [p]'s characters appear in [s] in that order. *)
Inductive scattered : text -> text -> Prop :=
| scattered_nil s : scattered [] s
| scattered_take c p s : scattered p s -> scattered (c :: p) (c :: s)
| scattered_skip c p s : scattered p s -> scattered p (c :: s).

Section Spec.
  Variable lower : text -> text.
  Variable upper : nat -> bool.

  (** A name answers a query: the query's letters appear in it in order, whatever the case, or the
      capitals of the query, if any, begin the capitals of the name. *)
  Definition answers (s p : text) : Prop :=
    scattered (lower p) (lower s)
    \/ filter upper p <> [] /\ exists r, filter upper s = filter upper p ++ r.

  (** How well: the name itself, the name in another case, a beginning of it, anything else. *)
  Inductive grade (s p : text) : nat -> Prop :=
  | grade_exact : s = p -> grade s p 3
  | grade_case : s <> p -> lower s = lower p -> grade s p 2
  | grade_prefix : lower s <> lower p -> (exists r, lower s = lower p ++ r) -> grade s p 1
  | grade_other : ~ (exists r, lower s = lower p ++ r) -> answers s p -> grade s p 0.

  (** The symbols of the user's own code, local variables apart. *)
  Definition listable (f : fact) : Prop :=
    generated f = false /\ project f = true /\ kind f <> KLocal.

  (** The name of a symbol without its container, and its container. *)
  Definition own_name (n : name) : text :=
    match n with
    | Namespace ps _ | Constant ps => last ps []
    | Method _ m => m
    | Variable_ t => t
    end.
  Definition inside (n : name) (c : option text) : Prop :=
    match n with
    | Namespace ps _ | Constant ps =>
        (length ps <= 1 /\ c = None) \/ exists outer p, outer <> [] /\ ps = outer ++ [p] /\ c = Some (join outer)
    | Method ps _ => (ps = [] /\ c = None) \/ (ps <> [] /\ c = Some (join ps))
    | Variable_ _ => c = None
    end.

  (** [x] is the entry of [f]. *)
  Definition entry_of (f : fact) (x : information) (place : location) : Prop :=
    iname x = own_name (fqn f) /\ ikind x = kind f /\ ilocation x = place /\ inside (fqn f) (icontainer x).

  (** The symbols of a workspace that answer a query. *)
  Definition hit (w : workspace) (query : text) (f : fact) : Prop :=
    In f (facts w) /\ listable f /\ answers (own_name (fqn f)) query.
  Definition at_top (n : name) : Prop :=
    exists p, (exists k, n = Namespace [p] k) \/ n = Constant [p].
End Spec.

(** The order of an answer: by name, then file, then first and last position. *)
Definition precedes (a b : list nat) : Prop := lexb a b = true /\ a <> b.
Definition place_key (x : information) : list nat :=
  [fst (starts (ilocation x)); snd (starts (ilocation x)); fst (ends (ilocation x)); snd (ends (ilocation x))].
Definition not_after (x y : information) : Prop :=
  precedes (iname x) (iname y)
  \/ iname x = iname y /\ (precedes (uri (ilocation x)) (uri (ilocation y))
     \/ uri (ilocation x) = uri (ilocation y) /\ lexb (place_key x) (place_key y) = true).
