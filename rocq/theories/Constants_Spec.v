(** What the constant solver is meant to compute. *)
From Coq Require Import List Arith.
From Verif Require Import Types_Model Constants_Model.
Import ListNotations.

(** the definition of a constant that counts is the last one in (file, start, end) order *)
Definition current (facts : list cfact) (c : nat) (f : cfact) : Prop :=
  In f facts /\ cf_constant f = c /\
  forall f', In f' facts -> cf_constant f' = c -> order_leb (cf_order f') (cf_order f) = true.

Section Spec.
Variables (eqs : list cequation) (facts : list cfact) (resolve : nat -> option rdep).

(** An equation has type [t] when each of its dependencies has a type and [t] is their union; a dependency
    has the type of the constructor it names, of a definition without equation, or of the equation of the
    definition it names. *)
Inductive typed : cequation -> ty -> Prop :=
| Typed e l : all_typed (ce_deps e) l -> l <> [] -> union l <> TUnknown -> typed e (union l)
with all_typed : list nat -> list ty -> Prop :=
| All_nil : all_typed [] []
| All_cons d ds t l : dep_typed d t -> all_typed ds l -> all_typed (d :: ds) (t :: l)
with dep_typed : nat -> ty -> Prop :=
| Dep_projected d t : resolve d = Some (RProjected t) -> t <> TUnknown -> dep_typed d t
| Dep_plain d c f : resolve d = Some (RValue c) -> current facts c f ->
    (forall e, In e eqs -> ce_target e <> cf_target f) -> cf_type f <> TUnknown -> dep_typed d (cf_type f)
| Dep_equation d c f e t : resolve d = Some (RValue c) -> current facts c f ->
    In e eqs -> ce_target e = cf_target f -> typed e t -> dep_typed d t.

(** the type of [e] needs the type of [e'] *)
Definition needs (e e' : cequation) : Prop :=
  exists d c f, In d (ce_deps e) /\ resolve d = Some (RValue c) /\ current facts c f /\ In e' eqs /\ ce_target e' = cf_target f.
Inductive needs_chain : cequation -> cequation -> Prop :=
| N_one e e' : needs e e' -> needs_chain e e'
| N_more e e' e'' : needs e e' -> needs_chain e' e'' -> needs_chain e e''.

(** what the callers guarantee: one equation per target (they come from a sorted, deduplicated list of
    equations of distinct syntax nodes), no projected Unknown, no two definitions of one constant at one place *)
Definition one_per_target : Prop := forall e e', In e eqs -> In e' eqs -> ce_target e = ce_target e' -> e = e'.
Definition projected_known : Prop := forall e d t, In e eqs -> In d (ce_deps e) -> resolve d = Some (RProjected t) -> t <> TUnknown.
Definition distinct_places : Prop := forall f f', In f facts -> In f' facts -> cf_constant f = cf_constant f' ->
  cf_order f = cf_order f' -> f = f'.
End Spec.
