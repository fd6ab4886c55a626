(** What was registered, read off the calls and their answers. *)
From Coq Require Import List Arith NArith Bool.
From Verif Require Import Text_Lib FileIds_Model FileIds_Spec Snapshots_Model.
Import ListNotations.

Section Spec.
Context {core facts change : Type}.
Notation call := (call core facts).
Notation answer := (answer change).

(** What one registration says: kind, text and package. *)
Definition entry := (N * text * option N)%type.

(** A call that registered [x] for path [p] with engine [e]. *)
Definition registers (c : call) (a : answer) (e : nat) (p : path) (x : entry) : Prop :=
  match c, a with
  | Register _ _ e' p' t k pkg, _ => e' = e /\ p' = p /\ x = (k, t, pkg)
  | RegisterIf _ _ e' p' t k _, Snapped _ (Some _) => e' = e /\ p' = p /\ x = (k, t, None)
  | _, _ => False
  end.

(** How many engines the calls created. *)
Definition created (h : list call) : nat :=
  length (filter (fun c => match c with New _ _ | Clone _ _ _ => true | _ => false end) h).

(** [holds h l e p x]: after the calls [h] with answers [l], the last registration for [p] with engine [e]
    said [x]; a clone starts with what the original held. *)
Inductive holds : list call -> list answer -> nat -> path -> entry -> Prop :=
  | now h l c a e p q x : length l = length h -> registers c a e q x -> same_file q p -> holds (h ++ [c]) (l ++ [a]) e p x
  | earlier h l c a e p x : holds h l e p x -> (forall q y, registers c a e q y -> ~ same_file q p) -> holds (h ++ [c]) (l ++ [a]) e p x
  | cloned h l a e p x : holds h l e p x -> holds (h ++ [Clone _ _ e]) (l ++ [a]) (created h) p x.

(** No registration in [h] with [l] for [p] with engine [e] said anything but [x]. *)
Definition only (h : list call) (l : list answer) (e : nat) (p : path) (x : entry) : Prop :=
  forall c a q y, In (c, a) (combine h l) -> registers c a e q y -> same_file q p -> y = x.

(** The texts of the registrations. *)
Definition texts (h : list call) : list text :=
  flat_map (fun c => match c with Register _ _ _ _ t _ _ | RegisterIf _ _ _ _ t _ _ => [t] | _ => [] end) h.
(** The hash tells them apart. *)
Definition distinguishes (hash : text -> N) (h : list call) : Prop :=
  forall t t', In t (texts h) -> In t' (texts h) -> hash t = hash t' -> t = t'.
End Spec.
