(** What the call hierarchy should show, in terms of the references in force. *)
From Coq Require Import List Arith Bool.
From Verif Require Import Sort_Lib Index_Lib References_Model References_Spec Names_Model CallHier_Model.
Import ListNotations.

Definition place (r : text_range) : list nat := [file_id r; start_byte r; end_byte r].

(** The places at which the body of [c] refers to [t]. *)
Definition is_caller (c : nat) (x : reference) : bool :=
  match caller x with Some d => d =? c | None => false end.
Definition spots (l : list (nat * reference)) (c t : nat) : list text_range :=
  map range (filter (is_caller c) (refs_to t l)).

(** The entry shows the method [i], at its first definition, with the places [rs] in order. *)
Definition shows (e : engine) (x : entry) (i : nat) (rs : list text_range) : Prop :=
  nth_error (names e) i = Some (item x) /\ hd_error (methods e i) = Some (place_of x) /\
  ranges x <> [] /\ in_order place rs (ranges x).

(** The engine [e] was reached by the history [h] of its reference index, each name has one id and
    every index operation was completed by its sort. *)
Definition reached (e : engine) (h : list op) : Prop :=
  NoDup (names e) /\ well_formed h /\ tidy h /\ run h = Some (refs e).
