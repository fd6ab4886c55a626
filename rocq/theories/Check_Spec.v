(** What a report of the check command is. *)
From Coq Require Import List Arith Bool Sorted.
From Verif Require Import Check_Model.
Import ListNotations.

(** [a] comes before [b], letter by letter or name by name. *)
Inductive earlier {A} (lt : A -> A -> Prop) : list A -> list A -> Prop :=
| earlier_nil x l : earlier lt [] (x :: l)
| earlier_head x y a b : lt x y -> earlier lt (x :: a) (y :: b)
| earlier_tail x a b : earlier lt a b -> earlier lt (x :: a) (x :: b).
Definition name_earlier : text -> text -> Prop := earlier Nat.lt.
Definition position_before (p q : position) : Prop := fst p < fst q \/ (fst p = fst q /\ snd p < snd q).
Definition file_before (p q : path) : Prop :=
  (absolute p = true /\ absolute q = false) \/ (absolute p = absolute q /\ earlier name_earlier (components p) (components q)).
(** The order of a report: by file, then where it starts, then where it ends, the graver first, then by code and message. *)
Inductive reported_before (a b : diagnostic) : Prop :=
| by_file : file_before (d_path a) (d_path b) -> reported_before a b
| by_start : d_path a = d_path b -> position_before (d_start a) (d_start b) -> reported_before a b
| by_end : d_path a = d_path b -> d_start a = d_start b -> position_before (d_end a) (d_end b) -> reported_before a b
| by_severity : d_path a = d_path b -> d_start a = d_start b -> d_end a = d_end b ->
    In (d_severity a, d_severity b) [(Error, Warning); (Error, Information); (Error, Hint); (Warning, Information); (Warning, Hint); (Information, Hint)] -> reported_before a b
| by_code : d_path a = d_path b -> d_start a = d_start b -> d_end a = d_end b -> d_severity a = d_severity b ->
    ((d_code a = None /\ d_code b <> None) \/ (exists x y, d_code a = Some x /\ d_code b = Some y /\ name_earlier x y)) -> reported_before a b
| by_message : d_path a = d_path b -> d_start a = d_start b -> d_end a = d_end b -> d_severity a = d_severity b -> d_code a = d_code b ->
    name_earlier (d_message a) (d_message b) -> reported_before a b.

(** What is to be reported of a file. *)
Definition under (root p : path) : Prop := absolute p = absolute root /\ exists r, components p = components root ++ r.
Definition chosen (root : path) (selected : option path) (p : path) : Prop :=
  match selected with Some s => p = s | None => under root p end.
Definition to_report (root : path) (selected : option path) (ws : list workspace) (p : path) (r : raw) : Prop :=
  exists w, In w ws /\
    ((exists f, In f (files w) /\ f_kind f = Project /\ f_path f = p /\ chosen root selected p /\ In r (f_syntax f)) \/
     (In (mkFact p r) (facts w) /\ match selected with Some s => p = s | None => True end)).
(** How it is shown. *)
Definition shows (root p : path) (r : raw) (d : diagnostic) : Prop :=
  (under root p -> absolute (d_path d) = false /\ components p = components root ++ components (d_path d)) /\
  (~ under root p -> d_path d = p) /\
  d_start d = (S (fst (r_start r)), S (snd (r_start r))) /\ d_end d = (S (fst (r_end r)), S (snd (r_end r))) /\
  match r_severity r with Some s => d_severity d = s | None => d_severity d = Error end /\
  d_code d = r_code r /\ d_message d = r_message r.
Definition of_severity (s : severity) (l : list diagnostic) : nat :=
  length (filter (fun d => match d_severity d, s with Error, Error | Warning, Warning | Information, Information | Hint, Hint => true | _, _ => false end) l).

(** A command line: options and paths in any order. *)
Inductive item := Option_ (f : format) | Path_ (p : text).
Definition format_name (f : format) : text := match f with Human => a_human | Json => a_json end.
Inductive spells : item -> list text -> Prop :=
| spells_two f : spells (Option_ f) [a_format; format_name f]
| spells_one f : spells (Option_ f) [a_format ++ 61 :: format_name f]
| spells_path p : hd 0 p <> 45 -> spells (Path_ p) [p].
Inductive line : list item -> list text -> Prop :=
| line_nil : line [] []
| line_cons i w l r : spells i w -> line l r -> line (i :: l) (w ++ r).
Definition paths (l : list item) : list text := flat_map (fun i => match i with Path_ p => [p] | _ => [] end) l.
Definition formats (l : list item) : list format := flat_map (fun i => match i with Option_ f => [f] | _ => [] end) l.
