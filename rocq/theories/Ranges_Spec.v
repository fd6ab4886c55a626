(** What an editor expects of selection and folding ranges. *)
From Coq Require Import List Arith.
From Verif Require Import Text_Lib Position_Spec Ranges_Model.
Import ListNotations.

(** Every location in the tree: of nodes, and of names and messages. *)
Fixpoint locations (f : forest) : list range :=
  match f with
  | Nil => []
  | Node _ l names inside after => l :: names ++ locations inside ++ locations after
  end.
(** The tree belongs to a text of this many bytes. *)
Definition located (n : nat) (f : forest) : Prop := forall r, In r (locations f) -> fst r <= snd r <= n.

Definition covers (r : range) (o : nat) : Prop := fst r <= o < snd r.
(** [a] lies in [b]. *)
Definition within (a b : range) : Prop := fst b <= fst a /\ snd a <= snd b.

(** Any two locations around a place are nested. *)
Definition nested_at (o : nat) (f : forest) : Prop :=
  forall a b, In a (locations f) -> In b (locations f) -> covers a o -> covers b o -> within a b \/ within b a.

(** A tree whose children and names lie in their parent, side by side. *)
Definition apart (a b : range) : Prop := snd a <= fst b \/ snd b <= fst a.
Fixpoint roots (f : forest) : list range := match f with Nil => [] | Node _ l _ _ after => l :: roots after end.
Inductive side_by_side : list range -> Prop :=
| no_ranges : side_by_side []
| one_more r l : (forall q, In q l -> apart r q) -> side_by_side l -> side_by_side (r :: l).
Fixpoint well_placed (f : forest) : Prop :=
  match f with
  | Nil => True
  | Node _ l names inside after =>
      (forall r, In r (names ++ roots inside) -> within r l) /\ side_by_side (names ++ roots inside) /\
      (forall r, In r (roots after) -> apart l r) /\ well_placed inside /\ well_placed after
  end.

(** The answer for the place [o]: innermost first, each range properly inside the next, each a location around [o];
    the first the smallest; and no location around [o] could be added. *)
Inductive inside_out : list range -> Prop :=
| single r : inside_out [r]
| wider r s l : within r s -> r <> s -> inside_out (s :: l) -> inside_out (r :: s :: l).
Definition selects (f : forest) (o : nat) (answer : list range) : Prop :=
  inside_out answer /\ (forall r, In r answer -> In r (locations f) /\ covers r o) /\
  (forall r s, In r (locations f) -> covers r o -> hd_error answer = Some s -> snd s - fst s <= snd r - fst r) /\
  (forall r, In r (locations f) -> covers r o -> (forall s, In s answer -> within r s \/ within s r) -> In r answer).

(** The ranges of a reply, innermost first. *)
Fixpoint reply (s : selection) : list ((nat * nat) * (nat * nat)) :=
  match s with Selection a b p => (a, b) :: match p with Some q => reply q | None => [] end end.

(** ** Folding *)
(** Constructs a reader expects to fold: those with a body, and literals. *)
Definition construct (k : kind) : bool := match k with Plain => false | _ => true end.
(** All constructs in the order of the text. *)
Fixpoint constructs (f : forest) : list (kind * range) :=
  match f with
  | Nil => []
  | Node k l _ inside after => (if construct k then [(k, l)] else []) ++ constructs inside ++ constructs after
  end.
(** Those not inside the body of a definition. *)
Fixpoint shallow (f : forest) : list (kind * range) :=
  match f with
  | Nil => []
  | Node k l _ inside after =>
      (if construct k then [(k, l)] else []) ++ (match k with Def_ => [] | _ => shallow inside end) ++ shallow after
  end.
(** The first and last line of a piece of text: lines are counted from zero, and [l] runs to the last character
    before its end. *)
Definition covers_lines (t : text) (r : range) (first last : nat) : Prop :=
  exists a m b, t = a ++ m ++ b /\ m <> [] /\ size a = fst r /\ size (a ++ m) = snd r /\ first = breaks a /\ last = breaks (removelast (a ++ m)).
(** A construct ends with a character other than a newline and something follows it (files usually end in a
    newline). *)
Definition closed (t : text) (r : range) : Prop :=
  exists a m c b, t = a ++ (m ++ [c]) ++ b /\ c <> nl /\ b <> [] /\ size a = fst r /\ size (a ++ m ++ [c]) = snd r.
(** The folds of a list of constructs: one for each that has more than one line. *)
Inductive folded (t : text) : list (kind * range) -> list (nat * nat) -> Prop :=
| no_constructs : folded t [] []
| one_line k r l fs a : covers_lines t r a a -> folded t l fs -> folded t ((k, r) :: l) fs
| more_lines k r l fs a b : covers_lines t r a b -> a < b -> folded t l fs -> folded t ((k, r) :: l) ((a, b) :: fs).
