(** What completing a key means. *)
From Coq Require Import List Arith NArith.
From Verif Require Import Text_Lib Types_Model Types_Spec KeyComp_Model.
Import ListNotations.

(** The calls of a tree. *)
Inductive within (c : call) : tree -> Prop :=
| here l : within c (Call c l)
| in_call d l t : In t l -> within c t -> within c (Call d l)
| in_node l t : In t l -> within c t -> within c (Node l).
Definition span (c : call) : nat := c_to c - c_from c.
(** A parser gives no call that ends before it starts, and no empty receiver. *)
Definition placed (t : tree) : Prop :=
  forall c, within c t -> c_from c <= c_to c /\ forall r, c_recv c = Some r -> r_from r < r_to r.

(** The call is [r[:partial]] or [r["partial"]], and the literal's text starts at [from] and ends at the
    cursor. *)
Definition asks (cursor : nat) (c : call) (r : recv) (s : syntax) (partial : text) (from : nat) : Prop :=
  c_index c = true /\ c_recv c = Some r /\
  exists a, c_args c = Some [a] /\
    ((s = Symbols /\ a = ASym partial (Some (from, cursor))) \/ (s = Strings /\ a = AStr partial (from, cursor))).
(** The cursor is in the name of the method called, or at one of its ends. *)
Definition names (cursor : nat) (c : call) (r : recv) : Prop :=
  c_recv c = Some r /\ exists from to, c_message c = Some (from, to) /\ from <= cursor <= to.

(** Every alternative of the type is a shape that lists the key. *)
Definition lists (t : ty) (k : lit) : Prop :=
  exists fs rest ex fr d, t = TShape fs rest ex fr d /\ In k (map fkey fs).
Definition listed (t : ty) (k : lit) : Prop :=
  match t with TUnion l => l <> [] /\ forall m, In m l -> lists m k | _ => lists t k end.
(** The key is of the kind written and begins as typed. *)
Definition typed (spell : nat -> text) (s : syntax) (partial : text) (k : lit) : Prop :=
  exists n r, spell n = partial ++ r /\ ((s = Symbols /\ k = LSym n) \/ (s = Strings /\ k = LStr n)).
(** The type the analysis knows for the receiver: of the expression; if it says nothing about that, of
    the local variable. *)
Definition known_type (exact local : nat -> nat -> option ty) (r : recv) (t : ty) : Prop :=
  t <> TUnknown /\
  (exact (r_from r) (r_to r) = Some t \/
   (exact (r_from r) (r_to r) = None /\ exists n, r_local r = Some n /\ local n (r_from r) = Some t)).

(** A hash has an entry at the key. *)
Definition has_key (v : val) (k : lit) : Prop := exists es y, v = VHash es /\ In (litval k, y) es.
(** Only shapes: no alternative is anything else. *)
Definition shape_only (t : ty) : Prop :=
  forall m, In m (members t) -> exists fs rest ex fr d, m = TShape fs rest ex fr d.

(** The text with the bytes [from] to [to] replaced. *)
Definition replaced (t : text) (from to : nat) (new t' : text) : Prop :=
  exists a old b, t = a ++ old ++ b /\ size a = from /\ size (a ++ old) = to /\ t' = a ++ new ++ b.
(** A symbol as it is read after a colon: the longest run of name characters. *)
Definition reads_symbol (word : N -> bool) (t name : text) : Prop :=
  exists rest, t = name ++ rest /\ Forall (fun c => word c = true) name /\
    match rest with [] => True | c :: _ => word c = false end.
(** A string as it is read after its opening quote: up to the next one, when nothing in it is an escape
    or an interpolation. *)
Definition reads_string (quote : N) (t s : text) : Prop :=
  (exists rest, t = s ++ quote :: rest) /\ Forall (fun c => c <> quote /\ c <> 92%N /\ c <> 35%N) s.
