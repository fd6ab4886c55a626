(** What a type written in a YARD comment means. *)
From Coq Require Import List Arith Bool.
From Verif Require Import Names_Model Names_Props Yard_Model.
Import ListNotations.

(** The types one can write, [WPair] as Hash<K, V> and [WMap] as Hash{K, ... => V, ...}. *)
Inductive written :=
| WNil | WVoid | WTrue | WFalse | WBoolean
| WName (parts : list text)
| WArray (elements : list written)
| WPair (key value : written)
| WMap (keys values : list written).

(** Their text, with a blank after each comma and around the arrow. *)
Fixpoint commas (l : list text) : text :=
  match l with [] => [] | t :: r => match r with [] => t | _ => t ++ 44 :: 32 :: commas r end end.
Definition w_Boolean : text := [66; 111; 111; 108; 101; 97; 110].
Fixpoint write (w : written) : text :=
  match w with
  | WNil => w_nil
  | WVoid => w_void
  | WTrue => w_true
  | WFalse => w_false
  | WBoolean => w_Boolean
  | WName parts => join parts
  | WArray l => w_Array ++ 60 :: commas (map write l) ++ [62]
  | WPair k v => w_Hash ++ 60 :: commas [write k; write v] ++ [62]
  | WMap ks vs => w_Hash ++ 123 :: (commas (map write ks) ++ [32; 61; 62; 32] ++ commas (map write vs)) ++ [125]
  end.
(** Their meaning.  Nothing is known of an [Object]; the two old classes of integers are [Integer]. *)
Fixpoint meaning (w : written) : rtype :=
  match w with
  | WNil | WVoid => RClass [w_NilClass]
  | WTrue => RClass [w_TrueClass]
  | WFalse => RClass [w_FalseClass]
  | WBoolean => RUnion [RClass [w_FalseClass]; RClass [w_TrueClass]]
  | WName parts =>
      if list_eq_dec (list_eq_dec Nat.eq_dec) parts [w_Object] then RUnknown
      else if list_eq_dec (list_eq_dec Nat.eq_dec) parts [w_BasicObject] then RUnknown
      else if list_eq_dec (list_eq_dec Nat.eq_dec) parts [w_Fixnum] then RClass [w_Integer]
      else if list_eq_dec (list_eq_dec Nat.eq_dec) parts [w_Bignum] then RClass [w_Integer]
      else RClass parts
  | WArray l => RArray (map meaning l)
  | WPair k v => RHash [meaning k] [meaning v]
  | WMap ks vs => RHash (map meaning ks) (map meaning vs)
  end.

(** Names are constants, and none is one of the words but for capitals. *)
Definition reserved (parts : list text) : Prop :=
  exists p, parts = [p] /\ In (map small p) [w_nil; w_void; w_true; w_false; w_boolean; w_bool].
(** Types without braces. *)
Inductive angled (u : unicode) : written -> Prop :=
| angled_word w : In w [WNil; WVoid; WTrue; WFalse; WBoolean] -> angled u w
| angled_name parts : parts <> [] -> spelled u parts -> ~ reserved parts -> angled u (WName parts)
| angled_array l : l <> [] -> Forall (angled u) l -> angled u (WArray l)
| angled_pair k v : angled u k -> angled u v -> angled u (WPair k v).
(** Types with braces at the outside only. *)
Inductive plainly (u : unicode) : written -> Prop :=
| plainly_angled w : angled u w -> plainly u w
| plainly_map ks vs : ks <> [] -> vs <> [] -> Forall (angled u) ks -> Forall (angled u) vs -> plainly u (WMap ks vs).
(** No constant contains a blank or one of [< > { } , =]. *)
Definition separate (u : unicode) : Prop :=
  Names_Props.plain u /\
  forall c, space c = true \/ In c [60; 62; 123; 125; 44; 61] -> xid_start u c = false /\ xid_continue u c = false.

(** The alternatives of a type. *)
Definition alternatives (t : rtype) : list rtype := match t with RUnion l => l | _ => [t] end.
(** [t] is the union of the types [l]: unknown if one of them is, else their alternatives, once each. *)
Definition union_of (l : list rtype) (t : rtype) : Prop :=
  (In RUnknown l /\ t = RUnknown) \/
  (~ In RUnknown l /\ NoDup (alternatives t) /\
   (forall m, In m (alternatives t) <-> exists x, In x l /\ In m (alternatives x)) /\
   (forall members, t = RUnion members -> 2 <= length members)).
