(** Signature help: which parameter Ruby gives an argument to, and what is between the commas of a call. *)
From Coq Require Import List Arith NArith Bool.
From Verif Require Import Calls_Model Calls_Spec SigHelp_Model.
Import ListNotations.

(** Of a call with [n] positional arguments, the parameter that receives argument number [i] (from 0): the required
    parameters first take from the front and those after the rest take from the back, the optional ones take what
    lies between, from the left, and the rest parameter takes what is left. *)
Definition before_posts (p : parameters) (n i : nat) : Prop := i + length (posts p) < n.
Inductive receives (p : parameters) (n i : nat) : param -> Prop :=
| by_required x : nth_error (requireds p) i = Some (Plain x) -> receives p n i (x, KRequired)
| by_optional x : length (requireds p) <= i -> before_posts p n i ->
    nth_error (optionals p) (i - length (requireds p)) = Some x -> receives p n i (x, KOptional)
| by_rest x : length (requireds p) + length (optionals p) <= i -> before_posts p n i ->
    rest p = Some (NamedRest x) -> receives p n i (x, KRest)
| by_anonymous_rest : length (requireds p) + length (optionals p) <= i -> before_posts p n i ->
    rest p = Some AnonymousRest -> receives p n i ([], KAnonymousRest)
| by_forwarding : length (requireds p) + length (optionals p) <= i -> before_posts p n i ->
    rest p = Some ForwardingRest \/ key_rest p = Some ForwardingKeyRest -> receives p n i ([], KForwarding)
| by_post j x : nth_error (posts p) j = Some (Plain x) -> i + length (posts p) = n + j -> receives p n i (x, KRequired).

(** The parameter that receives keyword [k]. *)
Inductive receives_key (p : parameters) (k : name) : param -> Prop :=
| by_required_key : In (RequiredKey k) (keywords p) -> receives_key p k (k, KRequiredKeyword)
| by_optional_key : In (OptionalKey k) (keywords p) -> receives_key p k (k, KOptionalKeyword)
| by_key_rest x : ~ In k (declared_names p) -> key_rest p = Some (NamedKeyRest x) -> receives_key p k (x, KKeywordRest)
| by_anonymous_key_rest : ~ In k (declared_names p) -> key_rest p = Some AnonymousKeyRest ->
    receives_key p k ([], KAnonymousKeywordRest)
| by_forwarding_key : ~ In k (declared_names p) -> key_rest p = Some ForwardingKeyRest -> receives_key p k ([], KForwarding).

(** Ruby's grammar: [...] stands behind required and optional parameters only. *)
Definition grammatical (p : parameters) : Prop :=
  rest p <> Some ForwardingRest /\ (key_rest p = Some ForwardingKeyRest -> rest p = None /\ posts p = [] /\ keywords p = []).

(** The call could be written with an argument number [i]. *)
Definition may_have (p : parameters) (i : nat) : Prop := i < most p \/ takes_any_number p.

(** ** In the source *)

(** The commas of a call: one behind each argument but the last, at the given offsets, and perhaps one more
    that was typed last.  [close]: no space before commas. *)
Fixpoint separated (comma : nat -> bool) (l : list arg) (seps : list nat) : Prop :=
  match l, seps with
  | [], [] => True
  | [a], [] => fst (where_ a) <= snd (where_ a)
  | [a], [s] => fst (where_ a) <= snd (where_ a) <= s /\ comma s = true
  | a :: (b :: _) as r, s :: ss =>
      fst (where_ a) <= snd (where_ a) <= s /\ s < fst (where_ b) /\ comma s = true /\ separated comma r ss
  | _, _ => False
  end.
Fixpoint close (l : list arg) (seps : list nat) : Prop :=
  match l, seps with
  | a :: r, s :: ss => s = snd (where_ a) /\ close r ss
  | _, _ => True
  end.
(** The number of those commas before the cursor: the number of the argument it is in. *)
Definition commas_before (cursor : nat) (seps : list nat) : nat := length (filter (fun s => s <? cursor) seps).
(** Behind the last argument there is no comma up to the cursor but that of the call. *)
Definition no_other_comma (comma : nat -> bool) (cursor : nat) (l : list arg) (seps : list nat) : Prop :=
  forall a i, nth_error l (length l - 1) = Some a -> snd (where_ a) <= i < cursor -> comma i = true -> In i seps.

(** The pairs of the keyword hashes among the arguments, and those the cursor touches. *)
Definition pairs_of (l : list arg) : list pair := flat_map (fun a => match hash a with Some es => es | None => [] end) l.
Definition touches (cursor : nat) (l : list arg) (k : option name) : Prop :=
  exists s, In (KeyPair s k) (pairs_of l) /\ fst s <= cursor <= snd s.

(** The number of positional arguments the call passes: if the method takes keywords, those before the keyword hash,
    otherwise the hash is one of them, provided it is not empty.  A splat would pass any number. *)
Definition passes_positional (p : parameters) (l : list arg) (n : nat) : Prop :=
  (forall a, In a l -> starred a = false) /\
  (takes_keywords p /\ n <= length l /\ (forall j a, nth_error l j = Some a -> (hash a = None <-> j < n)) \/
   ~ takes_keywords p /\ n = length l /\ (forall a es, In a l -> hash a = Some es -> exists s k, In (KeyPair s k) es)).

(** ** Calls in a tree *)

Fixpoint at_path (t : tree) (path : list nat) : option tree :=
  match path with
  | [] => Some t
  | i :: r => match t with Node _ _ below => match nth_error below i with Some u => at_path u r | None => None end end
  end.
Definition loc (t : tree) : span := match t with Node l _ _ => l end.
Definition call_of (t : tree) : option call := match t with Node _ c _ => c end.
Definition inside (a b : span) : Prop := fst b <= fst a /\ snd a <= snd b.

(** A parse tree: what is below a node lies inside it, in order; the name of a method is not empty and inside its call; a
    call inside another one is shorter. *)
Record parsed (t : tree) : Prop := {
  p_span : forall a u, at_path t a = Some u -> fst (loc u) <= snd (loc u);
  p_inside : forall a i u v, at_path t a = Some u -> at_path t (a ++ [i]) = Some v -> inside (loc v) (loc u);
  p_order : forall a i j u v, i < j -> at_path t (a ++ [i]) = Some u -> at_path t (a ++ [j]) = Some v ->
    snd (loc u) <= fst (loc v);
  p_name : forall a u c m, at_path t a = Some u -> call_of u = Some c -> message c = Some m ->
    fst m < snd m /\ inside m (loc u);
  p_shorter : forall a b u v c d, at_path t a = Some u -> at_path t (a ++ b) = Some v -> b <> [] ->
    call_of u = Some c -> call_of v = Some d -> snd (loc v) - fst (loc v) < snd (loc u) - fst (loc u) }.

(** The cursor is behind the name of the call, not behind the call, and not at or behind the start of its block. *)
Definition holds (cursor : nat) (u : tree) (c : call) : Prop :=
  call_of u = Some c /\
  (exists m, message c = Some m /\ snd m <= cursor <= snd (loc u)) /\
  (forall b, blk c = Some b -> cursor < fst b).
