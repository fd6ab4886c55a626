(** Argument diagnostics: what Ruby 3 does with the arguments of a call. *)
From Coq Require Import List Arith NArith Permutation.
From Verif Require Import Calls_Model.
Import ListNotations.

(** What a call passes when it runs: a number of positional arguments and the keys of the keywords. *)
Inductive passed_key := Sym (n : name) | NotSym.

Definition key_of (k : key) : passed_key := match k with SymbolKey n _ => Sym n | OtherKey => NotSym end.

Inductive element_passes : list element -> list passed_key -> Prop :=
| no_elements : element_passes [] []
| a_pair k l ks : element_passes l ks -> element_passes (Pair k :: l) (key_of k :: ks)
| a_double_splat l any ks : element_passes l ks -> element_passes (DoubleSplat :: l) (any ++ ks).

(** A splat passes any number of arguments, and keywords too if the array ends in a hash flagged by
    ruby2_keywords; [...] passes anything. *)
Inductive passes : list argument -> nat -> list passed_key -> Prop :=
| nothing : passes [] 0 []
| positionally h l n ks : passes l n ks -> passes (Positional h :: l) (S n) ks
| splatted l any keys n ks : passes l n ks -> passes (Splat :: l) (any + n) (keys ++ ks)
| by_keyword es l keys n ks : element_passes es keys -> passes l n ks -> passes (Keywords es :: l) n (keys ++ ks)
| with_block l n ks : passes l n ks -> passes (BlockArgument :: l) n ks
| forwarded l any keys n ks : passes l n ks -> passes (ForwardingArguments :: l) (any + n) (keys ++ ks).

(** Which of these a method takes (otherwise: ArgumentError). *)
Definition required_names (p : parameters) : list name := flat_map (fun k => match k with RequiredKey n => [n] | OptionalKey _ => [] end) (keywords p).
Definition declared_names (p : parameters) : list name := map (fun k => match k with RequiredKey n | OptionalKey n => n end) (keywords p).
Definition least (p : parameters) : nat := length (requireds p) + length (posts p).
Definition most (p : parameters) : nat := least p + length (optionals p).
Definition takes_any_number (p : parameters) : Prop := rest p <> None \/ key_rest p = Some ForwardingKeyRest.
Definition takes_any_keyword (p : parameters) : Prop :=
  key_rest p = Some AnonymousKeyRest \/ (exists n, key_rest p = Some (NamedKeyRest n)) \/ key_rest p = Some ForwardingKeyRest \/ rest p = Some ForwardingRest.
Definition takes_keywords (p : parameters) : Prop := keywords p <> [] \/ takes_any_keyword p.
Definition takes_count (p : parameters) (n : nat) : Prop := least p <= n /\ (takes_any_number p \/ n <= most p).

Inductive accepts (p : parameters) (n : nat) (ks : list passed_key) : Prop :=
| with_keywords : takes_keywords p -> takes_count p n -> (forall k, In k (required_names p) -> In (Sym k) ks) ->
    (takes_any_keyword p \/ forall x, In x ks -> exists k, In k (declared_names p) /\ x = Sym k) -> accepts p n ks
| without_keywords : ~ takes_keywords p -> ks = [] -> takes_count p n -> accepts p n ks
| as_a_hash : ~ takes_keywords p -> key_rest p <> Some NoKeywords -> ks <> [] -> takes_count p (S n) -> accepts p n ks.

(** The parts of the code the theorems exclude, each with a refutation. *)
Definition plain (p : parameters) : Prop := Forall (fun x => x <> Destructured) (requireds p ++ posts p).
Definition as_written (k : key) : Prop := match k with SymbolKey n w => w = Some n | OtherKey => True end.
Definition spelled_out (a : argument) : Prop := match a with Keywords es => forall k, In (Pair k) es -> as_written k | _ => True end.

(** A call whose arguments are all in sight. *)
Definition in_sight (a : argument) : Prop :=
  match a with
  | Splat | ForwardingArguments => False
  | Keywords es => forall e, In e es -> exists n w, e = Pair (SymbolKey n w)
  | _ => True
  end.
Fixpoint last_positional (l : list argument) : option bool :=
  match l with
  | [] => None
  | Positional h :: r => match last_positional r with Some x => Some x | None => Some h end
  | _ :: r => last_positional r
  end.
