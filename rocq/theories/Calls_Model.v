(** Argument diagnostics: what is recorded of a method's parameters and of a call's arguments, and the
    wrong-arity, unknown-kwarg and missing-kwarg warnings that follow.

    Names are the lists of their characters.  Ranges and message texts are left out except for what the
    texts report. *)
From Coq Require Import List Arith NArith Bool.
From Verif Require Import Sort_Lib.
Import ListNotations.

Definition name := list N.
Definition name_eqb (a b : name) : bool := if list_eq_dec N.eq_dec a b then true else false.

(** prism's ParametersNode: a positional parameter is a name or a pattern to be destructured ([def f((a, b))]);
    the keyword-rest slot also holds [**nil] and [...]. *)
Inductive positional := Plain (n : name) | Destructured.
Inductive rest_parameter := NamedRest (n : name) | AnonymousRest | ForwardingRest.
Inductive keyword := RequiredKey (n : name) | OptionalKey (n : name).
Inductive keyword_rest := NamedKeyRest (n : name) | AnonymousKeyRest | NoKeywords | ForwardingKeyRest.
Record parameters := Parameters { requireds : list positional; optionals : list name; rest : option rest_parameter; posts : list positional;
  keywords : list keyword; key_rest : option keyword_rest; block : option (option name) }.

(** crates/ruby-analysis/src/core/method_store.rs:20-32 *)
Inductive kind := KRequired | KOptional | KRest | KRequiredKeyword | KOptionalKeyword | KKeywordRest | KBlock | KForwarding | KAnonymousRest
  | KAnonymousKeywordRest.
Definition param := (name * kind)%type.

(** indexer/fact_collector/def_node.rs:578-716 (extract_method_params; analysis_indexer.rs:2044-2140 is the
    same).  The names of anonymous parameters do not matter and are empty here. *)
Definition positional_param (p : positional) : list param := match p with Plain n => [(n, KRequired)] | Destructured => [] end.
Definition extract (p : parameters) : list param :=
  flat_map positional_param (requireds p) ++
  map (fun n => (n, KOptional)) (optionals p) ++
  match rest p with Some (NamedRest n) => [(n, KRest)] | Some AnonymousRest => [([], KAnonymousRest)] | Some ForwardingRest => [([], KForwarding)] | None => [] end ++
  flat_map positional_param (posts p) ++
  map (fun k => match k with RequiredKey n => (n, KRequiredKeyword) | OptionalKey n => (n, KOptionalKeyword) end) (keywords p) ++
  match key_rest p with
  | Some (NamedKeyRest n) => [(n, KKeywordRest)] | Some AnonymousKeyRest => [([], KAnonymousKeywordRest)]
  | Some ForwardingKeyRest => [([], KForwarding)] | Some NoKeywords | None => []
  end ++
  match block p with Some (Some n) => [(n, KBlock)] | _ => [] end.

(** The arguments of a call as prism gives them.  [Positional h]: an expression that may evaluate to a Hash
    (indexer/fact_collector/call_node/mod.rs:1827-1845: anything but certain literals).  A symbol key carries the
    symbol and, if prism locates it, its spelling in the source. *)
Inductive key := SymbolKey (value : name) (written : option name) | OtherKey.
Inductive element := Pair (k : key) | DoubleSplat.
Inductive argument := Positional (may_be_hash : bool) | Splat | Keywords (l : list element) | BlockArgument | ForwardingArguments.

(** core/reference_store.rs:85-101 *)
Record signature := Signature { positional_count : nat; positional_splat : bool; nonempty_keyword_hash : bool; trailing_may_be_hash : bool;
  keyword_args : list name; keyword_splat : bool }.
Definition no_arguments : signature := Signature 0 false false false [] false.

(** call_node/mod.rs:1686-1711: one element of a keyword hash *)
Definition add_element (s : signature) (e : element) : signature :=
  match e with
  | DoubleSplat => Signature (positional_count s) (positional_splat s) (nonempty_keyword_hash s) (trailing_may_be_hash s) (keyword_args s) true
  | Pair k => Signature (positional_count s) (positional_splat s) true (trailing_may_be_hash s)
      (keyword_args s ++ match k with SymbolKey _ (Some w) => [w] | _ => [] end) (keyword_splat s)
  end.
(** call_node/mod.rs:1671-1723 (method_signature_candidate_from_arguments): one argument, and all after the
    first [skip] *)
Definition add_argument (s : signature) (a : argument) : signature :=
  match a with
  | ForwardingArguments => Signature (positional_count s) true (nonempty_keyword_hash s) (trailing_may_be_hash s) (keyword_args s) true
  | Splat => Signature (positional_count s) true (nonempty_keyword_hash s) (trailing_may_be_hash s) (keyword_args s) (keyword_splat s)
  | Keywords l => fold_left add_element l s
  | BlockArgument => s
  | Positional h => Signature (positional_count s + 1) (positional_splat s) (nonempty_keyword_hash s) h (keyword_args s) (keyword_splat s)
  end.
Definition collect (skip : nat) (l : list argument) : signature := fold_left add_argument (skipn skip l) no_arguments.

(** engine/diagnostic_helpers.rs:74-115 *)
Record arity := Arity { required : nat; optional : nat; has_rest : bool; required_keywords : list name; optional_keywords : list name; has_kwrest : bool }.
Definition add_param (a : arity) (p : param) : arity :=
  let '(n, k) := p in
  match k with
  | KRequired => Arity (required a + 1) (optional a) (has_rest a) (required_keywords a) (optional_keywords a) (has_kwrest a)
  | KOptional => Arity (required a) (optional a + 1) (has_rest a) (required_keywords a) (optional_keywords a) (has_kwrest a)
  | KRest | KAnonymousRest => Arity (required a) (optional a) true (required_keywords a) (optional_keywords a) (has_kwrest a)
  | KRequiredKeyword => Arity (required a) (optional a) (has_rest a) (required_keywords a ++ [n]) (optional_keywords a) (has_kwrest a)
  | KOptionalKeyword => Arity (required a) (optional a) (has_rest a) (required_keywords a) (optional_keywords a ++ [n]) (has_kwrest a)
  | KKeywordRest | KAnonymousKeywordRest => Arity (required a) (optional a) (has_rest a) (required_keywords a) (optional_keywords a) true
  | KBlock => a
  | KForwarding => Arity (required a) (optional a) true (required_keywords a) (optional_keywords a) true
  end.
Definition from_params (l : list param) : arity := fold_left add_param l (Arity 0 0 false [] [] false).

(** diagnostic_helpers.rs:118-148 *)
Definition mismatch := (nat * option nat * nat)%type.
Definition arity_mismatch (s : signature) (a : arity) : option mismatch :=
  let min := required a in
  let max := if has_rest a then None else Some (required a + optional a) in
  let too_many := match max with Some m => m <? positional_count s | None => false end in
  if positional_splat s then (if too_many then Some (min, max, positional_count s) else None)
  else if (positional_count s <? min) || too_many then Some (min, max, positional_count s) else None.

Inductive diagnostic :=
| WrongArity (min : nat) (max : option nat) (actual : nat)
| UnknownKeyword (n : name)
| MissingKeywords (l : list name).

(** String's order: by characters (UTF-8 keeps it). *)
Fixpoint name_leb (a b : name) : bool :=
  match a, b with
  | [], _ => true
  | _ :: _, [] => false
  | x :: a', y :: b' => (x <? y)%N || ((x =? y)%N && name_leb a' b')
  end.

Definition with_count (s : signature) (n : nat) (splat : bool) : signature :=
  Signature n splat (nonempty_keyword_hash s) (trailing_may_be_hash s) (keyword_args s) (keyword_splat s).

(** engine/diagnostics.rs:1653-1817 (push_signature_diagnostics) for a method with a complete parameter list;
    None is the assertion of 1684.  The suggestion for an unknown keyword is modelled apart. *)
Definition declares_keywords (a : arity) : bool :=
  has_kwrest a || negb (match required_keywords a with [] => true | _ => false end) || negb (match optional_keywords a with [] => true | _ => false end).
Definition effective (s : signature) (a : arity) : signature :=
  with_count s
    (if negb (declares_keywords a) && nonempty_keyword_hash s then positional_count s + 1 else positional_count s)
    (positional_splat s || (negb (declares_keywords a) && keyword_splat s)).
Definition wrong_arity (s : signature) (a : arity) : option (option mismatch) :=
  let e := effective s a in
  if declares_keywords a && trailing_may_be_hash e then
    if positional_count e =? 0 then None
    else match arity_mismatch e a, arity_mismatch (with_count e (positional_count e - 1) (positional_splat e)) a with
         | Some d, Some _ => Some (Some d)
         | _, _ => Some None
         end
  else Some (arity_mismatch e a).
Definition unknown_keywords (s : signature) (a : arity) : list name :=
  if declares_keywords a && negb (has_kwrest a) && negb (keyword_splat s)
  then filter (fun n => negb (existsb (name_eqb n) (required_keywords a ++ optional_keywords a))) (keyword_args s)
  else [].
Definition missing_keywords (s : signature) (a : arity) : list name :=
  if negb (match required_keywords a with [] => true | _ => false end) && negb (keyword_splat s) && negb (positional_splat s) && negb (trailing_may_be_hash s)
  then sort name_leb (filter (fun n => negb (existsb (name_eqb n) (keyword_args s))) (required_keywords a))
  else [].
Definition diagnostics (s : signature) (a : arity) : option (list diagnostic) :=
  match wrong_arity s a with
  | None => None
  | Some m => Some (match m with Some (min, max, n) => [WrongArity min max n] | None => [] end ++
                    map UnknownKeyword (unknown_keywords s a) ++
                    match missing_keywords s a with [] => [] | l => [MissingKeywords l] end)
  end.
Definition check_call (p : parameters) (skip : nat) (args : list argument) : option (list diagnostic) :=
  diagnostics (collect skip args) (from_params (extract p)).
