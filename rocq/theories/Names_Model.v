(** Model of qualified names and their text: crates/ruby-analysis/src/core/fully_qualified_name.rs,
    ruby_namespace.rs, ruby_method.rs and the parsers of crates/ruby-analysis/src/engine/hierarchy.rs.

    A character is its code point.  Generated owners (ruby_namespace.rs 72-115), which no source text
    names, are left out: every part of a name is source text.  Variables are kept as their text. *)
From Coq Require Import List Arith Bool.
Import ListNotations.

Definition text := list nat.

(** The Unicode tables the code asks: [char::is_uppercase], [char::is_alphabetic],
    [unicode_ident::is_xid_start] and [unicode_ident::is_xid_continue]. *)
Record unicode := mkUnicode {
  upper : nat -> bool; alphabetic : nat -> bool; xid_start : nat -> bool; xid_continue : nat -> bool }.

(** Characters named in the code. *)
Definition colon := 58.
Definition hash := 35.
Definition underscore := 95.

(** NamespaceKind (fully_qualified_name.rs 13-18), FullyQualifiedName (21-49). *)
Inductive kind := Instance | Singleton.
Inductive name :=
| Namespace (parts : list text) (k : kind)
| Constant (parts : list text)
| Method (parts : list text) (method : text)
| Variable_ (t : text).

(** FullyQualifiedName::namespace_kind. *)
Definition kind_of (n : name) : option kind := match n with Namespace _ k => Some k | _ => None end.

(** [join("::")] of the parts (365-369). *)
Fixpoint join (parts : list text) : text :=
  match parts with
  | [] => []
  | p :: r => match r with [] => p | _ => p ++ colon :: colon :: join r end
  end.

(** "#<Class:" and ">". *)
Definition singleton_open : text := [35; 60; 67; 108; 97; 115; 115; 58].
Definition singleton_close : text := [62].

(** Display for FullyQualifiedName (362-389). *)
Definition print (n : name) : text :=
  match n with
  | Namespace ps Instance => join ps
  | Namespace ps Singleton => singleton_open ++ join ps ++ singleton_close
  | Constant ps => join ps
  | Method ps m => join ps ++ hash :: m
  | Variable_ t => t
  end.

Definition text_eqb (a b : text) : bool := if list_eq_dec Nat.eq_dec a b then true else false.

Section Parse.
  Variable u : unicode.

  (** RubyConstant::new (ruby_namespace.rs 50-70). *)
  Definition constant (t : text) : option text :=
    match t with
    | [] => None
    | c :: r => if negb (xid_start u c) || negb (upper u c) then None
                else if negb (forallb (xid_continue u) r) then None else Some t
    end.

  (** The operator lists of is_valid_ruby_method_name (ruby_method.rs 46-52). *)
  Definition binary_operators : list text :=
    [[43]; [45]; [42]; [47]; [37]; [42; 42]; [61; 61]; [33; 61]; [60]; [60; 61]; [62]; [62; 61];
     [60; 61; 62]; [61; 61; 61]; [61; 126]; [33; 126]; [38]; [124]; [94]; [60; 60]; [62; 62];
     [91; 93]; [91; 93; 61]].
  Definition unary_operators : list text := [[43; 64]; [45; 64]; [126; 64]; [33; 64]].

  (** The name without one trailing ?, ! or = (65-72). *)
  Definition stem (t : text) : text :=
    match rev t with
    | [] => t
    | c :: r => if (c =? 63) || (c =? 33) || (c =? 61) then rev r else t
    end.

  (** is_valid_ruby_method_name (40-91). *)
  Definition valid_method (t : text) : bool :=
    match t with
    | [] => false
    | _ =>
        if existsb (text_eqb t) binary_operators then true
        else if existsb (text_eqb t) unary_operators then true
        else match stem t with
             | [] => false
             | c :: r => if negb (alphabetic u c || (c =? underscore)) then false
                         else forallb (fun c => xid_continue u c || (c =? underscore)) r
             end
    end.

  (** RubyMethod::new (19-30). *)
  Definition method (t : text) : option text :=
    match t with [] => None | _ => if valid_method t then Some t else None end.

  (** [str::split("::")]: the pieces between the successive non-overlapping separators. *)
  Fixpoint split (piece : text) (t : text) : list text :=
    match t with
    | [] => [piece]
    | a :: r =>
        match r with
        | b :: r' => if (a =? colon) && (b =? colon) then piece :: split [] r' else split (piece ++ [a]) r
        | [] => [piece ++ [a]]
        end
    end.

  (** [map(RubyConstant::new).collect::<Result<Vec<_>, _>>()]. *)
  Fixpoint constants (l : list text) : option (list text) :=
    match l with
    | [] => Some []
    | t :: r => match constant t, constants r with Some c, Some cs => Some (c :: cs) | _, _ => None end
    end.

  (** [str::rsplit_once('#')]: around the last '#'. *)
  Fixpoint rsplit_once (t : text) : option (text * text) :=
    match t with
    | [] => None
    | c :: r =>
        match rsplit_once r with
        | Some (a, b) => Some (c :: a, b)
        | None => if c =? hash then Some ([], r) else None
        end
    end.

  (** parse_method_fqn_string (hierarchy.rs 267-280). *)
  Definition parse_method (t : text) : option name :=
    match rsplit_once t with
    | None => None
    | Some (ns, m) =>
        match method m with
        | None => None
        | Some m =>
            match ns with
            | [] => Some (Method [] m)
            | _ => match constants (split [] ns) with None => None | Some ps => Some (Method ps m) end
            end
        end
    end.

  (** parse_namespace_fqn_string (282-292). *)
  Definition parse_namespace (t : text) : option name :=
    match constants (split [] t) with
    | None => None
    | Some [] => None
    | Some ps => Some (Namespace ps Instance)
    end.

End Parse.
