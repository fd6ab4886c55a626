(** The Ruby names of Java classes.

    /repo/crates/jruby-support/src/names.rs 1-95.

    Modelled: all of [JavaClassName].  Text is a list of code points.  What the
    standard library calls alphabetic and alphanumeric is a parameter. *)
From Coq Require Import List Arith Bool.
From Verif Require Import Archive_Model.
Import ListNotations.

Definition dollar : nat := 36.
Definition dot : nat := 46.
Definition underscore : nat := 95.

(** rsplit_once(c): at the last [c]. *)
Definition rsplit_once (c : nat) (s : text) : option (text * text) :=
  option_map (fun x => (rev (snd x), rev (fst x))) (split_once c (rev s)).

(** source.replace('.', "/"), 10. *)
Definition normalize (s : text) : text := map (fun c => if c =? dot then slash else c) s.

Section Names.
(** char::is_alphabetic, char::is_alphanumeric. *)
Variables alphabetic alphanumeric : nat -> bool.

(** validate_java_identifier, 75-89. *)
Definition identifier (s : text) : bool :=
  match s with
  | [] => false
  | c :: r =>
      (alphabetic c || (c =? underscore) || (c =? dollar))
      && forallb (fun c => alphanumeric c || (c =? underscore) || (c =? dollar)) r
  end.

Inductive name_error := DefaultPackage | InvalidClassName.
Record class_name := { internal_name : text; package : list text; classes : list text }.

(** JavaClassName::parse, 9-31.  The test for no classes never holds: a split has at
    least one part. *)
Definition parse (source : text) : class_name + name_error :=
  let n := normalize source in
  match rsplit_once slash n with
  | None => inr DefaultPackage
  | Some (p, c) =>
      if forallb identifier (split slash p) then
        if forallb identifier (split dollar c) then
          inl {| internal_name := n; package := split slash p; classes := split dollar c |}
        else inr InvalidClassName
      else inr InvalidClassName
  end.
End Names.

(** imported_constant, 37-41; [None] stands for the panic. *)
Definition imported_constant (n : class_name) : option text :=
  match rev (classes n) with c :: _ => Some c | [] => None end.

(** to_ascii_uppercase. *)
Definition upper (c : nat) : nat := if (97 <=? c) && (c <=? 122) then c - 32 else c.

(** package_proxy_module, 53-64; a component that is empty would panic. *)
Definition capital (s : text) : text := match s with [] => [] | c :: r => upper c :: r end.
Definition package_proxy_module (n : class_name) : text := concat (map capital (package n)).

(** ruby_namespace_parts and ruby_fqn, 43-51. *)
Definition java : text := [74; 97; 118; 97].
Definition ruby_namespace_parts (n : class_name) : list text :=
  java :: package_proxy_module n :: classes n.
Fixpoint join (sep : text) (l : list text) : text :=
  match l with
  | [] => []
  | x :: r => match r with [] => x | _ => x ++ sep ++ join sep r end
  end.
Definition ruby_fqn (n : class_name) : text := join [colon; colon] (ruby_namespace_parts n).
