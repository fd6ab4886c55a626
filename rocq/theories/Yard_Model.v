(** Types written in YARD comments: crates/ruby-analysis/src/indexer/yard/converter.rs and the type list of
    yard/parser.rs.

    A character is its code point.  Simplifications: white space is that of ASCII; the list of names that are no
    constants, which no caller reads, is left out; constants are as in Names_Model. *)
From Coq Require Import List Arith Bool ZArith.
From Verif Require Import Names_Model.
Import ListNotations.

(** The RubyType values the converter builds (core/ruby_type.rs 8-34); a class is its path of constants. *)
Inductive rtype :=
| RClass (path : list text)
| RArray (elements : list rtype)
| RHash (keys values : list rtype)
| RUnion (members : list rtype)
| RUnknown.
(** The derived equality. *)
Fixpoint rtype_eqb (a b : rtype) : bool :=
  let fix all (l k : list rtype) : bool :=
    match l, k with
    | [], [] => true
    | x :: l', y :: k' => rtype_eqb x y && all l' k'
    | _, _ => false
    end in
  match a, b with
  | RClass p, RClass q => if list_eq_dec (list_eq_dec Nat.eq_dec) p q then true else false
  | RArray l, RArray k => all l k
  | RHash l m, RHash k n => all l k && all m n
  | RUnion l, RUnion k => all l k
  | RUnknown, RUnknown => true
  | _, _ => false
  end.

(** Words of the code. *)
Definition w_nil : text := [110; 105; 108].
Definition w_void : text := [118; 111; 105; 100].
Definition w_true : text := [116; 114; 117; 101].
Definition w_false : text := [102; 97; 108; 115; 101].
Definition w_boolean : text := [98; 111; 111; 108; 101; 97; 110].
Definition w_bool : text := [98; 111; 111; 108].
Definition w_Array : text := [65; 114; 114; 97; 121].
Definition w_Hash : text := [72; 97; 115; 104].
Definition w_Integer : text := [73; 110; 116; 101; 103; 101; 114].
Definition w_Fixnum : text := [70; 105; 120; 110; 117; 109].
Definition w_Bignum : text := [66; 105; 103; 110; 117; 109].
Definition w_Object : text := [79; 98; 106; 101; 99; 116].
Definition w_BasicObject : text := [66; 97; 115; 105; 99; 79; 98; 106; 101; 99; 116].
Definition w_NilClass : text := [78; 105; 108; 67; 108; 97; 115; 115].
Definition w_TrueClass : text := [84; 114; 117; 101; 67; 108; 97; 115; 115].
Definition w_FalseClass : text := [70; 97; 108; 115; 101; 67; 108; 97; 115; 115].
(** RubyType::boolean, ruby_type.rs 65-70: FalseClass and TrueClass. *)
Definition r_boolean : rtype := RUnion [RClass [w_FalseClass]; RClass [w_TrueClass]].

(** [str::trim]. *)
Definition space (c : nat) : bool := ((9 <=? c) && (c <=? 13)) || (c =? 32).
Fixpoint trim_start (t : text) : text :=
  match t with [] => [] | c :: r => if space c then trim_start r else t end.
Definition trim (t : text) : text := rev (trim_start (rev (trim_start t))).
(** [str::eq_ignore_ascii_case] with a word in small letters. *)
Definition small (c : nat) : nat := if (65 <=? c) && (c <=? 90) then c + 32 else c.
Definition eq_ignore_case (t word : text) : bool := text_eqb (map small t) word.

Fixpoint strip_prefix (p t : text) : option text :=
  match p, t with
  | [], _ => Some t
  | a :: p', b :: t' => if a =? b then strip_prefix p' t' else None
  | _, [] => None
  end.
Definition strip_last (c : nat) (t : text) : option text :=
  match rev t with d :: r => if d =? c then Some (rev r) else None | [] => None end.
(** extract_generic (converter.rs 250-257); '<' is 60 and '>' is 62. *)
Definition extract_generic (t name : text) : option text :=
  match strip_prefix (name ++ [60]) t with Some r => strip_last 62 r | None => None end.
(** extract_hash_brace (260-266); the braces are 123 and 125. *)
Definition extract_hash_brace (t : text) : option text :=
  match strip_prefix (w_Hash ++ [123]) t with Some r => strip_last 125 r | None => None end.

(** split_hash_types (269-297): the depth, the part being read and the parts so far. *)
Definition split_step (s : Z * text * list text) (c : nat) : Z * text * list text :=
  let '(depth, current, parts) := s in
  if (c =? 60) || (c =? 123) then ((depth + 1)%Z, current ++ [c], parts)
  else if (c =? 62) || (c =? 125) then ((depth - 1)%Z, current ++ [c], parts)
  else if (c =? 44) && (depth =? 0)%Z then (depth, [], parts ++ [trim current])
  else (depth, current ++ [c], parts).
Definition last_part (current : text) (parts : list text) : list text :=
  match trim current with [] => parts | p => parts ++ [p] end.
Definition split_hash_types (inner : text) : list text :=
  let '(_, current, parts) := fold_left split_step inner (0%Z, [], []) in last_part current parts.

(** [str::split("=>")]. *)
Fixpoint split_arrow (piece t : text) : list text :=
  match t with
  | [] => [piece]
  | a :: r =>
      match r with
      | b :: r' => if (a =? 61) && (b =? 62) then piece :: split_arrow [] r' else split_arrow (piece ++ [a]) r
      | [] => [piece ++ [a]]
      end
  end.

(** parse_type_list (parser.rs 572-625): depths of the two brackets, which never go below zero, the part being read
    and the parts so far. *)
Definition push_part (current : text) (parts : list text) : list text :=
  match trim current with [] => parts | p => parts ++ [p] end.
Definition list_step (s : nat * nat * text * list text) (c : nat) : nat * nat * text * list text :=
  let '(angle, brace, current, parts) := s in
  if c =? 60 then (S angle, brace, current ++ [c], parts)
  else if (c =? 62) && negb (angle =? 0) then (pred angle, brace, current ++ [c], parts)
  else if c =? 123 then (angle, S brace, current ++ [c], parts)
  else if (c =? 125) && negb (brace =? 0) then (angle, pred brace, current ++ [c], parts)
  else if (c =? 44) && (angle =? 0) && (brace =? 0) then (angle, brace, [], push_part current parts)
  else (angle, brace, current ++ [c], parts).
Definition parse_type_list (t : text) : list text :=
  let '(_, _, current, parts) := fold_left list_step t (0, 0, [], []) in push_part current parts.

Section Convert.
  Variable u : unicode.

  (** parse_type_name_to_fqn (320-340). *)
  Fixpoint type_name (parts : list text) : option (list text) :=
    match parts with
    | [] => Some []
    | p :: r =>
        match trim p with
        | [] => type_name r
        | q => match constant u q, type_name r with Some c, Some cs => Some (c :: cs) | _, _ => None end
        end
    end.
  Definition parse_fqn (t : text) : option (list text) :=
    match type_name (split [] t) with Some [] => None | o => o end.

  (** The table of standard types (149-172); the classes it names are themselves but for these. *)
  Definition standard (t : text) : rtype :=
    if text_eqb t w_Fixnum || text_eqb t w_Bignum then RClass [w_Integer]
    else if text_eqb t w_Object || text_eqb t w_BasicObject then RUnknown
    else match parse_fqn t with Some p => RClass p | None => RUnknown end.

  (** convert_with_validation (63-176), parse_type_list_with_validation (300-312).  [fuel] bounds the nesting; the
      length of the text is enough. *)
  Fixpoint convert_at (fuel : nat) (type_str : text) : rtype :=
    match fuel with
    | 0 => RUnknown
    | S fuel =>
        let t := trim type_str in
        let list_of s := map (convert_at fuel) (split_hash_types s) in
        if eq_ignore_case t w_nil then RClass [w_NilClass]
        else if eq_ignore_case t w_void then RClass [w_NilClass]
        else if eq_ignore_case t w_true then RClass [w_TrueClass]
        else if eq_ignore_case t w_false then RClass [w_FalseClass]
        else if eq_ignore_case t w_boolean || eq_ignore_case t w_bool then r_boolean
        else match extract_generic t w_Array with
        | Some inner => RArray (match list_of inner with [] => [RUnknown] | l => l end)
        | None =>
        match extract_generic t w_Hash with
        | Some inner =>
            match split_hash_types inner with
            | k :: v :: _ => RHash (list_of k) (list_of v)
            | _ => RHash [RUnknown] [RUnknown]
            end
        | None =>
        match extract_hash_brace t with
        | Some inner =>
            match split_arrow [] inner with
            | [k; v] => RHash (list_of (trim k)) (list_of (trim v))
            | _ => RHash [RUnknown] [RUnknown]
            end
        | None => standard t
        end end end
    end.
  Definition convert (t : text) : rtype := convert_at (S (length t)) t.

  (** convert_multiple_with_validation (191-247). *)
  Fixpoint dedup (seen l : list rtype) : list rtype :=
    match l with
    | [] => seen
    | t :: r => dedup (if existsb (rtype_eqb t) seen then seen else seen ++ [t]) r
    end.
  Definition flatten (t : rtype) : list rtype := match t with RUnion l => l | _ => [t] end.
  Definition convert_multiple (types : list text) : rtype :=
    match types with
    | [] => RUnknown
    | [t] => convert t
    | _ =>
        let seen := dedup [] (flat_map (fun t => flatten (convert t)) types) in
        if existsb (rtype_eqb RUnknown) seen then RUnknown
        else match seen with [t] => t | _ => RUnion seen end
    end.
End Convert.

(** When the type of a result in a comment is reported to differ from the one in a signature (fact_collector/def_node.rs
    729-737). *)
Definition mismatch (yard rbs : rtype) : bool := negb (rtype_eqb rbs RUnknown) && negb (rtype_eqb yard rbs).
