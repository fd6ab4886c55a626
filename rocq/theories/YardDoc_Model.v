(** The documentation of a method and the type under the cursor in a comment:
    crates/ruby-analysis/src/indexer/yard/parser.rs.

    A character is its code point.  Simplifications: white space is that of ASCII, both for trimming and in the
    patterns; what the patterns take for a letter is an arbitrary table. *)
From Coq Require Import List Arith Bool ZArith NArith.
From Verif Require Text_Lib.
From Verif Require Import Names_Model Yard_Model.
Import ListNotations.

(** [str::len] and [encode_utf16().count()]. *)
Definition width (c : nat) : nat := Text_Lib.u8 (N.of_nat c).
Definition size (t : text) : nat := list_sum (map width t).
Definition units (t : text) : nat := list_sum (map (fun c => Text_Lib.u16 (N.of_nat c)) t).

(** [str::lines]: a line feed ends a line, with the carriage return before it. *)
Definition strip_cr (t : text) : text := match strip_last 13 t with Some r => r | None => t end.
Fixpoint lines_from (current t : text) : list text :=
  match t with
  | [] => match current with [] => [] | _ => [current] end
  | c :: r => if c =? 10 then strip_cr current :: lines_from [] r else lines_from (current ++ [c]) r
  end.
Definition lines (t : text) : list text := lines_from [] t.
Definition newlines (t : text) : nat := count_occ Nat.eq_dec t 10.

(** CommentLineInfo (91-96). *)
Record info := mkInfo { content : text; line_number : nat; content_start : nat; line_length : nat }.
Fixpoint strip_hashes (t : text) : text := match t with 35 :: r => strip_hashes r | _ => t end.
Definition starts_hash (t : text) : bool := match t with 35 :: _ => true | _ => false end.
(** What is kept of a comment line (337-347). *)
Definition info_of (n : nat) (line : text) : info :=
  let trimmed := trim line in
  let body := trim_start (strip_hashes trimmed) in
  mkInfo body n ((size line - size (trim_start line)) + (size trimmed - size body)) (size line).
(** collect_preceding_comments (319-358), from the last line up. *)
Fixpoint collect_rev (ls : list text) (n : nat) : list info :=
  match ls with
  | [] => []
  | l :: r =>
      let rest := match n with 0 => [] | S m => collect_rev r m end in
      if starts_hash (trim l) then info_of n l :: rest
      else match trim l with [] => rest | _ => [] end
  end.
(** The panic when a text that ends with a line feed stands before line zero is [None]. *)
Definition collect (before : text) (method_line : nat) : option (list info) :=
  match rev before with
  | 10 :: _ => match method_line with 0 => None | S n => Some (rev (collect_rev (rev (lines before)) n)) end
  | _ => Some (rev (collect_rev (rev (lines before)) method_line))
  end.

(** * Tags (34-84, 389-551) *)
Record param := mkParam { p_name : text; p_types : list text; p_desc : option text; p_line : nat; p_at : option (nat * nat) }.
Record doc := mkDoc {
  params : list param; options : list (text * text * list text); returns : list param; yield_params : list param;
  yield_returns : list param; raises : list text; deprecated : option text; unavailable : option text;
  absent : option text; description : option text }.
Definition empty_doc : doc := mkDoc [] [] [] [] [] [] None None None None.

Section Tags.
  (** [\w]. *)
  Variable word : nat -> bool.

  Fixpoint span_while (f : nat -> bool) (t : text) : text * text :=
    match t with
    | [] => ([], [])
    | c :: r => if f c then let (a, b) := span_while f r in (c :: a, b) else ([], t)
    end.
  Definition spaces (t : text) : text := snd (span_while space t).
  (** One or more blanks, one or more letters, and brackets with something but a closing bracket in them. *)
  Definition spaces1 (t : text) : option text := match span_while space t with ([], _) => None | (_, r) => Some r end.
  Definition word1 (t : text) : option (text * text) := match span_while word t with ([], _) => None | (a, r) => Some (a, r) end.
  Definition bracket (t : text) : option (text * text) :=
    match t with
    | 91 :: r => match span_while (fun c => negb (c =? 93)) r with ([], _) => None | (a, 93 :: s) => Some (a, s) | _ => None end
    | _ => None
    end.
  (** A match is the name, the types, where these begin and end in the line, and the rest.  [at_] is where the
      text begins in the line, in bytes. *)
  Definition found := (text * text * nat * nat * text)%type.
  Definition at_bracket (at_ : nat) (whole rest : text) (types after : text) (name : text) (desc : text) : found :=
    let start := at_ + (size whole - size rest) + 1 in (name, types, start, start + size types, desc).
  (** A tag, blanks, a name, blanks and types in brackets, then anything: the first pattern of a parameter, and that
      of a block parameter. *)
  Definition name_type (tag : text) (at_ : nat) (t : text) : option found :=
    match strip_prefix tag t with
    | None => None
    | Some r => match spaces1 r with None => None | Some r =>
      match word1 r with None => None | Some (n, r) =>
      match spaces1 r with None => None | Some r =>
      match bracket r with None => None | Some (ty, s) => Some (at_bracket at_ t r ty s n (spaces s)) end end end end
    end.
  (** A tag, types in brackets and a name: the second pattern of a parameter. *)
  Definition type_name_alt (tag : text) (at_ : nat) (t : text) : option found :=
    match strip_prefix tag t with
    | None => None
    | Some r =>
      match bracket (spaces r) with None => None | Some (ty, s) =>
      match word1 (spaces s) with None => None | Some (n, d) => Some (at_bracket at_ t (spaces r) ty s n (spaces d)) end end
    end.
  (** A tag, blanks and types in brackets, then anything: a result, a block's result, an exception. *)
  Definition type_only (tag : text) (at_ : nat) (t : text) : option found :=
    match strip_prefix tag t with
    | None => None
    | Some r => match spaces1 r with None => None | Some r =>
      match bracket r with None => None | Some (ty, s) => Some (at_bracket at_ t r ty s [] (spaces s)) end end
    end.
  (** As a parameter, then blanks and a key after a colon; the default and the description are left out. *)
  Definition option_key (tag : text) (at_ : nat) (t : text) : option found :=
    match name_type tag at_ t with
    | None => None
    | Some (n, ty, a, b, _) =>
        match strip_prefix tag t with None => None | Some r =>
        match spaces1 r with None => None | Some r => match word1 r with None => None | Some (_, r) =>
        match spaces1 r with None => None | Some r => match bracket r with None => None | Some (_, s) =>
        match spaces1 s with Some (58 :: k) => match word1 k with Some (key, _) => Some (n, ty, a, b, key) | None => None end
        | _ => None end end end end end end
    end.
  (** A tag, then anything. *)
  Definition text_only (tag : text) (at_ : nat) (t : text) : option found :=
    match strip_prefix tag t with None => None | Some r => Some ([], [], at_, at_, spaces r) end.
  (** [Regex::captures]: the leftmost place that matches. *)
  Fixpoint search (f : nat -> text -> option found) (at_ : nat) (t : text) : option found :=
    match f at_ t with
    | Some x => Some x
    | None => match t with [] => None | c :: r => search f (at_ + width c) r end
    end.
  Definition first_match (f : nat -> text -> option found) (t : text) : option found := search f 0 t.

  Definition t_param : text := [64; 112; 97; 114; 97; 109].
  Definition t_option : text := [64; 111; 112; 116; 105; 111; 110].
  Definition t_return : text := [64; 114; 101; 116; 117; 114; 110].
  Definition t_yieldparam : text := [64; 121; 105; 101; 108; 100; 112; 97; 114; 97; 109].
  Definition t_yieldreturn : text := [64; 121; 105; 101; 108; 100; 114; 101; 116; 117; 114; 110].
  Definition t_raise : text := [64; 114; 97; 105; 115; 101].
  Definition t_deprecated : text := [64; 100; 101; 112; 114; 101; 99; 97; 116; 101; 100].
  Definition t_unavailable : text := [64; 117; 110; 97; 118; 97; 105; 108; 97; 98; 108; 101].
  Definition t_absent : text := [64; 97; 98; 115; 101; 110; 116].
  (** non_empty_string of a trimmed text (558-560). *)
  Definition non_empty (t : text) : option text := match trim t with [] => None | d => Some d end.
  (** The texts given where no reason is written are all taken to be empty. *)
  Definition reason (t : text) : option text := Some (trim t).

  Definition to_param (i : info) (ranged : bool) (x : found) : param :=
    let '(n, ty, a, b, d) := x in
    mkParam n (parse_type_list ty) (non_empty d) (line_number i)
            (if ranged then Some (content_start i + (a - 1), content_start i + (b + 1)) else None).
  (** parse_tag (389-551). *)
  Definition parse_tag (d : doc) (i : info) : doc :=
    let line := content i in
    match first_match (name_type t_param) line with
    | Some x => mkDoc (params d ++ [to_param i true x]) (options d) (returns d) (yield_params d) (yield_returns d) (raises d) (deprecated d) (unavailable d) (absent d) (description d)
    | None => match first_match (type_name_alt t_param) line with
    | Some x => mkDoc (params d ++ [to_param i true x]) (options d) (returns d) (yield_params d) (yield_returns d) (raises d) (deprecated d) (unavailable d) (absent d) (description d)
    | None => match first_match (option_key t_option) line with
    | Some (n, ty, _, _, key) => mkDoc (params d) (options d ++ [(n, key, parse_type_list ty)]) (returns d) (yield_params d) (yield_returns d) (raises d) (deprecated d) (unavailable d) (absent d) (description d)
    | None => match first_match (type_only t_return) line with
    | Some x => mkDoc (params d) (options d) (returns d ++ [to_param i true x]) (yield_params d) (yield_returns d) (raises d) (deprecated d) (unavailable d) (absent d) (description d)
    | None => match first_match (name_type t_yieldparam) line with
    | Some x => mkDoc (params d) (options d) (returns d) (yield_params d ++ [to_param i false x]) (yield_returns d) (raises d) (deprecated d) (unavailable d) (absent d) (description d)
    | None => match first_match (type_only t_yieldreturn) line with
    | Some x => mkDoc (params d) (options d) (returns d) (yield_params d) (yield_returns d ++ [to_param i false x]) (raises d) (deprecated d) (unavailable d) (absent d) (description d)
    | None => match first_match (type_only t_raise) line with
    | Some (_, ty, _, _, _) => mkDoc (params d) (options d) (returns d) (yield_params d) (yield_returns d) (raises d ++ [ty]) (deprecated d) (unavailable d) (absent d) (description d)
    | None => match first_match (text_only t_deprecated) line with
    | Some (_, _, _, _, r) => mkDoc (params d) (options d) (returns d) (yield_params d) (yield_returns d) (raises d) (reason r) (unavailable d) (absent d) (description d)
    | None => match first_match (text_only t_unavailable) line with
    | Some (_, _, _, _, r) => mkDoc (params d) (options d) (returns d) (yield_params d) (yield_returns d) (raises d) (deprecated d) (reason r) (absent d) (description d)
    | None => match first_match (text_only t_absent) line with
    | Some (_, _, _, _, r) => mkDoc (params d) (options d) (returns d) (yield_params d) (yield_returns d) (raises d) (deprecated d) (unavailable d) (reason r) (description d)
    | None => d
    end end end end end end end end end end.

  (** parse_lines (361-386): the tags read, and the lines of the description. *)
  Fixpoint parse_from (d : doc) (described : list text) (in_description : bool) (l : list info) : doc * list text :=
    match l with
    | [] => (d, described)
    | i :: r =>
        match content i with
        | [] => parse_from d described in_description r
        | 64 :: _ => parse_from (parse_tag d i) described false r
        | _ => parse_from d (if in_description then described ++ [content i] else described) in_description r
        end
    end.
  Fixpoint join_blank (l : list text) : text :=
    match l with [] => [] | t :: r => match r with [] => t | _ => t ++ 32 :: join_blank r end end.
  Definition parse_lines (l : list info) : doc :=
    let (d, described) := parse_from empty_doc [] true l in
    mkDoc (params d) (options d) (returns d) (yield_params d) (yield_returns d) (raises d) (deprecated d) (unavailable d)
          (absent d) (match described with [] => None | _ => Some (join_blank described) end).

  (** The availability of the method a comment stands above (fact_collector/def_node.rs 157-172): [None] is the panic. *)
  Inductive availability := Available | Unavailable (why : text) | Absent (why : text).
  Definition availability_of (d : doc) : option availability :=
    match unavailable d, absent d with
    | Some r, None => Some (Unavailable r)
    | None, Some r => Some (Absent r)
    | None, None => Some Available
    | Some _, Some _ => None
    end.
  (** The documentation of a method, from the text before it (284-316) and its line.  That a comment without anything
      in it counts as none is left out. *)
  Definition doc_of (before : text) (line : nat) : option doc := option_map parse_lines (collect before line).
End Tags.

(** * The type under the cursor (120-241) *)
(** split_types_with_positions (202-225): the depth, where the part began, where we are, and the parts so far. *)
Definition position_step (s : Z * nat * nat * text * list (nat * nat * text)) (c : nat) : Z * nat * nat * text * list (nat * nat * text) :=
  let '(depth, start, i, current, parts) := s in
  if (c =? 60) || (c =? 123) then ((depth + 1)%Z, start, i + width c, current ++ [c], parts)
  else if (c =? 62) || (c =? 125) then ((depth - 1)%Z, start, i + width c, current ++ [c], parts)
  else if (c =? 44) && (depth =? 0)%Z then (depth, i + 1, i + width c, [], parts ++ [(start, i, current)])
  else (depth, start, i + width c, current ++ [c], parts).
Definition split_positions (t : text) : list (nat * nat * text) :=
  let '(_, start, i, current, parts) := fold_left position_step t (0%Z, 0, 0, [], []) in
  if start <? i then parts ++ [(start, i, current)] else parts.
(** extract_base_type (231-240). *)
Definition base_type (t : text) : text := trim (fst (span_while (fun c => negb ((c =? 60) || (c =? 123))) (trim t))).
(** The loop over the parts (152-176) and what follows it (179-192). *)
Fixpoint in_parts (relative last_end : nat) (parts : list (nat * nat * text)) : option text * nat :=
  match parts with
  | [] => (None, last_end)
  | (a, b, t) :: r =>
      if (a <=? relative) && (relative <? b) && negb (text_eqb (base_type t) []) then (Some (base_type t), last_end)
      else in_parts relative b r
  end.
Definition in_bracket (types : text) (relative : nat) : option text :=
  match in_parts relative 0 (split_positions types) with
  | (Some n, _) => Some n
  | (None, e) => if (e <=? relative) && negb (text_eqb types []) && negb (text_eqb (base_type types) []) then Some (base_type types) else None
  end.
(** find_type_at_position (120-199) in one line; [at_] is where the text begins in it, in bytes.  [skip] characters
    belong to a match that has been looked at. *)
Fixpoint type_from (cursor at_ skip : nat) (t : text) : option text :=
  match t with
  | [] => None
  | c :: r =>
      match skip with
      | S k => type_from cursor (at_ + width c) k r
      | 0 =>
          match bracket t with
          | None => type_from cursor (at_ + width c) 0 r
          | Some (types, _) =>
              if (at_ <=? cursor) && (cursor <? at_ + size types + 2) then
                match in_bracket types (cursor - (at_ + 1)) with
                | Some n => Some n
                | None => type_from cursor (at_ + width c) (length types + 1) r
                end
              else type_from cursor (at_ + width c) (length types + 1) r
          end
      end
  end.
Definition type_at (line : text) (cursor : nat) : option text :=
  if starts_hash (trim_start line) then type_from cursor 0 0 line else None.
