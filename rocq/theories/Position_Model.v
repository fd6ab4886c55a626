(** Model of byte offsets and editor positions: crates/ruby-analysis/src/indexer/source_document.rs,
    SourceFile in crates/ruby-analysis/src/engine/state.rs, src/capabilities/formatting.rs
    full_document_range and src/linter.rs rubocop_position. *)
From Coq Require Import List Arith NArith Bool.
From Verif Require Import Text_Lib.
Import ListNotations.

(** u32::try_from(..).expect(..): [None] is the panic. *)
Definition u32 (n : nat) : option nat := if (N.of_nat n <=? 4294967295)%N then Some n else None.

(** compute_line_offsets (source_document.rs 112-125). *)
Fixpoint line_starts (offset : nat) (t : text) : list nat :=
  match t with
  | [] => []
  | c :: r => (if (c =? nl)%N then [offset + u8 c] else []) ++ line_starts (offset + u8 c) r
  end.
Definition compute_line_offsets (t : text) : list nat :=
  let offsets := 0 :: line_starts 0 t in
  if last offsets 0 =? size t then offsets else offsets ++ [size t].

(** [T]::binary_search on a strictly increasing slice: Ok of the index, or Err of the number of
    smaller elements. *)
Definition binary_search (v : list nat) (x : nat) : nat + nat :=
  let p := length (filter (fun y => y <? x) v) in
  match nth_error v p with
  | Some y => if y =? x then inl p else inr p
  | None => inr p
  end.

(** The loop of offset_to_line_character (40-42). *)
Fixpoint floor_boundary (t : text) (n : nat) : nat :=
  match n with 0 => 0 | S m => if boundary t n then n else floor_boundary t m end.

(** SourceDocument::offset_to_line_character (38-66). *)
Definition offset_to_line_character (t : text) (offset : nat) : option (nat * nat) :=
  let offsets := compute_line_offsets t in
  let o := floor_boundary t (Nat.min offset (size t)) in
  let index := match binary_search offsets o with
               | inl exact => Some exact
               | inr 0 => None (* usize underflow *)
               | inr (S p) => Some p
               end in
  match index with
  | None => None
  | Some i =>
      match nth_error offsets i with
      | None => None
      | Some line_start =>
          match slice t line_start o with
          | None => None
          | Some s =>
              match u32 i, u32 (units s) with Some l, Some c => Some (l, c) | _, _ => None end
          end
      end
  end.

(** The loop of line_character_to_offset (86-96). *)
Fixpoint advance (s : text) (target byte_offset utf16_units : nat) : nat :=
  match s with
  | [] => byte_offset
  | c :: r =>
      if (target <? utf16_units + u16 c) || (c =? nl)%N then byte_offset
      else advance r target (byte_offset + u8 c) (utf16_units + u16 c)
  end.

(** SourceDocument::line_character_to_offset (68-98). *)
Definition line_character_to_offset (t : text) (line character : nat) : option nat :=
  let offsets := compute_line_offsets t in
  if length offsets - 1 <=? line then Some (size t)
  else
    match nth_error offsets line, nth_error offsets (S line) with
    | Some line_start, Some line_end =>
        match slice t line_start line_end with
        | Some s => Some (line_start + advance s character 0 0)
        | None => None
        end
    | _, _ => None
    end.

(** SourceLineIndex and SourceFile (state.rs 153-207): the line index always, the text unless it was
    released. *)
Record source_file := mkFile { offsets : list nat; len : nat; ascii : bool; kept : option text }.
(** SourceLineIndex::new (160-186) counts over bytes; a newline byte is a newline character, so the
    offsets are those of compute_line_offsets.  [None]: the text is too long. *)
Definition index_file (t : text) (keep : bool) : option source_file :=
  match u32 (size t) with
  | None => None
  | Some n =>
      Some (mkFile (compute_line_offsets t) n (forallb (fun c => (c <? 128)%N) t) (if keep then Some t else None))
  end.

(** SourceFile::byte_offset_to_line_character (210-250): outer [None] is a panic, inner [None] the
    function's. *)
Definition byte_offset_to_line_character (f : source_file) (target : nat) : option (option (nat * nat)) :=
  if len f <? target then Some None
  else
    let i := match binary_search (offsets f) target with inl exact => exact | inr p => p - 1 end in
    match nth_error (offsets f) i with
    | None => Some None
    | Some line_start =>
        let answer (c : nat) := match u32 i with Some l => Some (Some (l, c)) | None => None end in
        if ascii f then (if line_start <=? target then answer (target - line_start) else Some None)
        else
          match kept f with
          | None => Some None
          | Some t =>
              if boundary t target then
                match slice t line_start target with
                | None => None
                | Some s => match u32 (units s) with Some c => answer c | None => Some None end
                end
              else Some None
          end
    end.

(** full_document_range (formatting.rs 68-75), its end: newline bytes and the text after the last
    newline; [as u32] truncates, see the theorem's bound. *)
Fixpoint after_last_newline (t : text) : text :=
  match t with
  | [] => []
  | c :: r => if existsb (fun d => (d =? nl)%N) t then after_last_newline r else t
  end.
Definition document_end (t : text) : nat * nat :=
  (length (filter (fun c => (c =? nl)%N) t), units (after_last_newline t)).

(** str::lines: split after newlines, without the line ending ("\n" or "\r\n"); no empty line at the
    end.  [acc] is the current line, backwards. *)
Fixpoint lines_from (acc : text) (t : text) : list text :=
  match t with
  | [] => match acc with [] => [] | _ => [rev acc] end
  | c :: r =>
      if (c =? nl)%N
      then rev (match acc with d :: a => if (d =? cr)%N then a else acc | [] => [] end) :: lines_from [] r
      else lines_from (c :: acc) r
  end.
Definition lines (t : text) : list text := lines_from [] t.

(** rubocop_position (linter.rs 420-443); [None] is an Err. *)
Definition rubocop_position (t : text) (one_based_line byte_column : nat) : option (nat * nat) :=
  match one_based_line with
  | 0 => None
  | S i =>
      match nth_error (lines t) i with
      | None => None
      | Some line =>
          if (size line <? byte_column) || negb (boundary line byte_column) then None
          else match upto line byte_column with Some s => Some (i, units s) | None => None end
      end
  end.
