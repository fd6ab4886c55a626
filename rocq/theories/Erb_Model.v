(** Model of crates/ruby-analysis/src/indexer/erb.rs: the Ruby source of a template. *)
From Coq Require Import List Arith NArith Bool.
Import ListNotations.

(** The bytes the scanner looks for. *)
Definition LT := 60%N. Definition PCT := 37%N. Definition GT := 62%N.
Definition HASH := 35%N. Definition DASH := 45%N. Definition EQ := 61%N.
Definition SEMI := 59%N. Definition SPACE := 32%N.

(** find_bytes (94-102) with a needle of two bytes. *)
Fixpoint find_bytes (a b : N) (l : list N) : option nat :=
  match l with
  | x :: (y :: _) as r => if (x =? a)%N && (y =? b)%N then Some 0 else option_map S (find_bytes a b r)
  | _ => None
  end.

(** The first loop of mask_erb (35-40). *)
Definition blank (x : N) : N := if (x =? 10)%N || (x =? 13)%N then x else SPACE.
(** masked[s..e].copy_from_slice(&bytes[s..e]) (77) and masked[i] = b (78); the ranges are in bounds
    by C42_layout. *)
Definition copy (masked src : list N) (s e : nat) : list N :=
  firstn s masked ++ firstn (e - s) (skipn s src) ++ skipn e masked.
Definition put (masked : list N) (i : nat) (x : N) : list N := firstn i masked ++ x :: skipn (S i) masked.

Record embedded := mkEmbedded { source : list N; ruby_ranges : list (nat * nat); unclosed_tag_offset : option nat }.
Definition byte_is (bytes : list N) (i : nat) (x : N) : bool :=
  match nth_error bytes i with Some y => (y =? x)%N | None => false end.

(** The scanner (42-80); fuel, [None] when it runs out or a slice is out of bounds (a panic). *)
Fixpoint scan (fuel : nat) (bytes : list N) (cursor : nat) (masked : list N) (ranges : list (nat * nat)) : option embedded :=
  match fuel with
  | 0 => None
  | S n =>
      if length bytes <? cursor then None
      else
        match find_bytes LT PCT (skipn cursor bytes) with
        | None => Some (mkEmbedded masked ranges None)
        | Some relative_open =>
            let open := cursor + relative_open in
            let search_start := Nat.min (open + 3) (length bytes) in
            match find_bytes PCT GT (skipn search_start bytes) with
            | None => Some (mkEmbedded masked ranges (Some open))
            | Some relative_close =>
                let close := search_start + relative_close in
                let cursor := close + 2 in
                if byte_is bytes (open + 2) PCT || byte_is bytes (open + 2) HASH
                then scan n bytes cursor masked ranges
                else
                  let s0 := open + 2 in
                  let s1 := if byte_is bytes s0 DASH then s0 + 1 else s0 in
                  let s2 := if byte_is bytes s1 EQ then s1 + 1 else s1 in
                  let e := if (s2 <? close) && byte_is bytes (close - 1) DASH then close - 1 else close in
                  if e <=? s2 then scan n bytes cursor masked ranges
                  else if length bytes <=? close then None
                  else scan n bytes cursor (put (copy masked bytes s2 e) close SEMI) (ranges ++ [(s2, e)])
            end
        end
  end.

(** mask_erb (32-92) without its two assertions (C42 proves them). *)
Definition mask_erb (bytes : list N) : option embedded := scan (S (length bytes)) bytes 0 (map blank bytes) [].

(** EmbeddedRuby::is_ruby_offset (15-19). *)
Definition is_ruby_offset (e : embedded) (o : nat) : bool :=
  existsb (fun r => (fst r <=? o) && (o <? snd r)) (ruby_ranges e).
