(** What a table of contents of a ZIP file is (PKWARE's APPNOTE 4.3.12 and 4.3.16, one disk, no ZIP64). *)
From Coq Require Import List Arith NArith.
Import ListNotations.

Definition put16 (n : N) : list N := [n mod 256; n / 256]%N.
Definition put32 (n : N) : list N := [n mod 256; (n / 256) mod 256; (n / 65536) mod 256; n / 16777216]%N.
Definition size (l : list N) : N := N.of_nat (length l).
(** A file's entry: the fields that are not looked at (24 and 12 bytes), its name, extra field and comment. *)
Record header := mkHeader { before : list N; after : list N; name : list N; extra : list N; note : list N }.
Definition header_ok (h : header) : Prop :=
  length (before h) = 24 /\ length (after h) = 12 /\
  (size (name h) < 65536 /\ size (extra h) < 65536 /\ size (note h) < 65536)%N.
Definition header_bytes (h : header) : list N :=
  [80; 75; 1; 2]%N ++ before h ++ put16 (size (name h)) ++ put16 (size (extra h)) ++ put16 (size (note h)) ++
  after h ++ name h ++ extra h ++ note h.
(** The end record of a table of [n] entries, [width] bytes long as it says, that begins [at_] bytes into the file. *)
Definition end_record (n : N) (width : list N) (at_ : N) (comment : list N) : list N :=
  [80; 75; 5; 6]%N ++ [0; 0; 0; 0]%N ++ put16 n ++ put16 n ++ width ++ put32 at_ ++ put16 (size comment) ++ comment.
(** A file: what comes before the table, the table, the end record with its comment. *)
Definition laid_out (b front : list N) (hs : list header) (width comment : list N) : Prop :=
  b = front ++ flat_map header_bytes hs ++ end_record (N.of_nat (length hs)) width (size front) comment /\
  length width = 4 /\ Forall header_ok hs /\ (size front < 4294967296 /\ size comment < 65536)%N.
(** Something that looks like an end record, [o] bytes into the file. *)
Definition looks_like_end (b : list N) (o : nat) : Prop :=
  exists x m t, b = x ++ [80; 75; 5; 6]%N ++ m ++ put16 (size t) ++ t /\ length x = o /\ length m = 16 /\ (size t < 65536)%N.
