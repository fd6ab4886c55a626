(** Model of the on-disk envelope of /repo/src/persistent_cache.rs: encode_envelope 1044-1072,
    decode_envelope 1074-1150, encoded_payload_logical_len 1152-1161, the compiled-Wasm payload
    963-1042, validate_cache_id 897-908, product_path 648-652.
    Bytes are numbers; [wf] says they are below 256.  SHA-256 and zstd are parameters: [sha] and a
    compressor [deflate] and a streaming decompressor [inflate], which yields the bytes it produces
    and whether the stream then ends cleanly.
    Simplifications: usize is 64 bits, so the usize conversions never fail; allocation never fails. *)
From Coq Require Import List NArith Bool Lia.
Import ListNotations.
Open Scope N_scope.

Definition bytes := list N.
Definition wf (b : bytes) : Prop := Forall (fun x => x < 256) b.
Definition blen (b : bytes) : N := N.of_nat (length b).

(** to_le_bytes / from_le_bytes *)
Fixpoint le (k : nat) (n : N) : bytes :=
  match k with O => [] | S k => (n mod 256) :: le k (n / 256) end.
Fixpoint unle (b : bytes) : N := match b with [] => 0 | x :: r => x + 256 * unle r end.

Definition slice (b : bytes) (lo hi : nat) : bytes := firstn (hi - lo) (skipn lo b).

Definition envelope_schema : N := 1.                   (* 24 *)
Definition header_bytes : nat := 60.                   (* 25 *)
Definition max_compressed : N := 268435456.            (* 28 *)
Definition max_logical : N := 1073741824.              (* 29 *)
Definition max_wasm_logical : N := 67108864.           (* 30 *)
Definition wasm_header : nat := 92.                    (* 23 *)
Definition wasm_schema : N := 1.                       (* 22 *)

Inductive kind := Gem | Java | Wasm.
(** 19-21: "RFLSPG01", "RFLSPJ01", "RFLSPW01" *)
Definition magic (k : kind) : bytes :=
  [82; 70; 76; 83; 80; match k with Gem => 71 | Java => 74 | Wasm => 87 end; 48; 49].
Definition logical_limit (k : kind) : N :=             (* 834-840 *)
  match k with Wasm => max_wasm_logical | _ => max_logical end.

Fixpoint beq (a b : bytes) : bool :=
  match a, b with
  | [], [] => true
  | x :: r, y :: t => N.eqb x y && beq r t
  | _, _ => false
  end.

Section Oracles.
Variable sha : bytes -> bytes.
Variable deflate : bytes -> bytes.
Variable inflate : bytes -> bytes * bool.

Definition encode_envelope (k : kind) (payload : bytes) : option bytes :=
  if logical_limit k <? blen payload then None
  else Some (magic k ++ le 4 envelope_schema ++ le 8 (blen payload) ++ le 8 (blen (deflate payload))
             ++ sha payload ++ deflate payload).

(** decoder.take(limit).read_to_end 1132-1135 *)
Definition read_take (limit : N) (b : bytes) : option bytes :=
  let (out, clean) := inflate b in
  if limit <=? blen out then Some (firstn (N.to_nat limit) out)
  else if clean then Some out else None.

Definition decode_envelope (k : kind) (e : bytes) : option bytes :=
  if Nat.ltb (length e) header_bytes then None
  else if negb (beq (slice e 0 8) (magic k)) then None
  else if negb (unle (slice e 8 12) =? envelope_schema) then None
  else
    let logical := unle (slice e 12 20) in
    let compressed := unle (slice e 20 28) in
    if logical_limit k <? logical then None
    else if max_compressed <? compressed then None
    else if negb (blen e =? N.of_nat header_bytes + compressed) then None
    else
      match read_take (logical + 1) (skipn header_bytes e) with
      | None => None
      | Some payload =>
          if negb (blen payload =? logical) then None
          else if beq (sha payload) (slice e 28 60) then Some payload else None
      end.

(** publish_inner 720-734: the bytes that are written, if the product is accepted *)
Definition publish_bytes (k : kind) (payload : bytes) : option bytes :=
  match encode_envelope k payload with
  | Some e => if max_compressed <? blen e then None else Some e
  | None => None
  end.
(** lookup_disk 486-539, after the file was read: [None] is DiskLookup::Corrupt *)
Definition lookup_bytes (k : kind) (e : bytes) : option bytes :=
  if max_compressed <? blen e then None else decode_envelope k e.

(** CompiledWasmProductKey *)
Record wkey := mkW { source_length : N; source_sha : bytes; compiler : N }.
Definition key_wf (k : wkey) : Prop :=
  source_length k < 2 ^ 64 /\ length (source_sha k) = 32%nat /\ compiler k < 2 ^ 64.

(** 963-978 *)
Definition encode_wasm (k : wkey) (artifact : bytes) : bytes :=
  le 4 wasm_schema ++ le 8 (source_length k) ++ source_sha k ++ le 8 (compiler k)
  ++ le 8 (blen artifact) ++ sha artifact ++ artifact.
(** 980-1042 *)
Definition decode_wasm (k : wkey) (p : bytes) : option bytes :=
  if Nat.ltb (length p) wasm_header then None
  else if negb (unle (slice p 0 4) =? wasm_schema) then None
  else if negb (unle (slice p 4 12) =? source_length k) || negb (beq (slice p 12 44) (source_sha k))
          || negb (unle (slice p 44 52) =? compiler k) then None
  else
    let alen := unle (slice p 52 60) in
    if 2 ^ 64 <=? N.of_nat wasm_header + alen then None
    else if negb (blen p =? N.of_nat wasm_header + alen) then None
    else if beq (sha (skipn wasm_header p)) (slice p 60 92) then Some (skipn wasm_header p) else None.

(** What lookup_compiled_wasm_or_reserve (276-294) makes of a file's bytes. *)
Definition lookup_wasm (k : wkey) (e : bytes) : option bytes :=
  match lookup_bytes Wasm e with Some p => decode_wasm k p | None => None end.
End Oracles.

(** validate_cache_id 897-908, on the bytes of the string *)
Definition is_hex (b : N) : bool := ((48 <=? b) && (b <=? 57)) || ((97 <=? b) && (b <=? 102)).
Definition valid_id (id : bytes) : bool := Nat.eqb (length id) 64 && forallb is_hex id.
(** ".rflsp-product" 18 *)
Definition extension : bytes := [46; 114; 102; 108; 115; 112; 45; 112; 114; 111; 100; 117; 99; 116].
(** the last path components of product_path 648-652: kind directory, shard, file name;
    the kind directory ("gem-products-v1", ...) is represented by the kind itself *)
Definition product_path (k : kind) (id : bytes) : kind * bytes * bytes :=
  (k, firstn 2 id, id ++ extension).
