(** C16, C17, C57: the cache file formats.
    [sha], [deflate], [inflate] are arbitrary functions; what is assumed of them is a hypothesis of
    the theorem that needs it. *)
From Coq Require Import List NArith Bool Lia Arith.
From Verif Require Import Codec_Model Codec_Proofs.
Import ListNotations.
Open Scope N_scope.

Definition sha_ok (sha : bytes -> bytes) : Prop := forall p, length (sha p) = 32%nat.
Definition lossless (deflate : bytes -> bytes) (inflate : bytes -> bytes * bool) : Prop :=
  forall p, inflate (deflate p) = (p, true).

(** Whatever is encoded decodes to itself. *)
Theorem C16_envelope_round_trip : forall sha deflate inflate k payload e,
  sha_ok sha -> lossless deflate inflate ->
  blen (deflate payload) <= max_compressed ->
  encode_envelope sha deflate k payload = Some e ->
  decode_envelope sha inflate k e = Some payload.
Proof.
  intros sha deflate inflate k p e SH LL BC E. unfold encode_envelope in E.
  destruct (N.ltb_spec (logical_limit k) (blen p)) as [|BL]; [discriminate|].
  assert (BL' : blen p <= max_logical) by (destruct k; unfold logical_limit, max_logical, max_wasm_logical in *; lia).
  apply decode_spec.
  assert (X : e = magic k ++ le 4 envelope_schema ++ le 8 (blen p) ++ le 8 (blen (deflate p)) ++ sha p ++ deflate p) by congruence.
  assert (S8 : slice e 8 12 = le 4 envelope_schema).
  { rewrite X. rewrite slice_app_r by (rewrite magic_length; lia). rewrite magic_length.
    rewrite slice_app_l by (rewrite le_length; lia). apply slice_all. reflexivity. }
  exists (le 8 (blen p)), (le 8 (blen (deflate p))), (deflate p). rewrite S8.
  split; [exact X|]. rewrite !le_length, !unle_le;
   change (256 ^ N.of_nat 8) with (2 ^ 64); change (256 ^ N.of_nat 4) with (2 ^ 32);
   unfold envelope_schema, max_compressed, max_logical in *; try lia.
  repeat split; auto; try lia.
  unfold read_take. rewrite LL. rewrite (proj2 (N.leb_gt _ _)) by lia. reflexivity.
Qed.

(** A product that the writer accepts is a hit for the next reader. *)
Theorem C16_published_is_readable : forall sha deflate inflate k payload e,
  sha_ok sha -> lossless deflate inflate ->
  publish_bytes sha deflate k payload = Some e ->
  lookup_bytes sha inflate k e = Some payload.
Proof.
  intros sha deflate inflate k p e SH LL E. unfold publish_bytes in E.
  destruct (encode_envelope sha deflate k p) as [e'|] eqn:Q; [|discriminate].
  destruct (N.ltb_spec max_compressed (blen e')) as [|B]; [discriminate|]. injection E as ->.
  unfold lookup_bytes. rewrite (proj2 (N.ltb_ge _ _)) by lia.
  apply (C16_envelope_round_trip sha deflate inflate k p e SH LL); auto.
  unfold encode_envelope in Q. destruct (_ <? _); [discriminate|].
  assert (X : e = magic k ++ le 4 envelope_schema ++ le 8 (blen p) ++ le 8 (blen (deflate p)) ++ sha p ++ deflate p) by congruence.
  subst e. unfold blen in *. rewrite !app_length in B. lia.
Qed.

(** The writer rejects exactly the oversized ones. *)
Theorem C16_publish_accepts : forall sha deflate k payload, sha_ok sha ->
  (exists e, publish_bytes sha deflate k payload = Some e) <->
  blen payload <= logical_limit k /\ 60 + blen (deflate payload) <= max_compressed.
Proof.
  intros sha deflate k p SH. unfold publish_bytes, encode_envelope.
  destruct (N.ltb_spec (logical_limit k) (blen p)).
  - split; [intros [e E]; discriminate|lia].
  - match goal with |- context [Some ?x] => set (e := x) end.
    assert (L : blen e = 60 + blen (deflate p)).
    { unfold e, blen. rewrite !app_length, !le_length, magic_length, SH. lia. }
    destruct (N.ltb_spec max_compressed (blen e)); (split; [intros [x E]|intros Q]); try discriminate; try lia.
    exists e. auto.
Qed.

(** An accepted file is exactly: magic, schema 1, the payload's length, the compressed length, the
    payload's SHA-256, and compressed bytes that decompress to the payload and nothing else. *)
Theorem C17_accepted_layout : forall sha inflate k e payload, wf e ->
  decode_envelope sha inflate k e = Some payload ->
  exists comp,
    e = magic k ++ le 4 1 ++ le 8 (blen payload) ++ le 8 (blen comp) ++ sha payload ++ comp /\
    length (sha payload) = 32%nat /\
    inflate comp = (payload, true) /\
    blen payload <= logical_limit k /\ blen comp <= max_compressed.
Proof.
  intros sha inflate k e p W D. apply decode_spec in D.
  destruct D as (lb & cb & comp & E & S & SL & LL & LV & CL & CV & SH & B1 & B2 & R).
  exists comp.
  assert (W8 : wf (slice e 8 12)) by (apply slice_wf; auto).
  assert (Wl : wf lb /\ wf cb).
  { unfold wf in *. rewrite E in W. rewrite !Forall_app in W. tauto. }
  pose proof (le_unle _ W8) as Q1. rewrite SL, S in Q1.
  pose proof (le_unle _ (proj1 Wl)) as Q2. rewrite LL, LV in Q2.
  pose proof (le_unle _ (proj2 Wl)) as Q3. rewrite CL, CV in Q3.
  repeat split; auto.
  - unfold envelope_schema in Q1. rewrite Q1, Q2, Q3. exact E.
  - unfold read_take in R. destruct (inflate comp) as [out clean].
    destruct (N.leb_spec (blen p + 1) (blen out)) as [L|L].
    + injection R as R. exfalso. assert (length p = N.to_nat (blen p + 1)).
      { rewrite <- R at 1. rewrite firstn_length. unfold blen in *. lia. }
      unfold blen in *. lia.
    + destruct clean; congruence.
Qed.

(** Truncation and trailing bytes are always detected. *)
Theorem C17_no_prefix_accepted : forall sha inflate k k' e x payload,
  x <> [] -> decode_envelope sha inflate k (e ++ x) = Some payload ->
  decode_envelope sha inflate k' e = None.
Proof.
  intros sha inflate k k' e x p N D.
  destruct (decode_envelope sha inflate k' e) as [q|] eqn:Q; auto. exfalso.
  apply decode_length in D. apply decode_length in Q. destruct D as [D1 D2], Q as [Q1 Q2].
  rewrite slice_app_l in D2 by lia. unfold blen in *. rewrite app_length in *.
  destruct x; [congruence|]. simpl in *. lia.
Qed.

(** Files of different product kinds are never confused. *)
Theorem C17_kinds_disjoint : forall sha inflate k k' e p p',
  decode_envelope sha inflate k e = Some p -> decode_envelope sha inflate k' e = Some p' -> k = k'.
Proof.
  intros sha inflate k k' e p p' A B. apply decode_spec in A. apply decode_spec in B.
  destruct A as (a1 & a2 & a3 & A & _), B as (b1 & b2 & b3 & B & _).
  rewrite A in B. unfold magic in B. simpl in B. injection B as B _. destruct k, k'; auto; discriminate.
Qed.

(** Changing the compressed part of a file (same header) goes undetected only if the two payloads
    have the same length and the same SHA-256. *)
Theorem C17_tampering_needs_collision : forall sha inflate k header c c' p p',
  length header = 60%nat ->
  decode_envelope sha inflate k (header ++ c) = Some p ->
  decode_envelope sha inflate k (header ++ c') = Some p' ->
  blen p = blen p' /\ sha p = sha p'.
Proof.
  intros sha inflate k hd c c' p p' L A B. apply decode_spec in A. apply decode_spec in B.
  destruct A as (l1 & c1 & z1 & E1 & _ & S1 & LL1 & LV1 & CL1 & _ & SH1 & _).
  destruct B as (l2 & c2 & z2 & E2 & _ & S2 & LL2 & LV2 & CL2 & _ & SH2 & _).
  assert (G : forall (b : bytes) l cb sh z s, length s = 4%nat -> length l = 8%nat -> length cb = 8%nat -> length sh = 32%nat ->
     hd ++ b = magic k ++ s ++ l ++ cb ++ sh ++ z -> slice hd 12 20 = l /\ slice hd 28 60 = sh).
  { intros b l cb sh z s A1 A2 A3 A4 E. rewrite <- (slice_app_l hd b 12 20), <- (slice_app_l hd b 28 60) by lia. rewrite E. split.
    - do 2 (rewrite slice_app_r; rewrite ?magic_length, ?A1; [|lia]). rewrite slice_app_l by lia. apply slice_all. lia.
    - do 4 (rewrite slice_app_r; rewrite ?magic_length, ?A1, ?A2, ?A3; [|lia]). rewrite slice_app_l by lia. apply slice_all. lia. }
  destruct (G _ _ _ _ _ _ S1 LL1 CL1 SH1 E1) as [X1 Y1].
  destruct (G _ _ _ _ _ _ S2 LL2 CL2 SH2 E2) as [X2 Y2]. split; congruence.
Qed.

(** The compiled-Wasm payload: accepted for a key exactly when it was written for that key. *)
Theorem C57_wasm_payload_exact : forall sha k p a, wf p -> key_wf k ->
  decode_wasm sha k p = Some a <->
  p = encode_wasm sha k a /\ length (sha a) = 32%nat /\ 92 + blen a < 2 ^ 64.
Proof. intros. apply decode_wasm_spec; auto. Qed.

Lemma app_inj_len {A} (a b c d : list A) : length a = length c -> a ++ b = c ++ d -> a = c /\ b = d.
Proof.
  revert c. induction a; destruct c; simpl; intros L E; try discriminate; auto.
  injection E as -> E. injection L as L. destruct (IHa _ L E). subst. auto.
Qed.
Lemma le_inj k n m : n < 256 ^ N.of_nat k -> m < 256 ^ N.of_nat k -> le k n = le k m -> n = m.
Proof. intros A B E. rewrite <- (unle_le k n), <- (unle_le k m), E; auto. Qed.

Theorem C57_wasm_other_key_rejected : forall sha k k' a, key_wf k -> key_wf k' ->
  wf a -> wf (sha a) -> wf (source_sha k) -> k <> k' ->
  decode_wasm sha k' (encode_wasm sha k a) = None.
Proof.
  intros sha k k' a K K' Wa Ws Wk N.
  destruct (decode_wasm sha k' (encode_wasm sha k a)) as [b|] eqn:D; auto. exfalso. apply N.
  assert (W : wf (encode_wasm sha k a)).
  { unfold encode_wasm, wf. rewrite !Forall_app. repeat split; auto; apply le_wf. }
  apply decode_wasm_spec in D; auto. destruct D as (E & _). unfold encode_wasm in E.
  destruct K as (K1 & K2 & K3), K' as (K1' & K2' & K3').
  apply app_inj_len in E; [|rewrite !le_length; auto]. destruct E as [_ E].
  apply app_inj_len in E; [|rewrite !le_length; auto]. destruct E as [E1 E].
  apply app_inj_len in E; [|congruence]. destruct E as [E2 E].
  apply app_inj_len in E; [|rewrite !le_length; auto]. destruct E as [E3 E].
  apply le_inj in E1; auto. apply le_inj in E3; auto.
  destruct k, k'; simpl in *. congruence.
Qed.

(** End to end: a stored compiled-Wasm product is returned for its own key and for no other. *)
Theorem C57_wasm_round_trip : forall sha deflate inflate k a e,
  sha_ok sha -> lossless deflate inflate -> key_wf k ->
  wf a -> wf (sha a) -> wf (source_sha k) ->
  publish_bytes sha deflate Wasm (encode_wasm sha k a) = Some e ->
  lookup_wasm sha inflate k e = Some a /\
  forall k', key_wf k' -> k' <> k -> lookup_wasm sha inflate k' e = None.
Proof.
  intros sha deflate inflate k a e SH LL K Wa Ws Wk P.
  pose proof (C16_published_is_readable sha deflate inflate Wasm _ e SH LL P) as R.
  unfold lookup_wasm. rewrite R. split.
  - apply decode_wasm_spec; auto.
    + unfold encode_wasm, wf. rewrite !Forall_app. repeat split; auto; apply le_wf.
    + repeat split; auto.
      assert (Q : exists e, publish_bytes sha deflate Wasm (encode_wasm sha k a) = Some e) by eauto.
      apply C16_publish_accepts in Q; auto. destruct Q as [Q _]. unfold logical_limit, max_wasm_logical in Q.
      unfold encode_wasm, blen in *. rewrite !app_length, !le_length, SH in Q. lia.
  - intros k' K' N. apply C57_wasm_other_key_rejected; auto.
Qed.

(** Accepted identities are 64 lower-case hexadecimal digits; their paths stay inside the product
    directory (no separator, no dot) and differ for different products. *)
Theorem C57_valid_id_is_safe : forall id b, valid_id id = true -> In b id ->
  length id = 64%nat /\ b <> 46 /\ b <> 47 /\ b <> 92 /\ b <> 0.
Proof.
  intros id b V H. unfold valid_id in V. apply andb_prop in V. destruct V as [V1 V2].
  apply Nat.eqb_eq in V1. rewrite forallb_forall in V2. specialize (V2 _ H). unfold is_hex in V2.
  apply orb_prop in V2. rewrite !andb_true_iff, !N.leb_le in V2.
  split; auto. destruct V2; lia.
Qed.
Theorem C57_paths_are_distinct : forall k k' id id',
  product_path k id = product_path k' id' -> k = k' /\ id = id'.
Proof.
  intros k k' id id' E. unfold product_path in E. injection E as -> _ E. split; auto.
  apply app_inv_tail in E. auto.
Qed.

(** *** The hypotheses are met *)
Definition toy_sha (p : bytes) : bytes := repeat (unle p mod 251) 32.
Example ex_oracles : sha_ok toy_sha /\ lossless (fun p => 7 :: p) (fun c => (tl c, true)).
Proof. split; intros p; [apply repeat_length|reflexivity]. Qed.
Example ex_round_trip : exists e,
  publish_bytes toy_sha (fun p => 7 :: p) Java [1; 2; 3] = Some e /\ length e = 64%nat /\ wf e /\
  decode_envelope toy_sha (fun c => (tl c, true)) Java e = Some [1; 2; 3] /\
  decode_envelope toy_sha (fun c => (tl c, true)) Gem e = None.
Proof.
  eexists. split; [vm_compute; reflexivity|]. split; [reflexivity|]. split; [repeat constructor|].
  split; vm_compute; reflexivity.
Qed.
Example ex_wasm : let k := mkW 5 (repeat 1 32) 9 in let k' := mkW 5 (repeat 1 32) 10 in
  key_wf k /\ key_wf k' /\ decode_wasm toy_sha k (encode_wasm toy_sha k [4; 4]) = Some [4; 4].
Proof. vm_compute. repeat split; auto. Qed.
Example ex_id : valid_id (repeat 97 64) = true /\ valid_id (repeat 47 64) = false.
Proof. split; reflexivity. Qed.

Print Assumptions C16_envelope_round_trip.
Print Assumptions C16_published_is_readable.
Print Assumptions C16_publish_accepts.
Print Assumptions C17_accepted_layout.
Print Assumptions C17_no_prefix_accepted.
Print Assumptions C17_kinds_disjoint.
Print Assumptions C17_tampering_needs_collision.
Print Assumptions C57_wasm_payload_exact.
Print Assumptions C57_wasm_other_key_rejected.
Print Assumptions C57_wasm_round_trip.
Print Assumptions C57_valid_id_is_safe.
Print Assumptions C57_paths_are_distinct.
