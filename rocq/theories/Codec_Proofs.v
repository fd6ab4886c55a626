From Coq Require Import List NArith Bool Lia Arith.
From Verif Require Import Codec_Model.
Import ListNotations.
Open Scope N_scope.

Lemma le_length k : forall n, length (le k n) = k.
Proof. induction k; simpl; auto. Qed.
Lemma le_wf k : forall n, wf (le k n).
Proof. induction k; simpl; intros; constructor; [apply N.mod_lt; lia|apply IHk]. Qed.
Lemma unle_le k : forall n, n < 256 ^ N.of_nat k -> unle (le k n) = n.
Proof.
  induction k; intros n H.
  - simpl in *. lia.
  - cbn [le unle]. rewrite IHk.
    + rewrite (N.add_comm). symmetry. apply N.div_mod. lia.
    + apply N.div_lt_upper_bound; [lia|]. rewrite Nat2N.inj_succ, N.pow_succ_r' in H. lia.
Qed.
Lemma le_unle b : wf b -> le (length b) (unle b) = b.
Proof.
  induction 1 as [|x l H1 H2 IH]; auto. cbn [length unle le]. f_equal.
  - rewrite (N.mul_comm 256), N.mod_add by lia. apply N.mod_small. auto.
  - rewrite (N.mul_comm 256), N.div_add by lia. rewrite N.div_small by auto. exact IH.
Qed.
Lemma le_unle_k k b : wf b -> length b = k -> le k (unle b) = b.
Proof. intros W <-. apply le_unle. auto. Qed.
Lemma unle_bound b : wf b -> unle b < 256 ^ N.of_nat (length b).
Proof.
  induction 1 as [|x l H1 H2 IH]; [reflexivity|]. cbn [length unle].
  rewrite Nat2N.inj_succ, N.pow_succ_r'. nia.
Qed.

Lemma beq_eq a : forall b, beq a b = true <-> a = b.
Proof.
  induction a; destruct b; simpl; split; intros H; try discriminate; auto.
  - apply andb_prop in H. destruct H as [H1 H2]. apply N.eqb_eq in H1. apply IHa in H2. congruence.
  - injection H as -> ->. rewrite N.eqb_refl. apply IHa. auto.
Qed.

Lemma slice_app_l a b lo hi : (hi <= length a)%nat -> slice (a ++ b) lo hi = slice a lo hi.
Proof.
  intros H. unfold slice. rewrite skipn_app, firstn_app.
  destruct (Nat.le_gt_cases lo hi).
  - replace (hi - lo - length (skipn lo a))%nat with O by (rewrite skipn_length; lia). simpl. apply app_nil_r.
  - replace (hi - lo)%nat with O by lia. reflexivity.
Qed.
Lemma slice_app_r a b lo hi : (length a <= lo)%nat -> slice (a ++ b) lo hi = slice b (lo - length a) (hi - length a).
Proof.
  intros H. unfold slice. rewrite skipn_app. rewrite skipn_all2 by lia. simpl.
  f_equal. lia.
Qed.
Lemma slice_all a n : n = length a -> slice a 0 n = a.
Proof. intros ->. unfold slice. simpl. rewrite Nat.sub_0_r. apply firstn_all. Qed.
Lemma slice_length b lo hi : (lo <= hi)%nat -> (hi <= length b)%nat -> length (slice b lo hi) = (hi - lo)%nat.
Proof. intros. unfold slice. rewrite firstn_length, skipn_length. lia. Qed.
Lemma skipn_add {A} a : forall n (l : list A), skipn a (skipn n l) = skipn (n + a) l.
Proof.
  induction n; simpl; intros; auto. destruct l; auto. destruct a; reflexivity.
Qed.
Lemma slice_skip b lo hi : (lo <= hi)%nat -> slice b lo hi ++ skipn hi b = skipn lo b.
Proof.
  intros H. unfold slice. replace (skipn hi b) with (skipn (hi - lo) (skipn lo b)).
  - apply firstn_skipn.
  - rewrite skipn_add. f_equal. lia.
Qed.
Lemma slice_wf b lo hi : wf b -> wf (slice b lo hi).
Proof.
  unfold wf, slice. rewrite !Forall_forall. intros H x Q. apply H.
  assert (In x (skipn lo b)) as Q' by (rewrite <- (firstn_skipn (hi - lo)); apply in_or_app; auto).
  rewrite <- (firstn_skipn lo). apply in_or_app. auto.
Qed.

Section O.
Variable sha : bytes -> bytes.
Variable deflate : bytes -> bytes.
Variable inflate : bytes -> bytes * bool.
Notation encode := (encode_envelope sha deflate).
Notation decode := (decode_envelope sha inflate).

Lemma magic_length k : length (magic k) = 8%nat. Proof. reflexivity. Qed.

(** A file accepted by [decode], in terms of its parts. *)
Lemma decode_spec k e p : decode k e = Some p <->
  exists lb cb comp,
    e = magic k ++ (slice e 8 12) ++ lb ++ cb ++ sha p ++ comp /\
    unle (slice e 8 12) = envelope_schema /\ length (slice e 8 12) = 4%nat /\
    length lb = 8%nat /\ unle lb = blen p /\ length cb = 8%nat /\ unle cb = blen comp /\
    length (sha p) = 32%nat /\
    blen p <= logical_limit k /\ blen comp <= max_compressed /\
    read_take inflate (blen p + 1) comp = Some p.
Proof.
  split.
  - unfold decode_envelope. destruct (Nat.ltb_spec (length e) header_bytes); [discriminate|].
    destruct (beq (slice e 0 8) (magic k)) eqn:M; [|discriminate]. cbn [negb]. cbv zeta iota.
    destruct (N.eqb_spec (unle (slice e 8 12)) envelope_schema) as [S|]; [|discriminate]. cbn [negb]. cbv zeta iota.
    destruct (N.ltb_spec (logical_limit k) (unle (slice e 12 20))) as [|L1]; [discriminate|].
    destruct (N.ltb_spec max_compressed (unle (slice e 20 28))) as [|L2]; [discriminate|].
    destruct (N.eqb_spec (blen e) (N.of_nat header_bytes + unle (slice e 20 28))) as [T|]; [|discriminate].
    cbn [negb]. cbv zeta iota.
    destruct (read_take inflate (unle (slice e 12 20) + 1) (skipn header_bytes e)) as [q|] eqn:R; [|discriminate].
    destruct (N.eqb_spec (blen q) (unle (slice e 12 20))) as [L|]; [|discriminate]. cbn [negb]. cbv zeta iota.
    destruct (beq (sha q) (slice e 28 60)) eqn:C; [|discriminate]. intros [= <-].
    apply beq_eq in M. apply beq_eq in C. unfold header_bytes in *.
    exists (slice e 12 20), (slice e 20 28), (skipn 60 e).
    assert (SK : blen (skipn 60 e) = unle (slice e 20 28)) by (unfold blen in *; rewrite skipn_length; lia).
    repeat match goal with |- _ /\ _ => split end; try assumption; try (apply slice_length; lia); try lia.
    + rewrite C, <- M. rewrite (slice_skip e 28 60) by lia. rewrite (slice_skip e 20 28) by lia.
      rewrite (slice_skip e 12 20) by lia. rewrite (slice_skip e 8 12) by lia. rewrite (slice_skip e 0 8) by lia. reflexivity.
    + rewrite C. apply slice_length; lia.
    + rewrite L. exact R.
  - intros (lb & cb & comp & E & S & SL & LL & LV & CL & CV & SH & B1 & B2 & R).
    set (sb := slice e 8 12) in *.
    assert (LE : length e = (60 + length comp)%nat).
    { rewrite E, !app_length, magic_length, SL, LL, CL, SH. lia. }
    assert (H12 : slice e 12 20 = lb).
    { rewrite E. do 2 (rewrite slice_app_r; rewrite ?magic_length, ?SL; [|lia]).
      rewrite slice_app_l by lia. apply slice_all. lia. }
    assert (H20 : slice e 20 28 = cb).
    { rewrite E. do 3 (rewrite slice_app_r; rewrite ?magic_length, ?SL, ?LL; [|lia]).
      rewrite slice_app_l by lia. apply slice_all. lia. }
    assert (H28 : slice e 28 60 = sha p).
    { rewrite E. do 4 (rewrite slice_app_r; rewrite ?magic_length, ?SL, ?LL, ?CL; [|lia]).
      rewrite slice_app_l by lia. apply slice_all. lia. }
    assert (H0 : slice e 0 8 = magic k).
    { rewrite E. rewrite slice_app_l by (rewrite magic_length; lia). apply slice_all. reflexivity. }
    assert (HK : skipn header_bytes e = comp).
    { rewrite E. rewrite !app_assoc. rewrite skipn_app.
      rewrite skipn_all2 by (rewrite !app_length, magic_length, SL, LL, CL, SH; unfold header_bytes; lia).
      replace (header_bytes - _)%nat with O by (rewrite !app_length, magic_length, SL, LL, CL, SH; reflexivity).
      reflexivity. }
    unfold decode_envelope. fold sb. rewrite H0, H12, H20, H28, HK, LV, CV, S, R.
    rewrite (proj2 (Nat.ltb_ge _ _)) by (rewrite LE; unfold header_bytes; lia).
    rewrite (proj2 (beq_eq _ _) eq_refl). rewrite N.eqb_refl. cbn [negb]. cbv zeta iota.
    rewrite (proj2 (N.ltb_ge _ _)) by lia. rewrite (proj2 (N.ltb_ge _ _)) by lia.
    rewrite (proj2 (N.eqb_eq (blen e) _)) by (unfold blen; rewrite LE; unfold header_bytes; lia).
    cbn [negb]. cbv zeta iota. rewrite N.eqb_refl. simpl negb. cbv zeta iota.
    rewrite (proj2 (beq_eq _ _) eq_refl). reflexivity.
Qed.

Lemma decode_length k e p : decode k e = Some p ->
  (60 <= length e)%nat /\ blen e = 60 + unle (slice e 20 28).
Proof.
  unfold decode_envelope. destruct (Nat.ltb_spec (length e) header_bytes); [discriminate|].
  destruct (beq (slice e 0 8) (magic k)); [|discriminate]. cbn [negb]. cbv zeta iota.
  destruct (_ =? envelope_schema); [|discriminate]. cbn [negb]. cbv zeta iota.
  destruct (_ <? _); [discriminate|]. destruct (_ <? _); [discriminate|].
  destruct (N.eqb_spec (blen e) (N.of_nat header_bytes + unle (slice e 20 28))) as [T|]; [|discriminate].
  intros _. split; auto.
Qed.

Lemma decode_wasm_spec k p a : wf p -> key_wf k -> decode_wasm sha k p = Some a <->
  p = encode_wasm sha k a /\ length (sha a) = 32%nat /\ 92 + blen a < 2 ^ 64.
Proof.
  intros W (K1 & K2 & K3). split.
  - unfold decode_wasm. destruct (Nat.ltb_spec (length p) wasm_header) as [|LE]; [discriminate|].
    destruct (N.eqb_spec (unle (slice p 0 4)) wasm_schema) as [S|]; [|discriminate]. cbn [negb]. cbv zeta iota.
    destruct (N.eqb_spec (unle (slice p 4 12)) (source_length k)) as [A|]; [|discriminate].
    destruct (beq (slice p 12 44) (source_sha k)) eqn:B; [|discriminate].
    destruct (N.eqb_spec (unle (slice p 44 52)) (compiler k)) as [C|]; [|discriminate]. cbn [negb orb]. cbv zeta iota.
    destruct (N.leb_spec (2 ^ 64) (N.of_nat wasm_header + unle (slice p 52 60))) as [|D]; [discriminate|].
    destruct (N.eqb_spec (blen p) (N.of_nat wasm_header + unle (slice p 52 60))) as [E|]; [|discriminate]. cbn [negb]. cbv zeta iota.
    destruct (beq (sha (skipn wasm_header p)) (slice p 60 92)) eqn:F; [|discriminate]. intros Q.
    assert (QA : a = skipn wasm_header p) by congruence. subst a. clear Q.
    apply beq_eq in B. apply beq_eq in F. unfold wasm_header in *.
    assert (LB : blen (skipn 92 p) = unle (slice p 52 60)) by (unfold blen in *; rewrite skipn_length; lia).
    split; [|split].
    + unfold encode_wasm. rewrite F, <- B, <- S, <- A, <- C, LB.
      rewrite (le_unle_k 4 (slice p 0 4)), (le_unle_k 8 (slice p 4 12)), (le_unle_k 8 (slice p 44 52)), (le_unle_k 8 (slice p 52 60))
        by (first [apply slice_wf; assumption | apply slice_length; lia]).
      rewrite (slice_skip p 60 92), (slice_skip p 52 60), (slice_skip p 44 52), (slice_skip p 12 44), (slice_skip p 4 12), (slice_skip p 0 4) by lia. reflexivity.
    + rewrite F. apply slice_length; lia.
    + rewrite LB. unfold wasm_header in D. lia.
  - intros (E & SH & B).
    assert (LP : length p = (92 + length a)%nat).
    { rewrite E. unfold encode_wasm. rewrite !app_length, !le_length, K2, SH. lia. }
    assert (H0 : slice p 0 4 = le 4 wasm_schema).
    { rewrite E. unfold encode_wasm. rewrite slice_app_l by (rewrite le_length; lia). apply slice_all. reflexivity. }
    assert (H4 : slice p 4 12 = le 8 (source_length k)).
    { rewrite E. unfold encode_wasm. rewrite slice_app_r; rewrite ?le_length; [|lia].
      rewrite slice_app_l by (rewrite le_length; lia). apply slice_all. reflexivity. }
    assert (H12 : slice p 12 44 = source_sha k).
    { rewrite E. unfold encode_wasm. do 2 (rewrite slice_app_r; rewrite ?le_length; [|lia]).
      rewrite slice_app_l by lia. apply slice_all. lia. }
    assert (H44 : slice p 44 52 = le 8 (compiler k)).
    { rewrite E. unfold encode_wasm. do 3 (rewrite slice_app_r; rewrite ?le_length, ?K2; [|lia]).
      rewrite slice_app_l by (rewrite le_length; lia). apply slice_all. reflexivity. }
    assert (H52 : slice p 52 60 = le 8 (blen a)).
    { rewrite E. unfold encode_wasm. do 4 (rewrite slice_app_r; rewrite ?le_length, ?K2; [|lia]).
      rewrite slice_app_l by (rewrite le_length; lia). apply slice_all. reflexivity. }
    assert (H60 : slice p 60 92 = sha a).
    { rewrite E. unfold encode_wasm. do 5 (rewrite slice_app_r; rewrite ?le_length, ?K2; [|lia]).
      rewrite slice_app_l by lia. apply slice_all. lia. }
    assert (HK : skipn wasm_header p = a).
    { rewrite E. unfold encode_wasm. rewrite !app_assoc. rewrite skipn_app.
      rewrite skipn_all2 by (rewrite !app_length, !le_length, K2, SH; unfold wasm_header; lia).
      replace (wasm_header - _)%nat with O by (rewrite !app_length, !le_length, K2, SH; reflexivity).
      reflexivity. }
    unfold decode_wasm. rewrite H0, H4, H12, H44, H52, H60, HK.
    rewrite !unle_le; change (256 ^ N.of_nat 8) with (2 ^ 64); try lia; try reflexivity.
    rewrite (proj2 (Nat.ltb_ge _ _)) by (rewrite LP; unfold wasm_header; lia).
    rewrite !N.eqb_refl, !(proj2 (beq_eq _ _) eq_refl). cbn [negb orb]. cbv zeta iota.
    rewrite (proj2 (N.leb_gt _ _)) by (unfold wasm_header; lia).
    rewrite (proj2 (N.eqb_eq (blen p) _)) by (unfold blen; rewrite LP; unfold wasm_header; lia).
    reflexivity.
Qed.
End O.
