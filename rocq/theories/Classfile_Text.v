(** Strings in the constant pool: modified UTF-8 and UTF-16. *)
From Coq Require Import List Arith NArith ZArith Bool Lia.
From Verif Require Import Text_Lib Classfile_Model Classfile_Spec Classfile_Proofs.
Import ListNotations.
Local Open Scope N_scope.
Local Open Scope list_scope.
Lemma lor_add a b k : b < 2 ^ k -> N.lor (N.shiftl a k) b = a * 2 ^ k + b.
Proof.
  intros H. assert (Z : N.land (N.shiftl a k) b = 0).
  { apply N.bits_inj. intros i. rewrite N.land_spec, N.bits_0. destruct (N.lt_ge_cases i k) as [L|L].
    - rewrite N.shiftl_spec_low by exact L. reflexivity.
    - rewrite <- (N.mod_small b (2 ^ k) H), N.mod_pow2_bits_high by exact L. apply andb_false_r. }
  rewrite <- (N.lxor_lor _ _ Z), <- (N.add_nocarry_lxor _ _ Z), N.shiftl_mul_pow2. reflexivity.
Qed.
Lemma land_mod a k : N.land a (N.ones k) = a mod 2 ^ k. Proof. apply N.land_ones. Qed.
Lemma byte_check (f : N -> bool) : forallb f (List.map N.of_nat (seq 0 256)) = true -> forall y, y < 256 -> f y = true.
Proof.
  intros H y L. rewrite forallb_forall in H. apply H. apply in_map_iff. exists (N.to_nat y). split; [apply N2Nat.id|]. apply in_seq. lia.
Qed.
Lemma continuation_iff y : y < 256 -> continuation y = (128 <=? y) && (y <? 192).
Proof. intros H. apply eqb_prop. revert y H. apply byte_check. vm_compute. reflexivity. Qed.

(** Two and three byte sequences and their units. *)
Lemma decode_two x y : 194 <= x <= 223 -> 128 <= y < 192 ->
  exists w, N.lor (N.shiftl (N.land x 31) 6) (N.land y 63) = w /\ w = (x - 192) * 64 + (y - 128) /\ modified w = [x; y].
Proof.
  intros X Y. exists ((x - 192) * 64 + (y - 128)). change 31 with (N.ones 5). change 63 with (N.ones 6). rewrite !land_mod. change (2 ^ 5) with 32. change (2 ^ 6) with 64.
  destruct (split_at 32 6 (x - 192) x ltac:(lia) ltac:(lia)) as [_ ->]. destruct (split_at 64 2 (y - 128) y ltac:(lia) ltac:(lia)) as [_ ->].
  rewrite lor_add by (change (2 ^ 6) with 64; lia). change (2 ^ 6) with 64. split; [reflexivity|]. split; [reflexivity|].
  set (w := (x - 192) * 64 + (y - 128)). destruct (split_at 64 (x - 192) (y - 128) w ltac:(lia) eq_refl) as [D M]. assert (W : w = (x - 192) * 64 + (y - 128)) by reflexivity. clearbody w.
  unfold modified. destruct (N.ltb_spec w 128); [lia|]. rewrite andb_false_r. destruct (N.ltb_spec w 2048); [|lia]. rewrite D, M. f_equal; [lia|]. f_equal. lia.
Qed.
Lemma decode_three x y z : 224 <= x <= 239 -> 128 <= y < 192 -> 128 <= z < 192 -> ~ (x = 224 /\ y < 160) ->
  exists w, N.lor (N.lor (N.shiftl (N.land x 15) 12) (N.shiftl (N.land y 63) 6)) (N.land z 63) = w /\ w = (x - 224) * 4096 + (y - 128) * 64 + (z - 128) /\ w < 65536 /\ modified w = [x; y; z].
Proof.
  intros X Y Z NS. exists ((x - 224) * 4096 + (y - 128) * 64 + (z - 128)). change 15 with (N.ones 4). change 63 with (N.ones 6). rewrite !land_mod. change (2 ^ 4) with 16. change (2 ^ 6) with 64.
  destruct (split_at 16 14 (x - 224) x ltac:(lia) ltac:(lia)) as [_ ->]. destruct (split_at 64 2 (y - 128) y ltac:(lia) ltac:(lia)) as [_ ->]. destruct (split_at 64 2 (z - 128) z ltac:(lia) ltac:(lia)) as [_ ->].
  assert (LO : N.lor (N.shiftl (x - 224) 12) (N.shiftl (y - 128) 6) = N.shiftl ((x - 224) * 64 + (y - 128)) 6).
  { rewrite lor_add; rewrite !N.shiftl_mul_pow2; change (2 ^ 12) with 4096; change (2 ^ 6) with 64; lia. }
  rewrite LO, lor_add by (change (2 ^ 6) with 64; lia). change (2 ^ 6) with 64. split; [lia|]. split; [reflexivity|].
  set (w := (x - 224) * 4096 + (y - 128) * 64 + (z - 128)). assert (W : w = (x - 224) * 4096 + (y - 128) * 64 + (z - 128)) by reflexivity. clearbody w.
  destruct (split_at 64 ((x - 224) * 64 + (y - 128)) (z - 128) w ltac:(lia) ltac:(lia)) as [D M]. destruct (split_at 4096 (x - 224) ((y - 128) * 64 + (z - 128)) w ltac:(lia) ltac:(lia)) as [D' _].
  split; [lia|]. unfold modified. destruct (N.ltb_spec w 2048); [exfalso; apply NS; lia|]. destruct (N.ltb_spec w 128); [lia|]. rewrite andb_false_r. rewrite D, D', M.
  destruct (split_at 64 (x - 224) (y - 128) ((x - 224) * 64 + (y - 128)) ltac:(lia) eq_refl) as [_ ->]. f_equal; [lia|]. f_equal; [lia|]. f_equal. lia.
Qed.
Lemma encode_two w : 128 <= w < 2048 -> exists x y, modified w = [x; y] /\ 194 <= x <= 223 /\ 128 <= y < 192 /\ w = (x - 192) * 64 + (y - 128).
Proof.
  intros W. exists (192 + w / 64), (128 + w mod 64). destruct (join_at 64 w ltac:(discriminate)) as [E L]. split; [|revert E L; generalize (w / 64); intros p; generalize (w mod 64); intros q; lia].
  unfold modified. destruct (N.ltb_spec w 128); [lia|]. rewrite andb_false_r. destruct (N.ltb_spec w 2048); [reflexivity|lia].
Qed.
Lemma encode_three w : 2048 <= w < 65536 -> exists x y z, modified w = [x; y; z] /\ 224 <= x <= 239 /\ 128 <= y < 192 /\ 128 <= z < 192 /\ ~ (x = 224 /\ y < 160) /\ w = (x - 224) * 4096 + (y - 128) * 64 + (z - 128).
Proof.
  intros W. exists (224 + w / 4096), (128 + (w / 64) mod 64), (128 + w mod 64). destruct (join_at 64 w ltac:(discriminate)) as [E L]. destruct (join_at 64 (w / 64) ltac:(discriminate)) as [E2 L2].
  replace (w / 4096) with (w / 64 / 64) by (rewrite N.div_div by discriminate; reflexivity). split; [|revert E L E2 L2; generalize (w / 64 / 64); intros p; generalize ((w / 64) mod 64); intros q; generalize (w / 64); intros s; generalize (w mod 64); intros t; lia].
  unfold modified. destruct (N.ltb_spec w 128); [lia|]. rewrite andb_false_r. destruct (N.ltb_spec w 2048); [lia|]. replace (w / 4096) with (w / 64 / 64) by (rewrite N.div_div by discriminate; reflexivity). reflexivity.
Qed.

Lemma decode_sound f : forall b u, octets b -> decode_modified_utf8 f b = Some u -> Forall unit16 u /\ b = flat_map modified u.
Proof.
  induction f as [|f IH]; intros b u O E; destruct b as [|x r]; cbn [decode_modified_utf8] in E; try (injection E as <-; split; [constructor|reflexivity]); [discriminate E|].
  inversion O as [|? ? Ox Or]; subst.
  assert (K : forall w r' pre, r = pre ++ r' -> w < 65536 -> modified w = x :: pre -> cons_unit w (decode_modified_utf8 f r') = Some u -> Forall unit16 u /\ x :: r = flat_map modified u).
  { intros w r' pre -> W M C. destruct (decode_modified_utf8 f r') as [l|] eqn:D; [|discriminate C]. injection C as <-. apply octets_app in Or. destruct (IH r' l (proj2 Or) D) as [A ->].
    split; [constructor; auto|]. cbn [flat_map]. rewrite M. reflexivity. }
  destruct (N.leb_spec 1 x) as [L1|L1]; [destruct (N.leb_spec x 127) as [L2|L2]|]; cbn [andb] in E.
  { apply (K x r []); auto; [lia|]. unfold modified. destruct (N.leb_spec 1 x); [|lia]. destruct (N.ltb_spec x 128); [reflexivity|lia]. }
  2:{ assert (x = 0) by lia. subst x. cbn in E. discriminate E. }
  destruct (N.eqb_spec x 192) as [->|N192].
  { destruct r as [|y r']; [discriminate E|]. destruct (N.eqb_spec y 128) as [->|]; [|discriminate E]. apply (K 0 r' [128]); auto; lia. }
  destruct (N.leb_spec 194 x) as [L3|L3]; [destruct (N.leb_spec x 223) as [L4|L4]|]; cbn [andb] in E.
  { destruct r as [|y r']; [discriminate E|]. inversion Or as [|? ? Oy Or']; subst. rewrite continuation_iff in E by exact Oy. destruct (N.leb_spec 128 y); [|discriminate E]. destruct (N.ltb_spec y 192); [|discriminate E]. cbn [andb] in E.
    destruct (decode_two x y ltac:(lia) ltac:(lia)) as (w & EW & WV & MW). rewrite EW in E. apply (K w r' [y]); auto. lia. }
  2:{ destruct (N.leb_spec 224 x); [lia|discriminate E]. }
  destruct (N.leb_spec 224 x) as [L5|L5]; [|lia]. destruct (N.leb_spec x 239) as [L6|L6]; [|discriminate E]. cbn [andb] in E.
  destruct r as [|y [|z r']]; try discriminate E. inversion Or as [|? ? Oy Or']; subst. inversion Or' as [|? ? Oz Or'']; subst. rewrite !continuation_iff in E by assumption.
  destruct (N.leb_spec 128 y); [|discriminate E]. destruct (N.ltb_spec y 192); [|discriminate E]. destruct (N.leb_spec 128 z); [|discriminate E]. destruct (N.ltb_spec z 192); [|discriminate E]. cbn [andb negb orb] in E.
  assert (SM : ~ (x = 224 /\ y < 160)).
  { intros [-> Y]. apply N.ltb_lt in Y. rewrite Y in E. discriminate E. }
  destruct ((x =? 224) && (y <? 160)); [discriminate E|].
  destruct (decode_three x y z ltac:(lia) ltac:(lia) ltac:(lia) SM) as (w & EW & WV & LW & MW). rewrite EW in E. apply (K w r' [y; z]); auto.
Qed.

Lemma decode_complete : forall u f, Forall unit16 u -> (length (flat_map modified u) <= f)%nat -> decode_modified_utf8 f (flat_map modified u) = Some u.
Proof.
  induction u as [|w u IH]; intros f F L; [destruct f; reflexivity|]. inversion F as [|? ? W F']; subst. cbn [flat_map] in *. rewrite app_length in L. unfold unit16 in W.
  destruct (N.lt_ge_cases w 128) as [L2|L2].
  - destruct (N.eq_dec w 0) as [->|NZ].
    + cbn in L |- *. destruct f as [|f]; [lia|]. cbn. rewrite IH by (auto; lia). reflexivity.
    + assert (M : modified w = [w]) by (unfold modified; destruct (N.leb_spec 1 w); [|lia]; destruct (N.ltb_spec w 128); [reflexivity|lia]). rewrite M in *. cbn [length] in L.
      destruct f as [|f]; [lia|]. cbn [app decode_modified_utf8]. destruct (N.leb_spec 1 w); [|lia]. destruct (N.leb_spec w 127); [|lia]. cbn [andb]. rewrite IH by (auto; lia). reflexivity.
  - destruct (N.lt_ge_cases w 2048) as [L3|L3].
    + destruct (encode_two w ltac:(lia)) as (x & y & M & X & Y & E). rewrite M in *. cbn [length] in L. destruct f as [|f]; [lia|]. cbn [app decode_modified_utf8].
      destruct (N.leb_spec 1 x); [|lia]. destruct (N.leb_spec x 127); [lia|]. cbn [andb]. destruct (N.eqb_spec x 192); [lia|]. destruct (N.leb_spec 194 x); [|lia]. destruct (N.leb_spec x 223); [|lia]. cbn [andb].
      rewrite continuation_iff by lia. destruct (N.leb_spec 128 y); [|lia]. destruct (N.ltb_spec y 192); [|lia]. cbn [andb].
      destruct (decode_two x y X Y) as (w' & -> & E' & _). rewrite IH by (auto; lia). cbn [cons_unit]. do 2 f_equal. lia.
    + destruct (encode_three w ltac:(lia)) as (x & y & z & M & X & Y & Z & NS & E). rewrite M in *. cbn [length] in L. destruct f as [|f]; [lia|]. cbn [app decode_modified_utf8].
      destruct (N.leb_spec 1 x); [|lia]. destruct (N.leb_spec x 127); [lia|]. cbn [andb]. destruct (N.eqb_spec x 192); [lia|]. destruct (N.leb_spec 194 x); [|lia]. destruct (N.leb_spec x 223); [lia|]. cbn [andb].
      destruct (N.leb_spec 224 x); [|lia]. destruct (N.leb_spec x 239); [|lia]. cbn [andb].
      rewrite !continuation_iff by lia. destruct (N.leb_spec 128 y); [|lia]. destruct (N.ltb_spec y 192); [|lia]. destruct (N.leb_spec 128 z); [|lia]. destruct (N.ltb_spec z 192); [|lia]. cbn [andb negb orb].
      assert (SM : (x =? 224) && (y <? 160) = false) by (destruct (N.eqb_spec x 224); [destruct (N.ltb_spec y 160); [exfalso; apply NS; auto|reflexivity]|reflexivity]). rewrite SM.
      destruct (decode_three x y z X Y Z NS) as (w' & -> & E' & _ & _). rewrite IH by (auto; lia). cbn [cons_unit]. do 2 f_equal. lia.
Qed.

(** Surrogate pairs. *)
Lemma pair_of u v : 55296 <= u <= 56319 -> 56320 <= v <= 57343 ->
  exists c, c = 65536 + (u - 55296) * 1024 + (v - 56320) /\ scalar c /\ utf16 c = [u; v].
Proof.
  intros U V. exists (65536 + (u - 55296) * 1024 + (v - 56320)). split; [reflexivity|]. set (c := 65536 + (u - 55296) * 1024 + (v - 56320)).
  assert (C : c = 65536 + (u - 55296) * 1024 + (v - 56320)) by reflexivity. clearbody c. split; [unfold scalar; lia|].
  unfold utf16. destruct (N.ltb_spec c 65536); [lia|]. destruct (split_at 1024 (u - 55296) (v - 56320) (c - 65536) ltac:(lia) ltac:(lia)) as [-> ->]. f_equal; [lia|]. f_equal. lia.
Qed.
Lemma of_pair c : 65536 <= c -> scalar c -> exists u v, utf16 c = [u; v] /\ 55296 <= u <= 56319 /\ 56320 <= v <= 57343 /\ c = 65536 + (u - 55296) * 1024 + (v - 56320).
Proof.
  intros L S. exists (55296 + (c - 65536) / 1024), (56320 + (c - 65536) mod 1024). destruct (join_at 1024 (c - 65536) ltac:(discriminate)) as [E M]. unfold scalar in S. split; [|revert E M; generalize ((c - 65536) / 1024); intros p; generalize ((c - 65536) mod 1024); intros q; lia].
  unfold utf16. destruct (N.ltb_spec c 65536); [lia|reflexivity].
Qed.
Lemma from_utf16_sound : forall n u s, (length u <= n)%nat -> Forall unit16 u -> from_utf16 u = Some s -> Forall scalar s /\ u = flat_map utf16 s.
Proof.
  induction n as [|n IH]; intros u s L F E; destruct u as [|w r]; try (injection E as <-; split; [constructor|reflexivity]); [cbn in L; lia|].
  cbn [from_utf16] in E. cbn [length] in L. inversion F as [|? ? W F']; subst. unfold unit16 in W.
  assert (ONE : forall t, w < 55296 \/ 57344 <= w -> from_utf16 r = Some t -> Forall scalar (w :: t) /\ w :: r = flat_map utf16 (w :: t)).
  { intros t B D. destruct (IH r t ltac:(lia) F' D) as [A ->]. split; [apply Forall_cons; [unfold scalar; lia|exact A]|]. cbn [flat_map]. unfold utf16 at 2. destruct (N.ltb_spec w 65536); [reflexivity|lia]. }
  destruct (N.leb_spec 55296 w) as [L1|L1]; [destruct (N.leb_spec w 56319) as [L2|L2]|]; cbn [andb] in E.
  - destruct r as [|v r']; [discriminate E|]. destruct (N.leb_spec 56320 v); [|discriminate E]. destruct (N.leb_spec v 57343); [|discriminate E]. cbn [andb] in E. inversion F' as [|? ? V F'']; subst.
    destruct (from_utf16 r') as [t|] eqn:D; [|discriminate E]. destruct (pair_of w v ltac:(lia) ltac:(lia)) as (c & EC & SC & UC). rewrite <- EC in E. injection E as <-. cbn [length] in L. destruct (IH r' t ltac:(lia) F'' D) as [A ->].
    split; [apply Forall_cons; assumption|]. cbn [flat_map]. rewrite UC. reflexivity.
  - destruct (N.leb_spec 56320 w); [|lia]. destruct (N.leb_spec w 57343); [discriminate E|]. cbn [andb] in E. destruct (from_utf16 r) as [t|] eqn:D; [|discriminate E]. injection E as <-. apply ONE; [lia|reflexivity].
  - destruct (N.leb_spec 56320 w); [lia|]. cbn [andb] in E. destruct (from_utf16 r) as [t|] eqn:D; [|discriminate E]. injection E as <-. apply ONE; [lia|reflexivity].
Qed.
Lemma from_utf16_complete : forall s, Forall scalar s -> from_utf16 (flat_map utf16 s) = Some s.
Proof.
  induction s as [|c s IH]; intros F; [reflexivity|]. inversion F as [|? ? C F']; subst. cbn [flat_map]. destruct (N.lt_ge_cases c 65536) as [L|L].
  - assert (E : utf16 c = [c]) by (unfold utf16; destruct (N.ltb_spec c 65536); [reflexivity|lia]). rewrite E. cbn [app from_utf16].
    rewrite (IH F'). destruct C as [C|C]; destruct (N.leb_spec 55296 c); try lia; cbn [andb].
    + destruct (N.leb_spec 56320 c); [lia|reflexivity].
    + destruct (N.leb_spec c 56319); [lia|]. destruct (N.leb_spec 56320 c); [|lia]. destruct (N.leb_spec c 57343); [lia|reflexivity].
  - destruct (of_pair c L C) as (u & v & E & U & V & Q). rewrite E. cbn [app from_utf16].
    destruct (N.leb_spec 55296 u); [|lia]. destruct (N.leb_spec u 56319); [|lia]. destruct (N.leb_spec 56320 v); [|lia]. destruct (N.leb_spec v 57343); [|lia]. cbn [andb]. rewrite (IH F'), <- Q. reflexivity.
Qed.
Lemma reads_iff u o : Forall unit16 u -> (reads u o <-> from_utf16 u = o).
Proof.
  intros F. destruct o as [s|]; cbn [reads]; split.
  - intros [A ->]. apply from_utf16_complete, A.
  - intros E. exact (from_utf16_sound _ u s (le_n _) F E).
  - intros H. destruct (from_utf16 u) as [s|] eqn:E; [|reflexivity]. destruct (from_utf16_sound _ u s (le_n _) F E) as [A B]. exfalso. exact (H s A B).
  - intros E s A B. subst u. rewrite (from_utf16_complete s A) in E. discriminate E.
Qed.

(** ** The constant pool *)
Inductive reach : nat -> list entry -> list N -> Prop :=
| reach_nil : reach 0 [] []
| reach_cons l e es x y : constant e x -> reach (S l - length e) es y -> reach (S l) (e ++ es) (x ++ y).
Lemma constant_length e x : constant e x -> length e = 1%nat \/ length e = 2%nat.
Proof. intros C. inversion C; subst; cbn; auto. Qed.
Lemma reach_constants l es x : reach l es x -> constants es x.
Proof. induction 1; constructor; auto. Qed.
Lemma constants_reach es x : constants es x -> reach (length es) es x.
Proof.
  induction 1 as [|e es x y C _ IH]; [constructor|]. rewrite app_length. pose proof (constant_length e x C) as [E|E].
  - rewrite E. cbn [Nat.add]. apply reach_cons; [exact C|]. rewrite E. replace (S (length es) - 1)%nat with (length es) by lia. exact IH.
  - rewrite E. cbn [Nat.add]. apply reach_cons; [exact C|]. rewrite E. replace (S (S (length es)) - 2)%nat with (length es) by lia. exact IH.
Qed.
Lemma branch {A} n (p : parser A) (q : parser (list entry)) (f : A -> list entry) C R : pure n p C -> pure n q R ->
  pure n (bind p (fun a => bind q (fun r => ret (f a ++ r)%list))) (fun es x => exists a y r z, C a y /\ R r z /\ es = (f a ++ r)%list /\ x = (y ++ z)%list).
Proof.
  intros HP HQ. eapply pure_ext; [apply pure_bind; [exact HP|intros a x _ _; exact (pure_map n q (fun r => f a ++ r)%list R HQ)]|].
  intros es x _. split.
  - intros (a & y & z & Y & (r & Z & ->) & ->). exists a, y, r, z. auto.
  - intros (a & y & r & z & Y & Z & -> & ->). exists a, y, z. split; [exact Y|]. split; [exists r; auto|reflexivity].
Qed.
Lemma pure_utf8_body n : pure n (bind u2 (fun k => bind (take k) (fun b => match decode_modified_utf8 (length b) b with Some u => ret (from_utf16 u) | None => fail end)))
  (fun o x => exists u, Forall unit16 u /\ reads u o /\ len (flat_map modified u) < 65536 /\ x = (be2 (len (flat_map modified u)) ++ flat_map modified u)%list).
Proof.
  eapply pure_ext.
  { apply pure_bind; [apply pure_u2|]. intros k x _ _. apply pure_bind with (Q := fun b o z => z = [] /\ exists u, decode_modified_utf8 (length b) b = Some u /\ o = from_utf16 u); [apply pure_take|].
    intros b y _ _. destruct (decode_modified_utf8 (length b) b) as [u|].
    - eapply pure_ext; [apply pure_ret|]. intros o z _. split; [intros [-> ->]; eauto|intros (-> & u' & E & ->); injection E as <-; auto].
    - eapply pure_ext; [apply pure_fail|]. intros o z _. split; [intros []|intros (_ & u' & E & _); discriminate E]. }
  intros o x O. split.
  - intros (k & y & z & (KL & ->) & (b & y' & z' & (-> & LB) & (-> & u & D & ->) & ->) & ->). rewrite app_nil_r in *. apply octets_app in O.
    destruct (decode_sound _ b u (proj2 O) D) as [F ->]. exists u. split; [exact F|]. rewrite LB. split; [apply reads_iff; auto|]. auto.
  - intros (u & F & R & LU & ->). exists (len (flat_map modified u)), (be2 (len (flat_map modified u))), (flat_map modified u). split; [split; [exact LU|reflexivity]|]. split; [|reflexivity].
    exists (flat_map modified u), (flat_map modified u), []. rewrite app_nil_r. split; [auto|]. split; [|reflexivity]. split; [reflexivity|]. exists u. split; [apply decode_complete; auto|]. symmetry. apply reads_iff; auto.
Qed.
Lemma pure_eq {A} n (p q : parser A) P : (forall s b, p s b = q s b) -> pure n q P -> pure n p P.
Proof. intros E H s b a s' r O Le. rewrite E. apply H; assumption. Qed.
(** What is left of an entry after its tag. *)
Definition tagged (l : nat) (tag : N) (es : list entry) (x : list N) : Prop :=
  exists e y r z, constant e (tag :: y) /\ reach (S l - length e) r z /\ es = (e ++ r)%list /\ x = (y ++ z)%list.
Lemma tagged_fixed n l tag k q : (k, true) = (k, true) -> (forall e y, constant e (tag :: y) <-> e = [Other] /\ len y = k) -> pure n q (reach l) ->
  pure n (bind (take k) (fun _ => bind q (fun r => ret (Other :: r)))) (tagged l tag).
Proof.
  intros _ C H. eapply pure_ext; [exact (branch n (take k) q (fun _ => [Other]) _ _ (pure_take n k) H)|]. intros es x _. unfold tagged. split.
  - intros (a & y & r & z & (-> & E) & R & -> & ->). exists [Other], a, r, z. cbn [length]. rewrite Nat.sub_succ, Nat.sub_0_r. repeat split; auto. apply C. auto.
  - intros (e & y & r & z & K & R & -> & ->). apply C in K. destruct K as [-> K]. cbn [length] in R. rewrite Nat.sub_succ, Nat.sub_0_r in R. exists y, y, r, z. auto.
Qed.
Lemma tagged_index n l tag f q : (forall e y, constant e (tag :: y) <-> exists i, e = [f i] /\ two i y) -> pure n q (reach l) ->
  pure n (bind u2 (fun i => bind q (fun r => ret (f i :: r)))) (tagged l tag).
Proof.
  intros C H. eapply pure_ext; [exact (branch n u2 q (fun i => [f i]) _ _ (pure_u2 n) H)|]. intros es x _. unfold tagged. split.
  - intros (a & y & r & z & E & R & -> & ->). exists [f a], y, r, z. cbn [length]. rewrite Nat.sub_succ, Nat.sub_0_r. repeat split; auto. apply C. eauto.
  - intros (e & y & r & z & K & R & -> & ->). apply C in K. destruct K as (i & -> & K). cbn [length] in R. rewrite Nat.sub_succ, Nat.sub_0_r in R. exists i, y, r, z. auto.
Qed.
Ltac tags := repeat match goal with H : In _ _ |- _ => cbn [In] in H | H : _ \/ _ |- _ => destruct H | H : False |- _ => destruct H | H : (_, _) = (_, _) |- _ => injection H; clear H; intros; subst end; try discriminate.
Lemma fixed_tag tag k : In (tag, k) [(3, 4); (4, 4); (8, 2); (9, 4); (10, 4); (11, 4); (12, 4); (15, 3); (16, 2); (17, 4); (18, 4); (20, 2)] ->
  forall e y, constant e (tag :: y) <-> e = [Other] /\ len y = k.
Proof.
  intros T e y. split.
  - intros C. inversion C as [u o F R LU|t w TT LW|i w TW|i w TW|t k' w TT LW]; subst; try (tags; fail).
    split; [reflexivity|]. cbn [In] in T, TT. repeat (destruct T as [T|T]; [injection T as <- <-; repeat (destruct TT as [TT|TT]; [try discriminate TT; injection TT; intros; subst; auto; fail|]); destruct TT|]). destruct T.
  - intros [-> E]. apply constant_other with (n := k); auto.
Qed.
Lemma pure_pool_entries n : forall l, pure n (pool_entries l) (reach l).
Proof.
  induction l as [l IH] using lt_wf_ind. destruct l as [|l].
  { cbn [pool_entries]. eapply pure_ext; [apply pure_ret|]. intros es x _. split; [intros [-> ->]; constructor|]. intros R. inversion R. auto. }
  cbn [pool_entries]. eapply pure_ext with (P := fun es x => exists tag y z, (tag < 256 /\ y = [tag]) /\ tagged l tag es z /\ x = (y ++ z)%list).
  2:{ intros es x O. split.
      - intros (tag & y & z & (_ & ->) & (e & y' & r & z' & C & R & -> & ->) & ->). change ([tag] ++ y' ++ z')%list with ((tag :: y') ++ z')%list. apply reach_cons; auto.
      - intros R. inversion R as [|? e es' x' y C R']; subst. assert (TG : exists tag w, x' = tag :: w) by (inversion C; eauto). destruct TG as (tag & w & ->).
        exists tag, [tag], (w ++ y)%list. inversion O; subst. split; [auto|]. split; [|reflexivity]. exists e, w, es', y. auto. }
  apply pure_bind with (Q := tagged l); [apply pure_u1|]. intros tag x _ _.
  assert (H : pure n (pool_entries l) (reach l)) by (apply IH; lia).
  destruct (N.eqb_spec tag 1) as [->|N1].
  { eapply pure_eq with (q := bind (bind u2 (fun k => bind (take k) (fun b => match decode_modified_utf8 (length b) b with Some u => ret (from_utf16 u) | None => fail end))) (fun o => bind (pool_entries l) (fun r => ret (Utf8 o :: r)))).
    - intros s b. unfold bind. destruct (u2 s b) as [[[k s1] b1]|]; [|reflexivity]. destruct (take k s1 b1) as [[[c s2] b2]|]; [|reflexivity]. destruct (decode_modified_utf8 (length c) c) as [u|]; reflexivity.
    - eapply pure_ext; [exact (branch n _ _ (fun o => [Utf8 o]) _ _ (pure_utf8_body n) H)|]. intros es z _. unfold tagged. split.
      + intros (o & y & r & w & (u & F & R & LU & ->) & RR & -> & ->). exists [Utf8 o], (be2 (len (flat_map modified u)) ++ flat_map modified u)%list, r, w. cbn [length]. rewrite Nat.sub_succ, Nat.sub_0_r. split; [constructor; auto|]. auto.
      + intros (e & y & r & w & K & R & -> & ->). inversion K as [u o F RU LU|t v TT LW|i v TW|i v TW|t k' v TT LW]; subst; try (tags; fail).
        cbn [length] in R. rewrite Nat.sub_succ, Nat.sub_0_r in R. exists o, (be2 (len (flat_map modified u)) ++ flat_map modified u)%list, r, w. split; [exists u; auto|]. auto. }
  destruct ((tag =? 3) || (tag =? 4)) eqn:T34.
  { apply tagged_fixed; [reflexivity| |exact H]. apply fixed_tag. apply orb_prop in T34. destruct T34 as [T|T]; apply N.eqb_eq in T; subst; cbn; auto 20. }
  destruct ((tag =? 5) || (tag =? 6)) eqn:T56.
  { assert (H' : pure n (pool_entries match l with S m => m | 0%nat => l end) (reach (S l - 2))).
    { destruct l as [|m]; [apply IH; lia|]. replace (S (S m) - 2)%nat with m by lia. apply IH. lia. }
    eapply pure_ext; [exact (branch n (take 8) _ (fun _ => [Other; Other]) _ _ (pure_take n 8) H')|]. intros es z _. unfold tagged. split.
    - intros (a & y & r & w & (-> & E) & R & -> & ->). exists [Other; Other], a, r, w. split; [apply constant_wide; [|exact E]|auto]. apply orb_prop in T56. destruct T56 as [T|T]; apply N.eqb_eq in T; subst; cbn; auto.
    - intros (e & y & r & w & K & R & -> & ->). inversion K as [u o F RU LU|t v TT LW|i v TW|i v TW|t k' v TT LW]; subst; try (tags; fail). exists y, y, r, w. auto. }
  destruct (N.eqb_spec tag 7) as [->|N7].
  { apply tagged_index; [|exact H]. intros e y. split; [|intros (i & -> & T); constructor; exact T].
    intros C. inversion C as [u o F RU LU|t v TT LW|i v TW|i v TW|t k' v TT LW]; subst; try (tags; fail). eauto. }
  destruct (N.eqb_spec tag 19) as [->|N19].
  { apply tagged_index; [|exact H]. intros e y. split; [|intros (i & -> & T); constructor; exact T].
    intros C. inversion C as [u o F RU LU|t v TT LW|i v TW|i v TW|t k' v TT LW]; subst; try (tags; fail). eauto. }
  destruct ((tag =? 8) || (tag =? 16) || (tag =? 20)) eqn:T8.
  { apply tagged_fixed; [reflexivity| |exact H]. apply fixed_tag. apply orb_prop in T8. destruct T8 as [T8|T]; [apply orb_prop in T8; destruct T8 as [T|T]|]; apply N.eqb_eq in T; subst; cbn; auto 20. }
  destruct ((tag =? 9) || (tag =? 10) || (tag =? 11) || (tag =? 12) || (tag =? 17) || (tag =? 18)) eqn:T9.
  { apply tagged_fixed; [reflexivity| |exact H]. apply fixed_tag. repeat (apply orb_prop in T9; destruct T9 as [T9|T]; [|apply N.eqb_eq in T; subst; cbn; auto 20]). apply N.eqb_eq in T9. subst. cbn. auto 20. }
  destruct (N.eqb_spec tag 15) as [->|N15].
  { apply tagged_fixed; [reflexivity| |exact H]. apply fixed_tag. cbn. auto 20. }
  eapply pure_ext; [apply pure_fail|]. intros es z _. split; [intros []|]. intros (e & y & r & w & K & _).
  inversion K as [u o F RU LU|t v TT LW|i v TW|i v TW|t k' v TT LW]; subst; try congruence.
  - cbn [In] in TT. destruct TT as [TT|[TT|[]]]; subst tag; discriminate T56.
  - clear K. assert (TE : exists k, In (tag, k) [(3, 4); (4, 4); (8, 2); (9, 4); (10, 4); (11, 4); (12, 4); (15, 3); (16, 2); (17, 4); (18, 4); (20, 2)]) by eauto. clear TT. destruct TE as [k TT]. cbn [In] in TT.
    repeat (destruct TT as [TT|TT]; [assert (TE := f_equal fst TT); cbn [fst] in TE; subst tag; try discriminate; congruence|]). destruct TT.
Qed.
Lemma pure_pool n L : pure n (parse_constant_pool L) (pool L).
Proof.
  unfold parse_constant_pool. eapply pure_ext.
  { apply pure_bind; [apply pure_u2|]. intros k x _ _. apply pure_bind_guard. intros G1. apply pure_bind_guard. intros G2.
    apply pure_bind with (Q := fun es cp z => N.of_nat (length es) + 1 =? k = true /\ (cp = Unusable :: es /\ z = [])); [apply pure_pool_entries|].
    intros es y _ _. apply pure_bind_guard. intros G3. apply pure_ret. }
  intros cp x _. unfold pool, len. split.
  - intros (k & y & z & (KL & ->) & (G1 & G2 & es & y' & z' & R & (G3 & -> & ->) & ->) & ->). apply N.eqb_eq in G3. apply N.leb_le in G2. exists es, y'. rewrite app_nil_r.
    cbn [length]. replace (N.of_nat (S (length es))) with k by lia. split; [reflexivity|]. split; [exact (reach_constants _ _ _ R)|]. auto.
  - intros (es & y & -> & C & L1 & L2 & ->). cbn [length] in *. exists (N.of_nat (S (length es))), (be2 (N.of_nat (S (length es)))), y. split; [split; [exact L1|reflexivity]|]. split; [|reflexivity].
    split; [apply negb_true_iff, N.eqb_neq; lia|]. split; [apply N.leb_le; exact L2|]. exists es, y, []. rewrite app_nil_r. replace (N.to_nat (N.of_nat (S (length es))) - 1)%nat with (length es) by lia.
    split; [apply constants_reach, C|]. split; [|reflexivity]. split; [apply N.eqb_eq; lia|auto].
Qed.
