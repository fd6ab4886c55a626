(** C110: the check accepts exactly the files that are laid out as a ZIP table of contents with distinct
    names, and says how many entries there are. *)
From Coq Require Import List Arith Bool NArith Lia.
From Verif Require Import Zip_Model Zip_Spec.
Import ListNotations.

Definition byte (x : N) : Prop := (x < 256)%N.
Definition cut (b : bytes) (i j : nat) : bytes := firstn (j - i) (skipn i b).
Lemma same_iff a b : same a b = true <-> a = b.
Proof.
  revert b. induction a as [|x a IH]; intros [|y b]; cbn; try (split; (discriminate || reflexivity)).
  rewrite andb_true_iff, N.eqb_eq, IH. split; [intros [-> ->]; reflexivity|intros [= -> ->]; auto].
Qed.
Lemma in_seen n l : existsb (same n) l = true <-> In n l.
Proof.
  rewrite existsb_exists. split.
  - intros (m & H & E). apply same_iff in E as ->. exact H.
  - intros H. exists n. split; [exact H|now apply same_iff].
Qed.
Lemma skipn_more {A} (b : list A) i j : skipn (i + j) b = skipn j (skipn i b).
Proof. revert b. induction i as [|i IH]; intros b; [reflexivity|]. destruct b; cbn; [now rewrite skipn_nil|apply IH]. Qed.
Lemma cut_length b i j : j <= length b -> length (cut b i j) = j - i.
Proof. intros H. unfold cut. rewrite firstn_length, skipn_length. lia. Qed.
Lemma cut_join b i j k : i <= j -> j <= k -> cut b i k = cut b i j ++ cut b j k.
Proof.
  intros H K. unfold cut. replace (skipn j b) with (skipn (j - i) (skipn i b)) by (rewrite <- skipn_more; f_equal; lia).
  generalize (skipn i b) as l. intros l. replace (k - i) with ((j - i) + (k - j)) by lia.
  generalize (j - i) as p, (k - j) as q. clear. induction l as [|x l IH]; intros p q.
  - now rewrite !firstn_nil, skipn_nil, firstn_nil.
  - destruct p as [|p]; [reflexivity|]. cbn. now rewrite IH.
Qed.
Lemma cut_all b : cut b 0 (length b) = b.
Proof. unfold cut. rewrite Nat.sub_0_r. cbn. apply firstn_all. Qed.
Lemma cut_same b i : cut b i i = [].
Proof. unfold cut. now rewrite Nat.sub_diag. Qed.
Lemma byte_cut b i j : Forall byte b -> Forall byte (cut b i j).
Proof.
  intros F. unfold cut. apply Forall_forall. intros x H. rewrite Forall_forall in F. apply F.
  rewrite <- (firstn_skipn i b). apply in_or_app. right. rewrite <- (firstn_skipn (j - i) (skipn i b)). apply in_or_app. auto.
Qed.
Lemma skipn_byte b o x : Forall byte b -> In x (skipn o b) -> byte x.
Proof. intros F H. rewrite Forall_forall in F. apply F. rewrite <- (firstn_skipn o b). apply in_or_app. auto. Qed.

(** ** Numbers. *)
Lemma some_inj {A} (x y : A) : Some x = Some y -> x = y.
Proof. congruence. Qed.
Lemma split16 x y : (x < 256 -> put16 (x + 256 * y) = [x; y])%N.
Proof.
  intros H. unfold put16. f_equal.
  - rewrite N.mul_comm, N.mod_add by lia. now apply N.mod_small.
  - rewrite N.mul_comm, N.div_add by lia. rewrite N.div_small by exact H. reflexivity.
Qed.
Lemma u16_read b o v : Forall byte b -> u16 b o = Some v -> o + 2 <= length b /\ cut b o (o + 2) = put16 v /\ (v < 65536)%N.
Proof.
  intros F. unfold u16, cut. replace (o + 2 - o) with 2 by lia.
  destruct (skipn o b) as [|x [|y r]] eqn:E; try discriminate. intros V0. apply some_inj in V0. subst v.
  assert (L : length (skipn o b) = S (S (length r))) by now rewrite E. rewrite skipn_length in L.
  assert (X : byte x) by (apply (skipn_byte b o); [exact F|rewrite E; now left]).
  assert (Y : byte y) by (apply (skipn_byte b o); [exact F|rewrite E; right; now left]).
  unfold byte in *. split; [lia|]. split; [cbn [firstn]; now rewrite split16|]. lia.
Qed.
Lemma u16_written x v y o : (v < 65536)%N -> length x = o -> u16 (x ++ put16 v ++ y) o = Some v.
Proof.
  intros H <-. unfold u16. rewrite skipn_app, skipn_all, Nat.sub_diag. unfold put16. cbn [app skipn]. f_equal.
  rewrite N.add_comm. rewrite <- N.div_mod'. reflexivity.
Qed.
Lemma split32 x y z w : (x < 256 -> y < 256 -> z < 256 -> put32 (x + 256 * (y + 256 * (z + 256 * w))) = [x; y; z; w])%N.
Proof.
  intros X Y Z. unfold put32. change 65536%N with (256 * 256)%N. change 16777216%N with (256 * 256 * 256)%N.
  rewrite <- !N.div_div by lia.
  assert (E : forall a r, (a < 256)%N -> ((a + 256 * r) mod 256 = a /\ (a + 256 * r) / 256 = r)%N).
  { intros a r H. split.
    - rewrite N.mul_comm, N.mod_add by lia. now apply N.mod_small.
    - rewrite N.mul_comm, N.div_add by lia. rewrite N.div_small by exact H. reflexivity. }
  rewrite (proj1 (E x _ X)), (proj2 (E x _ X)), (proj1 (E y _ Y)), (proj2 (E y _ Y)), (proj1 (E z _ Z)), (proj2 (E z _ Z)). reflexivity.
Qed.
Lemma u32_read b o v : Forall byte b -> u32 b o = Some v -> o + 4 <= length b /\ cut b o (o + 4) = put32 v /\ (v < 4294967296)%N.
Proof.
  intros F. unfold u32, cut. replace (o + 4 - o) with 4 by lia.
  destruct (skipn o b) as [|x [|y [|z [|w r]]]] eqn:E; try discriminate. intros V0. apply some_inj in V0. subst v.
  assert (L : length (skipn o b) = S (S (S (S (length r))))) by now rewrite E. rewrite skipn_length in L.
  assert (P : forall q, In q [x; y; z; w] -> byte q).
  { intros q H. apply (skipn_byte b o); [exact F|rewrite E]. cbn in *. tauto. }
  assert (X := P x ltac:(cbn; auto)). assert (Y := P y ltac:(cbn; auto)). assert (Z := P z ltac:(cbn; auto)). assert (W := P w ltac:(cbn; auto)).
  unfold byte in *. split; [lia|]. split; [cbn [firstn]; now rewrite split32|]. lia.
Qed.
Lemma u32_written x v y o : (v < 4294967296)%N -> length x = o -> u32 (x ++ put32 v ++ y) o = Some v.
Proof.
  intros H <-. unfold u32. rewrite skipn_app, skipn_all, Nat.sub_diag. unfold put32. cbn [app skipn]. f_equal.
  change 65536%N with (256 * 256)%N. change 16777216%N with (256 * 256 * 256)%N. rewrite <- !N.div_div by lia.
  assert (E : forall a, (a mod 256 + 256 * (a / 256) = a)%N) by (intros a; rewrite N.add_comm, <- N.div_mod'; reflexivity).
  now rewrite !E.
Qed.
Lemma signature_read b o s : length s = 4 -> same (firstn 4 (skipn o b)) s = true <-> o + 4 <= length b /\ cut b o (o + 4) = s.
Proof.
  intros L. rewrite same_iff. unfold cut. replace (o + 4 - o) with 4 by lia. split; [|tauto].
  intros E. split; [|exact E]. assert (K : length (firstn 4 (skipn o b)) = 4) by now rewrite E.
  rewrite firstn_length, skipn_length in K. lia.
Qed.

(** ** The end record. *)
Lemma size_cut b i j : j <= length b -> size (cut b i j) = N.of_nat (j - i).
Proof. intros H. unfold size. now rewrite cut_length. Qed.
Lemma ends_iff b o : Forall byte b -> ends_at b o = true <-> looks_like_end b o.
Proof.
  intros F. unfold ends_at. rewrite andb_true_iff, signature_read by reflexivity. split.
  - intros [[L S'] H]. destruct (u16 b (o + 20)) as [n|] eqn:U; [|discriminate]. apply Nat.eqb_eq in H.
    destruct (u16_read _ _ _ F U) as (B & C & V).
    exists (cut b 0 o), (cut b (o + 4) (o + 20)), (cut b (o + 22) (length b)).
    assert (Z : size (cut b (o + 22) (length b)) = n) by (rewrite size_cut; lia).
    rewrite !Z. split; [|split; [rewrite cut_length; lia|split; [rewrite cut_length; lia|exact V]]].
    rewrite <- (cut_all b) at 1. rewrite (cut_join b 0 o) by lia. rewrite (cut_join b o (o + 4)) by lia.
    rewrite (cut_join b (o + 4) (o + 20)) by lia. rewrite (cut_join b (o + 20) (o + 20 + 2)) by lia.
    rewrite S', C. replace (o + 20 + 2) with (o + 22) by lia. reflexivity.
  - intros (x & m & t & E & X & M & V). subst b. split; [split|].
    + rewrite !app_length. cbn. lia.
    + unfold cut. rewrite skipn_app, <- X, skipn_all, Nat.sub_diag. cbn [app skipn]. replace (length x + 4 - length x) with 4 by lia. reflexivity.
    + replace (x ++ [80; 75; 5; 6]%N ++ m ++ put16 (size t) ++ t) with ((x ++ [80; 75; 5; 6]%N ++ m) ++ put16 (size t) ++ t) by now rewrite <- !app_assoc.
      rewrite u16_written; [|exact V|rewrite !app_length; cbn; lia].
      apply Nat.eqb_eq. unfold size. rewrite !app_length. cbn. lia.
Qed.
Lemma back_spec b s n e :
  back b s n = Some e <-> s <= e <= s + n /\ ends_at b e = true /\ forall o, e < o <= s + n -> ends_at b o = false.
Proof.
  induction n as [|n IH]; cbn.
  - rewrite Nat.add_0_r. destruct (ends_at b s) eqn:E.
    + split; [intros [= <-]; split; [lia|split; [exact E|lia]]|intros (H & _); f_equal; lia].
    + split; [discriminate|]. intros (H & K & _). replace e with s in K by lia. congruence.
  - destruct (ends_at b (s + S n)) eqn:E.
    + split; [intros [= <-]; split; [lia|split; [exact E|lia]]|].
      intros (H & K & M). f_equal. destruct (Nat.eq_dec e (s + S n)) as [->|D]; [reflexivity|].
      rewrite M in E by lia. discriminate.
    + rewrite IH. split; intros (H & K & M); (split; [|split; [exact K|]]).
      * lia.
      * intros o L. destruct (Nat.eq_dec o (s + S n)) as [->|D]; [exact E|]. apply M. lia.
      * destruct (Nat.eq_dec e (s + S n)) as [->|D]; [congruence|lia].
      * intros o L. apply M. lia.
Qed.
Lemma find_iff b e : Forall byte b ->
  find_end b = Some e <-> looks_like_end b e /\ forall o, e < o -> ~ looks_like_end b o.
Proof.
  intros F. unfold find_end. rewrite back_spec.
  assert (W : forall o, looks_like_end b o -> length b - N.to_nat 65557 <= o <= length b - 22 /\ 22 <= length b).
  { intros o (x & m & t & E & X & M & V). apply (f_equal (@length N)) in E. rewrite !app_length in E. cbn in E.
    unfold size in V. assert (length t < N.to_nat 65536) by lia. split; [|lia].
    replace (N.to_nat 65557) with (N.to_nat 65536 + 21) by (rewrite <- (Nat2N.id 21), <- N2Nat.inj_add; reflexivity). lia. }
  split.
  - intros (H & K & M). split; [now apply ends_iff|]. intros o L Q. destruct (W o Q) as [W1 W2].
    apply ends_iff in Q; [|exact F]. rewrite M in Q; [discriminate|]. lia.
  - intros (H & M). destruct (W e H) as [W1 W2]. split; [lia|]. split; [now apply ends_iff|].
    intros o L. destruct (ends_at b o) eqn:E; [|reflexivity]. apply ends_iff in E; [|exact F]. exfalso. apply (M o); [lia|exact E].
Qed.

(** ** The entries. *)
Lemma entry_read b stop o seen n q : Forall byte b -> stop <= length b -> entry b stop o seen = inl (n, q) ->
  exists h, header_ok h /\ name h = n /\ ~ In n seen /\ o <= q <= stop /\ cut b o q = header_bytes h.
Proof.
  intros F T. unfold entry.
  destruct (same (firstn 4 (skipn o b)) central_signature) eqn:E; [|discriminate]. cbn [negb].
  apply signature_read in E; [|reflexivity]. destruct E as [L0 E].
  destruct (u16 b (o + 28)) as [a|] eqn:A; [|discriminate]. destruct (u16 b (o + 30)) as [x|] eqn:X; [|discriminate].
  destruct (u16 b (o + 32)) as [c|] eqn:C; [|discriminate].
  destruct (Nat.ltb_spec (length b) (o + 46 + N.to_nat a)) as [|L1]; [discriminate|].
  destruct (existsb (same (firstn (N.to_nat a) (skipn (o + 46) b))) seen) eqn:D; [discriminate|].
  destruct (Nat.ltb_spec stop (o + 46 + N.to_nat a + N.to_nat x + N.to_nat c)) as [|L2]; [discriminate|].
  intros [= <- <-].
  destruct (u16_read _ _ _ F A) as (_ & A1 & A2). destruct (u16_read _ _ _ F X) as (_ & X1 & X2). destruct (u16_read _ _ _ F C) as (_ & C1 & C2).
  set (p := o + 46 + N.to_nat a) in *.
  exists (mkHeader (cut b (o + 4) (o + 28)) (cut b (o + 34) (o + 46)) (cut b (o + 46) p) (cut b p (p + N.to_nat x)) (cut b (p + N.to_nat x) (p + N.to_nat x + N.to_nat c))).
  assert (Z1 : size (cut b (o + 46) p) = a) by (rewrite size_cut; unfold p in *; lia).
  assert (Z2 : size (cut b p (p + N.to_nat x)) = x) by (rewrite size_cut; lia).
  assert (Z3 : size (cut b (p + N.to_nat x) (p + N.to_nat x + N.to_nat c)) = c) by (rewrite size_cut; lia).
  split; [|split; [|split; [|split; [unfold p; lia|]]]].
  - unfold header_ok. cbn [before after name extra note]. rewrite Z1, Z2, Z3. split; [rewrite cut_length; unfold p in *; lia|]. split; [rewrite cut_length; unfold p in *; lia|]. auto.
  - cbn [name]. unfold cut. f_equal. unfold p. lia.
  - intros K. apply in_seen in K. congruence.
  - unfold header_bytes. cbn [before after name extra note]. rewrite Z1, Z2, Z3.
    rewrite (cut_join b o (o + 4)) by (unfold p; lia). rewrite (cut_join b (o + 4) (o + 28)) by (unfold p; lia).
    rewrite (cut_join b (o + 28) (o + 28 + 2)) by (unfold p; lia). replace (o + 28 + 2) with (o + 30) in * by lia.
    rewrite (cut_join b (o + 30) (o + 30 + 2)) by (unfold p; lia). replace (o + 30 + 2) with (o + 32) in * by lia.
    rewrite (cut_join b (o + 32) (o + 32 + 2)) by (unfold p; lia). replace (o + 32 + 2) with (o + 34) in * by lia.
    rewrite (cut_join b (o + 34) (o + 46)) by (unfold p; lia). rewrite (cut_join b (o + 46) p) by (unfold p; lia).
    rewrite (cut_join b p (p + N.to_nat x)) by (unfold p; lia). rewrite E, A1, X1, C1. reflexivity.
Qed.
Lemma walk_read b stop : Forall byte b -> stop <= length b -> forall n o seen q, o <= stop -> walk b stop n o seen = inl q ->
  exists hs, length hs = n /\ Forall header_ok hs /\ NoDup (map name hs) /\ (forall m, In m (map name hs) -> ~ In m seen) /\
             o <= q <= stop /\ cut b o q = flat_map header_bytes hs.
Proof.
  intros F T. induction n as [|n IH]; intros o seen q O H; cbn in H.
  - injection H as <-. exists []. cbn. rewrite cut_same. repeat split; auto using NoDup_nil; lia.
  - destruct (entry b stop o seen) as [[m q1]|] eqn:E; [|discriminate].
    destruct (entry_read _ _ _ _ _ _ F T E) as (h & K & N1 & D & R & C).
    destruct (IH _ _ _ (proj2 R) H) as (hs & L & A & ND & S' & R' & C'). exists (h :: hs). cbn.
    split; [now f_equal|]. split; [now constructor|]. split.
    { constructor; [|exact ND]. intros I'. apply (S' _ I'). left. now symmetry. }
    split. { intros z [<-|I']; [now rewrite N1|]. intros Q. apply (S' z I'). now right. }
    split; [lia|]. rewrite (cut_join b o q1) by lia. now rewrite C, C'.
Qed.
Lemma header_length h : header_ok h -> length (header_bytes h) = 46 + length (name h) + length (extra h) + length (note h).
Proof. intros (A & B & _). unfold header_bytes. rewrite !app_length. cbn. lia. Qed.
Lemma entry_written x h y stop seen : header_ok h -> ~ In (name h) seen -> length x + length (header_bytes h) <= stop ->
  entry (x ++ header_bytes h ++ y) stop (length x) seen = inl (name h, length x + length (header_bytes h)).
Proof.
  intros K D T. pose proof (header_length h K) as L. destruct K as (B & A & S1 & S2 & S3). unfold entry.
  assert (Q : same (firstn 4 (skipn (length x) (x ++ header_bytes h ++ y))) central_signature = true).
  { apply same_iff. rewrite skipn_app, skipn_all, Nat.sub_diag. reflexivity. }
  rewrite Q. cbn [negb].
  assert (U1 : u16 (x ++ header_bytes h ++ y) (length x + 28) = Some (size (name h))).
  { unfold header_bytes. rewrite <- !app_assoc.
    replace (x ++ [80; 75; 1; 2]%N ++ before h ++ put16 (size (name h)) ++ _) with
      ((x ++ [80; 75; 1; 2]%N ++ before h) ++ put16 (size (name h)) ++ put16 (size (extra h)) ++ put16 (size (note h)) ++ after h ++ name h ++ extra h ++ note h ++ y) by now rewrite <- !app_assoc.
    apply u16_written; [exact S1|]. rewrite !app_length. cbn. lia. }
  assert (U2 : u16 (x ++ header_bytes h ++ y) (length x + 30) = Some (size (extra h))).
  { unfold header_bytes. rewrite <- !app_assoc.
    replace (x ++ [80; 75; 1; 2]%N ++ before h ++ put16 (size (name h)) ++ _) with
      ((x ++ [80; 75; 1; 2]%N ++ before h ++ put16 (size (name h))) ++ put16 (size (extra h)) ++ put16 (size (note h)) ++ after h ++ name h ++ extra h ++ note h ++ y) by now rewrite <- !app_assoc.
    apply u16_written; [exact S2|]. rewrite !app_length. cbn. lia. }
  assert (U3 : u16 (x ++ header_bytes h ++ y) (length x + 32) = Some (size (note h))).
  { unfold header_bytes. rewrite <- !app_assoc.
    replace (x ++ [80; 75; 1; 2]%N ++ before h ++ put16 (size (name h)) ++ _) with
      ((x ++ [80; 75; 1; 2]%N ++ before h ++ put16 (size (name h)) ++ put16 (size (extra h))) ++ put16 (size (note h)) ++ after h ++ name h ++ extra h ++ note h ++ y) by now rewrite <- !app_assoc.
    apply u16_written; [exact S3|]. rewrite !app_length. cbn. lia. }
  rewrite U1, U2, U3. unfold size in *. rewrite !Nat2N.id.
  destruct (Nat.ltb_spec (length (x ++ header_bytes h ++ y)) (length x + 46 + length (name h))) as [G|_].
  { rewrite !app_length in G. lia. }
  assert (M : firstn (length (name h)) (skipn (length x + 46) (x ++ header_bytes h ++ y)) = name h).
  { unfold header_bytes. rewrite <- !app_assoc.
    replace (x ++ [80; 75; 1; 2]%N ++ before h ++ put16 (size (name h)) ++ _) with
      ((x ++ [80; 75; 1; 2]%N ++ before h ++ put16 (size (name h)) ++ put16 (size (extra h)) ++ put16 (size (note h)) ++ after h) ++ name h ++ extra h ++ note h ++ y) by now rewrite <- !app_assoc.
    replace (length x + 46) with (length (x ++ [80; 75; 1; 2]%N ++ before h ++ put16 (size (name h)) ++ put16 (size (extra h)) ++ put16 (size (note h)) ++ after h)) by (rewrite !app_length; cbn; lia).
    rewrite skipn_app, skipn_all, Nat.sub_diag. cbn [app skipn]. rewrite firstn_app, firstn_all, Nat.sub_diag. cbn. apply app_nil_r. }
  rewrite M. destruct (existsb (same (name h)) seen) eqn:E; [apply in_seen in E; contradiction|].
  destruct (Nat.ltb_spec stop (length x + 46 + length (name h) + length (extra h) + length (note h))) as [G|_]; [lia|].
  f_equal. f_equal. lia.
Qed.
Lemma walk_written hs : forall x y seen stop, Forall header_ok hs -> NoDup (map name hs) -> (forall m, In m (map name hs) -> ~ In m seen) ->
  stop = length x + length (flat_map header_bytes hs) ->
  walk (x ++ flat_map header_bytes hs ++ y) stop (length hs) (length x) seen = inl stop.
Proof.
  induction hs as [|h hs IH]; intros x y seen stop F D S' E; cbn [walk flat_map length map app] in *.
  - now rewrite Nat.add_0_r in E; subst.
  - inversion F as [|? ? F1 F2]; subst. inversion D as [|? ? D1 D2]; subst. rewrite <- app_assoc.
    rewrite app_length in *. rewrite entry_written; [|exact F1|apply S'; now left|lia].
    replace (length x + length (header_bytes h)) with (length (x ++ header_bytes h)) by apply app_length.
    replace (x ++ header_bytes h ++ flat_map header_bytes hs ++ y) with ((x ++ header_bytes h) ++ flat_map header_bytes hs ++ y) by now rewrite <- app_assoc.
    apply IH; auto.
    + intros m I' [<-|Q]; [contradiction|]. exact (S' m (or_intror I') Q).
    + rewrite app_length. lia.
Qed.

(** C110: the check says [n] exactly of the files that have a table of [n] entries, at most as many as
    allowed and fewer than ZIP64 needs, all with different names, that begins where the last end record of
    the file says and fills the space up to it. *)
Theorem C110_iff b max n : Forall byte b ->
  validate b max = inl n <->
  exists front hs width comment,
    laid_out b front hs width comment /\ length hs = n /\ NoDup (map name hs) /\ n <= max /\ (N.of_nat n < 65535)%N /\
    forall o, length front + length (flat_map header_bytes hs) < o -> ~ looks_like_end b o.
Proof.
  intros F. unfold validate. split.
  - destruct (find_end b) as [e|] eqn:E; [|discriminate]. apply find_iff in E; [|exact F]. destruct E as [E LAST].
    destruct (u16 b (e + 4)) as [d|] eqn:U1; [|discriminate]. destruct (u16 b (e + 6)) as [cd|] eqn:U2; [|discriminate].
    destruct (u16 b (e + 8)) as [hr|] eqn:U3; [|discriminate]. destruct (u16 b (e + 10)) as [total|] eqn:U4; [|discriminate].
    destruct (negb (d =? 0)%N || negb (cd =? 0)%N || negb (hr =? total)%N) eqn:G; [discriminate|].
    rewrite !orb_false_iff, !negb_false_iff, !N.eqb_eq in G. destruct G as [[-> ->] ->].
    destruct (N.eqb_spec total 65535) as [|N64]; [discriminate|].
    destruct (N.ltb_spec (N.of_nat max) total) as [|MAX]; [discriminate|].
    destruct (u32 b (e + 16)) as [o|] eqn:U5; [|discriminate].
    destruct (walk b e (N.to_nat total) (N.to_nat o) []) as [last|] eqn:W; [|discriminate].
    destruct (Nat.eqb_spec last e) as [->|]; [|discriminate]. cbn [negb]. intros [= <-].
    destruct (u16_read _ _ _ F U1) as (_ & R1 & _). destruct (u16_read _ _ _ F U2) as (_ & R2 & _).
    destruct (u16_read _ _ _ F U3) as (_ & R3 & _). destruct (u16_read _ _ _ F U4) as (_ & R4 & V4).
    destruct (u32_read _ _ _ F U5) as (_ & R5 & V5).
    assert (HE : exists c, u16 b (e + 20) = Some c /\ e + 22 + N.to_nat c = length b /\ cut b e (e + 4) = [80; 75; 5; 6]%N).
    { apply (ends_iff b e F) in E. unfold ends_at in E. rewrite andb_true_iff, signature_read in E by reflexivity. destruct E as [[_ E1] E2].
      destruct (u16 b (e + 20)) as [c|]; [|discriminate]. apply Nat.eqb_eq in E2. exists c. auto. }
    destruct HE as (c & U6 & LB & R0). destruct (u16_read _ _ _ F U6) as (_ & R6 & V6).
    assert (O : N.to_nat o <= e).
    { destruct (Nat.le_gt_cases (N.to_nat o) e) as [K|K]; [exact K|exfalso].
      destruct (N.to_nat total) as [|t]; cbn in W; [injection W as W; lia|].
      destruct (entry b e (N.to_nat o) []) as [[m q]|] eqn:EN; [|discriminate].
      destruct (entry_read b e _ _ _ _ F ltac:(lia) EN) as (h & _ & _ & _ & G & _). lia. }
    destruct (walk_read b e F ltac:(lia) _ _ _ _ O W) as (hs & L & OK & ND & _ & RG & CUT).
    exists (cut b 0 (N.to_nat o)), hs, (cut b (e + 12) (e + 16)), (cut b (e + 22) (length b)).
    assert (FL : length (cut b 0 (N.to_nat o)) = N.to_nat o) by (rewrite cut_length; lia).
    assert (FH : N.to_nat o + length (flat_map header_bytes hs) = e) by (rewrite <- CUT, cut_length by lia; lia).
    assert (Z : size (cut b (e + 22) (length b)) = c) by (rewrite size_cut; lia).
    split; [|split; [exact L|split; [exact ND|split; [lia|split; [lia|]]]]].
    + unfold laid_out. rewrite Z. unfold size. rewrite FL, N2Nat.id, L, N2Nat.id.
      split; [|split; [rewrite cut_length; lia|split; [exact OK|auto]]].
      unfold end_record. rewrite Z. rewrite <- CUT.
      rewrite <- (cut_all b) at 1. rewrite (cut_join b 0 (N.to_nat o)) by lia. f_equal.
      rewrite (cut_join b (N.to_nat o) e) by lia. f_equal.
      rewrite (cut_join b e (e + 4)) by lia. rewrite R0. f_equal.
      rewrite (cut_join b (e + 4) (e + 4 + 2)) by lia. rewrite R1. replace (e + 4 + 2) with (e + 6) by lia.
      rewrite (cut_join b (e + 6) (e + 6 + 2)) by lia. rewrite R2. replace (e + 6 + 2) with (e + 8) by lia.
      rewrite (cut_join b (e + 8) (e + 8 + 2)) by lia. rewrite R3. replace (e + 8 + 2) with (e + 10) by lia.
      rewrite (cut_join b (e + 10) (e + 10 + 2)) by lia. rewrite R4. replace (e + 10 + 2) with (e + 12) by lia.
      rewrite (cut_join b (e + 12) (e + 16)) by lia.
      rewrite (cut_join b (e + 16) (e + 16 + 4)) by lia. rewrite R5. replace (e + 16 + 4) with (e + 20) by lia.
      rewrite (cut_join b (e + 20) (e + 20 + 2)) by lia. rewrite R6. replace (e + 20 + 2) with (e + 22) by lia.
      reflexivity.
    + rewrite FL, FH. exact LAST.
  - intros (front & hs & width & comment & (E & W4 & OK & VF & VC) & L & ND & MAX & N64 & LAST).
    set (e := length front + length (flat_map header_bytes hs)) in *.
    assert (K : length (front ++ flat_map header_bytes hs) = e) by (now rewrite app_length).
    assert (FE : find_end b = Some e).
    { apply find_iff; [exact F|]. split; [|exact LAST].
      exists (front ++ flat_map header_bytes hs), ([0; 0; 0; 0]%N ++ put16 (N.of_nat (length hs)) ++ put16 (N.of_nat (length hs)) ++ width ++ put32 (size front)), comment.
      split; [|split; [exact K|split; [rewrite !app_length; cbn; lia|exact VC]]].
      rewrite E. unfold end_record. now rewrite <- !app_assoc. }
    rewrite FE.
    assert (P : forall p v q, b = p ++ put16 v ++ q -> (v < 65536)%N -> u16 b (length p) = Some v) by (intros p v q -> V; now apply u16_written).
    set (pre := front ++ flat_map header_bytes hs) in *. set (t := N.of_nat (length hs)) in *.
    assert (E' : b = pre ++ [80; 75; 5; 6]%N ++ put16 0 ++ put16 0 ++ put16 t ++ put16 t ++ width ++ put32 (size front) ++ put16 (size comment) ++ comment).
    { rewrite E. unfold pre, end_record. now rewrite <- !app_assoc. }
    assert (U1 : u16 b (e + 4) = Some 0%N).
    { replace (e + 4) with (length (pre ++ [80; 75; 5; 6]%N)) by (rewrite app_length; cbn; lia). eapply P; [|lia]. rewrite E' at 1. rewrite <- !app_assoc. reflexivity. }
    assert (U2 : u16 b (e + 6) = Some 0%N).
    { replace (e + 6) with (length (pre ++ [80; 75; 5; 6]%N ++ put16 0)) by (rewrite !app_length; cbn; lia). eapply P; [|lia]. rewrite E' at 1. rewrite <- !app_assoc. reflexivity. }
    assert (U3 : u16 b (e + 8) = Some t).
    { replace (e + 8) with (length (pre ++ [80; 75; 5; 6]%N ++ put16 0 ++ put16 0)) by (rewrite !app_length; cbn; lia). eapply P; [|unfold t; lia]. rewrite E' at 1. rewrite <- !app_assoc. reflexivity. }
    assert (U4 : u16 b (e + 10) = Some t).
    { replace (e + 10) with (length (pre ++ [80; 75; 5; 6]%N ++ put16 0 ++ put16 0 ++ put16 t)) by (rewrite !app_length; cbn; lia). eapply P; [|unfold t; lia]. rewrite E' at 1. rewrite <- !app_assoc. reflexivity. }
    assert (U5 : u32 b (e + 16) = Some (size front)).
    { replace b with ((pre ++ [80; 75; 5; 6]%N ++ put16 0 ++ put16 0 ++ put16 t ++ put16 t ++ width) ++ put32 (size front) ++ put16 (size comment) ++ comment) by (rewrite E' at 1; now rewrite <- !app_assoc).
      apply u32_written; [exact VF|]. rewrite !app_length. cbn. lia. }
    rewrite U1, U2, U3, U4, U5, N.eqb_refl. cbn [N.eqb negb orb].
    destruct (N.eqb_spec t 65535) as [G|_]; [unfold t in G; lia|].
    destruct (N.ltb_spec (N.of_nat max) t) as [G|_]; [unfold t in G; lia|].
    unfold t, size. rewrite !Nat2N.id. rewrite E at 1.
    rewrite (walk_written hs front _ [] e); auto.
    rewrite Nat.eqb_refl, N.eqb_refl. cbn [negb]. f_equal. exact L.
Qed.
Print Assumptions C110_iff.

(** The file tells which entries there are: no two readings of one file disagree. *)
Lemma header_unique h k x y : header_ok h -> header_ok k -> header_bytes h ++ x = header_bytes k ++ y -> h = k /\ x = y.
Proof.
  intros (B & A & S1 & S2 & S3) (B' & A' & T1 & T2 & T3) E. unfold header_bytes in E. rewrite <- !app_assoc in E.
  assert (app_same : forall (a b c d : list N), length a = length b -> a ++ c = b ++ d -> a = b /\ c = d).
  { clear. induction a as [|u a IH]; intros [|v b] c d; cbn; try discriminate; auto. intros [= L] [= -> M]. destruct (IH _ _ _ L M) as [-> ->]. auto. }
  assert (put_same : forall a b, (put16 a = put16 b -> a = b)%N).
  { intros a b H. unfold put16 in H.
    assert (H1 : (a mod 256 = b mod 256)%N) by exact (f_equal (hd 0%N) H).
    assert (H2 : (a / 256 = b / 256)%N) by exact (f_equal (fun l => hd 0%N (tl l)) H).
    rewrite (N.div_mod' a 256), (N.div_mod' b 256), H1, H2. reflexivity. }
  apply app_same in E as [_ E]; [|reflexivity]. apply app_same in E as [E1 E]; [|congruence].
  apply app_same in E as [E2 E]; [|reflexivity]. apply app_same in E as [E3 E]; [|reflexivity]. apply app_same in E as [E4 E]; [|reflexivity].
  apply app_same in E as [E5 E]; [|congruence]. apply put_same in E2, E3, E4. unfold size in *.
  apply app_same in E as [E6 E]; [|lia]. apply app_same in E as [E7 E]; [|lia]. apply app_same in E as [E8 E]; [|lia].
  destruct h, k. cbn in *. subst. auto.
Qed.
Theorem C110_unique b front hs width comment front' hs' width' comment' :
  laid_out b front hs width comment -> laid_out b front' hs' width' comment' ->
  (forall o, length front + length (flat_map header_bytes hs) < o -> ~ looks_like_end b o) ->
  (forall o, length front' + length (flat_map header_bytes hs') < o -> ~ looks_like_end b o) ->
  (N.of_nat (length hs) < 65535)%N -> (N.of_nat (length hs') < 65535)%N ->
  front = front' /\ hs = hs' /\ comment = comment'.
Proof.
  intros (E & W & OK & VF & VC) (E' & W' & OK' & VF' & VC') L L' M M'.
  assert (END : forall fr h w c, b = fr ++ flat_map header_bytes h ++ end_record (N.of_nat (length h)) w (size fr) c -> length w = 4 -> (size c < 65536)%N ->
            looks_like_end b (length fr + length (flat_map header_bytes h))).
  { intros fr h w c -> Lw Vc. exists (fr ++ flat_map header_bytes h), ([0; 0; 0; 0]%N ++ put16 (N.of_nat (length h)) ++ put16 (N.of_nat (length h)) ++ w ++ put32 (size fr)), c.
    split; [unfold end_record; now rewrite <- !app_assoc|]. split; [apply app_length|]. split; [rewrite !app_length; cbn; lia|exact Vc]. }
  pose proof (END _ _ _ _ E W VC) as D. pose proof (END _ _ _ _ E' W' VC') as D'.
  assert (EQ : length front + length (flat_map header_bytes hs) = length front' + length (flat_map header_bytes hs')).
  { destruct (Nat.lt_trichotomy (length front + length (flat_map header_bytes hs)) (length front' + length (flat_map header_bytes hs'))) as [K|[K|K]]; [exfalso; exact (L _ K D')|exact K|exfalso; exact (L' _ K D)]. }
  assert (app_same : forall (a b c d : list N), length a = length b -> a ++ c = b ++ d -> a = b /\ c = d).
  { clear. induction a as [|u a IH]; intros [|v b] c d; cbn; try discriminate; auto. intros [= Q] [= -> R]. destruct (IH _ _ _ Q R) as [-> ->]. auto. }
  rewrite E in E'. rewrite !app_assoc in E'. apply app_same in E' as [F G]; [|rewrite !app_length; exact EQ].
  unfold end_record in G. apply app_same in G as [_ G]; [|reflexivity]. apply app_same in G as [_ G]; [|reflexivity].
  apply app_same in G as [G1 G]; [|reflexivity]. apply app_same in G as [_ G]; [|reflexivity]. apply app_same in G as [_ G]; [|congruence].
  apply app_same in G as [G2 G]; [|reflexivity]. apply app_same in G as [_ G3]; [|reflexivity].
  assert (FS : size front = size front').
  { assert (U := u32_written [] (size front) [] 0 VF eq_refl). assert (U' := u32_written [] (size front') [] 0 VF' eq_refl). rewrite G2 in U. congruence. }
  assert (HS : length hs = length hs').
  { assert (U := u16_written [] (N.of_nat (length hs)) [] 0 ltac:(lia) eq_refl). assert (U' := u16_written [] (N.of_nat (length hs')) [] 0 ltac:(lia) eq_refl). rewrite G1 in U. rewrite U in U'. injection U' as U'. lia. }
  apply app_same in F as [F1 F2]; [|unfold size in FS; lia]. split; [exact F1|]. split; [|exact G3].
  clear - F2 HS OK OK'. revert hs' F2 HS OK OK'. induction hs as [|h hs IH]; intros [|h' hs'] F2 HS OK OK'; try discriminate; [reflexivity|].
  cbn in F2. inversion OK; inversion OK'; subst. apply header_unique in F2 as [-> F3]; auto. f_equal. apply IH; auto.
Qed.
Print Assumptions C110_unique.

(** C110, refuted: a self-running JAR is a script followed by a JAR.  Java looks for the table in front of
    the end record and reads it; here the table is looked for where the end record says it begins, counted
    from the start of the script, so the archive is refused. *)
Definition one : header := mkHeader (repeat 0%N 24) (repeat 0%N 12) [65]%N [] [].
Definition jar : list N := header_bytes one ++ end_record 1 (repeat 0%N 4) 0 [].
Theorem C110_script_refuted :
  exists script b, validate b 10 = inl 1 /\ script <> [] /\ validate (script ++ b) 10 = inr Invalid.
Proof. exists [35; 33]%N, jar. split; [vm_compute; reflexivity|]. split; [discriminate|vm_compute; reflexivity]. Qed.
Print Assumptions C110_script_refuted.

(** Cases: one entry; two of the same name are refused; the comment may look like an end record. *)
Example one_entry : validate jar 10 = inl 1. Proof. vm_compute. reflexivity. Qed.
Example one_laid_out : laid_out jar [] [one] (repeat 0%N 4) [] /\ Forall byte jar.
Proof.
  split.
  - unfold laid_out, header_ok. split; [reflexivity|]. split; [reflexivity|]. split; [|split; reflexivity].
    constructor; [|constructor]. repeat split.
  - unfold jar. repeat constructor.
Qed.
Example twice : validate (header_bytes one ++ header_bytes one ++ end_record 2 (repeat 0%N 4) 0 []) 10 = inr Duplicate.
Proof. vm_compute. reflexivity. Qed.
Example too_many : validate jar 0 = inr Limit. Proof. vm_compute. reflexivity. Qed.
Example commented : validate (header_bytes one ++ end_record 1 (repeat 0%N 4) 0 [80; 75; 5; 6]%N) 10 = inl 1.
Proof. vm_compute. reflexivity. Qed.
