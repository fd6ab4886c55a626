(** C40, C41, C68 and C69: editor positions. *)
From Coq Require Import List Arith NArith Lia Bool.
From Verif Require Import Text_Lib Position_Model Position_Spec Position_Proofs.
Import ListNotations.

(** "a", two characters of three bytes, one of four (a surrogate pair in UTF-16). *)
Definition sample : text := [97; 20320; 10; 128512; 98; 10; 99]%N.

(** ** C41 *)

(** The reported position of a character boundary is the protocol's, except at the end of a text
    whose last line is not ended. *)
Theorem C41_position_partial : forall a b p, short (a ++ b) -> lsp_position a p -> b <> [] \/ at_line_start a ->
  offset_to_line_character (a ++ b) (size a) = Some p.
Proof. intros a b p S H D. apply position_at; auto. left. auto. Qed.
Print Assumptions C41_position_partial.

(** There it is the start of a line that does not exist. *)
Theorem C41_end_refuted : exists a p, short a /\ lsp_position a p /\ offset_to_line_character a (size a) <> Some p.
Proof.
  exists [97%N], (0, 1). split; [|split].
  - unfold short. cbn. lia.
  - exists [97%N]. split; [|reflexivity]. exists []. repeat split; [now left|]. intros [E|[]]. discriminate.
  - vm_compute. discriminate.
Qed.
Print Assumptions C41_end_refuted.
Theorem C41_end : forall a, short a -> a <> [] -> last a 0%N <> nl ->
  offset_to_line_character a (size a) = Some (S (breaks a), 0).
Proof.
  intros a H N L. rewrite <- (app_nil_r a) at 1. apply position_at; [now rewrite app_nil_r|]. right.
  destruct (exists_last N) as (a' & c & ->). rewrite last_app in L. repeat split; auto. exists a', c. auto.
Qed.
Print Assumptions C41_end.

(** The engine's files answer the same where they answer, and they answer at every character boundary
    of a text that is ASCII or still held. *)
Lemma ascii_size t : forallb (fun c => (c <? 128)%N) t = true -> size t = length t /\ units t = length t.
Proof.
  induction t as [|c t IH]; intros H; auto. cbn [forallb] in H. apply andb_true_iff in H. destruct H as [H1 H2].
  destruct (IH H2) as [E1 E2]. rewrite size_cons, units_cons, E1, E2. unfold u8, u16. rewrite H1.
  apply N.ltb_lt in H1. destruct (N.ltb_spec c 65536); [auto|lia].
Qed.
Lemma ascii_boundary t n : forallb (fun c => (c <? 128)%N) t = true -> n <= size t -> boundary t n = true.
Proof.
  intros H L. apply boundary_spec. exists (firstn n t), (skipn n t). split; [symmetry; apply firstn_skipn|].
  assert (forallb (fun c => (c <? 128)%N) (firstn n t) = true) as HF.
  { rewrite <- (firstn_skipn n t), forallb_app in H. now apply andb_true_iff in H. }
  destruct (ascii_size _ HF) as [-> _]. destruct (ascii_size _ H) as [E _]. rewrite firstn_length. lia.
Qed.
Lemma short_small t n : short t -> n <= size t -> u32 n = Some n.
Proof. intros H L. now apply (u32_ok n t). Qed.

Theorem C41_source_file : forall t keep f o, index_file t keep = Some f ->
  byte_offset_to_line_character f o =
  Some (if (o <=? size t) && boundary t o && (forallb (fun c => (c <? 128)%N) t || keep)
        then offset_to_line_character t o else None).
Proof.
  intros t keep f o E. unfold index_file in E. destruct (u32 (size t)) as [n|] eqn:U; [|easy].
  assert (short t) as S. { unfold u32 in U. unfold short. destruct (N.leb_spec (N.of_nat (size t)) 4294967295); easy. }
  rewrite (short_small t (size t) S (le_n _)) in U. injection U as <-. injection E as <-.
  unfold byte_offset_to_line_character. cbn [len offsets ascii kept].
  destruct (Nat.ltb_spec (size t) o) as [L|L].
  { destruct (Nat.leb_spec o (size t)); [lia|]. reflexivity. }
  destruct (Nat.leb_spec o (size t)) as [_|]; [|lia]. cbn [andb].
  destruct (boundary t o) eqn:B.
  - apply boundary_spec in B. destruct B as (a & b & -> & <-). cbn [andb].
    destruct (reported_exists a b) as (p & R). rewrite (position_at a b p S R).
    pose proof (breaks_size a) as BS.
    assert (exists i l m, match binary_search (compute_line_offsets (a ++ b)) (size a) with inl e => e | inr q => q - 1 end = i /\
              nth_error (compute_line_offsets (a ++ b)) i = Some (size l) /\ a = l ++ m /\ p = (i, units m) /\
              u32 i = Some i) as (i & l & m & -> & -> & E & -> & Ui).
    { destruct R as [((m & (l & E & HS & HN) & ->) & D)|(-> & O & ->)].
      - exists (breaks a), l, m. split; [|split; [|split; [|split]]]; auto.
        + destruct (line_end_cases a) as [C|C]; [now rewrite index_line_start|].
          destruct D as [D|D]; [rewrite index_inside by auto; lia|]. exfalso. eapply closed_not_open; eauto.
        + subst a. rewrite (last_line_breaks _ m l eq_refl HN), <- app_assoc. now apply nth_offset.
        + apply (short_small (a ++ b)); auto. rewrite size_app. lia.
      - rewrite app_nil_r in *. exists (Datatypes.S (breaks a)), a, []. rewrite app_nil_r. split; [|split; [|split; [|split]]]; auto.
        + now rewrite index_end.
        + now apply nth_end.
        + apply (short_small a); auto.
          destruct O as (a' & c & -> & Hc). rewrite breaks_app, size_app, breaks_other by auto. pose proof (breaks_size a').
          change (breaks []) with 0. change (size [c]) with (u8 c + 0). pose proof (u8_pos c). lia. }
    rewrite Ui. subst a. destruct (forallb _ ((l ++ m) ++ b)) eqn:A.
    + cbn [orb]. rewrite size_app. destruct (Nat.leb_spec (size l) (size l + size m)); [|lia]. do 3 f_equal.
      rewrite !forallb_app in A. apply andb_true_iff in A. destruct A as [A _]. apply andb_true_iff in A. destruct A as [_ A].
      destruct (ascii_size m A) as [E1 E2]. lia.
    + cbn [orb]. destruct keep; auto. rewrite boundary_app.
      assert (slice ((l ++ m) ++ b) (size l) (size (l ++ m)) = Some m) as ->. { rewrite <- app_assoc. apply slice_app. }
      rewrite (short_small ((l ++ m) ++ b) (units m)); auto. pose proof (units_le_size m). rewrite !size_app. lia.
  - destruct (forallb _ t) eqn:A; [rewrite ascii_boundary in B by auto; easy|]. cbn [andb orb].
    destruct (nth_error _ _); auto. destruct keep; auto. now rewrite B.
Qed.
Print Assumptions C41_source_file.

Example C41_example :
  offset_to_line_character sample 4 = Some (0, 2) /\ offset_to_line_character sample 9 = Some (1, 2) /\
  offset_to_line_character sample 7 = Some (1, 0) /\ short sample /\
  lsp_position [97; 20320; 10; 128512]%N (1, 2).
Proof.
  repeat split; try (vm_compute; reflexivity); [unfold short; cbn; lia|].
  exists [128512]%N. split; [|reflexivity]. exists [97; 20320; 10]%N. repeat split; [right; now exists [97; 20320]%N|].
  intros [E|[]]. discriminate.
Qed.

(** ** C40 *)

Theorem C40_round_trip : forall a b, short (a ++ b) ->
  exists line character, offset_to_line_character (a ++ b) (size a) = Some (line, character) /\
    line_character_to_offset (a ++ b) line character = Some (size a).
Proof.
  intros a b S. destruct (reported_exists a b) as ([line ch] & R). exists line, ch. split; [now apply position_at|].
  destruct (offset_at (a ++ b) line ch) as (a' & b' & E & -> & P). f_equal.
  destruct R as [((m & HM & EP) & D)|(-> & O & EP)]; injection EP as -> ->.
  - destruct P as [P|(-> & L)].
    + destruct (points_unique (breaks a) (units m) a b a' b') as [-> _]; auto. split; auto. exists m. split; [auto|]. split; [lia|].
      destruct b as [|c b]; auto. right. pose proof (u16_pos c). lia.
    + rewrite breaks_app in L. lia.
  - rewrite app_nil_r in *. destruct P as [(B & _)|(-> & _)].
    + rewrite E, breaks_app in B. lia.
    + rewrite app_nil_r in E. now subst.
Qed.
Print Assumptions C40_round_trip.

(** No offset and no position panics; an offset inside a character counts as the character's start,
    one beyond the end as the end. *)
Theorem C40_any_offset : forall t o, short t -> exists a b, t = a ++ b /\ size a <= o /\
  (forall a' b', t = a' ++ b' -> size a' <= o -> size a' <= size a) /\
  exists p, offset_to_line_character t o = Some p /\ offset_to_line_character t (size a) = Some p.
Proof.
  intros t o S. destruct (position_any t o S) as (a & b & p & E & L & H & R & P). exists a, b.
  repeat split; auto. exists p. split; auto. subst t. now apply position_at.
Qed.
Print Assumptions C40_any_offset.

(** The offset of a position is the one the protocol defines; beyond the last line it is the end. *)
Theorem C40_any_position : forall t line character, exists a b, t = a ++ b /\
  line_character_to_offset t line character = Some (size a) /\
  (points_at line character a b \/ (b = [] /\ breaks t < line)).
Proof. apply offset_at. Qed.
Print Assumptions C40_any_position.
Theorem C40_points_at_determines : forall line ch a b a' b', a ++ b = a' ++ b' ->
  points_at line ch a b -> points_at line ch a' b' -> a = a' /\ b = b'.
Proof. apply points_unique. Qed.
Print Assumptions C40_points_at_determines.

Theorem C40_monotone : forall t o1 o2 p1 p2, short t -> o1 <= o2 ->
  offset_to_line_character t o1 = Some p1 -> offset_to_line_character t o2 = Some p2 -> pos_le p1 p2.
Proof.
  intros t o1 o2 p1 p2 S L E1 E2.
  destruct (position_any t o1 S) as (a1 & b1 & q1 & T1 & L1 & M1 & R1 & Q1).
  destruct (position_any t o2 S) as (a2 & b2 & q2 & T2 & L2 & M2 & R2 & Q2).
  rewrite Q1 in E1. rewrite Q2 in E2. injection E1 as <-. injection E2 as <-.
  assert (size a1 <= size a2) as LE. { apply (M2 a1 b1 T1). lia. }
  destruct (cut_le t a1 b1 a2 b2 T1 T2 LE) as (m & -> & ->). eapply reported_mono; eauto.
Qed.
Print Assumptions C40_monotone.

Theorem C40_offsets_monotone : forall t l1 c1 l2 c2 o1 o2, pos_le (l1, c1) (l2, c2) ->
  line_character_to_offset t l1 c1 = Some o1 -> line_character_to_offset t l2 c2 = Some o2 -> o1 <= o2.
Proof.
  intros t l1 c1 l2 c2 o1 o2 LE E1 E2.
  destruct (offset_at t l1 c1) as (a1 & b1 & T1 & Q1 & P1), (offset_at t l2 c2) as (a2 & b2 & T2 & Q2 & P2).
  rewrite Q1 in E1. rewrite Q2 in E2. injection E1 as <-. injection E2 as <-.
  destruct P2 as [P2|(-> & L2)].
  - destruct P1 as [P1|(-> & L1)].
    + eapply (points_mono l1 c1 l2 c2 a1 b1 a2 b2); eauto. congruence.
    + destruct P2 as (B & _). assert (breaks a2 <= breaks t) by (rewrite T2, breaks_app; lia).
      unfold pos_le in LE. cbn in LE. lia.
  - assert (size a1 <= size t) by (rewrite T1, size_app; lia). rewrite app_nil_r in T2. subst a2. auto.
Qed.
Print Assumptions C40_offsets_monotone.

Example C40_example :
  line_character_to_offset sample 1 1 = Some 5 /\ line_character_to_offset sample 1 2 = Some 9 /\
  line_character_to_offset sample 0 99 = Some 4 /\ line_character_to_offset sample 7 0 = Some 12 /\
  offset_to_line_character sample 99 = Some (3, 0) /\ pos_le (1, 1) (1, 2).
Proof. do 5 (split; [reflexivity|]). right. cbn. auto. Qed.

(** ** C69: the edit of a formatted document replaces all of it *)

Lemma after_last_spec t : last_line t (after_last_newline t).
Proof.
  assert (forall t, existsb (fun d => (d =? nl)%N) t = true <-> In nl t) as EX.
  { intros l. rewrite existsb_exists. split.
    - intros (d & H & E). apply N.eqb_eq in E. now subst.
    - intros H. exists nl. split; auto. }
  induction t as [|c t IH]; [exists []; repeat split; auto; now left|]. cbn [after_last_newline].
  destruct (existsb _ (c :: t)) eqn:E.
  - apply EX in E. destruct IH as (l & H & S & N). exists (c :: l). split; [cbn; congruence|]. split; auto.
    destruct S as [->|(l' & ->)]; [|right; now exists (c :: l')]. right. exists []. cbn in *.
    destruct E as [->|E]; auto. exfalso. apply N. now rewrite <- H.
  - exists []. split; [auto|]. split; [now left|]. intros H. apply EX in H. congruence.
Qed.
Theorem C69_document_end : forall t, lsp_position t (document_end t) /\
  line_character_to_offset t 0 0 = Some 0 /\
  line_character_to_offset t (fst (document_end t)) (snd (document_end t)) = Some (size t).
Proof.
  intros t.
  assert (fst (document_end t) = breaks t) as EB.
  { unfold document_end. cbn [fst]. clear. induction t as [|c t IH]; auto. cbn [filter].
    destruct (N.eqb_spec c nl) as [->|H]; cbn [length]; [rewrite breaks_nl|rewrite breaks_other by auto]; lia. }
  assert (lsp_position t (document_end t)) as P.
  { exists (after_last_newline t). split; [apply after_last_spec|]. rewrite (surjective_pairing (document_end t)), EB. reflexivity. }
  split; auto. split.
  - destruct (offset_at t 0 0) as (a & b & E & -> & H). f_equal. destruct H as [(B & m & (l & -> & S & N) & U & _)|(_ & L)]; [|lia].
    assert (m = []) as ->. { destruct m as [|c m]; auto. rewrite units_cons in U. pose proof (u16_pos c). lia. }
    rewrite app_nil_r in *. destruct S as [->|(l' & ->)]; auto. rewrite breaks_app in B. cbn in B. lia.
  - destruct (offset_at t (fst (document_end t)) (snd (document_end t))) as (a & b & E & -> & H). f_equal.
    destruct H as [H|(-> & L)]; [|lia].
    destruct (points_unique (fst (document_end t)) (snd (document_end t)) a b t []) as [-> _]; auto; [now rewrite app_nil_r|].
    split; auto. exists (after_last_newline t). split; [apply after_last_spec|]. split; [cbn; lia|auto].
Qed.
Print Assumptions C69_document_end.
Example C69_example : document_end sample = (2, 1) /\ document_end [97; 10]%N = (1, 0).
Proof. split; reflexivity. Qed.

(** ** C68: positions reported by the linter *)

(** A line and byte column the linter may report: in line [line] (numbered from 1), after [m]; the
    line's end is before its line break, "\n" or "\r\n". *)
Definition linter_place (t : text) (line column : nat) (a m b : text) : Prop :=
  t = a ++ m ++ b /\ at_line_start a /\ S (breaks a) = line /\ ~ In nl m /\ size m = column /\
  ~ (exists m' b', m = m' ++ [cr] /\ b = nl :: b').

(** A line without the carriage return of its line break. *)
Definition chomp (m : text) : text :=
  match rev m with d :: a => if (d =? cr)%N then rev a else m | [] => m end.
Lemma chomp_cr m : chomp (m ++ [cr]) = m.
Proof. unfold chomp. rewrite rev_app_distr. cbn. now rewrite rev_involutive. Qed.
Lemma chomp_other m : (forall m', m <> m' ++ [cr]) -> chomp m = m.
Proof.
  intros H. unfold chomp. destruct (rev m) as [|d a] eqn:E; auto. destruct (N.eqb_spec d cr) as [->|]; auto.
  exfalso. apply (H (rev a)). rewrite <- (rev_involutive m), E. reflexivity.
Qed.
Lemma ends_cr m : (exists m', m = m' ++ [cr]) \/ forall m', m <> m' ++ [cr].
Proof.
  destruct m as [|d m] using rev_ind; [right; intros [|]; discriminate|]. destruct (N.eq_dec d cr) as [->|H]; [left; eauto|].
  right. intros m' E. apply app_inj_tail in E. destruct E. congruence.
Qed.

Lemma lines_from_row m : forall acc r, ~ In nl m ->
  lines_from acc (m ++ nl :: r) = chomp (rev acc ++ m) :: lines_from [] r.
Proof.
  induction m as [|c m IH]; intros acc r N.
  - cbn [app lines_from]. rewrite N.eqb_refl, app_nil_r. f_equal. unfold chomp. rewrite rev_involutive.
    destruct acc as [|d a]; auto. destruct (d =? cr)%N; auto.
  - cbn [app lines_from]. destruct (N.eqb_spec c nl) as [->|]; [exfalso; apply N; now left|].
    rewrite IH by (intros Hi; apply N; now right). cbn [rev]. now rewrite <- app_assoc.
Qed.
Lemma lines_from_end m : forall acc, ~ In nl m ->
  lines_from acc m = match rev acc ++ m with [] => [] | l => [l] end.
Proof.
  induction m as [|c m IH]; intros acc N.
  - cbn [lines_from]. rewrite app_nil_r. destruct acc as [|d a]; auto. destruct (rev (d :: a)) eqn:E; auto.
    apply (f_equal (fun l => length l)) in E. rewrite rev_length in E. discriminate.
  - cbn [lines_from]. destruct (N.eqb_spec c nl) as [->|]; [exfalso; apply N; now left|].
    rewrite IH by (intros Hi; apply N; now right). cbn [rev]. now rewrite <- app_assoc.
Qed.
Lemma first_row a : at_line_start a -> a = [] \/ exists m a', a = m ++ nl :: a' /\ ~ In nl m /\ at_line_start a'.
Proof.
  induction a as [|c a IH]; intros S; auto. right. destruct (N.eq_dec c nl) as [->|H].
  - exists [], a. repeat split; auto. destruct S as [|(a' & E)]; [easy|]. destruct a' as [|d a']; cbn in E.
    + left. congruence.
    + right. exists a'. congruence.
  - assert (at_line_start a) as S'.
    { destruct S as [|(a' & E)]; [easy|]. destruct a' as [|d a']; cbn in E; [congruence|]. right. exists a'. congruence. }
    destruct (IH S') as [->|(m & a' & -> & N & S2)].
    + exfalso. destruct S as [|([|d a'] & E)]; [easy|cbn in E; congruence|]. cbn in E. injection E as E1 E2. now destruct a'.
    + exists (c :: m), a'. repeat split; auto. intros [E|Hi]; auto.
Qed.
Lemma nth_line_row n : forall a m r, length a <= n -> at_line_start a -> ~ In nl m -> (r = [] \/ exists r', r = nl :: r') ->
  nth_error (lines (a ++ m ++ r)) (breaks a) =
  match r with [] => match m with [] => None | _ => Some m end | _ => Some (chomp m) end.
Proof.
  induction n as [|n IH]; intros a m r L S N R; destruct (first_row a S) as [->|(m0 & a' & -> & N0 & S0)].
  1,3: cbn [app]; unfold lines; destruct R as [->|(r' & ->)];
       [rewrite app_nil_r, lines_from_end by auto; cbn; now destruct m|rewrite lines_from_row by auto; reflexivity].
  - rewrite app_length in L. cbn [length] in L. exfalso. clear - L. lia.
  - unfold lines. rewrite <- app_assoc. cbn [app]. rewrite lines_from_row by auto.
    rewrite breaks_app, breaks_nl, (breaks_none m0 N0). cbn [Nat.add nth_error]. apply IH; auto.
    rewrite app_length in L. cbn in L. lia.
Qed.
Lemma row_of m b : ~ In nl m -> exists k r, b = k ++ r /\ ~ In nl (m ++ k) /\ (r = [] \/ exists r', r = nl :: r').
Proof.
  intros N. revert m N. induction b as [|c b IH]; intros m N.
  - exists [], []. split; [reflexivity|]. rewrite (app_nil_r m). auto.
  - destruct (N.eq_dec c nl) as [->|H].
    + exists [], (nl :: b). split; [reflexivity|]. rewrite (app_nil_r m). split; [exact N|]. right. eauto.
    + destruct (IH (m ++ [c])) as (k & r & -> & N' & R).
      { intros Hi. apply in_app_or in Hi. destruct Hi as [|[|[]]]; auto. }
      exists (c :: k), r. rewrite <- app_assoc in N'. split; [reflexivity|]. split; [exact N'|exact R].
Qed.
Lemma lines_count t : length (lines t) <= S (breaks t).
Proof.
  unfold lines. assert (forall acc, length (lines_from acc t) <= S (breaks t)) as H; [|apply H].
  induction t as [|c t IH]; intros acc; cbn [lines_from].
  - destruct acc; cbn; lia.
  - destruct (N.eqb_spec c nl) as [->|Hc]; [rewrite breaks_nl; cbn [length]; specialize (IH []); lia|].
    rewrite breaks_other by auto. apply IH.
Qed.

Lemma rubocop_at x y t i : nth_error (lines t) i = Some (x ++ y) -> rubocop_position t (S i) (size x) = Some (i, units x).
Proof.
  intros E. unfold rubocop_position. rewrite E, boundary_app, upto_app.
  destruct (Nat.ltb_spec (size (x ++ y)) (size x)) as [L|L]; auto. rewrite size_app in L. lia.
Qed.

(** Every accepted place is converted to its protocol position. *)
Theorem C68_linter_position_sound : forall t line column p, rubocop_position t line column = Some p ->
  exists a m b, linter_place t line column a m b /\ lsp_position (a ++ m) p.
Proof.
  intros t line column p E. destruct line as [|i]; [easy|]. cbn [rubocop_position] in E.
  destruct (nth_error (lines t) i) as [row|] eqn:NL; [|easy].
  destruct (Nat.ltb_spec (size row) column); [easy|]. cbn [orb] in E. destruct (boundary row column) eqn:B; [|easy]. cbn [negb] in E.
  apply boundary_spec in B. destruct B as (x & y & -> & <-). rewrite upto_app in E. injection E as <-.
  assert (i <= breaks t) as Li.
  { assert (i < length (lines t)) by (apply nth_error_Some; congruence). pose proof (lines_count t). lia. }
  destruct (line_cut t i Li) as (a & m & r & -> & S & <- & N & R).
  rewrite (nth_line_row (length a) a m r) in NL by auto.
  assert (exists z, m = x ++ z /\ ~ (exists x' b', x = x' ++ [cr] /\ z ++ r = nl :: b')) as (z & -> & NC).
  { destruct R as [->|(r' & ->)].
    - destruct m as [|c m]; [easy|]. injection NL as NL. exists y. rewrite NL in *. split; auto. intros (x' & b' & _ & E).
      apply N. rewrite app_nil_r in E. rewrite E. apply in_or_app. right. now left.
    - injection NL as NL. destruct (ends_cr m) as [(m' & ->)|NC].
      + rewrite chomp_cr in NL. subst m'. exists (y ++ [cr]). rewrite app_assoc. split; auto. intros (x' & b' & _ & E).
        destruct y as [|d y]; cbn in E; [discriminate|]. injection E as -> _. apply N. apply in_or_app. left.
        apply in_or_app. right. now left.
      + rewrite chomp_other in NL by auto. exists y. split; auto. intros (x' & b' & -> & E).
        destruct y as [|d y]; [rewrite app_nil_r in NL; now apply (NC x')|]. cbn in E. injection E as -> _. apply N. rewrite NL.
        apply in_or_app. right. now left. }
  exists a, x, (z ++ r). assert (~ In nl x) as Nx by (intros Hi; apply N; apply in_or_app; now left).
  split.
  - split; [now rewrite <- app_assoc|]. repeat split; auto.
  - exists x. split; [exists a; auto|]. now rewrite breaks_app, (breaks_none x Nx), Nat.add_0_r.
Qed.
Print Assumptions C68_linter_position_sound.

(** Every place is accepted, but for the empty line after the last newline. *)
Theorem C68_linter_position_partial : forall t line column a m b, linter_place t line column a m b -> m ++ b <> [] ->
  exists p, rubocop_position t line column = Some p /\ lsp_position (a ++ m) p.
Proof.
  intros t line column a m b (-> & S & <- & N & <- & NC) NE. exists (breaks a, units m). split.
  - destruct (row_of m b N) as (k & r & -> & Nk & R).
    assert (exists y, nth_error (lines (a ++ m ++ k ++ r)) (breaks a) = Some (m ++ y)) as (y & E); [|now apply (rubocop_at m y)].
    replace (a ++ m ++ k ++ r) with (a ++ (m ++ k) ++ r) by now rewrite <- app_assoc.
    rewrite (nth_line_row (length a)) by auto. destruct R as [->|(r' & ->)].
    + rewrite app_nil_r in NE. exists k. destruct (m ++ k); easy.
    + destruct (ends_cr (m ++ k)) as [(z & E)|NE'].
      * rewrite E, chomp_cr. destruct k as [|d k] using rev_ind.
        -- exfalso. apply NC. rewrite app_nil_r in E. exists z, r'. auto.
        -- rewrite app_assoc in E. apply app_inj_tail in E. destruct E as [<- _]. now exists k.
      * rewrite chomp_other by auto. now exists k.
  - exists m. split; [exists a; auto|]. now rewrite breaks_app, (breaks_none m N), Nat.add_0_r.
Qed.
Print Assumptions C68_linter_position_partial.

(** An offense on that line is an error (and one error discards all offenses of the file). *)
Theorem C68_last_line_refuted : exists t line column a m b,
  linter_place t line column a m b /\ rubocop_position t line column = None.
Proof.
  exists [97; 10]%N, 2, 0, [97; 10]%N, [], []. split; [|reflexivity]. repeat split; auto.
  - right. now exists [97%N].
  - intros (m' & b' & E & _). now destruct m'.
Qed.
Print Assumptions C68_last_line_refuted.

Example C68_example :
  rubocop_position [97; 20320; 13; 10; 98]%N 1 4 = Some (0, 2) /\
  rubocop_position [97; 20320; 13; 10; 98]%N 1 5 = None /\
  rubocop_position [97; 20320; 13; 10; 98]%N 2 1 = Some (1, 1).
Proof. repeat split. Qed.
