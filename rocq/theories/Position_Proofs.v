(** Proofs about positions. *)
From Coq Require Import List Arith NArith Lia Bool.
From Verif Require Import Text_Lib Position_Model Position_Spec.
Import ListNotations.

(** ** Lines *)

Lemma breaks_app a b : breaks (a ++ b) = breaks a + breaks b.
Proof. apply count_occ_app. Qed.
Lemma breaks_nl a : breaks (nl :: a) = S (breaks a).
Proof. unfold breaks. now rewrite count_occ_cons_eq. Qed.
Lemma breaks_other c a : c <> nl -> breaks (c :: a) = breaks a.
Proof. intros H. unfold breaks. now rewrite count_occ_cons_neq. Qed.
Lemma breaks_none a : ~ In nl a -> breaks a = 0.
Proof. intros H. now apply count_occ_not_In. Qed.
Lemma breaks_size a : breaks a <= size a.
Proof.
  induction a as [|c a IH]; auto. rewrite size_cons. pose proof (u8_pos c).
  destruct (N.eq_dec c nl) as [->|H']; [rewrite breaks_nl|rewrite breaks_other by auto]; lia.
Qed.
Lemma u8_nl : u8 nl = 1. Proof. reflexivity. Qed.

Lemma last_line_exists a : exists m, last_line a m.
Proof.
  induction a as [|c a (m & l & -> & S & N)] using rev_ind.
  - exists [], []. repeat split; auto. now left.
  - destruct (N.eq_dec c nl) as [->|H].
    + exists [], ((l ++ m) ++ [nl]). rewrite app_nil_r. repeat split; auto. right. eauto.
    + exists (m ++ [c]), l. rewrite app_assoc. repeat split; auto. intros Hi. apply in_app_or in Hi.
      destruct Hi as [Hi|[Hi|[]]]; auto.
Qed.
Lemma last_line_breaks a m l : a = l ++ m -> ~ In nl m -> breaks a = breaks l.
Proof. intros -> N. rewrite breaks_app, (breaks_none m N). lia. Qed.
Lemma last_line_unique a m m' : last_line a m -> last_line a m' -> m = m'.
Proof.
  assert (forall l m l' m', l ++ m = l' ++ m' -> at_line_start l -> ~ In nl m' -> length l <= length l') as H.
  { intros l x l' x' E S N. destruct (Nat.le_gt_cases (length l) (length l')); auto. exfalso.
    assert (exists k, l = l' ++ k /\ k <> [] /\ x' = k ++ x) as (k & -> & Hk & ->).
    { revert l' E H. induction l as [|c l IH]; intros l' E H; [cbn in H; lia|]. destruct l' as [|c' l'].
      - exists (c :: l). cbn in E. repeat split; auto. easy.
      - cbn in E. injection E as -> E. cbn [length] in H.
        assert (exists k, l = l' ++ k /\ k <> [] /\ x' = k ++ x) as (k & -> & Hk & ->).
        { clear - E H. assert (length l' < length l) as L by lia. clear H. revert l' E L.
          induction l as [|d l IH]; intros l' E L; [cbn in L; lia|]. destruct l' as [|d' l'].
          - exists (d :: l). cbn in E. repeat split; auto. easy.
          - cbn in E, L. injection E as -> E. destruct (IH l' E) as (k & -> & Hk & ->); [lia|]. exists k. auto. }
        exists k. auto. }
    destruct S as [S|(l0 & S)].
    - apply app_eq_nil in S. easy.
    - apply N. destruct (exists_last Hk) as (k' & c & ->). rewrite app_assoc in S. apply app_inj_tail in S.
      destruct S as [_ ->]. apply in_or_app. left. apply in_or_app. right. now left. }
  intros (l & E & S & N) (l' & E' & S' & N').
  assert (length l = length l') as L.
  { apply Nat.le_antisymm; [apply (H l m l' m')|apply (H l' m' l m)]; auto; congruence. }
  subst a. assert (l = l' /\ m = m') as [_ R]; auto.
  clear - E' L. revert l' E' L. induction l as [|c l IH]; intros [|c' l'] E L; cbn in *; try lia; auto.
  injection E as -> E. destruct (IH l' E) as [-> ->]; auto.
Qed.

(** ** The line offsets *)

Lemma line_starts_app o a b : line_starts o (a ++ b) = line_starts o a ++ line_starts (o + size a) b.
Proof.
  revert o. induction a as [|c a IH]; intros o; cbn [app line_starts].
  - now rewrite Nat.add_0_r.
  - rewrite IH, size_cons, <- app_assoc. now rewrite Nat.add_assoc.
Qed.
Lemma line_starts_length o t : length (line_starts o t) = breaks t.
Proof.
  revert o. induction t as [|c t IH]; intros o; auto. cbn [line_starts]. rewrite app_length, IH.
  destruct (N.eqb_spec c nl) as [->|H]; [now rewrite breaks_nl|now rewrite breaks_other].
Qed.
Lemma line_starts_bounds o t y : In y (line_starts o t) -> o < y <= o + size t.
Proof.
  revert o. induction t as [|c t IH]; intros o H; [easy|]. cbn [line_starts] in H. rewrite size_cons. pose proof (u8_pos c).
  apply in_app_or in H. destruct H as [H|H].
  - destruct (N.eqb_spec c nl) as [->|]; [|easy]. destruct H as [<-|[]]. rewrite u8_nl. lia.
  - apply IH in H. lia.
Qed.
Lemma nth_line_start o p r : at_line_start p -> nth_error (o :: line_starts o (p ++ r)) (breaks p) = Some (o + size p).
Proof.
  intros [->|(p' & ->)].
  - cbn. now rewrite Nat.add_0_r.
  - rewrite breaks_app, <- app_assoc, line_starts_app. cbn [app line_starts]. rewrite N.eqb_refl.
    change (breaks [nl]) with 1. replace (breaks p' + 1) with (S (breaks p')) by lia. cbn [nth_error].
    rewrite nth_error_app2; rewrite line_starts_length; [|lia]. rewrite Nat.sub_diag. cbn. f_equal.
    rewrite size_app. change (size [nl]) with 1. change (u8 nl) with 1. lia.
Qed.

(** What is appended to the line starts: the length, when the last line is not ended. *)
Definition open_end (t : text) : Prop := exists t' c, t = t' ++ [c] /\ c <> nl.
Lemma line_end_cases t : at_line_start t \/ open_end t.
Proof.
  destruct t as [|d t] using rev_ind; [left; now left|]. destruct (N.eq_dec d nl) as [->|H].
  - left. right. eauto.
  - right. exists t, d. auto.
Qed.
Lemma last_app {A} (l : list A) x d : last (l ++ [x]) d = x.
Proof. induction l as [|y l IH]; auto. cbn [app last]. rewrite IH. destruct (l ++ [x]) eqn:E; auto. now destruct l. Qed.
Lemma last_in (l : list nat) x d : In (last (x :: l) d) (x :: l).
Proof.
  revert x. induction l as [|y l IH]; intros x; [now left|]. right. change (last (x :: y :: l) d) with (last (y :: l) d). apply IH.
Qed.
Lemma offsets_closed t : at_line_start t -> compute_line_offsets t = 0 :: line_starts 0 t.
Proof.
  unfold compute_line_offsets. intros [->|(t' & ->)]; [reflexivity|].
  rewrite line_starts_app. cbn [line_starts]. rewrite N.eqb_refl, app_nil_r.
  replace (last (0 :: line_starts 0 t' ++ [0 + size t' + u8 nl]) 0) with (size (t' ++ [nl])).
  - now rewrite Nat.eqb_refl.
  - change (0 :: line_starts 0 t' ++ [0 + size t' + u8 nl]) with ((0 :: line_starts 0 t') ++ [0 + size t' + u8 nl]).
    rewrite last_app, size_app. reflexivity.
Qed.
Lemma open_starts t y : open_end t -> In y (0 :: line_starts 0 t) -> y < size t.
Proof.
  intros (t' & c & -> & H) Hy. rewrite size_app. change (size [c]) with (u8 c + 0). pose proof (u8_pos c).
  destruct Hy as [<-|Hy]; [lia|]. rewrite line_starts_app in Hy. cbn [line_starts] in Hy.
  destruct (N.eqb_spec c nl); [easy|]. cbn in Hy. rewrite app_nil_r in Hy. apply line_starts_bounds in Hy. lia.
Qed.
Lemma offsets_open t : open_end t -> compute_line_offsets t = (0 :: line_starts 0 t) ++ [size t].
Proof.
  intros H. unfold compute_line_offsets. destruct (Nat.eqb_spec (last (0 :: line_starts 0 t) 0) (size t)) as [E|]; auto.
  exfalso. pose proof (open_starts t _ H (last_in (line_starts 0 t) 0 0)). lia.
Qed.
Lemma closed_not_open t : at_line_start t -> open_end t -> False.
Proof.
  intros [->|(t' & ->)] (t'' & c & E & H); [now destruct t''|]. apply app_inj_tail in E. destruct E as [_ E]. congruence.
Qed.
Lemma offsets_extra t : exists extra, compute_line_offsets t = (0 :: line_starts 0 t) ++ extra /\
  (forall y, In y extra -> y = size t) .
Proof.
  destruct (line_end_cases t) as [H|H].
  - exists []. rewrite app_nil_r. split; [now apply offsets_closed|easy].
  - exists [size t]. split; [now apply offsets_open|]. now intros y [<-|[]].
Qed.

(** ** Searching *)

Lemma filter_below x (l : list nat) : (forall y, In y l -> y < x) -> filter (fun y => y <? x) l = l.
Proof.
  induction l as [|y l IH]; intros H; auto. cbn [filter]. destruct (Nat.ltb_spec y x).
  - f_equal. apply IH. intros; apply H; now right.
  - specialize (H y (or_introl eq_refl)). lia.
Qed.
Lemma filter_above x (l : list nat) : (forall y, In y l -> x <= y) -> filter (fun y => y <? x) l = [].
Proof.
  induction l as [|y l IH]; intros H; auto. cbn [filter]. destruct (Nat.ltb_spec y x).
  - specialize (H y (or_introl eq_refl)). lia.
  - apply IH. intros; apply H; now right.
Qed.
Lemma search_split l r x : (forall y, In y l -> y < x) -> (forall y, In y r -> x <= y) ->
  binary_search (l ++ r) x = match r with y :: _ => if y =? x then inl (length l) else inr (length l) | [] => inr (length l) end.
Proof.
  intros H1 H2. unfold binary_search. rewrite filter_app, (filter_below x l H1), (filter_above x r H2), app_nil_r.
  rewrite nth_error_app2, Nat.sub_diag by lia. now destruct r.
Qed.

Lemma index_line_start a b : at_line_start a ->
  binary_search (compute_line_offsets (a ++ b)) (size a) = inl (breaks a).
Proof.
  intros H. destruct (offsets_extra (a ++ b)) as (extra & -> & HX).
  assert (forall y, In y extra -> size a <= y) as HX'. { intros y Hy. rewrite (HX y Hy), size_app. lia. }
  assert (forall y, In y (line_starts (0 + size a) b) -> size a <= y) as HB.
  { intros y Hy. apply line_starts_bounds in Hy. lia. }
  rewrite line_starts_app. destruct H as [->|(a' & ->)].
  - cbn [line_starts app]. unfold binary_search. rewrite filter_above; [reflexivity|]. intros y _. cbn. lia.
  - assert (line_starts 0 (a' ++ [nl]) = line_starts 0 a' ++ [size (a' ++ [nl])]) as ->.
    { rewrite line_starts_app. cbn [line_starts]. rewrite N.eqb_refl, app_nil_r, size_app. reflexivity. }
    replace ((0 :: (line_starts 0 a' ++ [size (a' ++ [nl])]) ++ line_starts (0 + size (a' ++ [nl])) b) ++ extra)
      with ((0 :: line_starts 0 a') ++ size (a' ++ [nl]) :: line_starts (0 + size (a' ++ [nl])) b ++ extra)
      by (cbn; now rewrite <- !app_assoc).
    assert (size a' < size (a' ++ [nl])) as L by (rewrite size_app; cbn; lia).
    rewrite search_split.
    + rewrite Nat.eqb_refl. f_equal. cbn [length]. rewrite line_starts_length, breaks_app. cbn. lia.
    + intros y [<-|Hy]; [lia|]. apply line_starts_bounds in Hy. lia.
    + intros y [<-|Hy]; [lia|]. apply in_app_or in Hy. destruct Hy; auto.
Qed.
Lemma open_starts_le a y : open_end a -> In y (0 :: line_starts 0 a) -> y < size a.
Proof. apply open_starts. Qed.
Lemma index_inside a b : open_end a -> b <> [] ->
  binary_search (compute_line_offsets (a ++ b)) (size a) = inr (S (breaks a)).
Proof.
  intros H Hb. destruct (offsets_extra (a ++ b)) as (extra & -> & HX).
  assert (size a < size (a ++ b)) as L.
  { rewrite size_app. destruct b as [|c b]; [easy|]. rewrite size_cons. pose proof (u8_pos c). lia. }
  rewrite line_starts_app, app_comm_cons, <- app_assoc.
  assert (forall y, In y (line_starts (0 + size a) b ++ extra) -> size a < y) as HB.
  { intros y Hy. apply in_app_or in Hy. destruct Hy as [Hy|Hy].
    - apply line_starts_bounds in Hy. lia.
    - now rewrite (HX y Hy). }
  rewrite search_split.
  - cbn [length]. rewrite line_starts_length. destruct (line_starts (0 + size a) b ++ extra) as [|y l] eqn:E; auto.
    destruct (Nat.eqb_spec y (size a)) as [->|]; auto. specialize (HB (size a) (or_introl eq_refl)). lia.
  - intros y. now apply open_starts.
  - intros y Hy. apply HB in Hy. lia.
Qed.
Lemma index_end a : open_end a -> binary_search (compute_line_offsets a) (size a) = inl (S (breaks a)).
Proof.
  intros H. rewrite offsets_open by auto. rewrite search_split.
  - rewrite Nat.eqb_refl. cbn [length]. now rewrite line_starts_length.
  - intros y. now apply open_starts.
  - intros y [<-|[]]. lia.
Qed.
Lemma nth_offset p r : at_line_start p -> nth_error (compute_line_offsets (p ++ r)) (breaks p) = Some (size p).
Proof.
  intros H. destruct (offsets_extra (p ++ r)) as (extra & -> & _). rewrite nth_error_app1.
  - now apply (nth_line_start 0).
  - cbn [length]. rewrite line_starts_length, breaks_app. lia.
Qed.
Lemma nth_end a : open_end a -> nth_error (compute_line_offsets a) (S (breaks a)) = Some (size a).
Proof.
  intros H. rewrite offsets_open by auto. rewrite nth_error_app2; cbn [length]; rewrite line_starts_length; [|lia].
  now rewrite Nat.sub_diag.
Qed.

Lemma u32_ok n t : short t -> n <= size t -> u32 n = Some n.
Proof. unfold short, u32. intros H L. destruct (N.leb_spec (N.of_nat n) 4294967295); auto. lia. Qed.

(** ** Offsets to positions *)

(** What is reported at the end of a text whose last line is not ended. *)
Definition reported (a b : text) (p : nat * nat) : Prop :=
  (lsp_position a p /\ (b <> [] \/ at_line_start a)) \/ (b = [] /\ open_end a /\ p = (S (breaks a), 0)).

Lemma reported_exists a b : exists p, reported a b p.
Proof.
  destruct (last_line_exists a) as (m & H). destruct b as [|c b].
  - destruct (line_end_cases a) as [C|C].
    + exists (breaks a, units m). left. split; auto. exists m. auto.
    + exists (S (breaks a), 0). right. auto.
  - exists (breaks a, units m). left. split; [exists m; auto|left; easy].
Qed.
Lemma reported_unique a b p q : reported a b p -> reported a b q -> p = q.
Proof.
  intros [((m & H & ->) & D)|(E & O & ->)] [((m' & H' & ->) & D')|(E' & O' & ->)]; auto.
  - now rewrite (last_line_unique _ _ _ H H').
  - exfalso. destruct D; [easy|]. eapply closed_not_open; eauto.
  - exfalso. destruct D'; [easy|]. eapply closed_not_open; eauto.
Qed.

Lemma floor_cut t n : exists a b, t = a ++ b /\ size a = floor_boundary t n /\ size a <= n /\
  forall a' b', t = a' ++ b' -> size a' <= n -> size a' <= size a.
Proof.
  induction n as [|n IH].
  - exists [], t. cbn. repeat split; auto. 
  - cbn [floor_boundary]. destruct (boundary t (S n)) eqn:E.
    + apply boundary_spec in E. destruct E as (a & b & -> & H). exists a, b. repeat split; auto; lia.
    + destruct IH as (a & b & H1 & H2 & H3 & H4). exists a, b. repeat split; auto. intros a' b' E' L.
      assert (size a' <> S n) as N.
      { intros N. assert (boundary t (S n) = true) as B by (apply boundary_spec; eauto). congruence. }
      apply (H4 a' b' E'). lia.
Qed.
Lemma floor_at a b : floor_boundary (a ++ b) (size a) = size a.
Proof.
  destruct (floor_cut (a ++ b) (size a)) as (a' & b' & E & <- & L & H). specialize (H a b eq_refl). lia.
Qed.

Lemma position_at a b p : short (a ++ b) -> reported a b p -> offset_to_line_character (a ++ b) (size a) = Some p.
Proof.
  intros S R. unfold offset_to_line_character.
  assert (Nat.min (size a) (size (a ++ b)) = size a) as -> by (rewrite size_app; lia). rewrite floor_at.
  pose proof (breaks_size a) as BS.
  destruct R as [((m & (l & E & HS & HN) & ->) & D)|(-> & O & ->)].
  - assert (match binary_search (compute_line_offsets (a ++ b)) (size a) with inl e => Some e | inr 0 => None | inr (Datatypes.S q) => Some q end = Some (breaks a)) as ->.
    { destruct (line_end_cases a) as [C|C]; [now rewrite index_line_start|].
      destruct D as [D|D]; [now rewrite index_inside|]. exfalso. eapply closed_not_open; eauto. }
    assert (nth_error (compute_line_offsets (a ++ b)) (breaks a) = Some (size l)) as ->.
    { subst a. rewrite (last_line_breaks _ m l eq_refl HN), <- app_assoc. now apply nth_offset. }
    assert (slice (a ++ b) (size l) (size a) = Some m) as ->. { subst a. rewrite <- app_assoc. apply slice_app. }
    rewrite !(u32_ok _ (a ++ b)); auto.
    + subst a. pose proof (units_le_size m). rewrite !size_app. lia.
    + rewrite size_app. lia.
  - rewrite app_nil_r in *. rewrite index_end, nth_end by auto.
    assert (slice a (size a) (size a) = Some []) as ->.
    { unfold slice. rewrite <- (app_nil_r a) at 1. rewrite from_app, Nat.leb_refl, Nat.sub_diag. reflexivity. }
    assert (Datatypes.S (breaks a) <= size a) as L.
    { destruct O as (a' & c & -> & Hc). rewrite breaks_app, size_app, breaks_other by auto. pose proof (breaks_size a').
      change (breaks []) with 0. change (size [c]) with (u8 c + 0). pose proof (u8_pos c). lia. }
    rewrite (u32_ok _ a) by auto. cbn [units map sum]. now rewrite (u32_ok 0 a) by (auto; lia).
Qed.

Lemma position_any t o : short t -> exists a b p, t = a ++ b /\ size a <= o /\
  (forall a' b', t = a' ++ b' -> size a' <= o -> size a' <= size a) /\ reported a b p /\
  offset_to_line_character t o = Some p.
Proof.
  intros S. destruct (floor_cut t (Nat.min o (size t))) as (a & b & E & F & L & H).
  destruct (reported_exists a b) as (p & R). exists a, b, p. split; [auto|]. split; [lia|]. split; [|split; [exact R|]].
  - intros a' b' E' L'. apply (H a' b' E'). apply Nat.min_glb; auto. rewrite E', size_app. lia.
  - assert (offset_to_line_character t o = offset_to_line_character t (size a)) as ->.
    { unfold offset_to_line_character. rewrite <- F. subst t.
      assert (Nat.min (size a) (size (a ++ b)) = size a) as -> by (rewrite size_app; lia). now rewrite floor_at. }
    subst t. now apply position_at.
Qed.

(** Moving right moves the position forward. *)
Lemma lsp_mono a m p q : lsp_position a p -> lsp_position (a ++ m) q -> pos_le p q.
Proof.
  intros (x & H & ->) (y & H' & ->). unfold pos_le. cbn. rewrite breaks_app.
  destruct (breaks m) as [|n] eqn:E; [right|left; lia]. split; [lia|].
  assert (~ In nl m) as N. { apply (count_occ_not_In N.eq_dec). exact E. }
  assert (last_line (a ++ m) (x ++ m)) as H2.
  { destruct H as (l & -> & S & N'). exists l. rewrite app_assoc. repeat split; auto. intros Hi. apply in_app_or in Hi. tauto. }
  rewrite <- (last_line_unique _ _ _ H2 H'), units_app. lia.
Qed.
Lemma reported_mono a m b p q : reported a (m ++ b) p -> reported (a ++ m) b q -> pos_le p q.
Proof.
  intros [(H & D)|(E & O & ->)] [(H' & D')|(E' & O' & ->)].
  - eapply lsp_mono; eauto.
  - destruct H as (x & H & ->). left. cbn. rewrite breaks_app. lia.
  - apply app_eq_nil in E. destruct E as [-> ->]. rewrite app_nil_r in *. exfalso. destruct D' as [|D']; [easy|].
    eapply closed_not_open; eauto.
  - apply app_eq_nil in E. destruct E as [-> _]. rewrite app_nil_r. right. auto.
Qed.

(** ** Positions to offsets *)

Lemma advance_spec m r target : forall bo un, ~ In nl m -> un <= target -> (r = [] \/ exists r', r = nl :: r') ->
  exists m1 m2, m = m1 ++ m2 /\ advance (m ++ r) target bo un = bo + size m1 /\ un + units m1 <= target /\
    match m2 with [] => True | c :: _ => target < un + units m1 + u16 c end.
Proof.
  induction m as [|c m IH]; intros bo un N L R.
  - exists [], []. cbn. repeat split; auto; [|lia]. destruct R as [->|(r' & ->)]; cbn; [lia|]. rewrite orb_true_r. lia.
  - cbn [app advance]. destruct (N.eqb_spec c nl) as [->|Hc]; [exfalso; apply N; now left|]. rewrite orb_false_r.
    destruct (Nat.ltb_spec target (un + u16 c)).
    + exists [], (c :: m). cbn [app]. repeat split; auto; change (size []) with 0; change (units []) with 0; lia.
    + destruct (IH (bo + u8 c) (un + u16 c)) as (m1 & m2 & -> & E & L1 & L2); auto; [intros Hi; apply N; now right|].
      exists (c :: m1), m2. rewrite size_cons, units_cons. repeat split; auto; [lia|lia|].
      destruct m2; auto. lia.
Qed.

(** The line numbered [k]. *)
Lemma line_cut t : forall k, k <= breaks t -> exists p m r, t = p ++ m ++ r /\ at_line_start p /\ breaks p = k /\
  ~ In nl m /\ (r = [] \/ exists r', r = nl :: r').
Proof.
  induction t as [|c t IH]; intros k H.
  - cbn in H. exists [], [], []. repeat split; auto; [now left|cbn; lia].
  - destruct (N.eq_dec c nl) as [->|Hc].
    + rewrite breaks_nl in H. destruct k as [|k].
      * exists [], [], (nl :: t). repeat split; auto; [now left|right; eauto].
      * destruct (IH k) as (p & m & r & -> & S & B & N & R); [lia|]. exists (nl :: p), m, r. split; [reflexivity|]. split.
        { right. destruct S as [->|(p' & ->)]; [now exists []|]. now exists (nl :: p'). }
        split; [rewrite breaks_nl; lia|]. auto.
    + rewrite breaks_other in H by auto. destruct (IH k H) as (p & m & r & -> & S & B & N & R). destruct S as [->|(p' & ->)].
      * exists [], (c :: m), r. repeat split; auto; [now left|]. intros [E|Hi]; auto.
      * exists (c :: p' ++ [nl]), m, r. split; [reflexivity|]. split; [right; now exists (c :: p')|].
        split; [now rewrite breaks_other|]. auto.
Qed.

Lemma offset_at t line character : exists a b, t = a ++ b /\ line_character_to_offset t line character = Some (size a) /\
  (points_at line character a b \/ (b = [] /\ breaks t < line)).
Proof.
  unfold line_character_to_offset.
  destruct (Nat.leb_spec (length (compute_line_offsets t) - 1) line) as [L|L].
  - exists t, []. rewrite app_nil_r. split; [auto|]. split; [auto|].
    destruct (Nat.lt_ge_cases (breaks t) line) as [G|G]; auto. left.
    assert (at_line_start t) as C.
    { destruct (line_end_cases t) as [C|C]; auto. exfalso. rewrite offsets_open, app_length in L by auto.
      cbn [length] in L. rewrite line_starts_length in L. lia. }
    rewrite offsets_closed in L by auto. cbn [length] in L. rewrite line_starts_length in L.
    split; [lia|]. exists []. split; [|cbn; lia]. exists t. rewrite app_nil_r. auto.
  - assert (line <= breaks t) as LB.
    { destruct (line_end_cases t) as [C|C].
      - rewrite offsets_closed in L by auto. cbn [length] in L. rewrite line_starts_length in L. lia.
      - rewrite offsets_open, app_length in L by auto. cbn [length] in L. rewrite line_starts_length in L. lia. }
    destruct (line_cut t line LB) as (p & m & r & E & S & B & N & R).
    assert (nth_error (compute_line_offsets t) line = Some (size p)) as -> by (subst t line; now apply nth_offset).
    assert (exists s, (s = [] \/ exists s', s = nl :: s') /\
              nth_error (compute_line_offsets t) (Datatypes.S line) = Some (size (p ++ m ++ s)) /\
              exists r', r = s ++ r' /\ (s = [] -> r' = [])) as (s & Hs & -> & r' & Hr & Hs').
    { destruct R as [->|(r' & ->)].
      - exists []. split; [now left|]. rewrite app_nil_r in E. split.
        + assert (open_end t) as O.
          { destruct (line_end_cases t) as [C|C]; auto. exfalso.
            rewrite offsets_closed in L by auto. cbn [length] in L. rewrite line_starts_length in L.
            subst t. rewrite breaks_app, (breaks_none m N) in L. lia. }
          rewrite app_nil_r, <- E. replace line with (breaks t) by (subst t; rewrite breaks_app, (breaks_none m N); lia).
          now apply nth_end.
        + exists []. auto.
      - exists [nl]. split; [right; now exists []|]. split; [|exists r'; split; [auto|easy]].
        assert (Datatypes.S line = breaks (p ++ m ++ [nl])) as ->.
        { rewrite !breaks_app, (breaks_none m N). change (breaks [nl]) with 1. lia. }
        assert (t = (p ++ m ++ [nl]) ++ r') as -> by (subst t; now rewrite <- !app_assoc).
        apply nth_offset. right. exists (p ++ m). now rewrite app_assoc. }
    assert (slice t (size p) (size (p ++ m ++ s)) = Some (m ++ s)) as ->.
    { subst t r. rewrite app_assoc with (l := m). apply slice_app. }
    destruct (advance_spec m s character 0 0 N (Nat.le_0_l _) Hs) as (m1 & m2 & Em & -> & L1 & L2).
    exists (p ++ m1), (m2 ++ r). split; [subst t m; now rewrite <- !app_assoc|]. split; [now rewrite size_app|]. left.
    assert (~ In nl m1) as N1. { intros Hi. apply N. rewrite Em. apply in_or_app. now left. }
    split; [rewrite breaks_app, (breaks_none m1 N1); lia|]. exists m1. split; [exists p; auto|]. split; [lia|].
    destruct m2 as [|c m2]; cbn [app].
    + subst r. destruct Hs as [->|(s' & ->)]; [rewrite Hs' by auto; exact I|]. cbn. now left.
    + right. lia.
Qed.

Lemma points_unique line ch a b a' b' : a ++ b = a' ++ b' -> points_at line ch a b -> points_at line ch a' b' -> a = a' /\ b = b'.
Proof.
  assert (forall a b a' b', a ++ b = a' ++ b' -> size a <= size a' -> points_at line ch a b -> points_at line ch a' b' -> a = a' /\ b = b') as H.
  { intros x y x' y' E L (B & m & HM & U & C) (B' & m' & HM' & U' & C').
    destruct (cut_le _ x y x' y' eq_refl E L) as (k & -> & ->).
    assert (~ In nl k) as N. { rewrite breaks_app in B'. apply (count_occ_not_In N.eq_dec). unfold breaks in *. lia. }
    assert (last_line (x ++ k) (m ++ k)) as H2.
    { destruct HM as (l & -> & S & N'). exists l. rewrite app_assoc. repeat split; auto. intros Hi. apply in_app_or in Hi. tauto. }
    rewrite <- (last_line_unique _ _ _ H2 HM'), units_app in U'.
    destruct k as [|c k]; [now rewrite app_nil_r|]. exfalso. cbn [app] in C. rewrite units_cons in U'.
    destruct C as [->|C]; [apply N; now left|lia]. }
  intros E P P'. destruct (Nat.le_ge_cases (size a) (size a')) as [L|L].
  - now apply H.
  - destruct (H a' b' a b) as [-> ->]; auto.
Qed.
Lemma points_mono line ch line' ch' a b a' b' : a ++ b = a' ++ b' -> pos_le (line, ch) (line', ch') ->
  points_at line ch a b -> points_at line' ch' a' b' -> size a <= size a'.
Proof.
  intros E LE (B & m & HM & U & C) (B' & m' & HM' & U' & C').
  destruct (Nat.le_gt_cases (size a) (size a')) as [L|L]; auto. exfalso.
  destruct (cut_le (a' ++ b') a' b' a b eq_refl (eq_sym E)) as (k & -> & ->); [lia|]. rewrite size_app in L.
  assert (k <> []) as K by (intros ->; cbn in L; lia). rewrite breaks_app in B. unfold pos_le in LE. cbn in LE.
  assert (breaks k = 0 /\ line = line') as [BK ->] by lia.
  assert (~ In nl k) as N by now apply (count_occ_not_In N.eq_dec).
  assert (last_line (a' ++ k) (m' ++ k)) as H2.
  { destruct HM' as (l & -> & S & N'). exists l. rewrite app_assoc. repeat split; auto. intros Hi. apply in_app_or in Hi. tauto. }
  rewrite <- (last_line_unique _ _ _ H2 HM), units_app in U. destruct k as [|c k]; [easy|].
  cbn [app] in C'. rewrite units_cons in U. destruct C' as [->|C']; [apply N; now left|]. lia.
Qed.
