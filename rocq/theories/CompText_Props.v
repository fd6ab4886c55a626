(** C102: the text in front of the cursor is read as the user wrote it.

    For text that is ASCII up to the cursor the handler never fails, and the kind of candidates and the
    word they must start with are the ones an English reading of the text gives.  For other text the
    cuts are made at the wrong place: the request fails, or the text is misread. *)
From Coq Require Import List Arith NArith Bool Lia.
From Verif Require Import Text_Lib CompText_Model CompText_Spec.
Import ListNotations.

(** ** The library functions. *)
Lemma rfind_none p t : rfind p t = None -> Forall (fun c => p c = false) t.
Proof.
  induction t as [|c t IH]; cbn [rfind]; [constructor|].
  destruct (rfind p t); [easy|]. destruct (p c) eqn:E; [easy|]. intros _. constructor; auto.
Qed.
Lemma rfind_some p t : forall n, rfind p t = Some n ->
  exists a c b, t = a ++ c :: b /\ p c = true /\ Forall (fun c => p c = false) b /\ size a = n.
Proof.
  induction t as [|c t IH]; cbn [rfind]; [easy|]. intros n.
  destruct (rfind p t) as [m|] eqn:E.
  - intros [= <-]. destruct (IH m eq_refl) as (a & d & b & -> & Hd & Hb & Ha).
    exists (c :: a), d, b. rewrite size_cons. repeat split; auto.
  - destruct (p c) eqn:Ec; [|easy]. intros [= <-]. exists [], c, t. repeat split; auto. now apply rfind_none.
Qed.
Lemma rfind_app p a c b : p c = true -> Forall (fun c => p c = false) b -> rfind p (a ++ c :: b) = Some (size a).
Proof.
  intros Hc Hb. assert (rfind p b = None) as Eb.
  { induction b as [|d b IH]; [easy|]. inversion_clear Hb. cbn [rfind]. rewrite IH by auto. now rewrite H. }
  induction a as [|d a IH]; cbn [app rfind]; [now rewrite Eb, Hc|]. rewrite IH. now rewrite size_cons.
Qed.
Lemma u8_ascii c : (c < 128)%N -> u8 c = 1.
Proof. intros H. unfold u8. apply N.ltb_lt in H. now rewrite H. Qed.
Lemma u16_ascii c : (c < 65536)%N -> u16 c = 1.
Proof. intros H. unfold u16. apply N.ltb_lt in H. now rewrite H. Qed.
Lemma u8_wide c : (128 <= c)%N -> 2 <= u8 c.
Proof. intros H. unfold u8. destruct (N.ltb_spec c 128); [lia|]. destruct (_ <? _)%N; [lia|]. destruct (_ <? _)%N; lia. Qed.
Lemma ascii_size t : ascii t -> size t = length t.
Proof. induction 1; [easy|]. rewrite size_cons, u8_ascii by auto. cbn [length]. lia. Qed.
Lemma ascii_units t : ascii t -> units t = length t.
Proof. induction 1; [easy|]. rewrite units_cons, u16_ascii by lia. cbn [length]. lia. Qed.
Lemma ascii_app a b : ascii (a ++ b) <-> ascii a /\ ascii b.
Proof. apply Forall_app. Qed.
Lemma ascii_cut line pos before after : cursor line pos before after -> ascii before ->
  pos = size before /\ pos <= size line /\ upto line pos = Some before.
Proof.
  intros (-> & <-) H. rewrite ascii_units by auto. rewrite <- ascii_size by auto.
  rewrite size_app. repeat split; [lia|]. apply upto_app.
Qed.
(** The rest after a one-byte character. *)
Lemma after_char a c b : (c < 128)%N -> from (a ++ c :: b) (size a + 1) = Some b.
Proof.
  intros H. replace (a ++ c :: b) with ((a ++ [c]) ++ b) by now rewrite <- app_assoc.
  replace (size a + 1) with (size (a ++ [c])); [apply from_app|].
  rewrite size_app, size_cons, u8_ascii by auto. reflexivity.
Qed.
Lemma upto_some t : forall n a, upto t n = Some a -> exists b, t = a ++ b /\ size a = n.
Proof.
  induction t as [|c t IH]; intros n a E; destruct n as [|n]; cbn [upto] in E; try easy.
  - injection E as <-. now exists [].
  - injection E as <-. now exists (c :: t).
  - destruct (Nat.leb_spec (u8 c) (S n)) as [L|]; [|easy].
    destruct (upto t (S n - u8 c)) as [r|] eqn:Er; [|easy]. cbn in E. injection E as <-.
    destruct (IH _ _ Er) as (b & -> & Hb). exists b. split; auto. rewrite size_cons. lia.
Qed.
Lemma upto_none t n : boundary t n = false -> upto t n = None.
Proof.
  intros B. destruct (upto t n) as [a|] eqn:E; auto. destruct (upto_some _ _ _ E) as (b & -> & <-).
  now rewrite boundary_app in B.
Qed.
(** An offset strictly inside a character is no boundary. *)
Lemma inside a c b k : 0 < k < u8 c -> boundary (a ++ c :: b) (size a + k) = false.
Proof.
  intros K. destruct (boundary (a ++ c :: b) (size a + k)) eqn:B; auto.
  apply boundary_spec in B. destruct B as (x & y & E & H).
  destruct (cut_le (a ++ c :: b) a (c :: b) x y eq_refl E) as (m & -> & Em); [lia|].
  rewrite size_app in H. destruct m as [|d m]; [cbn in H; lia|].
  cbn in Em. injection Em as <- _. rewrite size_cons in H. lia.
Qed.

Section Tables.
Variable T : chars.

Lemma word_iff c : word T c = true <-> wordy T c.
Proof. unfold word, wordy, underscore. rewrite orb_true_iff, N.eqb_eq. reflexivity. Qed.
Lemma words_iff w : forallb (word T) w = true <-> Forall (wordy T) w.
Proof.
  rewrite forallb_forall, Forall_forall. split; intros H c Hc; apply word_iff; auto.
Qed.
Lemma not_word c : word T c = false <-> ~ wordy T c.
Proof. rewrite <- word_iff. destruct (word T c); intuition congruence. Qed.
Lemma dot_not_wordy : lawful T -> ~ wordy T 46.
Proof. intros (_ & _ & _ & _ & H) [E|E]; [congruence|discriminate]. Qed.
Lemma colon_not_wordy : lawful T -> ~ wordy T 58.
Proof. intros (_ & _ & _ & H & _) [E|E]; [congruence|discriminate]. Qed.
Lemma trim_id t : Forall (fun c => space T c = false) t -> trim T t = t.
Proof.
  assert (forall t, Forall (fun c => space T c = false) t -> trim_start T t = t) as H.
  { intros u []; cbn [trim_start]; [easy|]. now rewrite H. }
  intros Ht. unfold trim. rewrite (H t) by auto. rewrite H; [apply rev_involutive|].
  apply Forall_rev, Ht.
Qed.
Lemma wordy_space c : lawful T -> wordy T c -> space T c = false.
Proof. intros (H & U & _) [E| ->]; auto. Qed.

(** ** The three readings, for ASCII text. *)
Lemma dot_reading line pos before after : cursor line pos before after -> ascii before ->
  exists b, line_has_dot T line pos = Some b /\ (lawful T -> (b = true <-> after_dot T before)).
Proof.
  intros C A. destruct (ascii_cut _ _ _ _ C A) as (_ & L & E). unfold line_has_dot.
  apply Nat.leb_le in L. rewrite L, E. destruct (rfind (N.eqb dot) before) as [n|] eqn:R.
  - destruct (rfind_some _ _ _ R) as (a & c & b & -> & Hc & Hb & <-). apply N.eqb_eq in Hc. subst c.
    rewrite after_char by (unfold dot; lia). cbn [option_map]. eexists. split; [reflexivity|]. intros TL.
    rewrite words_iff. split; [intros W; now exists a, b|].
    intros (a' & w & E' & W). assert (length b <= length w) as Hl.
    { destruct (Nat.le_gt_cases (length b) (length w)) as [|G]; auto. exfalso.
      assert (In 46%N b) as I.
      { apply (f_equal (@rev N)) in E'. rewrite !rev_app_distr in E'. cbn [rev] in E'. rewrite <- !app_assoc in E'.
        apply in_rev. assert (nth_error (rev b ++ [dot] ++ rev a) (length w) = Some 46%N) as Hn.
        { rewrite E'. rewrite nth_error_app2 by (rewrite rev_length; lia). rewrite rev_length, Nat.sub_diag. reflexivity. }
        rewrite nth_error_app1 in Hn by (rewrite rev_length; lia). eapply nth_error_In, Hn. }
      rewrite Forall_forall in Hb. specialize (Hb _ I). discriminate. }
    assert (a ++ [dot] ++ b = a' ++ [46%N] ++ w) as E2 by exact E'.
    assert (length b = length w) as El.
    { destruct (Nat.eq_dec (length b) (length w)) as [|G]; auto. exfalso.
      apply (dot_not_wordy TL). rewrite Forall_forall in W. apply W.
      apply (f_equal (@rev N)) in E'. rewrite !rev_app_distr in E'. cbn [rev] in E'. rewrite <- !app_assoc in E'.
      apply in_rev. assert (nth_error (rev w ++ [46%N] ++ rev a') (length b) = Some 46%N) as Hn.
      { rewrite <- E'. rewrite nth_error_app2 by (rewrite rev_length; lia). rewrite rev_length, Nat.sub_diag. reflexivity. }
      rewrite nth_error_app1 in Hn by (rewrite rev_length; lia). eapply nth_error_In, Hn. }
    assert (a = a' /\ dot :: b = 46%N :: w) as (_ & Eb).
    { assert (length a = length a') as La by (apply (f_equal (@length N)) in E'; rewrite !app_length in E'; cbn in E'; lia).
      clear -E' La. revert a' E' La. induction a as [|x a IH]; intros [|x' a'] E' La; cbn in *; try lia; auto.
      injection E' as -> E'. destruct (IH a' E') as (-> & H); [lia|auto]. }
    injection Eb as ->. exact W.
  - exists false. split; auto. intros _. split; [easy|]. intros (a & w & -> & _).
    apply rfind_none in R. rewrite Forall_app in R. destruct R as (_ & R). inversion_clear R. discriminate.
Qed.

Lemma nth_cut (a b : text) n : n < length a -> nth_error (a ++ b) n = nth_error a n.
Proof. intros H. now apply nth_error_app1. Qed.

Lemma scope_reading trigger line pos before after : cursor line pos before after ->
  Forall (fun c => (c < 65536)%N) before ->
  scope_context trigger line pos = true <-> trigger = Some 58%N /\ after_colons before.
Proof.
  intros (-> & <-) A. assert (units before = length before) as E.
  { induction A; [easy|]. rewrite units_cons, u16_ascii by auto. cbn [length]. lia. }
  rewrite E. unfold scope_context. destruct trigger as [t|]; [|split; [easy|intros (H & _); easy]].
  unfold is_char, colon.
  split.
  - rewrite !andb_true_iff. intros (((Ht & L) & H1) & H2). apply N.eqb_eq in Ht. subst t. split; auto.
    apply Nat.leb_le in L. rewrite nth_cut in H1, H2 by lia.
    destruct (nth_error before (length before - 1)) as [x|] eqn:E1; [|easy].
    destruct (nth_error before (length before - 2)) as [y|] eqn:E2; [|easy].
    apply N.eqb_eq in H1, H2. subst x y.
    apply nth_error_split in E2. destruct E2 as (l1 & l2 & Eb & L1).
    assert (length l2 = 1) as L2 by (apply (f_equal (@length N)) in Eb; rewrite app_length in Eb; cbn in Eb; lia).
    destruct l2 as [|z [|]]; cbn in L2; try lia. exists l1. rewrite Eb in E1 |- *.
    rewrite nth_error_app2 in E1 by (rewrite app_length; cbn; lia). rewrite app_length in E1. cbn in E1.
    replace (length l1 + 2 - 1 - length l1) with 1 in E1 by lia. cbn in E1. congruence.
  - intros (Ht & a & ->). injection Ht as ->. rewrite app_length. cbn [length].
    replace (length a + 2 - 1) with (length a + 1) by lia. replace (length a + 2 - 2) with (length a) by lia.
    rewrite <- app_assoc. rewrite nth_error_app2 by lia. rewrite (nth_error_app2 a) by lia.
    replace (length a + 1 - length a) with 1 by lia. rewrite Nat.sub_diag.
    assert (2 <=? length a + 2 = true) as -> by (apply Nat.leb_le; lia). reflexivity.
Qed.

Lemma word_reading line pos before after : lawful T -> cursor line pos before after -> ascii before ->
  exists w, fallback_word T line pos = Some w /\ word_at T before w.
Proof.
  intros TL C A. destruct (ascii_cut _ _ _ _ C A) as (_ & L & E). unfold fallback_word.
  rewrite Nat.min_l by auto. rewrite E. destruct (rfind _ before) as [n|] eqn:R.
  - destruct (rfind_some _ _ _ R) as (a & c & b & -> & Hc & Hb & <-).
    rewrite ascii_app in A. destruct A as (_ & A). inversion_clear A.
    exists b. split; [now apply after_char|]. exists (a ++ [c]). rewrite <- app_assoc. split; [easy|]. split.
    + eapply Forall_impl; [|exact Hb]. intros d Hd. apply word_iff. cbn in Hd. now destruct (word T d).
    + right. exists a, c. split; auto. apply not_word. now destruct (word T c).
  - apply rfind_none in R. assert (Forall (wordy T) before) as W.
    { eapply Forall_impl; [|exact R]. intros d Hd. apply word_iff. cbn in Hd. now destruct (word T d). }
    rewrite trim_id. { exists before. split; auto. exists []. auto. }
    eapply Forall_impl; [|exact W]. intros d. now apply wordy_space.
Qed.

Lemma word_unique before w w' : word_at T before w -> word_at T before w' -> w = w'.
Proof.
  assert (forall w w', word_at T before w -> word_at T before w' -> length w <= length w') as H.
  { clear w w'. intros w w' (a & E & W & B) (a' & E' & W' & B').
    destruct (Nat.le_gt_cases (length w) (length w')) as [|G]; auto. exfalso.
    destruct B' as [->|(b & c & -> & Nc)].
    - cbn in E'. apply (f_equal (@length N)) in E, E'. rewrite app_length in E. lia.
    - apply Nc. rewrite Forall_forall in W. apply W.
      apply (f_equal (@rev N)) in E, E'. rewrite rev_app_distr in E, E'. rewrite rev_unit in E'.
      apply in_rev. assert (nth_error (rev w ++ rev a) (length w') = Some c) as Hn.
      { rewrite <- E, E'. rewrite nth_error_app2 by (rewrite rev_length; lia). rewrite rev_length, Nat.sub_diag. reflexivity. }
      rewrite nth_error_app1 in Hn by (rewrite rev_length; lia). eapply nth_error_In, Hn. }
  intros Hw Hw'. pose proof (H _ _ Hw Hw'). pose proof (H _ _ Hw' Hw).
  destruct Hw as (a & -> & _), Hw' as (a' & E & _).
  assert (length a = length a') as La by (apply (f_equal (@length N)) in E; rewrite !app_length in E; lia).
  clear -E La. revert a' E La. induction a as [|x a IH]; intros [|x' a'] E La; cbn in *; try lia; auto.
  injection E as _ E. apply (IH a'); auto.
Qed.

Lemma as_namespace_word ns : ns <> [] -> Forall (wordy T) ns -> as_namespace T ns = ns ++ [58%N; 58%N].
Proof. intros H W. apply words_iff in W. unfold as_namespace. destruct ns; [easy|]. now rewrite W. Qed.
Lemma as_namespace_other ns : ~ (ns <> [] /\ Forall (wordy T) ns) -> as_namespace T ns = [58%N; 58%N].
Proof.
  intros H. unfold as_namespace. destruct ns as [|c ns]; [easy|]. destruct (forallb _ _) eqn:E; [|easy].
  apply words_iff in E. exfalso. apply H. split; auto. discriminate.
Qed.

Lemma namespace_reading line pos before after : lawful T -> cursor line pos before after -> ascii before ->
  after_colons before ->
  exists p, fallback_namespace T line pos = Some p /\
    ((exists ns, name_before T before ns /\ p = ns ++ [58%N; 58%N])
     \/ ((forall ns, ~ name_before T before ns) /\ p = [58%N; 58%N])).
Proof.
  intros TL C A (x & ->). destruct (ascii_cut _ _ _ _ C A) as (P & L & E). unfold fallback_namespace.
  rewrite ascii_app in A. destruct A as (Ax & _).
  assert (pos = size x + 2) as -> by (rewrite P, size_app; reflexivity).
  destruct (Nat.leb_spec 2 (size x + 2)); [|lia]. replace (size x + 2 - 2) with (size x) by lia.
  destruct C as (-> & _). rewrite <- app_assoc, upto_app.
  assert (forall ns, name_before T (x ++ [58%N; 58%N]) ns <->
    exists a, x = a ++ ns /\ ns <> [] /\ Forall (wordy T) ns
            /\ (a = [] \/ exists b c, a = b ++ [c] /\ ~ wordy T c /\ c <> 58%N)) as NB.
  { intros ns. unfold name_before. split; intros (a & Ea & R); exists a; split; auto.
    - rewrite app_assoc in Ea. apply app_inv_tail in Ea. exact Ea.
    - now rewrite Ea, <- app_assoc. }
  (* the run of word characters and colons that ends [x] *)
  assert (forall a b, x = a ++ b -> Forall (fun c => wordy T c \/ c = 58%N) b ->
            (a = [] \/ exists a' c, a = a' ++ [c] /\ ~ wordy T c /\ c <> 58%N) ->
            forall ns, name_before T (x ++ [58%N; 58%N]) ns -> ns = b) as U.
  { intros a b Ex Hb Ha ns H0. apply NB in H0. destruct H0 as (a' & Ex' & _ & Hn & Ha').
    set (ok := fun c => wordy T c \/ c = 58%N) in *.
    assert (forall p q p' q', x = p ++ q -> Forall ok q -> x = p' ++ q' ->
              (p' = [] \/ exists b c, p' = b ++ [c] /\ ~ ok c) -> length q <= length q') as LE.
    { intros p q p' q' E1 F E2 B. destruct (Nat.le_gt_cases (length q) (length q')) as [|G]; auto. exfalso.
      destruct B as [->|(b' & c & -> & Nc)].
      - cbn in E2. apply (f_equal (@length N)) in E1, E2. rewrite app_length in E1. lia.
      - apply Nc. rewrite Forall_forall in F. apply F.
        apply (f_equal (@rev N)) in E1, E2. rewrite rev_app_distr in E1, E2. rewrite rev_unit in E2.
        apply in_rev. assert (nth_error (rev q ++ rev p) (length q') = Some c) as Hn'.
        { rewrite <- E1, E2. rewrite nth_error_app2 by (rewrite rev_length; lia). rewrite rev_length, Nat.sub_diag. reflexivity. }
        rewrite nth_error_app1 in Hn' by (rewrite rev_length; lia). eapply nth_error_In, Hn'. }
    assert (forall p, (p = [] \/ exists b c, p = b ++ [c] /\ ~ wordy T c /\ c <> 58%N) ->
              (p = [] \/ exists b c, p = b ++ [c] /\ ~ ok c)) as W.
    { intros p [->|(q & c & -> & H1 & H2)]; auto. right. exists q, c. split; auto. unfold ok. tauto. }
    assert (Forall ok ns) as Hn' by (eapply Forall_impl; [|exact Hn]; unfold ok; auto).
    pose proof (LE _ _ _ _ Ex Hb Ex' (W _ Ha')). pose proof (LE _ _ _ _ Ex' Hn' Ex (W _ Ha)).
    rewrite Ex in Ex'. assert (length a = length a') as La by (apply (f_equal (@length N)) in Ex'; rewrite !app_length in Ex'; lia).
    clear -Ex' La. revert a' Ex' La. induction a as [|y a IH]; intros [|y' a'] E La; cbn in *; try lia; auto.
    injection E as _ E. apply (IH a'); auto. }
  assert (forall a b, x = a ++ b -> Forall (fun c => wordy T c \/ c = 58%N) b ->
            (a = [] \/ exists a' c, a = a' ++ [c] /\ ~ wordy T c /\ c <> 58%N) ->
            (exists ns, name_before T (x ++ [58%N; 58%N]) ns /\ as_namespace T b = ns ++ [58%N; 58%N])
            \/ ((forall ns, ~ name_before T (x ++ [58%N; 58%N]) ns) /\ as_namespace T b = [58%N; 58%N])) as Fin.
  { intros a b Ex Hb Ha. destruct b as [|c b].
    - right. split; [|reflexivity]. intros ns Hn. pose proof (U _ _ Ex Hb Ha ns Hn). apply NB in Hn.
      destruct Hn as (? & _ & N0 & _). easy.
    - destruct (forallb (word T) (c :: b)) eqn:F.
      + apply words_iff in F. left. exists (c :: b). split; [|apply as_namespace_word; auto; discriminate].
        apply NB. exists a. repeat split; auto. discriminate.
      + assert (~ Forall (wordy T) (c :: b)) as F' by (rewrite <- words_iff; congruence).
        right. split; [|apply as_namespace_other; tauto].
        intros ns Hn. pose proof (U _ _ Ex Hb Ha ns Hn) as ->. apply NB in Hn. destruct Hn as (? & _ & _ & W & _). tauto. }
  assert (forall l, Forall (fun c => negb (word T c) && negb (N.eqb c colon) = false) l ->
            Forall (fun c => wordy T c \/ c = 58%N) l) as Ok.
  { intros l. apply Forall_impl. intros c H0. apply andb_false_iff in H0. rewrite !negb_false_iff in H0.
    rewrite word_iff, N.eqb_eq in H0. exact H0. }
  destruct (rfind _ x) as [n|] eqn:R.
  - destruct (rfind_some _ _ _ R) as (a & c & b & Ex & Hc & Hb & <-).
    assert ((c < 128)%N) as Lc by (rewrite Ex, ascii_app in Ax; destruct Ax as (_ & Ax); now inversion_clear Ax).
    assert (from x (size a + 1) = Some b) as -> by (rewrite Ex; now apply after_char). eexists. split; [reflexivity|].
    apply (Fin (a ++ [c]) b); [now rewrite <- app_assoc|auto|]. right. exists a, c. split; auto.
    apply andb_true_iff in Hc. rewrite !negb_true_iff in Hc. rewrite not_word, N.eqb_neq in Hc. exact Hc.
  - apply rfind_none, Ok in R. rewrite trim_id.
    + eexists. split; [reflexivity|]. apply (Fin [] x); auto.
    + eapply Forall_impl; [|exact R]. intros c [W| ->]; [now apply wordy_space|]. apply TL.
Qed.

Lemma has_dot_no_end line pos before after : cursor line pos before after -> ascii before ->
  line_has_dot T line pos = Some false -> ends_with dot before = false.
Proof.
  intros C A H. destruct (ends_with dot before) eqn:E; auto. unfold ends_with in E.
  destruct (rev before) as [|d r] eqn:Er; [easy|]. apply N.eqb_eq in E. subst d.
  apply (f_equal (@rev N)) in Er. rewrite rev_involutive in Er. cbn [rev] in Er.
  destruct (ascii_cut _ _ _ _ C A) as (_ & L & Eu). unfold line_has_dot in H. apply Nat.leb_le in L. rewrite L, Eu in H.
  rewrite Er in H. rewrite rfind_app in H; [|apply N.eqb_refl|constructor].
  rewrite after_char in H by (unfold dot; lia). discriminate.
Qed.

(** The text the candidates must start with. *)
Definition partial_of (a : answer) : text :=
  match a with Constants p => p | Methods p => p | Anything p _ => p end.

Lemma answer_ascii trigger i st line pos before after : lawful T -> cursor line pos before after -> ascii before ->
  exists p b r, partial_string T (scope_context trigger line pos) i line pos = Some p
    /\ line_has_dot T line pos = Some b /\ answer_at T trigger i st line pos = Some r /\
    r = (if scope_context trigger line pos then Constants p
         else if (match trigger with Some t => N.eqb t dot | None => false end) || b || known_receiver i then Methods p
         else Anything p (if st then Some InGeneral else None)).
Proof.
  intros TL C A. destruct (dot_reading _ _ _ _ C A) as (b & Eb & _).
  assert (Forall (fun c => (c < 65536)%N) before) as A' by (eapply Forall_impl; [|exact A]; cbn; lia).
  assert (exists p, partial_string T (scope_context trigger line pos) i line pos = Some p) as (p & Ep).
  { unfold partial_string. destruct i as [[]|]; [destruct (scope_context _ _ _); eauto|eauto|eauto|].
    destruct (scope_context trigger line pos) eqn:Es.
    - apply (scope_reading trigger _ _ _ _ C A') in Es. destruct Es as (_ & Ac).
      destruct (namespace_reading _ _ _ _ TL C A Ac) as (p & -> & _). eauto.
    - destruct (word_reading _ _ _ _ TL C A) as (w & -> & _). eauto. }
  exists p, b. unfold answer_at. rewrite Ep, Eb.
  destruct (scope_context trigger line pos) eqn:Es; [eexists; repeat split; eauto|].
  set (dt := match trigger with Some t => N.eqb t dot | None => false end).
  destruct (dt || b || known_receiver i) eqn:Em; [eexists; repeat split; eauto|].
  apply orb_false_iff in Em. destruct Em as (Em & Ek). apply orb_false_iff in Em. destruct Em as (Ed & ->).
  rewrite Ed. cbn [negb andb]. destruct st; [|eexists; repeat split; eauto].
  assert (snippet_context i line pos = Some InGeneral) as ->.
  { unfold snippet_context. destruct i as [[|[]|]|]; cbn in Ek; try easy.
    destruct (_ && _) eqn:Eg; [|easy]. destruct (ascii_cut _ _ _ _ C A) as (_ & _ & ->). cbn [option_map].
    now rewrite (has_dot_no_end _ _ _ _ C A Eb). }
  eexists; repeat split; eauto.
Qed.
End Tables.

(** ** C102 *)
(** For every line, cursor, way of asking and finding of the syntax tree, with ASCII text up to the
    cursor: the request is answered, and constants, methods or everything are offered exactly as the
    text in front of the cursor and the receiver found in the tree demand. *)
Theorem C102_kind_partial : forall T trigger i statement line pos before after,
  lawful T -> cursor line pos before after -> ascii before ->
  exists r, answer_at T trigger i statement line pos = Some r
    /\ ((exists p, r = Constants p) <-> trigger = Some 58%N /\ after_colons before)
    /\ ((exists p, r = Methods p) <->
          ~ (trigger = Some 58%N /\ after_colons before)
          /\ (trigger = Some 46%N \/ after_dot T before
              \/ exists v name, i = Some (AtMethod v name)
                   /\ ~ In v [NoReceiver; SelfReceiver; SuperReceiver; ConstantReceiver]))
    /\ (forall p s, r = Anything p s -> s = if statement then Some InGeneral else None).
Proof.
  intros T trigger i st line pos before after TL C A.
  destruct (answer_ascii T trigger i st _ _ _ _ TL C A) as (p & b & r & _ & Eb & Er & Hr).
  assert (Forall (fun c => (c < 65536)%N) before) as A' by (eapply Forall_impl; [|exact A]; cbn; lia).
  pose proof (scope_reading trigger _ _ _ _ C A') as Es.
  destruct (dot_reading T _ _ _ _ C A) as (b' & Eb' & Hd). rewrite Eb in Eb'. injection Eb' as <-. specialize (Hd TL).
  assert (known_receiver i = true <-> exists v name, i = Some (AtMethod v name)
            /\ ~ In v [NoReceiver; SelfReceiver; SuperReceiver; ConstantReceiver]) as Hk.
  { split.
    - destruct i as [[|v name|]|]; cbn; try easy. intros H. exists v, name. split; auto.
      intros [<-|[<-|[<-|[<-|[]]]]]; discriminate.
    - intros (v & name & -> & Hn). destruct v; cbn in *; auto; exfalso; apply Hn; auto. }
  assert ((match trigger with Some t => N.eqb t dot | None => false end) = true <-> trigger = Some 46%N) as Ht.
  { destruct trigger as [t|]; [|easy]. rewrite N.eqb_eq. unfold dot. split; congruence. }
  exists r. split; auto. rewrite <- Hk, <- Ht, <- Hd, <- Es. clear Hk Ht Hd Es.
  destruct (scope_context trigger line pos).
  - subst r. split; [split; eauto|]. split; [split; [intros (q & H); discriminate|intros (H & _); exfalso; auto]|].
    intros q s H. discriminate.
  - destruct ((match trigger with Some t => N.eqb t dot | None => false end) || b || known_receiver i) eqn:Em; subst r.
    + split; [split; [intros (q & H); discriminate|easy]|]. split; [|intros q s H; discriminate].
      split; [|eauto]. intros _. split; [easy|]. rewrite !orb_true_iff in Em. tauto.
    + apply orb_false_iff in Em. destruct Em as (Em & ->). apply orb_false_iff in Em. destruct Em as (-> & ->).
      split; [split; [intros (q & H); discriminate|easy]|]. split; [|intros q s H; now injection H].
      split; [intros (q & H); discriminate|]. intros (_ & [H|[H|H]]); discriminate.
Qed.
Print Assumptions C102_kind_partial.

(** Where the tree says nothing, the candidates must start with the whole word that ends at the cursor;
    otherwise with what the tree found. *)
Theorem C102_word_partial : forall T trigger i statement line pos before after,
  lawful T -> cursor line pos before after -> ascii before -> ~ (trigger = Some 58%N /\ after_colons before) ->
  exists r, answer_at T trigger i statement line pos = Some r
    /\ (i = None -> forall w, partial_of r = w <-> word_at T before w)
    /\ (forall v name, i = Some (AtMethod v name) -> partial_of r = name)
    /\ (forall path name, i = Some (AtConstant (path ++ [name])) -> partial_of r = name).
Proof.
  intros T trigger i st line pos before after TL C A Nc.
  destruct (answer_ascii T trigger i st _ _ _ _ TL C A) as (p & b & r & Ep & Eb & Er & Hr).
  assert (Forall (fun c => (c < 65536)%N) before) as A' by (eapply Forall_impl; [|exact A]; cbn; lia).
  pose proof (scope_reading trigger _ _ _ _ C A') as Es.
  destruct (scope_context trigger line pos); [exfalso; apply Nc, Es; auto|].
  assert (partial_of r = p) as Hp by (rewrite Hr; destruct (_ || _); reflexivity).
  exists r. split; auto. rewrite Hp. repeat split.
  - intros <-. subst i. cbn in Ep. destruct (word_reading T _ _ _ _ TL C A) as (w & Ew & Hw). congruence.
  - intros Hw. subst i. cbn in Ep. destruct (word_reading T _ _ _ _ TL C A) as (w' & Ew & Hw').
    assert (p = w') as -> by congruence. eapply word_unique; eauto.
  - intros v name ->. cbn in Ep. congruence.
  - intros path name ->. cbn in Ep. rewrite last_last in Ep. congruence.
Qed.
Print Assumptions C102_word_partial.

(** After two colons the constants of the name in front of them are asked for; where the tree says
    nothing and there is no single name, the ones of the top level. *)
Theorem C102_namespace_partial : forall T i statement line pos before after,
  lawful T -> cursor line pos before after -> ascii before -> after_colons before ->
  exists p, answer_at T (Some 58%N) i statement line pos = Some (Constants p)
    /\ (i = None -> forall ns, name_before T before ns -> p = ns ++ [58%N; 58%N])
    /\ (i = None -> (forall ns, ~ name_before T before ns) -> p = [58%N; 58%N])
    /\ (forall name, name <> [] -> i = Some (AtConstant [name]) -> p = name ++ [58%N; 58%N])
    /\ (forall a b, a <> [] -> i = Some (AtConstant [a; b]) -> p = a ++ [58%N; 58%N] ++ b ++ [58%N; 58%N]).
Proof.
  intros T i st line pos before after TL C A Ac.
  destruct (answer_ascii T (Some 58%N) i st _ _ _ _ TL C A) as (p & b & r & Ep & Eb & Er & Hr).
  assert (Forall (fun c => (c < 65536)%N) before) as A' by (eapply Forall_impl; [|exact A]; cbn; lia).
  pose proof (scope_reading (Some 58%N) _ _ _ _ C A') as Es.
  destruct (scope_context (Some 58%N) line pos); [|destruct Es as (_ & Es); discriminate Es; auto].
  subst r. exists p. split; auto. repeat split.
  - intros -> ns Hn. cbn in Ep. destruct (namespace_reading T _ _ _ _ TL C A Ac) as (q & Eq & H).
    assert (p = q) as -> by congruence. destruct H as [(ns' & Hn' & ->)|(H & _)]; [|now apply H in Hn].
    f_equal. destruct Hn as (a & Ea & N1 & W1 & B1), Hn' as (a' & Ea' & N2 & W2 & B2).
    rewrite Ea in Ea'. rewrite !app_assoc in Ea'. apply app_inv_tail in Ea'.
    apply (word_unique T (a ++ ns)).
    + exists a'. repeat split; auto. destruct B2 as [->|(x & y & -> & Hy & _)]; [auto|right; eauto].
    + exists a. repeat split; auto. destruct B1 as [->|(x & y & -> & Hy & _)]; [auto|right; eauto].
  - intros -> Hn. cbn in Ep. destruct (namespace_reading T _ _ _ _ TL C A Ac) as (q & Eq & H).
    assert (p = q) as -> by congruence. destruct H as [(ns' & Hn' & ->)|(_ & H)]; [now apply Hn in Hn'|auto].
  - intros name Hn ->. cbn in Ep. destruct name; [easy|]. injection Ep as <-. reflexivity.
  - intros a b' Ha ->. cbn [partial_string joined] in Ep. destruct a as [|x a]; [easy|]. cbn [app] in Ep.
    injection Ep as <-. unfold colons, colon. rewrite <- !app_assoc. reflexivity.
Qed.
Print Assumptions C102_namespace_partial.

(** *** Where it fails. *)
(** Any cursor whose column, taken as a byte offset, falls inside a character makes the request fail,
    however it was made and whatever the tree says. *)
Theorem C102_inside_refuted : forall T trigger i statement line pos,
  pos <= size line -> boundary line pos = false -> answer_at T trigger i statement line pos = None.
Proof.
  intros T trigger i st line pos L B. unfold answer_at.
  destruct (partial_string _ _ _ _ _); auto.
  unfold line_has_dot. apply Nat.leb_le in L. rewrite L, (upto_none _ _ B). reflexivity.
Qed.
Print Assumptions C102_inside_refuted.

(** Typing a letter with an accent is enough: right after the first character beyond ASCII of a line,
    the request fails. *)
Theorem C102_accent_refuted : forall T trigger i statement before c after,
  ascii before -> (128 <= c < 65536)%N ->
  exists pos, cursor (before ++ c :: after) pos (before ++ [c]) after
    /\ answer_at T trigger i statement (before ++ c :: after) pos = None.
Proof.
  intros T trigger i st before c after A Hc. exists (size before + 1). split.
  - split; [now rewrite <- app_assoc|]. rewrite units_app, units_cons, u16_ascii by lia.
    rewrite ascii_units, ascii_size by auto. reflexivity.
  - pose proof (u8_wide c). apply C102_inside_refuted.
    + rewrite size_app, size_cons. lia.
    + apply inside. lia.
Qed.
Print Assumptions C102_accent_refuted.

(** A character beyond ASCII that is no letter (an arrow, a dash) in front of the word being typed makes
    the request fail at every position of that word. *)
Theorem C102_symbol_refuted : forall T statement before c w after,
  ascii before -> (128 <= c < 65536)%N -> alnum T c = false -> ascii w -> Forall (wordy T) w ->
  exists pos, cursor (before ++ c :: w ++ after) pos (before ++ c :: w) after
    /\ answer_at T None None statement (before ++ c :: w ++ after) pos = None.
Proof.
  intros T st before c w after A Hc Nc Aw W. exists (size before + 1 + length w). split.
  - split; [now rewrite <- app_assoc|]. rewrite units_app, units_cons, u16_ascii by lia.
    rewrite !ascii_units, ascii_size by auto. lia.
  - unfold answer_at, scope_context, partial_string, fallback_word.
    pose proof (u8_wide c) as U. set (line := before ++ c :: w ++ after).
    assert (size line = size before + u8 c + length w + size after) as Sl.
    { unfold line. rewrite size_app, size_cons, size_app, (ascii_size w) by auto. lia. }
    rewrite Nat.min_l by lia. destruct (upto line (size before + 1 + length w)) as [t|] eqn:E; [|easy].
    destruct (upto_some _ _ _ E) as (r & Et & St).
    destruct (cut_le line before (c :: w ++ after) t r eq_refl Et) as (m & -> & Em); [lia|].
    rewrite size_app in St. destruct m as [|d m].
    { cbn in St. lia. }
    cbn in Em. injection Em as <- Em. rewrite size_cons in St.
    destruct (cut_le (w ++ after) m r w after Em eq_refl) as (k & Ek & _).
    { rewrite (ascii_size w) by auto. lia. }
    assert (Forall (fun d => negb (word T d) = false) m) as Hm.
    { rewrite Ek, Forall_app in W. eapply Forall_impl; [|exact (proj1 W)]. intros e He.
      apply word_iff in He. cbn. now rewrite He. }
    rewrite rfind_app; auto.
    + pose proof (inside before c m 1 ltac:(lia)) as B. unfold boundary in B.
      destruct (from (before ++ c :: m) (size before + 1)); easy.
    + unfold word, underscore. rewrite Nc. destruct (N.eqb_spec c 95); [lia|easy].
Qed.
Print Assumptions C102_symbol_refuted.

(** And where the request does not fail the text is cut short: after an accented letter earlier in the
    line, a request made by hand right after a dot does not see the dot. *)
Theorem C102_short_refuted : forall T statement c b after,
  lawful T -> (128 <= c < 2048)%N -> alnum T c = true -> ascii b -> Forall (wordy T) b -> b <> [] ->
  exists pos p s, cursor ((c :: b ++ [46%N]) ++ after) pos (c :: b ++ [46%N]) after
    /\ after_dot T (c :: b ++ [46%N])
    /\ answer_at T None None statement ((c :: b ++ [46%N]) ++ after) pos = Some (Anything p s).
Proof.
  intros T st c b after TL Hc Ac Ab Wb Nb.
  assert (u8 c = 2) as U2.
  { unfold u8. destruct (N.ltb_spec c 128); [lia|]. destruct (N.ltb_spec c 2048); [easy|lia]. }
  set (line := (c :: b ++ [46%N]) ++ after).
  assert (line = (c :: b) ++ [46%N] ++ after) as El by (unfold line; cbn; now rewrite <- app_assoc).
  assert (size (c :: b) = length b + 2) as Sb by (rewrite size_cons, ascii_size by auto; lia).
  assert (upto line (length b + 2) = Some (c :: b)) as E by (rewrite El, <- Sb; apply upto_app).
  assert (Forall (wordy T) (c :: b)) as W by (constructor; [now left|auto]).
  assert (length b + 2 <= size line) as L by (rewrite El, size_app, Sb; lia).
  assert (line_has_dot T line (length b + 2) = Some false) as D.
  { unfold line_has_dot. apply Nat.leb_le in L. rewrite L, E.
    destruct (rfind (N.eqb dot) (c :: b)) as [n|] eqn:R; [|easy]. exfalso.
    destruct (rfind_some _ _ _ R) as (x & d & y & Ex & Hd & _). apply N.eqb_eq in Hd. subst d.
    apply (dot_not_wordy T TL). rewrite Forall_forall in W. apply W. rewrite Ex. apply in_elt. }
  assert (fallback_word T line (length b + 2) = Some (c :: b)) as F.
  { unfold fallback_word. rewrite Nat.min_l by auto. rewrite E. destruct (rfind _ (c :: b)) as [n|] eqn:R.
    - exfalso. destruct (rfind_some _ _ _ R) as (x & d & y & Ex & Hd & _).
      assert (wordy T d) as Wd by (rewrite Forall_forall in W; apply W; rewrite Ex; apply in_elt).
      apply word_iff in Wd. now rewrite Wd in Hd.
    - f_equal. apply trim_id. eapply Forall_impl; [|exact W]. intros d. now apply wordy_space. }
  assert (ends_with dot (c :: b) = false) as N0.
  { unfold ends_with. destruct (rev (c :: b)) as [|d y] eqn:R; auto. destruct (N.eqb_spec d dot) as [->|]; auto. exfalso.
    apply (dot_not_wordy T TL). rewrite Forall_forall in W. apply W. apply in_rev. rewrite R. now left. }
  exists (length b + 2). assert (exists p s, answer_at T None None st line (length b + 2) = Some (Anything p s)) as (p & s & H).
  { unfold answer_at, scope_context, partial_string. rewrite F, D. cbn [orb known_receiver negb andb].
    destruct st; [|eauto]. unfold snippet_context. destruct (_ && _); [|cbn; eauto].
    rewrite E. cbn [option_map]. rewrite N0. eauto. }
  exists p, s. repeat split; auto.
  - rewrite units_cons, units_app, (ascii_units b), u16_ascii by (auto; lia). cbn. lia.
  - exists (c :: b), []. split; auto.
Qed.
Print Assumptions C102_short_refuted.

(** A character outside the basic plane hides two colons at the end of a line. *)
Theorem C102_astral_refuted : forall c b,
  (65536 <= c)%N -> ascii b ->
  exists pos, cursor (c :: b ++ [58%N; 58%N]) pos (c :: b ++ [58%N; 58%N]) []
    /\ scope_context (Some 58%N) (c :: b ++ [58%N; 58%N]) pos = false.
Proof.
  intros c b Hc Ab. exists (length b + 4). split.
  - split; [now rewrite app_nil_r|]. rewrite units_cons, units_app, ascii_units by auto.
    unfold u16. destruct (N.ltb_spec c 65536); [lia|]. cbn. lia.
  - unfold scope_context. assert (is_char (c :: b ++ [58%N; 58%N]) (length b + 4 - 1) colon = false) as ->.
    { unfold is_char. destruct (nth_error _ _) eqn:E; auto.
      assert (nth_error (c :: b ++ [58%N; 58%N]) (length b + 4 - 1) <> None) as H by congruence.
      apply nth_error_Some in H. cbn [length] in H. rewrite app_length in H. cbn in H. lia. }
    now rewrite !andb_false_r.
Qed.
Print Assumptions C102_astral_refuted.

(** A range is taken for a call: after [a..b] only methods are offered, no local variable. *)
Theorem C102_range_refuted : forall T i statement a w after,
  lawful T -> ascii a -> ascii w -> Forall (wordy T) w ->
  exists pos p, cursor ((a ++ [46; 46]%N ++ w) ++ after) pos (a ++ [46; 46]%N ++ w) after
    /\ answer_at T None i statement ((a ++ [46; 46]%N ++ w) ++ after) pos = Some (Methods p).
Proof.
  intros T i st a w after TL A Aw W. exists (units (a ++ [46; 46]%N ++ w)).
  assert (cursor ((a ++ [46; 46]%N ++ w) ++ after) (units (a ++ [46; 46]%N ++ w)) (a ++ [46; 46]%N ++ w) after) as C by now split.
  assert (ascii (a ++ [46; 46]%N ++ w)) as Al.
  { apply ascii_app. split; auto. constructor; [lia|]. constructor; [lia|]. exact Aw. }
  destruct (C102_kind_partial T None i st _ _ _ _ TL C Al) as (r & Er & _ & H & _).
  assert (exists p, r = Methods p) as (p & ->).
  { apply H. split; [intros (E & _); discriminate|]. right. left. exists (a ++ [46%N]), w. rewrite <- app_assoc. auto. }
  eauto.
Qed.
Print Assumptions C102_range_refuted.

(** After [A::B::], where the tree says nothing, the constants of the top level are asked for. *)
Theorem C102_nested_refuted : forall T statement a b,
  lawful T -> ascii a -> ascii b -> Forall (wordy T) a -> Forall (wordy T) b ->
  exists pos, cursor (a ++ [58; 58]%N ++ b ++ [58; 58]%N) pos (a ++ [58; 58]%N ++ b ++ [58; 58]%N) []
    /\ answer_at T (Some 58%N) None statement (a ++ [58; 58]%N ++ b ++ [58; 58]%N) pos = Some (Constants [58%N; 58%N]).
Proof.
  intros T st a b TL Aa Ab Wa Wb. set (l := a ++ [58; 58]%N ++ b ++ [58; 58]%N).
  exists (units l). assert (cursor l (units l) l []) as C by (split; auto; now rewrite app_nil_r). split; auto.
  assert (ascii l) as Al.
  { apply ascii_app. split; auto. constructor; [lia|]. constructor; [lia|]. apply ascii_app. split; auto.
    constructor; [lia|]. constructor; [lia|]. constructor. }
  assert (after_colons l) as Ac by (exists (a ++ [58; 58]%N ++ b); unfold l; now rewrite <- !app_assoc).
  destruct (C102_namespace_partial T None st _ _ _ _ TL C Al Ac) as (p & -> & _ & H & _).
  rewrite H; auto. intros ns (x & Ex & N0 & Wn & B).
  unfold l in Ex. rewrite !app_assoc in Ex. apply app_inv_tail in Ex. rewrite <- !app_assoc in Ex.
  (* the run before is made of words and colons, so it starts the text *)
  assert (forall d, In d (a ++ [58; 58]%N ++ b) -> wordy T d \/ d = 58%N) as Ok.
  { intros d Hd. rewrite Forall_forall in Wa, Wb. apply in_app_or in Hd. destruct Hd as [Hd|Hd]; auto.
    destruct Hd as [<-|[<-|Hd]]; auto. }
  destruct B as [->|(y & d & -> & Nd & Dd)].
  - cbn in Ex. apply (colon_not_wordy T TL). rewrite Forall_forall in Wn. apply Wn. rewrite <- Ex.
    apply in_or_app. right. now left.
  - destruct (Ok d) as [H1|H1]; auto. rewrite Ex. apply in_or_app. left. apply in_or_app. right. now left.
Qed.
Print Assumptions C102_nested_refuted.

(** *** The hypotheses can be met. *)
Definition table : chars :=
  {| alnum := fun c => ((48 <=? c) && (c <=? 57) || (65 <=? c) && (c <=? 90) || (97 <=? c) && (c <=? 122) || (c =? 233))%N;
     space := fun c => (c =? 32)%N |}.
Lemma table_lawful : lawful table.
Proof.
  unfold lawful. cbn. repeat split; auto. intros c H. destruct (N.eqb_spec c 32) as [->|]; auto.
Qed.
(** [x = user.na], the cursor at the end. *)
Example C102_call : cursor [120; 61; 117; 46; 110; 97]%N 6 [120; 61; 117; 46; 110; 97]%N []
  /\ ascii [120; 61; 117; 46; 110; 97]%N
  /\ answer_at table None None true [120; 61; 117; 46; 110; 97]%N 6 = Some (Methods [110; 97]%N).
Proof. repeat split. repeat constructor. Qed.
(** [p Foo::], the colon just typed. *)
Example C102_scope :
  answer_at table (Some 58%N) None true [112; 32; 70; 111; 58; 58]%N 6 = Some (Constants [70; 111; 58; 58]%N).
Proof. reflexivity. Qed.
(** [if fo], a statement. *)
Example C102_general :
  answer_at table None None true [105; 102; 32; 102; 111; 41]%N 5 = Some (Anything [102; 111]%N (Some InGeneral)).
Proof. reflexivity. Qed.
(** A string with an accented letter: the cursor right after it. *)
Example C102_accent : answer_at table None None true [120; 34; 233]%N 3 = None.
Proof. reflexivity. Qed.
