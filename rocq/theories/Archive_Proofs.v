(** Lemmas on reading archives: texts, names, the collected entries, the selection. *)
From Coq Require Import NArith List Arith Bool Lia Permutation Sorted.
From Verif Require Import Sort_Lib Archive_Model Archive_Spec.
Import ListNotations.

Ltac cong := try unfold text in *; congruence.
(** ** Texts. *)
Lemma text_eqb_iff a b : text_eqb a b = true <-> a = b.
Proof. unfold text_eqb. destruct (list_eq_dec Nat.eq_dec a b); split; cong. Qed.
Lemma text_eqb_no a b : text_eqb a b = false <-> a <> b.
Proof. unfold text_eqb. destruct (list_eq_dec Nat.eq_dec a b); split; cong. Qed.
Lemma in_texts n l : existsb (text_eqb n) l = true <-> In n l.
Proof.
  rewrite existsb_exists. split.
  - intros (m & H & E). apply text_eqb_iff in E as ->. exact H.
  - intros H. exists n. split; [exact H|now apply text_eqb_iff].
Qed.
Lemma prefix_iff p s r : strip_prefix p s = Some r <-> s = p ++ r.
Proof.
  revert s. induction p as [|a p IH]; intros s; cbn; [split; cong|].
  destruct s as [|b s]; [split; discriminate|]. destruct (Nat.eqb_spec a b) as [->|D].
  - rewrite IH. split; cong.
  - split; [discriminate|]. cong.
Qed.
Lemma suffix_iff x s r : strip_suffix x s = Some r <-> s = r ++ x.
Proof.
  unfold strip_suffix. destruct (strip_prefix (rev x) (rev s)) as [q|] eqn:E; cbn.
  - apply prefix_iff in E. apply (f_equal (@rev nat)) in E. rewrite rev_involutive, rev_app_distr, rev_involutive in E.
    rewrite E. split; [intros [= <-]; reflexivity|]. intros H. f_equal. now apply app_inv_tail in H.
  - split; [discriminate|]. intros ->. rewrite rev_app_distr in E. assert (strip_prefix (rev x) (rev x ++ rev r) = Some (rev r)) by now apply prefix_iff. cong.
Qed.
Lemma starts_iff p s : starts_with p s = true <-> under p s.
Proof.
  unfold starts_with, under. destruct (strip_prefix p s) as [r|] eqn:E.
  - apply prefix_iff in E. split; [exists r; exact E|reflexivity].
  - split; [discriminate|]. intros [r H]. apply prefix_iff in H. cong.
Qed.
Lemma ends_iff s : ends_with dot_class s = true <-> a_class s.
Proof.
  unfold ends_with, a_class. destruct (strip_suffix dot_class s) as [r|] eqn:E.
  - apply suffix_iff in E. split; [exists r; exact E|reflexivity].
  - split; [discriminate|]. intros [r H]. apply suffix_iff in H. cong.
Qed.
Lemma case_iff a b : ignore_case a b = true <-> same_letters a b.
Proof. apply text_eqb_iff. Qed.
Lemma once_iff c s a b : split_once c s = Some (a, b) <-> s = a ++ c :: b /\ ~ In c a.
Proof.
  revert a. induction s as [|x s IH]; intros a; cbn.
  - split; [discriminate|]. intros [H _]. destruct a; discriminate.
  - destruct (Nat.eqb_spec x c) as [->|D].
    + split; [intros [= <- <-]; cbn; tauto|]. intros [H N1]. destruct a as [|y a]; cbn in H; [injection H as ->; reflexivity|].
      injection H as -> _. cbn in N1. tauto.
    + destruct (split_once c s) as [[p q]|] eqn:E; cbn.
      * split.
        -- intros [= <- <-]. destruct (proj1 (IH p) eq_refl) as [-> N1]. cbn. split; [reflexivity|]. intros [K|K]; cong.
        -- intros [H N1]. destruct a as [|y a]; cbn in H; [cong|]. injection H as -> H.
           assert (K : Some (p, q) = Some (a, b)) by (apply IH; split; [exact H|cbn in N1; tauto]). cong.
      * split; [discriminate|]. intros [H N1]. destruct a as [|y a]; cbn in H; [cong|]. injection H as -> H.
        assert (K : None = Some (a, b)) by (apply IH; split; [exact H|cbn in N1; tauto]). discriminate.
Qed.
Lemma once_none c s : split_once c s = None <-> ~ In c s.
Proof.
  destruct (split_once c s) as [[a b]|] eqn:E.
  - apply once_iff in E as [-> _]. split; [discriminate|]. intros H. exfalso. apply H. apply in_or_app. right. now left.
  - split; [|reflexivity]. intros _ H. apply in_split in H as (a & b & H).
    revert s a E H. intros s. induction s as [|x s IH]; intros a E H; [destruct a; discriminate|]. cbn in E.
    destruct (Nat.eqb_spec x c) as [->|D]; [discriminate|]. destruct a as [|y a]; cbn in H; [cong|]. injection H as -> H.
    destruct (split_once c s) as [z|]; [discriminate|]. exact (IH a eq_refl H).
Qed.
Lemma split_eq c s : split c s = match split_once c s with None => [s] | Some (a, b) => a :: split c b end.
Proof.
  induction s as [|x s IH]; [reflexivity|]. cbn. destruct (x =? c); [reflexivity|]. rewrite IH.
  destruct (split_once c s) as [[a b]|]; reflexivity.
Qed.
Definition part (c : nat) (s w : text) : Prop :=
  ~ In c w /\ exists a b, s = a ++ w ++ b /\ (a = [] \/ exists a', a = a' ++ [c]) /\ (b = [] \/ exists b', b = c :: b').
Lemma split_in c : forall s w, In w (split c s) <-> part c s w.
Proof.
  intros s. remember (length s) as n eqn:L. revert s L. induction n as [n IH] using lt_wf_ind. intros s L w. rewrite split_eq.
  destruct (split_once c s) as [[p q]|] eqn:E.
  - apply once_iff in E as [E N1]. assert (LQ : length q < n) by (rewrite L, E, app_length; cbn; lia). cbn [In]. rewrite (IH (length q) LQ q eq_refl). split.
    + intros [<-|(N2 & a & b & -> & A & B)].
      * split; [exact N1|]. exists [], (c :: q). cbn. split; [exact E|]. split; [auto|]. right. now exists q.
      * split; [exact N2|]. exists (p ++ c :: a), b. split; [rewrite E; now rewrite <- app_assoc|]. split; [|exact B]. right.
        destruct A as [->|[a' ->]]; [exists p; reflexivity|]. exists (p ++ c :: a'). now rewrite <- app_assoc.
    + intros (N2 & a & b & H & A & B). destruct A as [->|[a' ->]].
      * cbn in H. left. destruct B as [->|[b' ->]].
        -- rewrite app_nil_r in H. exfalso. apply N2. rewrite <- H, E. apply in_or_app. right. now left.
        -- assert (K1 : split_once c s = Some (p, q)) by now apply once_iff. assert (K2 : split_once c s = Some (w, b')) by now apply once_iff. cong.
      * right. split; [exact N2|]. rewrite E, <- app_assoc in H. apply app_eq_app in H as (l & [[H1 H2]|[H1 H2]]).
        -- cbn in H2. destruct l as [|y l]; cbn in H2.
           ++ injection H2 as H2. exists [], b. cbn. auto.
           ++ injection H2 as <- H2. exfalso. apply N1. rewrite H1. apply in_or_app. right. now left.
        -- destruct l as [|y l]; cbn in H2.
           ++ injection H2 as H2. exists [], b. cbn. auto.
           ++ injection H2 as <- H2. exists (l ++ [c]), b. rewrite <- app_assoc. split; [exact H2|]. split; [|exact B]. right. now exists l.
  - apply once_none in E. cbn [In]. split.
    + intros [<-|[]]. split; [exact E|]. exists [], []. cbn. rewrite app_nil_r. auto.
    + intros (N2 & a & b & H & A & B). left.
      destruct A as [->|[a' ->]]; [|exfalso; apply E; rewrite H; apply in_or_app; left; apply in_or_app; right; now left].
      destruct B as [->|[b' ->]]; [now rewrite app_nil_r in H|]. exfalso. apply E. rewrite H. cbn. apply in_or_app. right. now left.
Qed.

(** ** Numbers. *)
Lemma digits_iff s : forall a n, (a <= 65535)%N ->
  digits s a = Some n <-> Forall digit s /\ fold_left (fun a c => 10 * a + N.of_nat (c - 48))%N s a = n /\ (n <= 65535)%N.
Proof.
  assert (GROW : forall s a, (a <= fold_left (fun a c => 10 * a + N.of_nat (c - 48)) s a)%N).
  { clear. induction s as [|c s IH]; intros a; cbn [fold_left]; [lia|]. specialize (IH (10 * a + N.of_nat (c - 48))%N). lia. }
  induction s as [|c s IH]; intros a n A; cbn [digits fold_left].
  - split; [intros [= <-]; auto|intros (_ & -> & _); reflexivity].
  - destruct ((48 <=? c) && (c <=? 57)) eqn:D.
    + rewrite andb_true_iff, !Nat.leb_le in D. destruct (N.ltb_spec 65535 (10 * a + N.of_nat (c - 48))) as [G|G].
      * split; [discriminate|]. intros (_ & E & K). specialize (GROW s (10 * a + N.of_nat (c - 48))%N). lia.
      * rewrite IH by exact G. split; intros (F & E); (split; [|exact E]); [constructor; [exact D|exact F]|now inversion F].
    + split; [discriminate|]. intros (F & _). inversion F as [|? ? H]; subst. unfold digit in H.
      rewrite andb_false_iff, !Nat.leb_gt in D. lia.
Qed.
Lemma number_iff s n : parse_u16 s = Some n <-> numeral s n.
Proof.
  unfold parse_u16, numeral, value. destruct s as [|c r].
  - split; [discriminate|]. intros (ds & [E|E] & N1 & _); [symmetry in E; contradiction|discriminate].
  - destruct (Nat.eqb_spec c 43) as [->|D].
    + destruct r as [|d r].
      * split; [discriminate|]. intros (ds & [E|E] & N1 & F & _).
        -- subst ds. inversion F as [|? ? H]; subst. unfold digit in H. lia.
        -- injection E as <-. contradiction.
      * rewrite digits_iff by lia. split.
        -- intros (F & E). exists (d :: r). split; [auto|]. split; [discriminate|]. split; [exact F|exact E].
        -- intros (ds & [E|E] & N1 & F & V).
           ++ subst ds. inversion F as [|? ? H]; subst. unfold digit in H. lia.
           ++ injection E as <-. auto.
    + rewrite digits_iff by lia. split.
      * intros (F & E). exists (c :: r). split; [auto|]. split; [discriminate|]. split; [exact F|exact E].
      * intros (ds & [E|E] & N1 & F & V); [subst ds; auto|cong].
Qed.

(** ** Names. *)
Lemma bad_iff n : bad_name n = false <-> safe n.
Proof.
  unfold bad_name, safe. rewrite !orb_false_iff.
  assert (B : existsb (Nat.eqb backslash) n = false <-> ~ In backslash n).
  { rewrite <- not_true_iff_false, existsb_exists. split; intros H K; apply H.
    - exists backslash. split; [exact K|apply Nat.eqb_refl].
    - destruct K as (x & K & E). apply Nat.eqb_eq in E as <-. exact K. }
  assert (D : existsb (text_eqb dots) (split slash n) = false <->
              ~ exists a b, n = a ++ dots ++ b /\ (a = [] \/ exists a', a = a' ++ [slash]) /\ (b = [] \/ exists b', b = slash :: b')).
  { rewrite <- not_true_iff_false, in_texts, split_in. unfold part. split; intros H K; apply H.
    - split; [|exact K]. cbn. unfold slash. intros [E|[E|[]]]; discriminate.
    - apply K. }
  rewrite B, D. rewrite <- (not_true_iff_false (starts_with [slash] n)), starts_iff.
  rewrite <- (not_true_iff_false (starts_with [backslash] n)), starts_iff. split.
  - intros ((((N0 & S1) & S2) & NB) & ND). split; [intros ->; discriminate|]. auto.
  - intros (N0 & NB & S1 & ND). split; [split; [split; [split|]|]|]; auto.
    + destruct n; [contradiction|reflexivity].
    + intros [x ->]. apply NB. now left.
Qed.
Lemma metadata_iff k n : metadata k n = true <-> wanted k n.
Proof.
  destruct k; cbn.
  - now rewrite orb_true_iff, ends_iff, case_iff.
  - rewrite andb_true_iff, starts_iff, ends_iff. split; [intros [[x E] C]; exists x; auto|intros (x & E & C); split; [exists x; exact E|exact C]].
Qed.
Lemma versions_under n : under versions n -> under meta_inf n.
Proof. intros [x ->]. exists (skipn 9 versions ++ x). rewrite app_assoc. reflexivity. Qed.
Lemma versioned_iff n r l : versioned n r l <->
  exists v s, strip_prefix versions n = Some v /\ split_once slash v = Some (s, l) /\ parse_u16 s = Some r /\ (9 <= r)%N /\ l <> [].
Proof.
  unfold versioned. split.
  - intros (s & -> & S1 & V & R & L). exists (s ++ slash :: l), s. split; [now apply prefix_iff|]. split; [now apply once_iff|]. split; [now apply number_iff|]. auto.
  - intros (v & s & P & O & V & R & L). exists s. apply prefix_iff in P. apply once_iff in O as [O S1]. apply number_iff in V. subst. auto.
Qed.
Lemma candidate_bad k m f n : (exists e, candidate k m f n = inr e) <-> malformed k n.
Proof.
  unfold malformed, candidate. destruct k.
  2: { destruct (strip_prefix classes_dir n); split; [intros [e E]; discriminate|intros [E _]; discriminate|intros [e E]; discriminate|intros [E _]; discriminate]. }
  destruct (strip_prefix versions n) as [v|] eqn:P.
  - assert (U : under versions n) by (apply prefix_iff in P; now exists v).
    destruct (split_once slash v) as [[s l]|] eqn:O.
    + destruct (parse_u16 s) as [r|] eqn:V.
      * destruct ((r <? 9)%N || match l with [] => true | _ :: _ => false end) eqn:G.
        -- split; [|intros _; eexists; reflexivity]. intros _. split; [reflexivity|]. split; [exact U|].
           intros (r' & l' & (v' & s' & P' & O' & V' & R' & L')%versioned_iff). rewrite P in P'. injection P' as <-. rewrite O in O'. injection O' as <- <-.
           rewrite V in V'. injection V' as <-. apply orb_true_iff in G as [G|G]; [apply N.ltb_lt in G; lia|]. destruct l; [contradiction|discriminate].
        -- apply orb_false_iff in G as [G1 G2]. apply N.ltb_ge in G1.
           assert (K : exists r l, versioned n r l).
           { exists r, l. apply versioned_iff. exists v, s. split; [exact P|]. split; [exact O|]. split; [exact V|]. split; [lia|]. intros ->. discriminate. }
           destruct (negb m || (f <? r)%N || negb (ends_with dot_class l)); (split; [intros [e E]; discriminate|intros (_ & _ & N1); contradiction]).
      * split; [|intros _; eexists; reflexivity]. intros _. split; [reflexivity|]. split; [exact U|].
        intros (r' & l' & (v' & s' & P' & O' & V' & R' & L')%versioned_iff). rewrite P in P'. injection P' as <-. rewrite O in O'. injection O' as <- <-. cong.
    + split; [|intros _; eexists; reflexivity]. intros _. split; [reflexivity|]. split; [exact U|].
      intros (r' & l' & (v' & s' & P' & O' & V' & R' & L')%versioned_iff). rewrite P in P'. injection P' as <-. cong.
  - split.
    + destruct (starts_with meta_inf n || negb (ends_with dot_class n)); intros [e E]; discriminate.
    + intros (_ & [x U] & _). apply prefix_iff in U. cong.
Qed.
Lemma candidate_iff k m f n l r : candidate k m f n = inl (Some (l, r)) <-> offers k (m = true) f n l r.
Proof.
  unfold candidate. destruct k.
  - destruct (strip_prefix versions n) as [v|] eqn:P.
    + assert (U : under meta_inf n) by (apply versions_under; apply prefix_iff in P; now exists v).
      split.
      * destruct (split_once slash v) as [[s l']|] eqn:O; [|discriminate]. destruct (parse_u16 s) as [r'|] eqn:V; [|discriminate].
        destruct ((r' <? 9)%N || match l' with [] => true | _ :: _ => false end) eqn:G; [discriminate|]. apply orb_false_iff in G as [G1 G2]. apply N.ltb_ge in G1.
        destruct (negb m || (f <? r')%N || negb (ends_with dot_class l')) eqn:H; [discriminate|]. rewrite !orb_false_iff, !negb_false_iff in H. destruct H as [[H1 H2] H3].
        apply N.ltb_ge in H2. intros [= <- <-]. apply of_release; auto; [|now apply ends_iff].
        apply versioned_iff. exists v, s. split; [exact P|]. split; [exact O|]. split; [exact V|]. split; [lia|]. intros ->. discriminate.
      * intros H. inversion H as [l0 K|K N1 C|l0 r0 K M (v' & s & P' & O & V & R & L)%versioned_iff F C]; subst; [discriminate|contradiction|].
        rewrite P in P'. injection P' as <-. rewrite O, V. destruct (N.ltb_spec r0 9) as [|_]; [lia|]. destruct l as [|c l]; [contradiction|]. cbn [orb].
        destruct (N.ltb_spec f r0) as [|_]; [lia|]. apply ends_iff in C. rewrite C. reflexivity.
    + destruct (starts_with meta_inf n || negb (ends_with dot_class n)) eqn:G.
      * split; [discriminate|]. intros H. inversion H as [l0 K|K N1 C|l0 r0 K M (v' & s & P' & O & V & R & L)%versioned_iff F C]; subst; [discriminate| |cong].
        apply orb_true_iff in G as [G|G]; [apply starts_iff in G; contradiction|]. apply negb_true_iff in G. apply ends_iff in C. cong.
      * apply orb_false_iff in G as [G1 G2]. apply negb_false_iff in G2. split.
        -- intros [= <- <-]. apply of_base; auto; [|now apply ends_iff]. intros K. apply starts_iff in K. cong.
        -- intros H. inversion H as [l0 K|K N1 C|l0 r0 K M (v' & s & P' & O & V & R & L)%versioned_iff F C]; subst; [discriminate|reflexivity|cong].
  - destruct (strip_prefix classes_dir n) as [x|] eqn:P.
    + apply prefix_iff in P as ->. destruct (ends_with dot_class x) eqn:E.
      * split; [intros [= <- <-]; apply of_module; auto; now apply ends_iff|].
        intros H. inversion H as [l0 K Q C| |]; subst; try discriminate. apply app_inv_head in Q as ->. reflexivity.
      * split; [discriminate|]. intros H. inversion H as [l0 K Q C| |]; subst; try discriminate. apply app_inv_head in Q as ->. apply ends_iff in C. cong.
    + split; [discriminate|]. intros H. inversion H as [l0 K Q C| |]; subst; try discriminate.
Qed.

(** ** The entries that are read. *)
Section Collect.
Variable lim : limits.
Definition read (i : item) (e : text * list N) : Prop :=
  fst e = i_name i /\ (i_size i <= max_entry lim)%N /\
  exists d, i_data i = Some d /\ snd e = taken lim d /\ N.of_nat (length (snd e)) = i_size i.
Lemma collect_iff k l : forall seen tot es, (tot <= max_total lim)%N ->
  collect lim k l seen tot = inl es <->
  Forall (fun i => safe (i_name i)) l /\ NoDup (map i_name l) /\ (forall n, In n (map i_name l) -> ~ In n seen) /\
  Forall2 read (filter (fun i => metadata k (i_name i)) l) es /\
  (tot + total (map i_size (filter (fun i => metadata k (i_name i)) l)) <= max_total lim)%N.
Proof.
  induction l as [|i l IH]; intros seen tot es T; cbn [collect map filter].
  - split; [intros [= <-]; cbn; repeat split; auto using NoDup_nil, Forall_nil, Forall2_nil; lia|].
    intros (_ & _ & _ & F & _). inversion F. reflexivity.
  - destruct (bad_name (i_name i)) eqn:B.
    { split; [discriminate|]. intros (F & _). inversion F as [|? ? H]; subst. apply bad_iff in H. cong. }
    apply bad_iff in B. destruct (existsb (text_eqb (i_name i)) seen) eqn:S1.
    { split; [discriminate|]. intros (_ & _ & D & _). exfalso. apply (D (i_name i)); [now left|now apply in_texts]. }
    assert (S2 : ~ In (i_name i) seen) by (intros K; apply in_texts in K; cong).
    destruct (metadata k (i_name i)) eqn:M; cbn [negb].
    + destruct (N.ltb_spec (max_entry lim) (i_size i)) as [L|L].
      { split; [discriminate|]. intros (_ & _ & _ & F & _). inversion F as [|? ? ? ? (_ & H & _)]; subst. lia. }
      destruct (N.ltb_spec (max_total lim) (tot + i_size i)) as [L2|L2].
      { split; [discriminate|]. intros (_ & _ & _ & _ & H). cbn [map total fold_right] in H. unfold total in H. lia. }
      destruct (i_data i) as [d|] eqn:D.
      2: { split; [discriminate|]. intros (_ & _ & _ & F & _). inversion F as [|? ? ? ? (_ & _ & d & H & _)]; subst. cong. }
      destruct (N.eqb_spec (N.of_nat (length (taken lim d))) (i_size i)) as [Z|Z]; cbn [negb].
      2: { split; [discriminate|]. intros (_ & _ & _ & F & _). inversion F as [|? ? ? ? (_ & _ & d' & H & E & Y)]; subst. rewrite D in H. injection H as <-. rewrite E in Y. contradiction. }
      assert (READ : forall c, read i (i_name i, c) <-> c = taken lim d).
      { intros c. unfold read. cbn [fst snd]. split.
        - intros (_ & _ & d' & H & E & _). rewrite D in H. now injection H as <-.
        - intros ->. split; [reflexivity|]. split; [exact L|]. exists d. auto. }
      split.
      * destruct (collect lim k l (i_name i :: seen) (tot + i_size i)) as [s|] eqn:C; [|discriminate]. intros [= <-].
        apply IH in C; [|exact L2]. destruct C as (F & ND & DJ & F2 & TT). cbn [map total fold_right].
        split; [now constructor|]. split; [constructor; [intros K; apply (DJ _ K); now left|exact ND]|].
        split; [intros n [<-|K]; [exact S2|intros Q; apply (DJ n K); now right]|].
        split; [constructor; [now apply READ|exact F2]|]. unfold total in *. lia.
      * intros (F & ND & DJ & F2 & TT). inversion F; inversion ND; subst. inversion F2 as [|? e ? s R F3]; subst.
        assert (C : collect lim k l (i_name i :: seen) (tot + i_size i) = inl s).
        { apply IH; [exact L2|]. split; [assumption|]. split; [assumption|]. split.
          - intros n K [<-|Q]; [contradiction|]. apply (DJ n); [now right|exact Q].
          - split; [exact F3|]. cbn [map total fold_right] in TT. unfold total in *. lia. }
        rewrite C. destruct e as [n c]. assert (n = i_name i) by apply R. subst n. apply READ in R as ->. reflexivity.
    + rewrite IH by exact T. split.
      * intros (F & ND & DJ & F2 & TT). split; [now constructor|]. split; [constructor; [intros K; apply (DJ _ K); now left|exact ND]|].
        split; [intros n [<-|K]; [exact S2|intros Q; apply (DJ n K); now right]|]. auto.
      * intros (F & ND & DJ & F2 & TT). inversion F; inversion ND; subst. split; [assumption|]. split; [assumption|]. split; [|auto].
        intros n K [<-|Q]; [contradiction|]. apply (DJ n); [now right|exact Q].
Qed.
End Collect.

(** ** The selection. *)
Lemma lexb_same x : lexb x x = true.
Proof. destruct (lexb_total x x); auto. Qed.
Lemma offer_keys l r n c s : forall x, In x (map fst (offer l r n c s)) <-> x = l \/ In x (map fst s).
Proof.
  induction s as [|[l' [[r' n'] c']] s IH]; intros x; cbn.
  - split; [intros [<-|[]]; auto|intros [->|[]]; auto].
  - destruct (text_eqb l l') eqn:E.
    + apply text_eqb_iff in E as <-. destruct (rank r' <? rank r)%N; cbn; intuition.
    + cbn. rewrite IH. intuition.
Qed.
Lemma offer_nodup l r n c s : NoDup (map fst s) -> NoDup (map fst (offer l r n c s)).
Proof.
  induction s as [|[l' [[r' n'] c']] s IH]; cbn; intros D; [repeat constructor; auto|].
  inversion D as [|? ? D1 D2]; subst. destruct (text_eqb l l') eqn:E.
  - apply text_eqb_iff in E as <-. destruct (rank r' <? rank r)%N; cbn; now constructor.
  - apply text_eqb_no in E. cbn. constructor; [|now apply IH]. rewrite offer_keys. intros [K|K]; cong.
Qed.
Lemma offer_other l r n c s x v : x <> l -> In (x, v) (offer l r n c s) <-> In (x, v) s.
Proof.
  intros D. induction s as [|[l' [[r' n'] c']] s IH]; cbn.
  - split; [intros [[= <- _]|[]]; contradiction|intros []].
  - destruct (text_eqb l l') eqn:E.
    + apply text_eqb_iff in E as <-. destruct (rank r' <? rank r)%N; cbn; [|tauto].
      split; intros [K|K]; auto; injection K as -> _; contradiction.
    + cbn. rewrite IH. tauto.
Qed.
Lemma offer_new l r n c s v : ~ In l (map fst s) -> In (l, v) (offer l r n c s) <-> v = (r, n, c).
Proof.
  induction s as [|[l' [[r' n'] c']] s IH]; cbn; intros D.
  - split; [intros [[= <-]|[]]; reflexivity|intros ->; auto].
  - destruct (text_eqb l l') eqn:E; [apply text_eqb_iff in E as <-; tauto|]. apply text_eqb_no in E. cbn. rewrite IH by tauto.
    split; [intros [K|K]; [injection K as -> _; contradiction|exact K]|auto].
Qed.
Lemma offer_old l r n c s r1 n1 c1 v : NoDup (map fst s) -> In (l, (r1, n1, c1)) s ->
  In (l, v) (offer l r n c s) <-> v = if (rank r1 <? rank r)%N then (r, n, c) else (r1, n1, c1).
Proof.
  induction s as [|[l' [[r' n'] c']] s IH]; cbn; intros D M; [destruct M|]. inversion D as [|? ? D1 D2]; subst.
  assert (NO : forall v, In (l', v) s -> False) by (intros w K; apply D1; apply in_map_iff; exists (l', w); auto).
  destruct (text_eqb l l') eqn:E.
  - apply text_eqb_iff in E as <-. destruct M as [M|M]; [|exfalso; exact (NO _ M)]. injection M as -> -> ->.
    destruct (rank r1 <? rank r)%N; cbn; (split; [intros [K|K]; [cong|exfalso; exact (NO _ K)]|intros ->; auto]).
  - apply text_eqb_no in E. destruct M as [M|M]; [cong|]. cbn. rewrite (IH D2 M). split; [intros [K|K]; [cong|exact K]|auto].
Qed.
Section Select.
Variables (k : kind) (m : bool) (f : N).
Definition inv (p : list (text * list N)) (s : list chosen) : Prop :=
  NoDup (map fst s) /\
  (forall n c l r, In (n, c) p -> candidate k m f n = inl (Some (l, r)) -> In l (map fst s)) /\
  forall l r n c, In (l, (r, n, c)) s <->
    In (n, c) p /\ candidate k m f n = inl (Some (l, r)) /\
    forall n' c' r', In (n', c') p -> candidate k m f n' = inl (Some (l, r')) ->
      (rank r' < rank r)%N \/ rank r' = rank r /\ lexb n n' = true.
Lemma inv_skip p s n0 c0 : candidate k m f n0 = inl None -> inv p s -> inv (p ++ [(n0, c0)]) s.
Proof.
  intros C (D & A & B). split; [exact D|]. split.
  - intros n c l r H Q. apply in_app_or in H as [H|[H|[]]]; [eapply A; eauto|]. injection H as <- <-. cong.
  - intros l r n c. rewrite B. split; intros (H & Q & U).
    + split; [apply in_or_app; auto|]. split; [exact Q|]. intros n' c' r' H' Q'. apply in_app_or in H' as [H'|[H'|[]]]; [eapply U; eauto|]. injection H' as <- <-. cong.
    + split; [apply in_app_or in H as [H|[H|[]]]; [exact H|injection H as <- <-; cong]|]. split; [exact Q|].
      intros n' c' r' H' Q'. eapply U; eauto. apply in_or_app. eauto.
Qed.
Lemma inv_step p s n0 c0 l0 r0 : candidate k m f n0 = inl (Some (l0, r0)) ->
  (forall n c, In (n, c) p -> lexb n n0 = true /\ n <> n0) -> inv p s -> inv (p ++ [(n0, c0)]) (offer l0 r0 n0 c0 s).
Proof.
  intros C LT (D & A & B). split; [now apply offer_nodup|].
  assert (LASTIN : In (n0, c0) (p ++ [(n0, c0)])) by (apply in_or_app; right; now left). split.
  - intros n c l r H Q. rewrite offer_keys. apply in_app_or in H as [H|[H|[]]]; [right; eapply A; eauto|]. injection H as <- <-. left. cong.
  - intros l r n c. destruct (list_eq_dec Nat.eq_dec l l0) as [->|NE].
    2: { rewrite offer_other by exact NE. rewrite B. split; intros (H & Q & U).
      - split; [apply in_or_app; auto|]. split; [exact Q|]. intros n' c' r' H' Q'. apply in_app_or in H' as [H'|[H'|[]]]; [eapply U; eauto|]. injection H' as <- <-. cong.
      - split; [apply in_app_or in H as [H|[H|[]]]; [exact H|injection H as <- <-; cong]|]. split; [exact Q|].
        intros n' c' r' H' Q'. eapply U; eauto. apply in_or_app. eauto. }
    destruct (in_dec (list_eq_dec Nat.eq_dec) l0 (map fst s)) as [I0|I0].
    + apply in_map_iff in I0 as ([l1 [[r1 n1] c1]] & <- & I1). cbn [fst] in *. rewrite (offer_old _ _ _ _ _ r1 n1 c1) by assumption.
      destruct (proj1 (B _ _ _ _) I1) as (H1 & Q1 & U1). destruct (N.ltb_spec (rank r1) (rank r0)) as [G|G].
      * split.
        -- intros [= -> -> ->]. split; [apply in_or_app; right; now left|]. split; [exact C|]. intros n' c' r' H' Q'.
           apply in_app_or in H' as [H'|[H'|[]]]; [destruct (U1 n' c' r' H' Q') as [K|[K _]]; left; lia|]. injection H' as <- <-. right. rewrite C in Q'. injection Q' as <-. split; [reflexivity|apply lexb_same].
        -- intros (H & Q & U). apply in_app_or in H as [H|[H|[]]].
           ++ exfalso. destruct (U1 n c r H Q) as [K|[K _]]; (destruct (U n0 c0 r0 LASTIN C) as [K'|[K' _]]; lia).
           ++ injection H as <- <-. rewrite C in Q. now injection Q as <-.
      * split.
        -- intros [= -> -> ->]. split; [apply in_or_app; auto|]. split; [exact Q1|]. intros n' c' r' H' Q'.
           apply in_app_or in H' as [H'|[H'|[]]]; [exact (U1 n' c' r' H' Q')|]. injection H' as <- <-. rewrite C in Q'. injection Q' as <-.
           destruct (N.eq_dec (rank r0) (rank r1)) as [E|E]; [right; split; [exact E|apply (LT n1 c1 H1)]|left; lia].
        -- intros (H & Q & U). apply in_app_or in H as [H|[H|[]]].
           ++ assert (K : In (l1, (r, n, c)) s).
              { apply B. split; [exact H|]. split; [exact Q|]. intros n' c' r' H' Q'. eapply U; eauto. apply in_or_app. eauto. }
              assert (Z : forall u v, In (l1, u) s -> In (l1, v) s -> u = v).
              { clear - D. induction s as [|[a b] s IH]; intros u v; [intros []|]. cbn in D. inversion D as [|? ? D1 D2]; subst.
                intros [X|X] [Y|Y]; [cong| | |eauto]; exfalso; apply D1; apply in_map_iff; [exists (l1, v)|exists (l1, u)]; split; auto; cbn; cong. }
              exact (Z _ _ K I1).
           ++ injection H as <- <-. exfalso. rewrite C in Q. injection Q as <-. destruct (LT n1 c1 H1) as [L1 L2].
              destruct (U n1 c1 r1 (in_or_app p [(n0, c0)] (n1, c1) (or_introl H1)) Q1) as [K|[K X]]; [lia|]. apply L2. now apply lexb_antisym.
    + rewrite offer_new by exact I0. split.
      * intros [= -> -> ->]. split; [apply in_or_app; right; now left|]. split; [exact C|]. intros n' c' r' H' Q'.
        apply in_app_or in H' as [H'|[H'|[]]]; [exfalso; apply I0; eapply A; eauto|]. injection H' as <- <-. right. rewrite C in Q'. injection Q' as <-. split; [reflexivity|apply lexb_same].
      * intros (H & Q & U). apply in_app_or in H as [H|[H|[]]]; [exfalso; apply I0; eapply A; eauto|]. injection H as <- <-. rewrite C in Q. now injection Q as <-.
Qed.
Lemma select_inv q : forall p s s', StronglySorted (fun x y => lexb (fst x) (fst y) = true) (p ++ q) -> NoDup (map fst (p ++ q)) ->
  inv p s -> select k m f q s = inl s' -> inv (p ++ q) s'.
Proof.
  induction q as [|[n0 c0] q IH]; intros p s s' SS ND V H; cbn in H.
  - rewrite app_nil_r. now injection H as <-.
  - assert (LT : forall n c, In (n, c) p -> lexb n n0 = true /\ n <> n0).
    { intros n c K. apply in_split in K as (p1 & p2 & ->). rewrite <- app_assoc in SS, ND. split.
      - clear - SS. induction p1 as [|z p1 IHp]; cbn in SS; inversion SS as [|? ? S1 S2]; subst; [|auto].
        rewrite Forall_forall in S2. apply (S2 (n0, c0)). apply in_or_app. right. now left.
      - intros ->. rewrite map_app in ND. cbn in ND. apply NoDup_remove_2 in ND. apply ND. apply in_or_app. right. rewrite map_app. apply in_or_app. right. now left. }
    replace (p ++ (n0, c0) :: q) with ((p ++ [(n0, c0)]) ++ q) in * by now rewrite <- app_assoc.
    destruct (candidate k m f n0) as [[[l r]|]|] eqn:C; [| |discriminate].
    + eapply IH; eauto. now apply inv_step.
    + eapply IH; eauto. now apply inv_skip.
Qed.
Lemma select_ok q : forall s, (exists s', select k m f q s = inl s') <-> Forall (fun e => ~ malformed k (fst e)) q.
Proof.
  induction q as [|[n c] q IH]; intros s; cbn; [split; [constructor|intros _; eauto]|].
  destruct (candidate k m f n) as [o|e] eqn:C.
  - assert (OK : ~ malformed k n) by (intros [e E]%(candidate_bad k m f); cong).
    destruct o as [[l r]|]; rewrite IH; (split; [intros F; now constructor|intros F; now inversion F]).
  - split; [intros [s' H]; discriminate|]. intros F. inversion F as [|? ? H]; subst. exfalso. apply H. apply (candidate_bad k m f). eauto.
Qed.
Lemma inv_nil : inv [] [].
Proof. split; [constructor|]. split; [intros ? ? ? ? []|]. intros l r n c. split; [intros []|intros ([] & _)]. Qed.
End Select.
