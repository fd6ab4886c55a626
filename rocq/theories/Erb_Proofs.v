(** Proofs about templates. *)
From Coq Require Import List Arith NArith Lia Bool.
From Verif Require Import Text_Lib Erb_Model Erb_Spec.
Import ListNotations.

(** ** Searching *)

Lemma contains_cons x y c l : contains x y (c :: l) <-> (c = x /\ exists r, l = y :: r) \/ contains x y l.
Proof.
  split.
  - intros ([|d p] & r & E); cbn in E; injection E as -> ->; [left; eauto|right; now exists p, r].
  - intros [(-> & r & ->)|(p & r & ->)]; [now exists [], r|now exists (c :: p), r].
Qed.
Lemma contains_nil x y : ~ contains x y [].
Proof. intros ([|] & r & E); discriminate. Qed.
Lemma contains_one x y c : ~ contains x y [c].
Proof. intros H. apply contains_cons in H. destruct H as [(_ & r & E)|H]; [discriminate|]. now apply contains_nil in H. Qed.

Lemma find_none a b l : find_bytes a b l = None <-> ~ contains a b l.
Proof.
  induction l as [|x l IH]; [split; auto; intros _; apply contains_nil|].
  destruct l as [|y l]; [split; auto; intros _; apply contains_one|].
  change (find_bytes a b (x :: y :: l)) with (if (x =? a)%N && (y =? b)%N then Some 0 else option_map S (find_bytes a b (y :: l))).
  rewrite contains_cons. destruct (N.eqb_spec x a) as [->|Hx]; cbn [andb].
  - destruct (N.eqb_spec y b) as [->|Hy].
    + split; [discriminate|]. intros H. exfalso. apply H. left. eauto.
    + destruct (find_bytes a b (y :: l)); cbn [option_map].
      * split; [discriminate|]. intros H. exfalso. apply H. right. destruct (proj1 (not_iff_compat IH)); [easy|].
        assert (~ ~ contains a b (y :: l)) as NN by (intros HH; apply IH in HH; discriminate). exfalso. apply NN. tauto.
      * split; auto. intros _ [(_ & r & E)|H]; [congruence|]. now apply IH in H.
  - destruct (find_bytes a b (y :: l)) eqn:E; cbn [option_map].
    + split; [discriminate|]. intros H. assert (~ contains a b (y :: l)) as HH by tauto. apply IH in HH. discriminate.
    + split; auto. intros _ [(E' & _)|H]; [congruence|]. now apply IH in H.
Qed.
Lemma find_some a b l i : find_bytes a b l = Some i -> exists p r, l = p ++ a :: b :: r /\ length p = i /\ ~ contains a b (p ++ [a]).
Proof.
  revert i. induction l as [|x l IH]; intros i E; [discriminate|]. destruct l as [|y l]; [discriminate|].
  change (find_bytes a b (x :: y :: l)) with (if (x =? a)%N && (y =? b)%N then Some 0 else option_map S (find_bytes a b (y :: l))) in E.
  destruct (andb _ _) eqn:A.
  - apply andb_true_iff in A. destruct A as [A B]. apply N.eqb_eq in A, B. subst. injection E as <-. exists [], l.
    repeat split. apply contains_one.
  - destruct (find_bytes a b (y :: l)) as [j|] eqn:F; [|discriminate]. injection E as <-.
    destruct (IH j eq_refl) as (p & r & Ep & <- & N). exists (x :: p), r. rewrite Ep. repeat split.
    cbn [app]. rewrite contains_cons. intros [(-> & q & Eq)|H]; auto.
    destruct p as [|d p]; cbn in Ep, Eq; injection Ep as -> ->; injection Eq as -> _; now rewrite !N.eqb_refl in A.
Qed.
Lemma find_here a b p r : ~ contains a b (p ++ [a]) -> find_bytes a b (p ++ a :: b :: r) = Some (length p).
Proof.
  induction p as [|x p IH]; intros N.
  - cbn. now rewrite !N.eqb_refl.
  - cbn [app] in *. rewrite contains_cons in N. cbn [length].
    assert (find_bytes a b (p ++ a :: b :: r) = Some (length p)) as E by (apply IH; tauto).
    destruct (p ++ a :: b :: r) as [|y l] eqn:El; [now destruct p|].
    change (find_bytes a b (x :: y :: l)) with (if (x =? a)%N && (y =? b)%N then Some 0 else option_map S (find_bytes a b (y :: l))).
    rewrite E. destruct (andb _ _) eqn:A; auto. exfalso. apply andb_true_iff in A. destruct A as [A B]. apply N.eqb_eq in A, B. subst.
    apply N. left. split; auto. destruct p as [|d p]; cbn in El; injection El as -> El.
    + now exists [].
    + now exists (p ++ [a]).
Qed.
Lemma no_straddle x y l : x <> y -> ~ contains x y l -> ~ contains x y (l ++ [x]).
Proof.
  intros NE. induction l as [|c l IH]; intros H; [apply contains_one|]. cbn [app]. rewrite contains_cons in *.
  intros [(-> & r & E)|H']; [|apply IH; tauto]. apply H. left. split; auto. destruct l as [|d l]; cbn in E; injection E as -> E.
  - congruence.
  - eauto.
Qed.

(** ** Bytes *)

Lemma skipn_exact {A} (P s : list A) : skipn (length P) (P ++ s) = s.
Proof. rewrite skipn_app, skipn_all, Nat.sub_diag. reflexivity. Qed.
Lemma byte_is_app A x B y n : n = length A -> byte_is (A ++ x :: B) n y = (x =? y)%N.
Proof. intros ->. unfold byte_is. now rewrite nth_error_app2, Nat.sub_diag by lia. Qed.
Lemma byte_is_some l i x : byte_is l i x = true -> nth_error l i = Some x.
Proof. unfold byte_is. destruct (nth_error l i); [|easy]. intros H. apply N.eqb_eq in H. now subst. Qed.

(** ** C43: the scanner follows the tags *)

(** Markers the scanner reads differently. *)
Definition regular (t : list N * list N) : Prop := fst t <> [EQ; EQ] /\ ~ (fst t = [DASH] /\ hd 0%N (snd t) = EQ).

Lemma scan_code bytes A m code trim rest : splits m code trim -> regular (m, code) ->
  bytes = A ++ (m ++ code ++ trim) ++ PCT :: GT :: rest -> m ++ code ++ trim <> [] ->
  let s0 := length A in
  let close := length A + length (m ++ code ++ trim) in
  let s1 := if byte_is bytes s0 DASH then s0 + 1 else s0 in
  let s2 := if byte_is bytes s1 EQ then s1 + 1 else s1 in
  let e := if (s2 <? close) && byte_is bytes (close - 1) DASH then close - 1 else close in
  byte_is bytes s0 PCT || byte_is bytes s0 HASH = false /\ s2 = length A + length m /\ e = length A + length m + length code.
Proof.
  intros (HM & HT & H1 & H2 & H3) (R1 & R2) EB NE. cbn zeta. cbn [fst snd] in R1, R2.
  assert (byte_is bytes (length A) PCT || byte_is bytes (length A) HASH = false /\
          (let s1 := if byte_is bytes (length A) DASH then length A + 1 else length A in
           (if byte_is bytes s1 EQ then s1 + 1 else s1) = length A + length m)) as [E1 E2].
  { destruct HM as [| | |]; [| | |congruence].
    - destruct (H1 eq_refl) as (N1 & N2 & N3 & N4). cbn [app] in *. destruct (code ++ trim) as [|x l]; [easy|]. cbn [hd] in *.
      subst bytes. cbn [app]. cbn zeta. rewrite !(byte_is_app A x _ _ (length A)) by auto.
      destruct (N.eqb_spec x DASH); [congruence|]. rewrite (byte_is_app A x _ _ (length A)) by auto.
      destruct (N.eqb_spec x EQ); [congruence|]. destruct (N.eqb_spec x PCT); [congruence|].
      destruct (N.eqb_spec x HASH); [congruence|]. split; auto.
    - subst bytes. cbn [app]. cbn zeta. rewrite !(byte_is_app A DASH _ _ (length A)) by auto. cbn [N.eqb]. change (DASH =? DASH)%N with true.
      change (DASH =? PCT)%N with false. change (DASH =? HASH)%N with false. split; [reflexivity|].
      assert (byte_is (A ++ DASH :: (code ++ trim) ++ PCT :: GT :: rest) (length A + 1) EQ = false) as ->; [|reflexivity].
      change (A ++ DASH :: (code ++ trim) ++ PCT :: GT :: rest) with (A ++ [DASH] ++ (code ++ trim) ++ PCT :: GT :: rest).
      rewrite app_assoc. destruct code as [|x code].
      + destruct HT as [->| ->]; cbn [app]; now rewrite byte_is_app by (rewrite app_length; auto).
      + cbn [app]. rewrite byte_is_app by (rewrite app_length; auto). apply N.eqb_neq. intros ->. now apply R2.
    - subst bytes. cbn [app]. cbn zeta. rewrite !(byte_is_app A EQ _ _ (length A)) by auto. change (EQ =? DASH)%N with false.
      change (EQ =? PCT)%N with false. change (EQ =? HASH)%N with false. split; [reflexivity|].
      reflexivity. }
  split; [exact E1|]. cbn zeta in E2. split; [exact E2|]. rewrite E2. rewrite !app_length.
  destruct HT as [->| ->].
  - specialize (H3 eq_refl). cbn [length]. destruct code as [|x code] using rev_ind.
    + cbn [length]. destruct (Nat.ltb_spec (length A + length m) (length A + (length m + (0 + 0)))); [lia|]. cbn [andb]. lia.
    + clear IHcode. rewrite last_last in H3. rewrite app_length. cbn [length].
      assert (byte_is bytes (length A + (length m + (length code + 1 + 0)) - 1) DASH = false) as ->; [|rewrite andb_false_r; lia].
      assert (bytes = (A ++ m ++ code) ++ x :: PCT :: GT :: rest) as ->.
      { subst bytes. rewrite !app_nil_r, <- !app_assoc. reflexivity. }
      rewrite byte_is_app by (rewrite !app_length; lia). now apply N.eqb_neq.
  - cbn [length]. destruct (Nat.ltb_spec (length A + length m) (length A + (length m + (length code + 1)))); [|lia]. cbn [andb].
    assert (bytes = (A ++ m ++ code) ++ DASH :: PCT :: GT :: rest) as ->.
    { subst bytes. rewrite <- !app_assoc. reflexivity. }
    rewrite byte_is_app by (rewrite !app_length; lia). change (DASH =? DASH)%N with true. cbn iota. lia.
Qed.

Lemma scan_template o s ms rs u : template o s ms rs u -> Forall regular ms ->
  forall fuel P masked ranges, length P = o -> length s < fuel -> exists e,
    scan fuel (P ++ s) o masked ranges = Some e /\ ruby_ranges e = ranges ++ nonempty rs /\ unclosed_tag_offset e = u.
Proof.
  intros T. induction T as [o s N|o pre rest N1 N2|o pre t rest ms rs u N HT T IH|o pre t m code rest ms rs u N HT T IH];
    intros HR fuel P masked ranges <- LF; (destruct fuel as [|fuel]; [lia|]); cbn [scan].
  - destruct (Nat.ltb_spec (length (P ++ s)) (length P)) as [L|_]; [rewrite app_length in L; lia|].
    rewrite skipn_exact. assert (find_bytes LT PCT s = None) as -> by now apply find_none.
    eexists. split; [reflexivity|]. cbn. now rewrite app_nil_r.
  - destruct (Nat.ltb_spec (length (P ++ pre ++ LT :: PCT :: rest)) (length P)) as [L|_]; [rewrite app_length in L; lia|].
    rewrite skipn_exact, find_here by auto.
    assert (find_bytes PCT GT (skipn (Nat.min (length P + length pre + 3) (length (P ++ pre ++ LT :: PCT :: rest))) (P ++ pre ++ LT :: PCT :: rest)) = None) as ->.
    { apply find_none. destruct rest as [|x rest].
      - rewrite Nat.min_r by (rewrite !app_length; cbn; lia). rewrite skipn_all. apply contains_nil.
      - rewrite Nat.min_l by (rewrite !app_length; cbn; lia).
        replace (P ++ pre ++ LT :: PCT :: x :: rest) with ((P ++ pre ++ [LT; PCT; x]) ++ rest) by (rewrite <- !app_assoc; reflexivity).
        replace (length P + length pre + 3) with (length (P ++ pre ++ [LT; PCT; x])) by (rewrite !app_length; cbn; lia).
        now rewrite skipn_exact. }
    eexists. split; [reflexivity|]. cbn. now rewrite app_nil_r.
  - destruct (Nat.ltb_spec (length (P ++ pre ++ t ++ rest)) (length P)) as [L|_]; [rewrite app_length in L; lia|].
    rewrite skipn_exact.
    assert (exists x body, t = LT :: PCT :: x :: body ++ [PCT; GT] /\ (x = HASH \/ x = PCT) /\ ~ contains PCT GT body) as (x & body & -> & Hx & NB).
    { remember None as c. destruct HT as [body HB|body HB|]; [exists HASH, body; auto|exists PCT, body; auto|discriminate]. }
    cbn [app]. rewrite find_here by auto. rewrite <- !app_assoc. cbn [app].
    rewrite Nat.min_l by (rewrite !app_length; cbn [length]; rewrite ?app_length; cbn; lia).
    set (B := P ++ pre ++ LT :: PCT :: x :: body ++ PCT :: GT :: rest).
    assert (B = (P ++ pre ++ [LT; PCT; x]) ++ body ++ PCT :: GT :: rest) as EB by (unfold B; rewrite <- !app_assoc; reflexivity).
    assert (skipn (length P + length pre + 3) B = body ++ PCT :: GT :: rest) as ->.
    { rewrite EB. replace (length P + length pre + 3) with (length (P ++ pre ++ [LT; PCT; x])) by (rewrite !app_length; cbn; lia). apply skipn_exact. }
    rewrite find_here by (apply no_straddle; auto; discriminate).
    assert (byte_is B (length P + length pre + 2) PCT || byte_is B (length P + length pre + 2) HASH = true) as ->.
    { assert (B = (P ++ pre ++ [LT; PCT]) ++ x :: body ++ PCT :: GT :: rest) as -> by (unfold B; rewrite <- !app_assoc; reflexivity).
      rewrite !byte_is_app by (rewrite !app_length; cbn; lia). destruct Hx as [-> | ->]; reflexivity. }
    assert (B = (P ++ pre ++ LT :: PCT :: x :: body ++ [PCT; GT]) ++ rest) as EB2.
    { unfold B. rewrite <- !app_assoc. cbn. rewrite <- !app_assoc. reflexivity. }
    rewrite EB2. replace (length P + length pre + 3 + length body + 2) with (length P + length pre + length (LT :: PCT :: x :: body ++ [PCT; GT]))
      by (cbn [length]; rewrite app_length; cbn; lia).
    apply IH; auto.
    + rewrite !app_length. lia.
    + rewrite !app_length in LF. cbn [length] in LF. lia.
  - inversion HR as [|? ? HR1 HR2]; subst.
    destruct (Nat.ltb_spec (length (P ++ pre ++ t ++ rest)) (length P)) as [L|_]; [rewrite app_length in L; lia|].
    rewrite skipn_exact.
    assert (exists trim, t = LT :: PCT :: (m ++ code ++ trim) ++ [PCT; GT] /\ splits m code trim /\ m ++ code ++ trim <> [] /\
              ~ contains PCT GT (m ++ code ++ trim)) as (trim & -> & SP & NE & NC).
    { remember (Some (m, code)) as c. destruct HT as [| |m' code' trim HS HN HC]; [discriminate|discriminate|]. injection Heqc as -> ->. eauto. }
    set (inner := m ++ code ++ trim) in *. cbn [app]. rewrite find_here by auto. rewrite <- !app_assoc. cbn [app].
    set (B := P ++ pre ++ LT :: PCT :: inner ++ PCT :: GT :: rest).
    assert (1 <= length inner) as LI by (destruct inner; [easy|cbn; lia]).
    rewrite Nat.min_l by (unfold B; rewrite !app_length; cbn [length]; rewrite ?app_length; cbn; lia).
    assert (find_bytes PCT GT (skipn (length P + length pre + 3) B) = Some (length inner - 1)) as ->.
    { destruct inner as [|x body]; [easy|].
      assert (B = (P ++ pre ++ [LT; PCT; x]) ++ body ++ PCT :: GT :: rest) as -> by (unfold B; rewrite <- !app_assoc; reflexivity).
      replace (length P + length pre + 3) with (length (P ++ pre ++ [LT; PCT; x])) by (rewrite !app_length; cbn; lia).
      rewrite skipn_exact, find_here; [cbn [length]; f_equal; lia|]. apply no_straddle; [discriminate|].
      intros H. apply NC. apply contains_cons. auto. }
    assert (B = (P ++ pre ++ [LT; PCT]) ++ inner ++ PCT :: GT :: rest) as EB by (unfold B; rewrite <- !app_assoc; reflexivity).
    assert (length (P ++ pre ++ [LT; PCT]) = length P + length pre + 2) as LA by (rewrite !app_length; cbn; lia).
    destruct (scan_code B _ m code trim rest SP HR1 EB NE) as (E1 & E2 & E3). fold inner in E2, E3. rewrite LA in E1, E2, E3.
    replace (length P + length pre + 3 + (length inner - 1)) with (length P + length pre + 2 + length inner) by lia.
    rewrite E1, E3, E2.
    assert (B = (P ++ pre ++ LT :: PCT :: inner ++ [PCT; GT]) ++ rest) as EB2.
    { unfold B. rewrite <- !app_assoc. cbn. rewrite <- !app_assoc. reflexivity. }
    assert (length P + length pre + 2 + length inner + 2 = length P + length pre + length (LT :: PCT :: inner ++ [PCT; GT])) as LC
      by (cbn [length]; rewrite app_length; cbn; lia).
    rewrite LC. unfold nonempty. cbn [filter fst snd].
    assert (length rest < fuel) as LR. { rewrite !app_length in LF. cbn [length] in LF. lia. }
    destruct (Nat.leb_spec (length P + length pre + 2 + length m + length code) (length P + length pre + 2 + length m)) as [L1|L1].
    + destruct (Nat.ltb_spec (length P + length pre + 2 + length m) (length P + length pre + 2 + length m + length code)); [lia|].
      rewrite EB2. apply IH; auto. rewrite !app_length. lia.
    + destruct (Nat.ltb_spec (length P + length pre + 2 + length m) (length P + length pre + 2 + length m + length code)); [|lia].
      destruct (Nat.leb_spec (length B) (length P + length pre + 2 + length inner)) as [L2|_].
      { exfalso. rewrite EB, app_length, LA, app_length in L2. cbn in L2. lia. }
      rewrite EB2. edestruct (IH HR2 fuel (P ++ pre ++ LT :: PCT :: inner ++ [PCT; GT])) as (e & S1 & S2 & S3); [ |exact LR|].
      * rewrite !app_length. lia.
      * exists e. split; [exact S1|]. split; [|exact S3]. rewrite S2, <- app_assoc. reflexivity.
Qed.

(** Every byte string is a template. *)
Lemma template_exists n : forall s o, length s <= n -> exists ms rs u, template o s ms rs u.
Proof.
  induction n as [|n IH]; intros s o L.
  { destruct s; [|cbn in L; lia]. exists [], [], None. constructor. apply contains_nil. }
  destruct (find_bytes LT PCT s) as [i|] eqn:F; [|exists [], [], None; constructor; now apply find_none].
  destruct (find_some _ _ _ _ F) as (pre & rest & -> & _ & N1). clear F.
  destruct (find_bytes PCT GT (tl rest)) as [j|] eqn:F; [|do 3 eexists; apply unclosed; [exact N1|now apply find_none]].
  destruct (find_some _ _ _ _ F) as (body & r & E & _ & N2). clear F.
  destruct rest as [|x rest]; [now destruct body|]. cbn [tl] in E. subst rest.
  assert (~ contains PCT GT body) as NB.
  { intros (p & q & ->). apply N2. exists p, (q ++ [PCT]). rewrite <- app_assoc. reflexivity. }
  assert (forall t, LT :: PCT :: x :: body ++ PCT :: GT :: r = t ++ r -> length t >= 1 ->
            exists ms rs u, template (o + length pre + length t) r ms rs u) as REST.
  { intros t Et Lt. apply IH. rewrite Et, !app_length in L. lia. }
  assert (forall c, tag (LT :: PCT :: x :: body ++ [PCT; GT]) c -> exists ms rs u, template o (pre ++ LT :: PCT :: x :: body ++ PCT :: GT :: r) ms rs u) as FIN.
  { intros c HT. destruct (REST (LT :: PCT :: x :: body ++ [PCT; GT])) as (ms & rs & u & T).
    { cbn. rewrite <- app_assoc. reflexivity. } { cbn. lia. }
    replace (pre ++ LT :: PCT :: x :: body ++ PCT :: GT :: r) with (pre ++ (LT :: PCT :: x :: body ++ [PCT; GT]) ++ r)
      by (cbn; rewrite <- app_assoc; reflexivity).
    destruct c as [[m code]|].
    - do 3 eexists. eapply visible; eauto.
    - do 3 eexists. eapply hidden; eauto. }
  destruct (N.eq_dec x HASH) as [->|NH]; [apply (FIN None); now constructor|].
  destruct (N.eq_dec x PCT) as [->|NP]; [apply (FIN None); now constructor|].
  assert (exists m code trim, splits m code trim /\ x :: body = m ++ code ++ trim) as (m & code & trim & SP & E).
  { assert (exists m k, marker m /\ x :: body = m ++ k /\
              (m = [] -> hd 0%N k <> DASH /\ hd 0%N k <> EQ /\ hd 0%N k <> PCT /\ hd 0%N k <> HASH) /\ (m = [EQ] -> hd 0%N k <> EQ))
      as (m & k & HM & E & H1 & H2).
    { destruct (N.eq_dec x DASH) as [->|ND]; [exists [DASH], body; repeat split; try constructor; easy|].
      destruct (N.eq_dec x EQ) as [->|NE].
      - destruct body as [|y body]; [exists [EQ], []; repeat split; try constructor; easy|].
        destruct (N.eq_dec y EQ) as [->|NE2]; [exists [EQ; EQ], body; repeat split; try constructor; easy|].
        exists [EQ], (y :: body). repeat split; try constructor; easy.
      - exists [], (x :: body). repeat split; try constructor; easy. }
    destruct k as [|z k _] using rev_ind.
    - exists m, [], []. split; [|exact E]. split; auto. split; auto. split; auto. split; auto. intros _. discriminate.
    - destruct (N.eq_dec z DASH) as [->|NZ].
      + exists m, k, [DASH]. split; [|exact E]. split; auto. split; auto. split; auto. split; auto. discriminate.
      + exists m, (k ++ [z]), []. rewrite app_nil_r. split; [|exact E]. split; auto. rewrite app_nil_r. split; auto. split; auto. split; auto.
        intros _. now rewrite last_last. }
  apply (FIN (Some (m, code))).
  change (LT :: PCT :: x :: body ++ [PCT; GT]) with (LT :: PCT :: (x :: body) ++ [PCT; GT]). rewrite E. constructor; auto.
  - rewrite <- E. discriminate.
  - rewrite <- E. rewrite contains_cons. intros [(E' & _)|H]; auto.
Qed.

(** ** C42: what the scanner leaves in place *)

Lemma copy_length masked src s e : s <= e -> e <= length masked -> length masked = length src -> length (copy masked src s e) = length masked.
Proof. intros. unfold copy. rewrite !app_length, !firstn_length, !skipn_length. lia. Qed.
Lemma nth_firstn {A} (l : list A) n i : i < n -> nth_error (firstn n l) i = nth_error l i.
Proof. revert l i. induction n as [|n IH]; intros [|x l] [|i] H; cbn; auto; try lia. apply IH. lia. Qed.
Lemma nth_skipn {A} (l : list A) n i : nth_error (skipn n l) i = nth_error l (n + i).
Proof. revert l. induction n as [|n IH]; intros [|x l]; cbn; auto. now destruct i. Qed.
Lemma copy_nth masked src s e i : s <= e -> e <= length masked -> length masked = length src ->
  nth_error (copy masked src s e) i = if (s <=? i) && (i <? e) then nth_error src i else nth_error masked i.
Proof.
  intros H1 H2 H3. unfold copy. destruct (Nat.leb_spec s i) as [L|L]; cbn [andb].
  - rewrite nth_error_app2; rewrite firstn_length; [|lia]. rewrite Nat.min_l by lia.
    destruct (Nat.ltb_spec i e) as [L'|L'].
    + rewrite nth_error_app1 by (rewrite firstn_length, skipn_length; lia). rewrite nth_firstn, nth_skipn by lia. f_equal. lia.
    + rewrite nth_error_app2; rewrite firstn_length, skipn_length; [|lia]. rewrite nth_skipn. f_equal. lia.
  - rewrite nth_error_app1 by (rewrite firstn_length; lia). now apply nth_firstn.
Qed.
Lemma put_nth masked i x j : i < length masked -> nth_error (put masked i x) j = if j =? i then Some x else nth_error masked j.
Proof.
  intros H. unfold put. destruct (Nat.lt_trichotomy j i) as [L|[->|L]].
  - destruct (Nat.eqb_spec j i); [lia|]. rewrite nth_error_app1 by (rewrite firstn_length; lia). now apply nth_firstn.
  - rewrite Nat.eqb_refl, nth_error_app2; rewrite firstn_length; [|lia]. now rewrite Nat.min_l, Nat.sub_diag by lia.
  - destruct (Nat.eqb_spec j i); [lia|]. rewrite nth_error_app2; rewrite firstn_length; [|lia]. rewrite Nat.min_l by lia.
    destruct (j - i) as [|d] eqn:E; [lia|]. cbn [nth_error]. rewrite nth_skipn. f_equal. lia.
Qed.
Lemma put_length masked i x : i < length masked -> length (put masked i x) = length masked.
Proof. intros. unfold put. rewrite app_length, firstn_length. cbn [length]. rewrite skipn_length. lia. Qed.

Definition inside (ranges : list (nat * nat)) (i : nat) : bool := existsb (fun r => (fst r <=? i) && (i <? snd r)) ranges.
(** What a byte of the template becomes. *)
Definition shown (bytes : list N) (ranges : list (nat * nat)) (i : nat) (x y : N) : Prop :=
  if inside ranges i then y = x
  else y = blank x \/ (y = SEMI /\ x = PCT /\ nth_error bytes (S i) = Some GT).
(** A range is fenced by ASCII bytes. *)
Definition fenced (bytes : list N) (r : nat * nat) : Prop :=
  fst r < snd r /\ (exists x, 1 <= fst r /\ nth_error bytes (fst r - 1) = Some x /\ (x < 128)%N) /\
  exists x, nth_error bytes (snd r) = Some x /\ (x < 128)%N.
(** The tag of a range is closed by a [;]. *)
Definition ended (bytes : list N) (cursor : nat) (masked : list N) (r : nat * nat) : Prop :=
  exists c, (c = snd r \/ (c = S (snd r) /\ nth_error bytes (snd r) = Some DASH)) /\ c < cursor /\
    nth_error bytes c = Some PCT /\ nth_error bytes (S c) = Some GT /\ nth_error masked c = Some SEMI.
Definition sound (bytes : list N) (cursor : nat) (masked : list N) (ranges : list (nat * nat)) : Prop :=
  length masked = length bytes /\
  (forall i x, nth_error bytes i = Some x -> exists y, nth_error masked i = Some y /\ shown bytes ranges i x y) /\
  Forall (fenced bytes) ranges /\ Forall (fun r => snd r <= cursor) ranges /\ Forall (ended bytes cursor masked) ranges.

Lemma inside_snoc ranges s e i : inside (ranges ++ [(s, e)]) i = inside ranges i || ((s <=? i) && (i <? e)).
Proof. unfold inside. rewrite existsb_app. cbn. now rewrite orb_false_r. Qed.
Lemma inside_before ranges cursor i : Forall (fun r : nat * nat => snd r <= cursor) ranges -> cursor <= i -> inside ranges i = false.
Proof.
  intros H L. unfold inside. induction H as [|[s e] rs H1 H2 IH]; auto. cbn [existsb fst snd] in *. rewrite IH.
  destruct (Nat.ltb_spec i e); [lia|]. now rewrite andb_false_r.
Qed.

Lemma scan_sound fuel : forall bytes cursor masked ranges, sound bytes cursor masked ranges -> cursor <= length bytes ->
  length bytes - cursor < fuel -> exists e, scan fuel bytes cursor masked ranges = Some e /\
    exists c, sound bytes c (source e) (ruby_ranges e).
Proof.
  induction fuel as [|fuel IH]; intros bytes cursor masked ranges HS LC LF; [lia|]. cbn [scan].
  destruct (Nat.ltb_spec (length bytes) cursor); [lia|].
  destruct (find_bytes LT PCT (skipn cursor bytes)) as [i|] eqn:F; [|eexists; split; [reflexivity|]; exists cursor; exact HS].
  destruct (find_some _ _ _ _ F) as (pre & rest & E & <- & _). clear F.
  set (open := cursor + length pre). set (ss := Nat.min (open + 3) (length bytes)).
  destruct (find_bytes PCT GT (skipn ss bytes)) as [j|] eqn:F; [|eexists; split; [reflexivity|]; exists cursor; exact HS].
  destruct (find_some _ _ _ _ F) as (body & r & E2 & <- & _). clear F.
  set (close := ss + length body).
  assert (length bytes = cursor + length pre + 2 + length rest) as LB.
  { assert (length (skipn cursor bytes) = length bytes - cursor) as Z by apply skipn_length. rewrite E, app_length in Z. cbn in Z. lia. }
  assert (length bytes = close + 2 + length r) as LB2.
  { assert (length (skipn ss bytes) = length bytes - ss) as Z by apply skipn_length. rewrite E2, app_length in Z. cbn in Z.
    assert (ss <= length bytes) by (unfold ss; lia). unfold close. lia. }
  assert (open + 3 <= close) as OC. { unfold close, ss in *. lia. }
  assert (nth_error bytes (open + 1) = Some PCT) as B1.
  { replace (open + 1) with (cursor + (length pre + 1)) by (unfold open; lia). rewrite <- nth_skipn, E, nth_error_app2 by lia.
    replace (length pre + 1 - length pre) with 1 by lia. reflexivity. }
  assert (nth_error bytes close = Some PCT /\ nth_error bytes (S close) = Some GT) as [B2 B3].
  { unfold close. split.
    - rewrite <- nth_skipn, E2, nth_error_app2, Nat.sub_diag by lia. reflexivity.
    - replace (S (ss + length body)) with (ss + S (length body)) by lia. rewrite <- nth_skipn, E2, nth_error_app2 by lia.
      replace (S (length body) - length body) with 1 by lia. reflexivity. }
  assert (sound bytes (close + 2) masked ranges) as HS2.
  { destruct HS as (S1 & S2 & S3 & S4 & S5). repeat split; auto.
    - eapply Forall_impl; [|exact S4]. cbn. unfold open in OC. lia.
    - eapply Forall_impl; [|exact S5]. intros rg (c & H1 & H2 & H3). exists c. split; auto. split; auto. unfold open in OC. lia. }
  assert (exists e, scan fuel bytes (close + 2) masked ranges = Some e /\ exists c, sound bytes c (source e) (ruby_ranges e)) as SKIP
    by (apply IH; auto; unfold open in OC; lia).
  destruct (byte_is bytes (open + 2) PCT || byte_is bytes (open + 2) HASH); [exact SKIP|].
  set (s1 := if byte_is bytes (open + 2) DASH then open + 2 + 1 else open + 2).
  set (s2 := if byte_is bytes s1 EQ then s1 + 1 else s1).
  set (e := if (s2 <? close) && byte_is bytes (close - 1) DASH then close - 1 else close).
  destruct (Nat.leb_spec e s2) as [Le|Le]; [exact SKIP|]. destruct (Nat.leb_spec (length bytes) close); [lia|].
  assert (open + 2 <= s2 /\ exists x, nth_error bytes (s2 - 1) = Some x /\ (x < 128)%N) as [Ls Hs].
  { unfold s2. destruct (byte_is bytes s1 EQ) eqn:Eq.
    - assert (open + 2 <= s1) by (unfold s1; destruct (byte_is _ _ _); lia). split; [lia|]. apply byte_is_some in Eq.
      exists EQ. rewrite Nat.add_sub. split; auto. reflexivity.
    - unfold s1. destruct (byte_is bytes (open + 2) DASH) eqn:D.
      + split; [lia|]. apply byte_is_some in D. exists DASH. rewrite Nat.add_sub. split; auto. reflexivity.
      + split; [lia|]. exists PCT. replace (open + 2 - 1) with (open + 1) by lia. split; auto. reflexivity. }
  assert (close = e \/ (close = S e /\ nth_error bytes e = Some DASH)) as Ee.
  { unfold e. destruct ((s2 <? close) && byte_is bytes (close - 1) DASH) eqn:D; auto. apply andb_true_iff in D. destruct D as [_ D].
    right. split; [lia|now apply byte_is_some]. }
  assert (e <= close /\ exists x, nth_error bytes e = Some x /\ (x < 128)%N) as [Lec He].
  { clear Ee. unfold e. destruct (s2 <? close); cbn [andb]; [|split; [lia|]; exists PCT; split; auto; reflexivity].
    destruct (byte_is bytes (close - 1) DASH) eqn:D; [|split; [lia|]; exists PCT; split; auto; reflexivity].
    split; [lia|]. exists DASH. split; [now apply byte_is_some|reflexivity]. }
  destruct HS as (S1 & S2 & S3 & S4 & S5).
  assert (length (copy masked bytes s2 e) = length masked) as LCp by (apply copy_length; lia).
  apply IH; [|lia|unfold open in OC; lia]. split; [|split; [|split; [|split]]].
  - rewrite put_length; lia.
  - intros i x Hx. rewrite put_nth by lia. rewrite copy_nth by lia. unfold shown. rewrite inside_snoc.
    destruct (Nat.eqb_spec i close) as [->|Ni].
    + exists SEMI. split; auto. rewrite (inside_before ranges cursor) by (auto; unfold open in *; lia).
      destruct (Nat.ltb_spec close e); [lia|]. rewrite andb_false_r. cbn. right. rewrite Hx in B2. injection B2 as ->. auto.
    + destruct ((s2 <=? i) && (i <? e)) eqn:In; [exists x; split; auto; rewrite orb_true_r; auto|].
      rewrite orb_false_r. apply S2. exact Hx.
  - apply Forall_app. split; auto. constructor; auto. destruct Hs as (x & Hx & Lx). split; [exact Le|]. split; [|exact He].
    exists x. cbn. split; [lia|auto].
  - apply Forall_app. split; [|constructor; auto; cbn; lia]. eapply Forall_impl; [|exact S4]. cbn. unfold open in *. lia.
  - apply Forall_app. split.
    + eapply Forall_impl; [|exact S5]. intros rg (c & H1 & H2 & H3 & H4 & H5). exists c. split; auto.
      split; [unfold open in *; lia|]. split; auto. split; auto. rewrite put_nth by lia. rewrite copy_nth by lia.
      destruct (Nat.eqb_spec c close); auto. destruct (Nat.leb_spec s2 c); [unfold open in *; lia|]. auto.
    + constructor; auto. exists close. cbn [snd]. split; [exact Ee|]. split; [lia|]. split; [exact B2|]. split; [exact B3|].
      rewrite put_nth by lia. now rewrite Nat.eqb_refl.
Qed.

Lemma mask_sound bytes : exists e, mask_erb bytes = Some e /\ exists c, sound bytes c (source e) (ruby_ranges e).
Proof.
  apply scan_sound; [|lia|lia]. split; [apply map_length|]. split; [|repeat split; constructor].
  intros i x Hx. exists (blank x). split; [rewrite nth_error_map, Hx; reflexivity|]. left. reflexivity.
Qed.

(** ** The result is UTF-8 *)

(** A fence cannot stand inside a character. *)
Lemma wide_alike bytes ranges P c rest i : Forall (fenced bytes) ranges -> bytes = P ++ enc c ++ rest -> (128 <= c)%N ->
  i < u8 c -> inside ranges (length P + i) = inside ranges (length P).
Proof.
  intros HF EB Hc Hi. unfold inside. induction HF as [|[s e] rs H1 H2 IH]; auto. cbn [existsb fst snd]. rewrite IH. f_equal.
  destruct H1 as (_ & (x & L1 & N1 & A1) & (y & N2 & A2)). cbn [fst snd] in *.
  assert (forall j z, nth_error bytes j = Some z -> (z < 128)%N -> j < length P \/ length P + u8 c <= j) as OUT.
  { intros j z Nj Az. destruct (Nat.lt_ge_cases j (length P)); auto. right.
    destruct (Nat.le_gt_cases (length P + u8 c) j); auto. exfalso.
    rewrite EB, nth_error_app2 in Nj by lia. rewrite nth_error_app1 in Nj by (rewrite enc_length; lia).
    apply nth_error_In in Nj. pose proof (enc_wide c Hc z Nj). lia. }
  destruct (OUT _ _ N1 A1), (OUT _ _ N2 A2);
    repeat match goal with |- context [Nat.leb ?a ?b] => destruct (Nat.leb_spec a b) | |- context [Nat.ltb ?a ?b] => destruct (Nat.ltb_spec a b) end;
    cbn; auto; lia.
Qed.

Lemma enc_spaces n : Forall scalar (repeat SPACE n) /\ Text_Lib.bytes (repeat SPACE n) = repeat SPACE n.
Proof.
  induction n as [|n [IH1 IH2]]; [split; auto; constructor|]. split; [constructor; auto; left; reflexivity|].
  cbn [repeat]. unfold Text_Lib.bytes in *. cbn [flat_map]. rewrite IH2. reflexivity.
Qed.

Lemma list_eq_nth {A} (l m : list A) : (forall i, nth_error l i = nth_error m i) -> l = m.
Proof.
  revert m. induction l as [|x l IH]; intros [|y m] H; auto.
  - specialize (H 0). discriminate.
  - specialize (H 0). discriminate.
  - f_equal; [specialize (H 0); cbn in H; congruence|]. apply IH. intros i. apply (H (S i)).
Qed.

Lemma utf8_kept all ranges masked : Forall (fenced all) ranges -> length masked = length all ->
  (forall i x, nth_error all i = Some x -> exists y, nth_error masked i = Some y /\ shown all ranges i x y) ->
  forall t P, all = P ++ Text_Lib.bytes t -> Forall scalar t ->
  exists t', Forall scalar t' /\ skipn (length P) masked = Text_Lib.bytes t'.
Proof.
  intros HF LM HS. induction t as [|c t IH]; intros P EB HC.
  - exists []. split; [constructor|]. cbn in *. rewrite app_nil_r in EB. subst. rewrite <- LM. apply skipn_all.
  - pose proof (Forall_inv HC) as Hc. pose proof (Forall_inv_tail HC) as HC'. change (Text_Lib.bytes (c :: t)) with (enc c ++ Text_Lib.bytes t) in EB.
    destruct (IH (P ++ enc c)) as (t' & HT & E); [now rewrite <- app_assoc|auto|].
    assert (exists k, Forall scalar k /\ firstn (length (enc c)) (skipn (length P) masked) = Text_Lib.bytes k) as (k & Hk & Ek).
    { destruct (N.ltb_spec c 128) as [A|A].
      - rewrite (enc_ascii c A) in *. cbn [length]. destruct (HS (length P) c) as (y & Ny & Sy).
        { rewrite EB, nth_error_app2, Nat.sub_diag by lia. reflexivity. }
        assert ((y < 128)%N) as Ay.
        { unfold shown in Sy. destruct (inside ranges (length P)); [now subst|]. destruct Sy as [->|(-> & _)]; [|reflexivity].
          unfold blank. destruct (_ || _); [auto|reflexivity]. }
        exists [y]. split; [constructor; [left; lia|constructor]|]. unfold Text_Lib.bytes. cbn [flat_map]. rewrite (enc_ascii y Ay), app_nil_r.
        assert (nth_error (skipn (length P) masked) 0 = Some y) as Z by now rewrite nth_skipn, Nat.add_0_r.
        destruct (skipn (length P) masked); [discriminate|]. cbn in Z. injection Z as ->. reflexivity.
      - assert (forall j z, nth_error (enc c) j = Some z -> nth_error all (length P + j) = Some z) as AT.
        { intros j z Nj. rewrite EB, nth_error_app2 by lia. replace (length P + j - length P) with j by lia.
          rewrite nth_error_app1; auto. apply nth_error_Some. congruence. }
        assert (forall j z, nth_error (enc c) j = Some z -> (128 <= z)%N) as WZ.
        { intros j z Nj. apply nth_error_In in Nj. eapply enc_wide; eauto. }
        destruct (inside ranges (length P)) eqn:IN.
        + exists [c]. split; [constructor; auto|]. unfold Text_Lib.bytes. cbn [flat_map]. rewrite app_nil_r.
          apply list_eq_nth. intros j. destruct (Nat.lt_ge_cases j (length (enc c))) as [Lj|Lj].
          * rewrite nth_firstn, nth_skipn by auto. destruct (nth_error (enc c) j) as [z|] eqn:Nj; [|apply nth_error_None in Nj; lia].
            destruct (HS _ _ (AT _ _ Nj)) as (y & Ny & Sy). unfold shown in Sy.
            rewrite (wide_alike all ranges P c (Text_Lib.bytes t) j) in Sy by (auto; rewrite <- enc_length; auto). rewrite IN in Sy. now subst.
          * rewrite (proj2 (nth_error_None (enc c) j)) by auto. apply nth_error_None. rewrite firstn_length. lia.
        + exists (repeat SPACE (u8 c)). destruct (enc_spaces (u8 c)) as [Z1 Z2]. split; auto. rewrite Z2.
          apply list_eq_nth. intros j. destruct (Nat.lt_ge_cases j (length (enc c))) as [Lj|Lj].
          * rewrite nth_firstn, nth_skipn by auto. destruct (nth_error (enc c) j) as [z|] eqn:Nj; [|apply nth_error_None in Nj; lia].
            destruct (HS _ _ (AT _ _ Nj)) as (y & Ny & Sy). unfold shown in Sy.
            rewrite (wide_alike all ranges P c (Text_Lib.bytes t) j) in Sy by (auto; rewrite <- enc_length; auto). rewrite IN in Sy.
            specialize (WZ _ _ Nj). assert (y = SPACE) as ->.
            { destruct Sy as [->|(_ & -> & _)].
              - unfold blank. destruct (N.eqb_spec z 10); [subst; lia|]. destruct (N.eqb_spec z 13); [subst; lia|]. reflexivity.
              - unfold PCT in WZ. lia. }
            rewrite Ny. symmetry. rewrite enc_length in Lj. clear - Lj. revert j Lj. induction (u8 c) as [|n IHn]; intros j Lj; [lia|].
            destruct j; auto. cbn. apply IHn. lia.
          * rewrite (proj2 (nth_error_None (repeat SPACE (u8 c)) j)) by (rewrite repeat_length, <- enc_length; auto).
            apply nth_error_None. rewrite firstn_length. lia. }
    exists (k ++ t'). split; [now apply Forall_app|]. rewrite bytes_app, <- Ek, <- E.
    rewrite app_length. rewrite <- (firstn_skipn (length (enc c)) (skipn (length P) masked)) at 1. f_equal.
    clear. revert masked. generalize (length (enc c)) as m. induction (length P) as [|n IHn]; intros m l; auto. destruct l; cbn; auto.
    now rewrite skipn_nil.
Qed.
