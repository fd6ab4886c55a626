From Coq Require Import List Arith NArith Lia Bool Permutation Sorted.
From Verif Require Import Lib Sort_Lib Index_Lib Symbols_Model Symbols_Spec.
Import ListNotations.

Definition kfqn (x : symbol) : option nat := Some (fqn x).
Definition kfile (x : symbol) : option nat := Some (symbol_file x).

Definition ghost := list (nat * symbol).

(** The invariant: the arena holds the ghost facts, both indexes list them in order. *)
Definition ok (s : store) (G : ghost) : Prop :=
  holds (facts s) G /\ indexed Nat.eqb kfqn key (by_fqn s) G /\
  indexed Nat.eqb kfile file_key (by_file s) G.

Definition other (n : nat) (e : nat * symbol) : bool := negb (symbol_file (snd e) =? n).

Lemma ok_new : ok new [].
Proof. split; [apply holds_nil|]. split; apply indexed_nil. Qed.

(** ** remove_file *)

Lemma drop_all_ok L : forall s G,
  holds (facts s) G -> indexed Nat.eqb kfqn key (by_fqn s) G ->
  NoDup (map fst L) -> (forall e, In e L -> In e G) ->
  let s' := fold_left drop_id (map fst L) s in
  let G' := filter (fun e => negb (existsb (Nat.eqb (fst e)) (map fst L))) G in
  holds (facts s') G' /\ indexed Nat.eqb kfqn key (by_fqn s') G' /\ by_file s' = by_file s /\
  length (slots (facts s')) = length (slots (facts s)).
Proof.
  induction L as [|[i x] L IH]; intros s G HA HI ND HL.
  - simpl. rewrite filter_all by auto. auto.
  - cbn [map fst fold_left]. inversion ND; subst.
    destruct (holds_take _ _ i x HA (HL _ (or_introl eq_refl))) as (a' & T & HA' & _ & HLen).
    assert (drop_id s i = mkStore a' (retain Nat.eqb (by_fqn s) (fqn x) (fun j => negb (j =? i))) (by_file s)) as E.
    { unfold drop_id. now rewrite T. }
    rewrite E. edestruct (IH (mkStore a' (retain Nat.eqb (by_fqn s) (fqn x) (fun j => negb (j =? i))) (by_file s))
      (filter (not_id i) G)) as (R1 & R2 & R3 & R4); cbn [facts by_fqn by_file]; auto.
    + apply (indexed_retain Nat.eqb kfqn key Nat.eqb_eq _ _ i x); auto.
      * apply HA.
      * apply HL. now left.
    + intros e He. apply filter_In. split; [apply HL; now right|].
      unfold not_id. destruct (Nat.eqb_spec (fst e) i) as [<-|N]; auto.
      exfalso. apply H1. now apply in_map.
    + cbn [by_file facts] in R3, R4. split; [|split; [|split; [auto|congruence]]].
      all: match goal with |- _ ?G1 => replace G1 with (filter
           (fun e : nat * symbol => negb (existsb (Nat.eqb (fst e)) (map fst L))) (filter (not_id i) G)) end; auto.
      all: clear; induction G as [|[j y] G IH]; auto; simpl; unfold not_id at 1; simpl;
           destruct (Nat.eqb_spec j i) as [->|N]; simpl; rewrite ?IH; auto.
Qed.

Lemma filter_comm' {B} (p q : B -> bool) l : filter p (filter q l) = filter q (filter p l).
Proof. apply filter_comm. Qed.

Lemma remove_ok s G n : ok s G -> ok (remove_file s n) (filter (other n) G) /\
  length (slots (facts (remove_file s n))) = length (slots (facts s)).
Proof.
  intros (HA & HQ & HF). unfold remove_file.
  assert (getd Nat.eqb (by_file s) n = map fst (sort (entry_leb file_key) (filter (wants Nat.eqb kfile n) G))) as EF
    by apply HF.
  unfold getd in EF. destruct (get Nat.eqb (by_file s) n) as [stale|] eqn:EG.
  - set (L := sort (entry_leb file_key) (filter (wants Nat.eqb kfile n) G)) in *. subst stale.
    assert (forall e, In e L <-> In e G /\ symbol_file (snd e) = n) as HL.
    { intros e. unfold L. rewrite sort_in, filter_In. unfold wants, has_key, kfile.
      now rewrite Nat.eqb_eq. }
    assert (NoDup (map fst L)) as ND.
    { unfold L. eapply Permutation_NoDup; [apply Permutation_map, sort_perm|].
      apply nodup_fst_filter. apply HA. }
    destruct (drop_all_ok L (mkStore (facts s) (by_fqn s) (del Nat.eqb (by_file s) n)) G) as (R1 & R2 & R3 & R4);
      cbn [facts by_fqn]; auto.
    { intros e He. now apply HL. }
    assert (filter (fun e => negb (existsb (Nat.eqb (fst e)) (map fst L))) G = filter (other n) G) as EG'.
    { apply filter_same. intros e He. unfold other. f_equal. apply eq_iff_eq_true.
      rewrite existsb_exists, Nat.eqb_eq. split.
      - intros (i & Hi & Hei). apply Nat.eqb_eq in Hei. subst i. apply in_map_iff in Hi.
        destruct Hi as ([j y] & Hj & Hy). apply HL in Hy. destruct e as [i x]. simpl in *. subst j.
        destruct Hy as [Hy1 Hy2]. rewrite (nodup_same G i x y); auto. apply HA.
      - intros E. exists (fst e). split; [|apply Nat.eqb_refl]. apply in_map. now apply HL. }
    rewrite EG' in R1, R2. split; [|exact R4]. split; [|split]; auto. rewrite R3. cbn [by_file].
    intros k. rewrite getd_del by apply Nat.eqb_eq. destruct (Nat.eqb_spec n k) as [<-|N].
    + rewrite (filter_nil (wants Nat.eqb kfile n)); auto. intros e He. apply filter_In in He.
      destruct He as [_ He]. unfold other in He. unfold wants, has_key, kfile.
      now apply negb_true_iff in He.
    + rewrite HF. rewrite (filter_comm' (wants Nat.eqb kfile k)). f_equal. f_equal.
      symmetry. apply filter_all. intros e He. apply filter_In in He. destruct He as [_ He].
      unfold wants, has_key, kfile in He. apply Nat.eqb_eq in He. unfold other. rewrite He.
      apply negb_true_iff. apply Nat.eqb_neq. congruence.
  - assert (filter (other n) G = G) as ->; [|split; [split; [|split]|]; auto].
    apply filter_all. intros e He. unfold other. apply negb_true_iff, Nat.eqb_neq. intros E.
    assert (In e (sort (entry_leb file_key) (filter (wants Nat.eqb kfile n) G))) as Hin.
    { apply sort_in. apply filter_In. split; auto. unfold wants, has_key, kfile. now apply Nat.eqb_eq. }
    destruct (sort (entry_leb file_key) (filter (wants Nat.eqb kfile n) G)); [easy|discriminate].
Qed.

(** ** add *)

Lemma room s G : holds (facts s) G -> (N.of_nat (length G) < 4294967296)%N ->
  free (facts s) = [] ->
  match u32_ids with Some n => (N.of_nat (length (slots (facts s))) < n)%N | None => True end.
Proof.
  intros (_ & _ & _ & _ & HL) H E. rewrite E in HL. simpl in *. rewrite HL, Nat.add_0_r. exact H.
Qed.

Lemma add_ok s G x : ok s G -> (N.of_nat (length G) < 4294967296)%N ->
  exists s' id, add s x = Some s' /\ ok s' (G ++ [(id, x)]) /\
    length (slots (facts s')) <= Nat.max (length (slots (facts s))) (S (length G)).
Proof.
  intros (HA & HQ & HF) HN.
  destruct (holds_insert u32_ids (facts s) G x HA (room s G HA HN)) as (id & a & E & HA' & Hid & HLen).
  unfold add. rewrite E.
  pose proof (appended_push Nat.eqb kfqn key Nat.eqb_eq _ _ [] id x (fqn x) eq_refl
                (proj1 (indexed_appended _ _ _ _ _) HQ)) as AQ.
  pose proof (appended_push Nat.eqb kfile file_key Nat.eqb_eq _ _ [] id x (symbol_file x) eq_refl
                (proj1 (indexed_appended _ _ _ _ _) HF)) as AF.
  cbn [app] in AQ, AF.
  rewrite AQ, (resort Nat.eqb kfqn key) by auto.
  rewrite AF, (resort Nat.eqb kfile file_key) by auto.
  eexists _, id. split; [reflexivity|]. split; [|exact HLen]. split; [|split]; cbn [facts by_fqn by_file]; auto.
  - intros k. rewrite getd_put by apply Nat.eqb_eq. destruct (Nat.eqb_spec (fqn x) k) as [<-|N]; auto.
    rewrite AQ. rewrite filter_app. cbn [filter]. unfold wants at 2 4. unfold has_key, kfqn. cbn [snd].
    apply Nat.eqb_neq in N. rewrite N. now rewrite !app_nil_r.
  - intros k. rewrite getd_put by apply Nat.eqb_eq.
    destruct (Nat.eqb_spec (symbol_file x) k) as [<-|N]; auto.
    rewrite AF. rewrite filter_app. cbn [filter]. unfold wants at 2 4. unfold has_key, kfile. cbn [snd].
    apply Nat.eqb_neq in N. rewrite N. now rewrite !app_nil_r.
Qed.

(** ** replace_file *)

Definition counts (t : list (nat * nat)) (G1 : ghost) : Prop :=
  NoDup (map fst t) /\
  (forall k c, In (k, c) t -> c = length (filter (wants Nat.eqb kfqn k) G1) /\ 0 < c) /\
  (forall k, filter (wants Nat.eqb kfqn k) G1 <> [] -> In k (map fst t)).

Lemma touch_keys t k k' : In k' (map fst (touch t k)) <-> k' = k \/ In k' (map fst t).
Proof.
  induction t as [|[q c] t IH]; simpl; [intuition|].
  destruct (Nat.eqb_spec q k) as [->|N]; simpl; [intuition|]. rewrite IH. intuition.
Qed.

Lemma touch_in t k k' c : NoDup (map fst t) -> In (k', c) (touch t k) ->
  (k' = k /\ ((exists c0, In (k, c0) t /\ c = c0 + 1) \/ (~ In k (map fst t) /\ c = 1))) \/
  (k' <> k /\ In (k', c) t).
Proof.
  induction t as [|[q d] t IH]; simpl.
  - intros _ [H|[]]. injection H as <- <-. left. split; auto.
  - intros ND. inversion ND; subst. destruct (Nat.eqb_spec q k) as [->|N]; simpl.
    + intros [H|H].
      * injection H as <- <-. left. split; auto. left. exists d. auto.
      * right. split; auto. intros ->. apply H1. apply (in_map fst) in H. exact H.
    + intros [H|H].
      * injection H as <- <-. right. split; auto.
      * destruct (IH H2 H) as [(-> & [(c0 & H3 & ->)|[H3 ->]])|[H3 H4]].
        -- left. split; auto. left. exists c0. auto.
        -- left. split; auto. right. split; auto. intros [|]; auto.
        -- right. auto.
Qed.

Lemma touch_nodup t k : NoDup (map fst t) -> NoDup (map fst (touch t k)).
Proof.
  induction t as [|[q d] t IH]; simpl.
  - intros _. constructor; [easy|constructor].
  - intros ND. inversion ND; subst. destruct (Nat.eqb_spec q k) as [->|N]; simpl; constructor; auto.
    rewrite touch_keys. intros [|]; auto.
Qed.

Lemma counts_touch t G1 id x : counts t G1 -> counts (touch t (fqn x)) (G1 ++ [(id, x)]).
Proof.
  intros (ND & H1 & H2). split; [now apply touch_nodup|]. split.
  - intros k c H. apply touch_in in H; auto.
    rewrite filter_app, app_length. cbn [filter].
    destruct H as [(-> & H)|[N H]].
    + assert (wants Nat.eqb kfqn (fqn x) (id, x) = true) as ->
        by (unfold wants, has_key, kfqn; simpl; apply Nat.eqb_refl).
      destruct H as [(c0 & Hc & ->)|[Hn ->]]; simpl.
      * apply H1 in Hc. lia.
      * assert (filter (wants Nat.eqb kfqn (fqn x)) G1 = []) as ->; simpl; [|lia].
        destruct (filter (wants Nat.eqb kfqn (fqn x)) G1) eqn:E; auto. exfalso. apply Hn, H2.
        rewrite E. discriminate.
    + assert (wants Nat.eqb kfqn k (id, x) = false) as ->
        by (unfold wants, has_key, kfqn; simpl; apply Nat.eqb_neq; congruence).
      simpl. apply H1 in H. lia.
  - intros k H. rewrite touch_keys. rewrite filter_app in H. cbn [filter] in H.
    destruct (wants Nat.eqb kfqn k (id, x)) eqn:E.
    + left. unfold wants, has_key, kfqn in E. simpl in E. now apply Nat.eqb_eq in E.
    + right. apply H2. now rewrite app_nil_r in H.
Qed.

Lemma insert_all_ok n xs : forall s t G0 G1,
  holds (facts s) (G0 ++ G1) ->
  appended Nat.eqb kfqn key (by_fqn s) G0 G1 -> appended Nat.eqb kfile file_key (by_file s) G0 G1 ->
  counts t G1 -> (forall x, In x xs -> symbol_file x = n) ->
  (N.of_nat (length (G0 ++ G1) + length xs) <= 4294967296)%N ->
  exists s' t' G2, insert_all n s t xs = Some (s', t') /\ map snd G2 = xs /\
    holds (facts s') (G0 ++ G1 ++ G2) /\
    appended Nat.eqb kfqn key (by_fqn s') G0 (G1 ++ G2) /\
    appended Nat.eqb kfile file_key (by_file s') G0 (G1 ++ G2) /\ counts t' (G1 ++ G2) /\
    length (slots (facts s')) <= Nat.max (length (slots (facts s))) (length (G0 ++ G1) + length xs).
Proof.
  induction xs as [|x xs IH]; intros s t G0 G1 HA AQ AF HC HX HN.
  - exists s, t, []. simpl. rewrite !app_nil_r. repeat (split; auto). lia.
  - cbn [insert_all]. rewrite (HX x (or_introl eq_refl)), Nat.eqb_refl.
    assert (N.of_nat (length (G0 ++ G1)) < 4294967296)%N as HN' by (simpl in HN; lia).
    destruct (holds_insert u32_ids (facts s) _ x HA (room s _ HA HN')) as (id & a & E & HA' & Hid & HLen).
    rewrite E. rewrite <- app_assoc in HA'.
    edestruct (IH (mkStore a (push Nat.eqb (by_fqn s) (fqn x) id) (push Nat.eqb (by_file s) n id))
                 (touch t (fqn x)) G0 (G1 ++ [(id, x)])) as (s' & t' & G2 & R1 & R2 & R3 & R4 & R5 & R6 & R7);
      cbn [facts by_fqn by_file]; auto.
    + apply appended_push; auto; apply Nat.eqb_eq.
    + apply appended_push; auto; [apply Nat.eqb_eq|]. unfold kfile. now rewrite (HX x (or_introl eq_refl)).
    + now apply counts_touch.
    + intros; apply HX; now right.
    + rewrite !app_length in *. simpl in *. lia.
    + exists s', t', ((id, x) :: G2). rewrite <- app_assoc in R3, R4, R5, R6.
      split; auto. split; [simpl; now f_equal|].
      cbn [facts] in R7. rewrite !app_length in *. simpl in *. repeat (split; auto). lia.
Qed.

Lemma insert_all_panics n xs : forall s t,
  (exists x, In x xs /\ symbol_file x <> n) -> insert_all n s t xs = None.
Proof.
  induction xs as [|y xs IH]; intros s t (x & Hx & N); [easy|]. cbn [insert_all].
  destruct (Nat.eqb_spec (symbol_file y) n) as [E|_]; auto.
  destruct Hx as [->|Hx]; [congruence|].
  destruct (insert_fact u32_ids (facts s) y) as [[id a]|]; auto. apply IH. eauto.
Qed.

Lemma key_file x y : lexb (key x) (key y) = true -> symbol_file x <= symbol_file y.
Proof.
  unfold key, symbol_file. simpl. rewrite orb_true_iff, andb_true_iff, Nat.ltb_lt, Nat.eqb_eq. lia.
Qed.

Lemma file_before x y : symbol_file x < symbol_file y -> lexb (key x) (key y) = true.
Proof.
  unfold key, symbol_file. simpl. intros H. apply Nat.ltb_lt in H. now rewrite H.
Qed.

Lemma place_all_ok n G0 G1 t : forall s,
  holds (facts s) (G0 ++ G1) ->
  (forall e, In e G0 -> symbol_file (snd e) <> n) -> (forall e, In e G1 -> symbol_file (snd e) = n) ->
  NoDup (map fst t) ->
  (forall k c, In (k, c) t -> c = length (filter (wants Nat.eqb kfqn k) G1) /\ 0 < c) ->
  (forall k, In k (map fst t) -> getd Nat.eqb (by_fqn s) k =
     map fst (sort (entry_leb key) (filter (wants Nat.eqb kfqn k) G0) ++ filter (wants Nat.eqb kfqn k) G1)) ->
  (forall k, ~ In k (map fst t) -> getd Nat.eqb (by_fqn s) k =
     map fst (sort (entry_leb key) (filter (wants Nat.eqb kfqn k) (G0 ++ G1)))) ->
  exists s', place_all n s t = Some s' /\ facts s' = facts s /\ by_file s' = by_file s /\
    indexed Nat.eqb kfqn key (by_fqn s') (G0 ++ G1).
Proof.
  induction t as [|[q c] t IH]; intros s HA H0 H1 ND HC HT HR.
  - exists s. repeat split; auto. intros k. apply HR. easy.
  - cbn [place_all]. inversion ND as [|? ? Nq ND']; subst.
    destruct (HC q c (or_introl eq_refl)) as [Hc Hpos].
    assert (filter (wants Nat.eqb kfqn q) G1 <> []) as HNE by (intros E; rewrite E in Hc; simpl in Hc; lia).
    pose proof (HT q (or_introl eq_refl)) as Eq. unfold getd in Eq.
    destruct (get Nat.eqb (by_fqn s) q) as [ids|] eqn:EG.
    2:{ exfalso. symmetry in Eq. apply map_eq_nil, app_eq_nil in Eq. tauto. }
    subst ids c.
    rewrite (place_appended_spec key symbol_file key_file file_before (facts s) (G0 ++ G1)); auto.
    + destruct (IH (mkStore (facts s) (put Nat.eqb (by_fqn s) q
         (map fst (sort (entry_leb key) (filter (wants Nat.eqb kfqn q) G0 ++ filter (wants Nat.eqb kfqn q) G1))))
         (by_file s))) as (s' & R1 & R2 & R3 & R4); cbn [facts by_fqn by_file]; auto.
      * intros k c Hk. apply HC. now right.
      * intros k Hk. rewrite getd_put by apply Nat.eqb_eq.
        destruct (Nat.eqb_spec q k) as [<-|N]; [contradiction|]. apply HT. now right.
      * intros k Hk. rewrite getd_put by apply Nat.eqb_eq.
        destruct (Nat.eqb_spec q k) as [<-|N]; [now rewrite filter_app|]. apply HR.
        intros [E|E]; auto.
      * exists s'. auto.
    + intros e He. apply filter_In in He. apply in_or_app. tauto.
    + intros e He. apply filter_In in He. apply in_or_app. tauto.
    + intros e He. apply filter_In in He. apply H0. tauto.
    + intros e He. apply filter_In in He. apply H1. tauto.
Qed.

Lemma replace_ok s G n xs : ok s G -> (forall x, In x xs -> symbol_file x = n) ->
  (N.of_nat (length (filter (other n) G) + length xs) <= 4294967296)%N ->
  exists s' G1, replace_file s n xs = Some s' /\ ok s' (filter (other n) G ++ G1) /\ map snd G1 = xs /\
    length (slots (facts s')) <= Nat.max (length (slots (facts s))) (length (filter (other n) G) + length xs).
Proof.
  intros H HX HN. apply (remove_ok s G n) in H. destruct H as [H HLen0]. set (G0 := filter (other n) G) in *.
  destruct H as (HA & HQ & HF). unfold replace_file.
  destruct (insert_all_ok n xs (remove_file s n) [] G0 []) as (s1 & t & G1 & E1 & EX & HA1 & AQ & AF & HC & HLen).
  - now rewrite app_nil_r.
  - now apply indexed_appended.
  - now apply indexed_appended.
  - split; [constructor|]. split; [easy|]. intros k Hk. now elim Hk.
  - auto.
  - now rewrite app_nil_r.
  - cbn [app] in *. rewrite app_nil_r, HLen0 in HLen. rewrite E1. destruct HC as (ND & HC1 & HC2).
    assert (forall e, In e G0 -> symbol_file (snd e) <> n) as F0.
    { intros e He. apply filter_In in He. destruct He as [_ He]. unfold other in He.
      apply negb_true_iff, Nat.eqb_neq in He. auto. }
    assert (forall e, In e G1 -> symbol_file (snd e) = n) as F1.
    { intros e He. apply HX. rewrite <- EX. now apply in_map. }
    destruct (place_all_ok n G0 G1 t s1) as (s2 & E2 & EA & EF & HQ2); auto.
    { intros k Hk. rewrite AQ. rewrite filter_app.
      destruct (filter (wants Nat.eqb kfqn k) G1) eqn:E; [now rewrite !app_nil_r|].
      exfalso. apply Hk, HC2. rewrite E. discriminate. }
    rewrite E2, EF, EA.
    pose proof (AF n) as EB. unfold getd in EB.
    assert (forall k, k <> n -> filter (wants Nat.eqb kfile k) G1 = []) as FN.
    { intros k N. apply filter_nil. intros e He. unfold wants, has_key, kfile. rewrite F1 by auto.
      apply Nat.eqb_neq. auto. }
    destruct (get Nat.eqb (by_file s1) n) as [ids|] eqn:EG.
    + subst ids. rewrite (resort Nat.eqb kfile file_key) by auto.
      eexists _, G1. split; [reflexivity|]. split; [|auto]. split; [|split]; cbn [facts by_fqn by_file]; auto.
      intros k. rewrite getd_put by apply Nat.eqb_eq. destruct (Nat.eqb_spec n k) as [<-|N]; auto.
      rewrite AF, filter_app, FN by auto. now rewrite !app_nil_r.
    + exists s2, G1. split; auto. split; [|rewrite EA; auto]. split; [now rewrite EA|]. split; auto. rewrite EF.
      intros k. rewrite AF. symmetry in EB. apply map_eq_nil, app_eq_nil in EB. destruct EB as [_ EB].
      rewrite filter_app. destruct (Nat.eq_dec k n) as [->|N]; [rewrite EB|rewrite FN by auto];
      now rewrite !app_nil_r.
Qed.

Lemma replace_panics s n xs : (exists x, In x xs /\ symbol_file x <> n) -> replace_file s n xs = None.
Proof. intros H. unfold replace_file. now rewrite insert_all_panics. Qed.

(** ** Histories *)

Lemma map_other n G : map snd (filter (other n) G) =
  filter (fun x => negb (file_id (range x) =? n)) (map snd G).
Proof.
  induction G as [|[i x] G IH]; auto. simpl. unfold other at 1. simpl. unfold symbol_file.
  destruct (file_id (range x) =? n); simpl; now rewrite IH.
Qed.

Lemma run_ok B h : (N.of_nat B <= 4294967296)%N -> forall s G, ok s G -> length (slots (facts s)) <= B ->
  (forall n xs x, In (ReplaceFile n xs) h -> In x xs -> file_id (range x) = n) ->
  (forall h1 h2, h = h1 ++ h2 -> length (in_force (map snd G) h1) <= B) ->
  exists s' G', run_from s h = Some s' /\ ok s' G' /\ map snd G' = in_force (map snd G) h /\
    length (slots (facts s')) <= B.
Proof.
  intros HB32. induction h as [|o h IH]; intros s G HO HS HW HN.
  - exists s, G. auto.
  - assert (forall l s1 G1, step s o = Some s1 -> ok s1 G1 -> length (slots (facts s1)) <= B -> map snd G1 = l ->
              (forall h1, in_force (map snd G) (o :: h1) = in_force l h1) ->
              exists s' G', run_from s (o :: h) = Some s' /\ ok s' G' /\
                            map snd G' = in_force (map snd G) (o :: h) /\ length (slots (facts s')) <= B) as K.
    { intros l s1 G1 E1 HO1 HS1 EL HL. cbn [run_from]. rewrite E1.
      destruct (IH s1 G1 HO1 HS1) as (s' & G' & R1 & R2 & R3 & R4).
      - intros n xs x Hi. apply HW. now right.
      - intros h1 h2 Eh. rewrite EL, <- HL. apply (HN (o :: h1) h2). simpl. now rewrite Eh.
      - exists s', G'. split; auto. split; auto. rewrite HL, R3. now rewrite EL. }
    pose proof (HN [o] h eq_refl) as HB. destruct o as [x|n|n xs].
    + cbn [in_force] in HB. rewrite app_length, map_length in HB. simpl in HB.
      destruct (add_ok s G x HO) as (s1 & id & E1 & HO1 & HL1); [lia|].
      apply (K (map snd G ++ [x]) s1 (G ++ [(id, x)])); auto; [lia|]. now rewrite map_app.
    + destruct (remove_ok s G n HO) as [HO1 HL1].
      apply (K (map snd (filter (other n) G)) (remove_file s n) (filter (other n) G)); auto; [lia|].
      intros h1. cbn [in_force]. now rewrite map_other.
    + cbn [in_force] in HB. rewrite app_length, <- map_other, map_length in HB.
      destruct (replace_ok s G n xs HO) as (s1 & G1 & E1 & HO1 & EX & HL1); auto; [|lia|].
      { intros x Hx. apply (HW n xs x); auto. now left. }
      apply (K (map snd (filter (other n) G) ++ xs) s1 (filter (other n) G ++ G1)); auto; [lia| |].
      * now rewrite map_app, EX.
      * intros h1. cbn [in_force]. now rewrite map_other.
Qed.
