From Coq Require Import List Arith NArith Lia Bool Permutation Sorted.
From Verif Require Import Lib Sort_Lib Index_Lib Methods_Model Methods_Spec.
Import ListNotations.

Definition kfqn (x : method) : option nat := Some (fqn x).
Definition kowner (x : method) : option nat := Some (owner x).
Definition kname (x : method) : option (nat * nat) :=
  match name x with Some n => Some (owner x, n) | None => None end.
Definition kfile (x : method) : option nat := Some (method_file x).

Definition ghost := list (nat * method).

Lemma pair_eqb_eq a b : pair_eqb a b = true <-> a = b.
Proof.
  destruct a, b. unfold pair_eqb. simpl. rewrite andb_true_iff, !Nat.eqb_eq.
  split; [intros [-> ->]; auto|intros H; injection H; auto].
Qed.

(** The invariant: the arena holds the ghost facts, the indexes list them in order. *)
Definition ok (s : store) (G : ghost) : Prop :=
  holds (facts s) G /\ indexed Nat.eqb kfqn fqn_key (by_fqn s) G /\
  indexed Nat.eqb kowner owner_key (by_owner s) G /\
  indexed pair_eqb kname owner_key (by_owner_name s) G /\
  indexed Nat.eqb kfile file_key (by_file s) G.

Lemma ok_new : ok new [].
Proof. split; [apply holds_nil|]. repeat split. Qed.

(** ** remove_file *)

Lemma drop_all_ok L : forall s G,
  holds (facts s) G -> indexed Nat.eqb kfqn fqn_key (by_fqn s) G ->
  indexed Nat.eqb kowner owner_key (by_owner s) G ->
  indexed pair_eqb kname owner_key (by_owner_name s) G ->
  NoDup (map fst L) -> (forall e, In e L -> In e G) ->
  let s' := fold_left drop_id (map fst L) s in
  let G' := without (map fst L) G in
  holds (facts s') G' /\ indexed Nat.eqb kfqn fqn_key (by_fqn s') G' /\
  indexed Nat.eqb kowner owner_key (by_owner s') G' /\
  indexed pair_eqb kname owner_key (by_owner_name s') G' /\ by_file s' = by_file s /\
  length (slots (facts s')) = length (slots (facts s)).
Proof.
  induction L as [|[i x] L IH]; intros s G HA HQ HO HN ND HL; cbv zeta.
  - cbn [map fold_left]. rewrite without_nil. repeat (split; auto).
  - cbn [map fst fold_left]. inversion ND; subst.
    assert (In (i, x) G) as Hin by (apply HL; now left).
    destruct (holds_take _ _ i x HA Hin) as (a' & T & HA' & _ & HLen).
    assert (NoDup (map fst G)) as NG by apply HA.
    rewrite without_cons. unfold drop_id at 2 4 6 8 10 12. rewrite T.
    match goal with |- context [fold_left drop_id _ ?t] => set (s1 := t) end.
    destruct (IH s1 (filter (not_id i) G)) as (R1 & R2 & R3 & R4 & R5 & R6); unfold s1;
      cbn [facts by_fqn by_owner by_owner_name by_file]; auto.
    + apply (indexed_retain Nat.eqb kfqn fqn_key Nat.eqb_eq _ _ i x); auto.
    + apply (indexed_retain Nat.eqb kowner owner_key Nat.eqb_eq _ _ i x); auto.
    + destruct (name x) as [n|] eqn:En.
      * apply (indexed_retain pair_eqb kname owner_key pair_eqb_eq _ _ i x); auto.
        unfold kname. now rewrite En.
      * apply (indexed_skip pair_eqb kname owner_key _ _ i x); auto. unfold kname. now rewrite En.
    + apply still_there; auto. intros e He. apply HL. now right.
    + fold s1 in R1, R2, R3, R4, R5, R6 |- *. repeat (split; auto). rewrite R6. exact HLen.
Qed.

Lemma remove_ok s G n : ok s G -> ok (remove_file s n) (filter (elsewhere method_file n) G) /\
  length (slots (facts (remove_file s n))) = length (slots (facts s)).
Proof.
  intros (HA & HQ & HO & HN & HF). unfold remove_file. pose proof (HF n) as EF.
  change (sort _ (filter (wants Nat.eqb kfile n) G)) with (file_entries method_file file_key n G) in EF.
  assert (NoDup (map fst G)) as NG by apply HA.
  unfold getd in EF. destruct (get Nat.eqb (by_file s) n) as [stale|].
  - subst stale.
    match goal with |- context [fold_left drop_id _ ?t] => set (s1 := t) end.
    destruct (drop_all_ok (file_entries method_file file_key n G) s1 G) as (R1 & R2 & R3 & R4 & R5 & R6);
      unfold s1; cbn [facts by_fqn by_owner by_owner_name by_file]; auto.
    { now apply file_entries_nodup. }
    { intros e He. now apply file_entries_in in He. }
    rewrite without_file in R1, R2, R3, R4 by auto. split; [|exact R6].
    repeat (split; auto). unfold s1 in R5. cbn [by_file] in R5. rewrite R5. now apply del_file.
  - symmetry in EF. apply map_eq_nil in EF. rewrite (elsewhere_all _ _ _ _ EF).
    split; auto. repeat (split; auto).
Qed.

(** ** add *)

Lemma room s G : holds (facts s) G -> (N.of_nat (length G) < 4294967296)%N ->
  free (facts s) = [] ->
  match u32_ids with Some n => (N.of_nat (length (slots (facts s))) < n)%N | None => True end.
Proof.
  intros (_ & _ & _ & _ & HL) H E. rewrite E in HL. simpl in *. rewrite HL, Nat.add_0_r. exact H.
Qed.

Lemma add_ok s G x : ok s G -> (N.of_nat (length G) < 4294967296)%N ->
  exists s' id, add s x = Some s' /\ ok s' (G ++ [(id, x)]) /\
    length (slots (facts s')) <= Nat.max (length (slots (facts s))) (S (length G)).
Proof.
  intros (HA & HQ & HO & HN & HF) HB.
  destruct (holds_insert u32_ids (facts s) G x HA (room s G HA HB)) as (id & a & E & HA' & Hid & HLen).
  unfold add, Methods_Model.resort. rewrite E.
  destruct (push_resort Nat.eqb kfqn fqn_key Nat.eqb_eq a _ G id x (fqn x) HA' eq_refl HQ) as (q & -> & Q).
  destruct (push_resort Nat.eqb kowner owner_key Nat.eqb_eq a _ G id x (owner x) HA' eq_refl HO) as (o & -> & O').
  destruct (push_resort Nat.eqb kfile file_key Nat.eqb_eq a _ G id x (method_file x) HA' eq_refl HF) as (f & -> & F).
  destruct (name x) as [n|] eqn:En.
  - destruct (push_resort pair_eqb kname owner_key pair_eqb_eq a (by_owner_name s) G id x (owner x, n) HA') as (m & -> & M'); auto.
    { unfold kname. now rewrite En. }
    eexists _, id. split; [reflexivity|]. split; [|exact HLen]. split; auto.
  - eexists _, id. split; [reflexivity|]. split; [|exact HLen]. split; auto. split; auto. split; auto.
    split; auto. cbn [by_owner_name]. intros k. rewrite HN, filter_app. cbn [filter].
    assert (wants pair_eqb kname k (id, x) = false) as ->
      by (unfold wants, has_key, kname; simpl; now rewrite En).
    now rewrite app_nil_r.
Qed.

(** ** replace_file *)

Definition adding (s : store) (G0 G1 : ghost) : Prop :=
  holds (facts s) (G0 ++ G1) /\
  appended Nat.eqb kfqn fqn_key (by_fqn s) G0 G1 /\
  appended Nat.eqb kowner owner_key (by_owner s) G0 G1 /\
  appended pair_eqb kname owner_key (by_owner_name s) G0 G1 /\
  appended Nat.eqb kfile file_key (by_file s) G0 G1.

Lemma insert_all_ok n xs : forall s G0 G1, adding s G0 G1 ->
  (forall x, In x xs -> file_id (range x) = n) ->
  (N.of_nat (length G0 + length G1 + length xs) <= 4294967296)%N ->
  exists s' G2, insert_all n s xs = Some s' /\ adding s' G0 (G1 ++ G2) /\ map snd G2 = xs /\
    length (slots (facts s')) <= Nat.max (length (slots (facts s))) (length G0 + length G1 + length xs).
Proof.
  induction xs as [|x xs IH]; intros s G0 G1 (HA & HQ & HO & HN & HF) HX HB.
  - exists s, []. rewrite app_nil_r. cbn [insert_all map length]. repeat (split; auto). lia.
  - cbn [insert_all]. unfold method_file. rewrite HX by now left. rewrite Nat.eqb_refl.
    destruct (holds_insert u32_ids (facts s) (G0 ++ G1) x HA) as (id & a & E & HA' & Hid & HLen).
    { apply (room s (G0 ++ G1)); auto. rewrite app_length. cbn [length] in HB. lia. }
    rewrite E.
    match goal with |- context [insert_all n ?t xs] => set (s1 := t) end.
    destruct (IH s1 G0 (G1 ++ [(id, x)])) as (s' & G2 & E' & AD & EM & L).
    + unfold s1. split; [|split; [|split; [|split]]]; cbn [facts by_fqn by_owner by_owner_name by_file].
      * now rewrite app_assoc.
      * now apply (appended_push Nat.eqb kfqn fqn_key Nat.eqb_eq).
      * now apply (appended_push Nat.eqb kowner owner_key Nat.eqb_eq).
      * destruct (name x) as [m|] eqn:En.
        -- apply (appended_push pair_eqb kname owner_key pair_eqb_eq); auto. unfold kname. now rewrite En.
        -- apply (appended_skip pair_eqb kname owner_key); auto. unfold kname. now rewrite En.
      * apply (appended_push Nat.eqb kfile file_key Nat.eqb_eq); auto. unfold kfile, method_file.
        f_equal. apply HX. now left.
    + intros y Hy. apply HX. now right.
    + rewrite app_length. cbn [length] in *. lia.
    + exists s', ((id, x) :: G2). split; [exact E'|]. rewrite <- app_assoc in AD. split; [exact AD|].
      split; [cbn; congruence|]. unfold s1 in L. cbn [facts] in L. rewrite !app_length in *. cbn [length] in *. lia.
Qed.

Lemma untouched {K} (eqb : K -> K -> bool) (kf : method -> option K)
  (eqb_eq : forall a b, eqb a b = true <-> a = b) (ks : list K) k (G1 : ghost) :
  (forall x k, In x (map snd G1) -> kf x = Some k -> In k ks) -> ~ In k ks ->
  filter (wants eqb kf k) G1 = [].
Proof.
  intros H N. apply filter_nil. intros e He. unfold wants, has_key.
  destruct (kf (snd e)) as [k'|] eqn:E; auto. destruct (eqb k' k) eqn:E2; auto.
  apply eqb_eq in E2. subst k'. exfalso. apply N. eapply H; eauto. now apply in_map.
Qed.

Lemma replace_ok s G n xs : ok s G -> (forall x, In x xs -> file_id (range x) = n) ->
  (N.of_nat (length (filter (elsewhere method_file n) G) + length xs) <= 4294967296)%N ->
  exists s' G2, replace_file s n xs = Some s' /\ ok s' (filter (elsewhere method_file n) G ++ G2) /\
    map snd G2 = xs /\
    length (slots (facts s')) <=
      Nat.max (length (slots (facts s))) (length (filter (elsewhere method_file n) G) + length xs).
Proof.
  intros HK HX HB. destruct (remove_ok s G n HK) as [(HA & HQ & HO & HN & HF) HL].
  set (G0 := filter (elsewhere method_file n) G) in *.
  destruct (insert_all_ok n xs (remove_file s n) G0 []) as (s1 & G2 & E & (A1 & A2 & A3 & A4 & A5) & EM & L).
  - split; [now rewrite app_nil_r|]. repeat split; now apply indexed_appended.
  - exact HX.
  - cbn [length]. lia.
  - cbn [app length] in *. unfold replace_file. rewrite E.
    destruct (resort_keys_ok Nat.eqb kfqn fqn_key Nat.eqb_eq _ _ (touched_fqns xs) A1 (by_fqn s1))
      as (q & -> & Q).
    { now apply appended_sortable. }
    { intros k Hk. apply (appended_untouched Nat.eqb kfqn fqn_key); auto.
      apply (untouched Nat.eqb kfqn Nat.eqb_eq (touched_fqns xs)); auto.
      intros x k' Hx E2. rewrite EM in Hx. apply nodup_In. injection E2 as <-. now apply in_map. }
    destruct (resort_keys_ok Nat.eqb kowner owner_key Nat.eqb_eq _ _ (touched_owners xs) A1 (by_owner s1))
      as (o & -> & O').
    { now apply appended_sortable. }
    { intros k Hk. apply (appended_untouched Nat.eqb kowner owner_key); auto.
      apply (untouched Nat.eqb kowner Nat.eqb_eq (touched_owners xs)); auto.
      intros x k' Hx E2. rewrite EM in Hx. apply nodup_In. injection E2 as <-. now apply in_map. }
    destruct (resort_keys_ok pair_eqb kname owner_key pair_eqb_eq _ _ (touched_owner_names xs) A1 (by_owner_name s1))
      as (m & -> & M').
    { now apply appended_sortable. }
    { intros k Hk. apply (appended_untouched pair_eqb kname owner_key); auto.
      apply (untouched pair_eqb kname pair_eqb_eq (touched_owner_names xs)); auto.
      intros x k' Hx E2. rewrite EM in Hx. apply nodup_In. apply in_flat_map. exists x. split; auto.
      unfold kname in E2. destruct (name x); [|discriminate]. injection E2 as <-. now left. }
    destruct (resort_keys_ok Nat.eqb kfile file_key Nat.eqb_eq _ _ [n] A1 (by_file s1))
      as (f & -> & F).
    { now apply appended_sortable. }
    { intros k Hk. apply (appended_untouched Nat.eqb kfile file_key); auto.
      apply (untouched Nat.eqb kfile Nat.eqb_eq [n]); auto.
      intros x k' Hx E2. rewrite EM in Hx. injection E2 as <-. left. symmetry. now apply HX. }
    eexists _, G2. split; [reflexivity|]. split; [split; auto|]. split; auto.
    cbn [facts]. rewrite HL in L. lia.
Qed.

Lemma insert_all_panics n xs : (exists x, In x xs /\ file_id (range x) <> n) ->
  forall s, insert_all n s xs = None.
Proof.
  intros (x & Hx & N). induction xs as [|y xs IH]; [easy|]. intros s. cbn [insert_all].
  destruct Hx as [->|Hx].
  - unfold method_file. apply Nat.eqb_neq in N. now rewrite N.
  - destruct (method_file y =? n); auto. destruct (insert_fact u32_ids (facts s) y) as [[id a]|]; auto.
Qed.

(** ** Histories *)

Lemma run_ok B h : (N.of_nat B <= 4294967296)%N -> forall s G,
  ok s G -> length (slots (facts s)) <= B ->
  (forall n xs x, In (ReplaceFile n xs) h -> In x xs -> file_id (range x) = n) ->
  (forall h1 h2, h = h1 ++ h2 -> length (in_force (map snd G) h1) <= B) ->
  exists s' G', run_from s h = Some s' /\ ok s' G' /\ map snd G' = in_force (map snd G) h /\
    length (slots (facts s')) <= B.
Proof.
  intros HB. induction h as [|o h IH]; intros s G HK HL HW HF.
  - exists s, G. auto.
  - cbn [run_from].
    assert (forall n xs x, In (ReplaceFile n xs) h -> In x xs -> file_id (range x) = n) as HW'.
    { intros n xs x H. apply HW. now right. }
    assert (length G = length (map snd G)) as LG by (now rewrite map_length).
    pose proof (HF [o] h eq_refl) as H1.
    destruct o as [x|n|n xs]; cbn [step].
    + cbn [in_force] in H1. rewrite app_length in H1. cbn [length] in H1.
      destruct (add_ok s G x HK ltac:(lia)) as (s' & id & -> & HK' & HL').
      destruct (IH s' (G ++ [(id, x)])) as (s2 & G2 & R); auto.
      * lia.
      * intros h1 h2 ->. rewrite map_app. apply (HF (Add x :: h1) h2). reflexivity.
      * rewrite map_app in R. exists s2, G2. exact R.
    + destruct (remove_ok s G n HK) as [HK' HL'].
      destruct (IH (remove_file s n) (filter (elsewhere method_file n) G)) as (s2 & G2 & R); auto.
      * lia.
      * intros h1 h2 ->. rewrite snd_elsewhere. apply (HF (RemoveFile n :: h1) h2). reflexivity.
      * rewrite snd_elsewhere in R. exists s2, G2. exact R.
    + cbn [in_force] in H1. rewrite app_length in H1. pose proof (snd_elsewhere method_file n G) as ES.
      assert (length (filter (elsewhere method_file n) G) =
              length (filter (fun x => negb (file_id (range x) =? n)) (map snd G))) as LE.
      { change (fun x => negb (file_id (range x) =? n)) with (fun x => negb (method_file x =? n)).
        now rewrite <- ES, map_length. }
      destruct (replace_ok s G n xs HK) as (s' & GX & -> & HK' & EX & HL').
      { intros x Hx. eapply HW; eauto. now left. }
      { lia. }
      destruct (IH s' (filter (elsewhere method_file n) G ++ GX)) as (s2 & G2 & R); auto.
      * lia.
      * intros h1 h2 ->. rewrite map_app, EX, ES. apply (HF (ReplaceFile n xs :: h1) h2). reflexivity.
      * rewrite map_app, EX, ES in R. exists s2, G2. exact R.
Qed.
