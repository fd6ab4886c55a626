From Coq Require Import List Arith NArith Lia Bool Permutation Sorted.
From Verif Require Import Lib Sort_Lib Index_Lib TypeStore_Model TypeStore_Spec.
Import ListNotations.

Definition entry := (nat * stored)%type.
Definition file_of (x : stored) : nat := file_id (srange x).
Definition of_file (n : nat) (e : entry) : bool := file_of (snd e) =? n.
Definition has_sub (k : nat) (e : entry) : bool :=
  match ssub (snd e) with Some k' => k' =? k | None => false end.
Definition named (q : subject) : Prop := is_expression q = false.

(** ** Interning *)

Lemma same_subject_eq a b : same_subject a b = true <-> a = b.
Proof. unfold same_subject. destruct (subject_eq_dec a b); split; congruence. Qed.
Lemma same_range_eq a b : same_range a b = true <-> a = b.
Proof. unfold same_range. destruct (range_eq_dec a b); split; congruence. Qed.
Lemma same_prov_eq a b : same_prov a b = true <-> a = b.
Proof. unfold same_prov. destruct (prov_eq_dec a b); split; congruence. Qed.

Section Intern.
  Context {X : Type} (eq : X -> X -> bool) (eq_ok : forall a b, eq a b = true <-> a = b).

  Lemma index_of_some l x i : index_of eq l x = Some i -> nth_error l i = Some x.
  Proof.
    revert i. induction l as [|y l IH]; intros i; simpl; [discriminate|].
    destruct (eq y x) eqn:E.
    - intros H. injection H as <-. apply eq_ok in E. now subst.
    - destruct (index_of eq l x) as [j|]; [|discriminate]. intros H. injection H as <-. simpl. auto.
  Qed.


  Lemma index_of_none l x : index_of eq l x = None <-> ~ In x l.
  Proof.
    induction l as [|y l IH]; simpl; [easy|]. destruct (eq y x) eqn:E.
    - apply eq_ok in E. split; [discriminate|]. intros H. exfalso. auto.
    - assert (y <> x) by (intros H; apply eq_ok in H; congruence).
      destruct (index_of eq l x) as [j|] eqn:EI.
      + split; [discriminate|]. intros H1. exfalso. apply H1. right.
        apply index_of_some in EI. now apply nth_error_In in EI.
      + split; auto. intros _ [H1|H1]; [auto|]. now apply (proj1 IH eq_refl).
  Qed.

  Lemma index_of_nth l i x : NoDup l -> nth_error l i = Some x -> index_of eq l x = Some i.
  Proof.
    intros ND H. destruct (index_of eq l x) as [j|] eqn:E.
    - f_equal. apply index_of_some in E. apply (proj1 (NoDup_nth_error l) ND); [|congruence].
      apply nth_error_Some. congruence.
    - apply index_of_none in E. apply nth_error_In in H. contradiction.
  Qed.

  Lemma index_of_app l m x i : index_of eq l x = Some i -> index_of eq (l ++ m) x = Some i.
  Proof.
    revert i. induction l as [|y l IH]; intros i; simpl; [discriminate|]. destruct (eq y x); auto.
    destruct (index_of eq l x) as [j|]; [|discriminate]. intros H. injection H as <-.
    now rewrite (IH j).
  Qed.

  Lemma intern_ok l x i l' : NoDup l -> intern eq l x = (i, l') ->
    NoDup l' /\ nth_error l' i = Some x /\ (exists m, l' = l ++ m) /\
    (forall y, In y l' <-> In y l \/ y = x).
  Proof.
    intros ND. unfold intern. destruct (index_of eq l x) as [j|] eqn:E; intros H; injection H as <- <-.
    - apply index_of_some in E. repeat (split; auto).
      + exists []. now rewrite app_nil_r.
      + intros [H1| ->]; auto. now apply nth_error_In in E.
    - apply index_of_none in E. split; [|split; [|split]].
      + apply (Permutation_NoDup (Permutation_app_comm [x] _)). now constructor.
      + rewrite nth_error_app2, Nat.sub_diag by lia. auto.
      + eauto.
      + intros y. rewrite in_app_iff. simpl. intuition.
  Qed.
End Intern.

(** ** The invariant *)

(** What a stored fact stands for. *)
Definition ex_in (subs : list subject) (tys : list nat) (x : stored) : fact :=
  mkFact (match ssub x with None => Expression (srange x) | Some k => nth k subs (Expression (srange x)) end)
    (nth (sty x) tys 0) (srange x) (sprov x).
Definition ex (s : store) : stored -> fact := ex_in (subjects s) (ruby_types s).
Definition valid_in (subs : list subject) (tys : list nat) (x : stored) : Prop :=
  match ssub x with None => True | Some k => k < length subs end /\ sty x < length tys.

Lemma ex_app subs tys ms mt x : valid_in subs tys x -> ex_in (subs ++ ms) (tys ++ mt) x = ex_in subs tys x.
Proof.
  intros [V1 V2]. unfold ex_in. rewrite (app_nth1 tys) by auto. destruct (ssub x); auto.
  now rewrite app_nth1.
Qed.
Lemma valid_app subs tys ms mt x : valid_in subs tys x -> valid_in (subs ++ ms) (tys ++ mt) x.
Proof. intros [V1 V2]. unfold valid_in. rewrite !app_length. destruct (ssub x); split; lia. Qed.

Definition position_leb := entry_leb (A := stored) subject_key.
Definition sorted_bucket (l : list entry) : Prop := StronglySorted (le position_leb) l.

Record ok (s : store) (G : list entry) (Q F : nat -> list entry) : Prop := {
  ok_arena : holds (facts s) G;
  ok_subject : forall k, getd Nat.eqb (by_subject s) k = map fst (Q k);
  ok_subject_perm : forall k, Permutation (Q k) (filter (has_sub k) G);
  ok_file : forall n, getd Nat.eqb (by_file s) n = map fst (F n);
  ok_file_perm : forall n, Permutation (F n) (filter (of_file n) G);
  ok_subjects : NoDup (subjects s);
  ok_types : NoDup (ruby_types s);
  ok_named : forall q, In q (subjects s) -> named q;
  ok_valid : forall e, In e G -> valid_in (subjects s) (ruby_types s) (snd e);
  ok_ordered : ordered s = true -> forall k, sorted_bucket (Q k)
}.

(** The same facts as the specification has: all, per subject, per file. *)
Record rel (s : store) (G : list entry) (Q F : nat -> list entry)
  (LV : list fact) (SF : subject -> list fact) (FF : nat -> list fact) : Prop := {
  rel_live : map (ex s) (map snd G) = LV;
  rel_subject : forall q, named q ->
    SF q = match index_of same_subject (subjects s) q with
           | Some k => map (ex s) (map snd (Q k)) | None => [] end;
  rel_file : forall n, FF n = map (ex s) (map snd (F n))
}.

Lemma in_Q s G Q F k e : ok s G Q F -> (In e (Q k) <-> In e G /\ ssub (snd e) = Some k).
Proof.
  intros K. rewrite (Permutation_in' eq_refl (ok_subject_perm _ _ _ _ K k)), filter_In.
  unfold has_sub. destruct (ssub (snd e)) as [k'|]; split; intros [H1 H2]; split; auto; try discriminate.
  - apply Nat.eqb_eq in H2. congruence.
  - injection H2 as ->. apply Nat.eqb_refl.
Qed.
Lemma in_F s G Q F n e : ok s G Q F -> (In e (F n) <-> In e G /\ file_of (snd e) = n).
Proof.
  intros K. rewrite (Permutation_in' eq_refl (ok_file_perm _ _ _ _ K n)), filter_In.
  unfold of_file. now rewrite Nat.eqb_eq.
Qed.

Lemma perm_fst_nodup (l m : list entry) : Permutation l m -> NoDup (map fst m) -> NoDup (map fst l).
Proof. intros P. apply Permutation_NoDup. symmetry. now apply Permutation_map. Qed.

Lemma ids_F s G Q F n : ok s G Q F -> NoDup (map fst (F n)).
Proof.
  intros K. eapply perm_fst_nodup; [apply (ok_file_perm _ _ _ _ K)|]. apply nodup_fst_filter.
  apply (ok_arena _ _ _ _ K).
Qed.
Lemma ids_Q s G Q F n : ok s G Q F -> NoDup (map fst (Q n)).
Proof.
  intros K. eapply perm_fst_nodup; [apply (ok_subject_perm _ _ _ _ K)|]. apply nodup_fst_filter.
  apply (ok_arena _ _ _ _ K).
Qed.

Lemma ok_new : ok new [] (fun _ => []) (fun _ => []).
Proof. constructor; cbn; auto; try apply holds_nil; try (constructor; fail); try easy. Qed.
Lemma rel_new : rel new [] (fun _ => []) (fun _ => []) [] (fun _ => []) (fun _ => []).
Proof. constructor; auto. Qed.

(** ** remove_file *)

Definition elsewhere (n : nat) (e : entry) : bool := negb (of_file n e).
Definition gone (ids : list nat) (e : entry) : bool := negb (existsb (Nat.eqb (fst e)) ids).

Lemma drop_all_ok L : forall s G (Q : nat -> list entry),
  holds (facts s) G ->
  (forall k, getd Nat.eqb (by_subject s) k = map fst (Q k)) ->
  (forall k e, In e (Q k) <-> In e G /\ ssub (snd e) = Some k) ->
  NoDup (map fst L) -> (forall e, In e L -> In e G) ->
  let s' := fold_left drop_id (map fst L) s in
  holds (facts s') (filter (gone (map fst L)) G) /\
  (forall k, getd Nat.eqb (by_subject s') k = map fst (filter (gone (map fst L)) (Q k))) /\
  by_file s' = by_file s /\ subjects s' = subjects s /\ ruby_types s' = ruby_types s /\
  ordered s' = ordered s.
Proof.
  induction L as [|[i x] L IH]; intros s G Q HA HQ HI ND HL; cbv zeta.
  - cbn [map fold_left].
    assert (forall l : list entry, filter (gone []) l = l) as E by (intros l; apply filter_all; auto).
    rewrite E. split; [exact HA|]. split; [intros k; now rewrite E|]. auto.
  - cbn [map fst fold_left]. inversion ND; subst.
    assert (In (i, x) G) as Hin by (apply HL; now left).
    destruct (holds_take _ _ i x HA Hin) as (a' & T & HA' & _ & _).
    assert (NoDup (map fst G)) as NG by apply HA.
    assert (forall l : list entry, filter (gone (i :: map fst L)) l =
              filter (gone (map fst L)) (filter (not_id i) l)) as EG.
    { induction l as [|e l IHl]; auto. cbn [filter].
      change (gone (i :: map fst L) e) with (negb ((fst e =? i) || existsb (Nat.eqb (fst e)) (map fst L))).
      unfold not_id at 1. destruct (fst e =? i); cbn [negb orb]; auto. cbn [filter].
      change (gone (map fst L) e) with (negb (existsb (Nat.eqb (fst e)) (map fst L))).
      now rewrite IHl. }
    unfold drop_id at 2 4 6 8 10 12. rewrite T.
    match goal with |- context [fold_left drop_id _ ?t] => set (s1 := t) end.
    destruct (IH s1 (filter (not_id i) G) (fun k => filter (not_id i) (Q k))) as (R1 & R2 & R3 & R4 & R5 & R6).
    + exact HA'.
    + intros k. unfold s1. cbn [by_subject].
      assert (forall k, ~ In (i, x) (Q k) -> filter (not_id i) (Q k) = Q k) as SK.
      { intros k' Hk. apply filter_all. intros [j y] He. unfold not_id. cbn [fst].
        destruct (Nat.eqb_spec j i) as [->|]; auto. exfalso. apply Hk.
        pose proof (proj1 (HI k' _) He) as [He' _].
        now rewrite (nodup_same G i x y NG Hin He'). }
      destruct (ssub x) as [k0|] eqn:Ex.
      * rewrite getd_retain by apply Nat.eqb_eq. destruct (Nat.eqb_spec k0 k) as [->|N].
        -- rewrite HQ. apply (filter_map_fst (fun j => negb (j =? i))).
        -- rewrite SK; auto. intros H. apply HI in H. cbn [snd] in H. destruct H. congruence.
      * rewrite SK; auto. intros H. apply HI in H. cbn [snd] in H. destruct H. congruence.
    + intros k e. rewrite !filter_In, HI. tauto.
    + auto.
    + apply still_there; auto. intros e He. apply HL. now right.
    + split; [rewrite EG; exact R1|]. split; [intros k; rewrite EG; apply R2|]. auto.
Qed.

Lemma gone_file s G Q F n : ok s G Q F -> forall e, In e G -> gone (map fst (F n)) e = elsewhere n e.
Proof.
  intros K e He. unfold gone, elsewhere. f_equal. apply eq_iff_eq_true. rewrite existsb_exists.
  unfold of_file. rewrite Nat.eqb_eq. split.
  - intros (i & Hi & Ei). apply Nat.eqb_eq in Ei. apply in_map_iff in Hi. destruct Hi as [[j y] [E H]].
    cbn in E. subst j. apply (in_F _ _ _ _ _ _ K) in H. destruct H as [H1 H2]. destruct e as [i' z].
    cbn in Ei. subst i'. rewrite (nodup_same G i z y) by (auto; apply (ok_arena _ _ _ _ K)). exact H2.
  - intros E. exists (fst e). split; [|apply Nat.eqb_refl]. apply in_map. now apply (in_F _ _ _ _ _ _ K).
Qed.

Lemma filter_perm {A} (p : A -> bool) l m : Permutation l m -> Permutation (filter p l) (filter p m).
Proof.
  induction 1; simpl; auto.
  - destruct (p x); auto.
  - destruct (p x), (p y); auto. constructor.
  - eapply perm_trans; eauto.
Qed.

Definition without_F (F : nat -> list entry) (n m : nat) : list entry := if m =? n then [] else F m.

Lemma remove_ok s G Q F n : ok s G Q F ->
  ok (remove_file s n) (filter (elsewhere n) G) (fun k => filter (elsewhere n) (Q k)) (without_F F n) /\
  subjects (remove_file s n) = subjects s /\ ruby_types (remove_file s n) = ruby_types s /\
  ordered (remove_file s n) = ordered s.
Proof.
  intros K. pose proof (ok_file _ _ _ _ K n) as EF.
  assert (forall m, Permutation (without_F F n m) (filter (of_file m) (filter (elsewhere n) G))) as PF.
  { intros m. rewrite filter_comm. unfold without_F. destruct (Nat.eqb_spec m n) as [->|N].
    - rewrite filter_nil; auto. intros e He. apply filter_In in He. destruct He as [_ He].
      unfold elsewhere. now rewrite He.
    - rewrite (filter_all (elsewhere n)); [apply (ok_file_perm _ _ _ _ K)|].
      intros e He. apply filter_In in He. destruct He as [_ He]. unfold elsewhere, of_file in *.
      apply Nat.eqb_eq in He. rewrite He. destruct (Nat.eqb_spec m n); auto. }
  assert (forall k, Permutation (filter (elsewhere n) (Q k)) (filter (has_sub k) (filter (elsewhere n) G))) as PQ.
  { intros k. rewrite filter_comm. apply filter_perm. apply (ok_subject_perm _ _ _ _ K). }
  assert (ordered s = true -> forall k, sorted_bucket (filter (elsewhere n) (Q k))) as SO.
  { intros E k. apply filter_sorted. now apply (ok_ordered _ _ _ _ K). }
  unfold remove_file. unfold getd in EF.
  destruct (get Nat.eqb (by_file s) n) as [stale|] eqn:EG.
  - subst stale.
    match goal with |- context [fold_left drop_id _ ?t] => set (s1 := t) end.
    destruct (drop_all_ok (F n) s1 G Q) as (R1 & R2 & R3 & R4 & R5 & R6); unfold s1.
    { apply (ok_arena _ _ _ _ K). }
    { apply (ok_subject _ _ _ _ K). }
    { intros k e. apply (in_Q _ _ _ _ _ _ K). }
    { apply (ids_F _ _ _ _ _ K). }
    { intros e He. now apply (in_F _ _ _ _ _ _ K) in He. }
    fold s1. cbn [subjects ruby_types by_file ordered s1] in R3, R4, R5, R6.
    split; [|auto].
    rewrite (filter_same _ (elsewhere n) G) in R1 by (apply (gone_file s G Q F n K)).
    constructor; try rewrite R4; try rewrite R5; try rewrite R6;
      try apply (ok_subjects _ _ _ _ K); try apply (ok_types _ _ _ _ K); try apply (ok_named _ _ _ _ K); auto.
    + intros k. rewrite R2. f_equal. apply filter_same. intros e He. apply (in_Q _ _ _ _ _ _ K) in He.
      apply (gone_file s G Q F n K). tauto.
    + intros m. rewrite R3, getd_del by apply Nat.eqb_eq. unfold without_F. rewrite Nat.eqb_sym.
      destruct (Nat.eqb m n); auto. apply (ok_file _ _ _ _ K).
    + intros e He. apply filter_In in He. apply (ok_valid _ _ _ _ K). tauto.
  - symmetry in EF. apply map_eq_nil in EF.
    assert (forall e, In e G -> elsewhere n e = true) as HE.
    { intros e He. unfold elsewhere, of_file. destruct (Nat.eqb_spec (file_of (snd e)) n); auto.
      assert (In e (F n)) by (now apply (in_F _ _ _ _ _ _ K)). rewrite EF in *. easy. }
    split; [|auto]. constructor; try apply K; auto.
    + rewrite (filter_all (elsewhere n) G) by auto. apply K.
    + intros k. rewrite (filter_all (elsewhere n) (Q k)); [apply K|].
      intros e He. apply (in_Q _ _ _ _ _ _ K) in He. apply HE. tauto.
    + intros m. unfold without_F. destruct (Nat.eqb_spec m n) as [->|N]; [|apply K].
      unfold getd. now rewrite EG.
    + intros e He. apply filter_In in He. apply (ok_valid _ _ _ _ K). tauto.
Qed.

Lemma file_ex s x : file_id (range (ex s x)) = file_of x.
Proof. reflexivity. Qed.

Lemma map_elsewhere s n (l : list entry) :
  map (ex s) (map snd (filter (elsewhere n) l)) =
  filter (fun x => negb (in_file n x)) (map (ex s) (map snd l)).
Proof.
  induction l as [|e l IH]; auto. cbn [filter map].
  change (negb (in_file n (ex s (snd e)))) with (elsewhere n e).
  destruct (elsewhere n e); cbn [map]; now rewrite IH.
Qed.

Lemma ex_same s s' x : subjects s' = subjects s -> ruby_types s' = ruby_types s -> ex s' x = ex s x.
Proof. intros E1 E2. unfold ex. now rewrite E1, E2. Qed.

Lemma remove_rel s G Q F LV SF FF n : ok s G Q F -> rel s G Q F LV SF FF ->
  rel (remove_file s n) (filter (elsewhere n) G) (fun k => filter (elsewhere n) (Q k)) (without_F F n)
    (after LV (RemoveFile n)) (fun q => subject_after q (SF q) (RemoveFile n))
    (fun m => file_after m (FF m) (RemoveFile n)).
Proof.
  intros K [R1 R2 R3]. destruct (remove_ok s G Q F n K) as (_ & ES & ET & _).
  assert (forall x, ex (remove_file s n) x = ex s x) as EX by (intros; now apply ex_same).
  assert (forall l, map (ex (remove_file s n)) l = map (ex s) l) as EM by (intros; apply map_ext; auto).
  constructor.
  - rewrite EM, map_elsewhere, R1. reflexivity.
  - intros q Hq. rewrite ES. cbn [subject_after]. rewrite R2 by auto.
    destruct (index_of _ _ _); auto. now rewrite EM, map_elsewhere.
  - intros m. cbn [file_after]. unfold without_F. rewrite (Nat.eqb_sym n m). destruct (m =? n); auto.
    rewrite EM. apply R3.
Qed.

(** ** Inserting one fact *)

Section Bounded.
  (** All named subjects and all types ever seen. *)
  Variable SS : list subject.
  Variable TT : list nat.
  Hypothesis few_subjects : forall l, NoDup l -> (forall q, In q l -> named q /\ In q SS) ->
    (N.of_nat (length l) <= 2147483648)%N.
  Hypothesis few_types : forall l, NoDup l -> (forall t, In t l -> In t TT) ->
    (N.of_nat (length l) <= 4294967296)%N.

  Definition bounded (s : store) : Prop :=
    (forall q, In q (subjects s) -> In q SS) /\ (forall t, In t (ruby_types s) -> In t TT).

  Lemma store_subject_ok s G Q F x : ok s G Q F -> bounded s -> In (subj x) SS -> proper_fact x ->
    exists q subs, store_subject (subjects s) (subj x) (range x) = Some (q, subs) /\
      NoDup subs /\ (exists m, subs = subjects s ++ m) /\ (forall y, In y subs -> named y /\ In y SS) /\
      match q with None => subj x = Expression (range x) | Some k => nth_error subs k = Some (subj x) end.
  Proof.
    intros K [B1 _] HS HP. unfold store_subject.
    assert (forall q, subj x = q -> named q ->
      exists q0 subs, (let (i, subs') := intern same_subject (subjects s) q in
         if (N.of_nat i <? 2147483648)%N then Some (Some i, subs') else None) = Some (q0, subs) /\
        NoDup subs /\ (exists m, subs = subjects s ++ m) /\ (forall y, In y subs -> named y /\ In y SS) /\
        match q0 with None => q = Expression (range x) | Some k => nth_error subs k = Some q end) as M.
    { intros q Eq Nq. destruct (intern same_subject (subjects s) q) as [i subs] eqn:E.
      apply (intern_ok _ same_subject_eq) in E; [|apply K]. destruct E as (E1 & E2 & E3 & E4).
      assert (forall y, In y subs -> named y /\ In y SS) as HY.
      { intros y Hy. apply E4 in Hy. destruct Hy as [Hy| ->].
        - split; [now apply (ok_named _ _ _ _ K)|auto].
        - split; auto. congruence. }
      assert (i < length subs) by (apply nth_error_Some; congruence).
      pose proof (few_subjects subs E1 HY).
      replace (N.of_nat i <? 2147483648)%N with true by (symmetry; apply N.ltb_lt; lia).
      exists (Some i), subs. auto. }
    destruct (subj x) as [| | | | | | |r] eqn:Ex; try (apply M; reflexivity).
    rewrite (HP r Ex). assert (same_range r r = true) as -> by now apply same_range_eq.
    exists None, (subjects s). split; [reflexivity|]. split; [apply K|].
    split; [exists []; now rewrite app_nil_r|]. split; [|reflexivity].
    intros y Hy. split; [now apply (ok_named _ _ _ _ K)|auto].
  Qed.

  Lemma intern_type_ok s t : NoDup (ruby_types s) -> bounded s -> In t TT ->
    exists i tys, intern_type (ruby_types s) t = Some (i, tys) /\ NoDup tys /\
      (exists m, tys = ruby_types s ++ m) /\ (forall y, In y tys -> In y TT) /\ nth_error tys i = Some t.
  Proof.
    intros ND [_ B2] HT. unfold intern_type. destruct (intern Nat.eqb (ruby_types s) t) as [i tys] eqn:E.
    apply (intern_ok _ Nat.eqb_eq) in E; auto. destruct E as (E1 & E2 & E3 & E4).
    assert (forall y, In y tys -> In y TT) as HY.
    { intros y Hy. apply E4 in Hy. destruct Hy as [Hy| ->]; auto. }
    assert (i < length tys) by (apply nth_error_Some; congruence).
    pose proof (few_types tys E1 HY).
    replace (N.of_nat i <? 4294967296)%N with true by (symmetry; apply N.ltb_lt; lia).
    exists i, tys. auto.
  Qed.

  Definition add_Q (Q : nat -> list entry) (e : entry) (k : nat) : list entry :=
    if has_sub k e then Q k ++ [e] else Q k.
  Definition add_F (F : nat -> list entry) (e : entry) (n : nat) : list entry :=
    if of_file n e then F n ++ [e] else F n.

  Lemma room s G : holds (facts s) G -> (N.of_nat (length G) < 4294967296)%N ->
    free (facts s) = [] ->
    match u32_ids with Some n => (N.of_nat (length (slots (facts s))) < n)%N | None => True end.
  Proof.
    intros (_ & _ & _ & _ & HL) H E. rewrite E in HL. simpl in *. rewrite HL, Nat.add_0_r. exact H.
  Qed.

  (** The invariant but for the order of the buckets. *)
  Record okish (s : store) (G : list entry) (Q F : nat -> list entry) : Prop := {
    okish_arena : holds (facts s) G;
    okish_subject : forall k, getd Nat.eqb (by_subject s) k = map fst (Q k);
    okish_subject_perm : forall k, Permutation (Q k) (filter (has_sub k) G);
    okish_file : forall n, getd Nat.eqb (by_file s) n = map fst (F n);
    okish_file_perm : forall n, Permutation (F n) (filter (of_file n) G);
    okish_subjects : NoDup (subjects s);
    okish_types : NoDup (ruby_types s);
    okish_named : forall q, In q (subjects s) -> named q;
    okish_valid : forall e, In e G -> valid_in (subjects s) (ruby_types s) (snd e)
  }.

  Lemma okish_of s G Q F : ok s G Q F -> okish s G Q F.
  Proof. intros K. constructor; apply K. Qed.
  Lemma ok_of s G Q F : okish s G Q F -> (ordered s = true -> forall k, sorted_bucket (Q k)) -> ok s G Q F.
  Proof. intros K H. constructor; try apply K. exact H. Qed.

  (** [okish] does not depend on the flag. *)
  Definition flag (b : bool) (s : store) : store :=
    mkStore (facts s) (subjects s) (ruby_types s) (by_subject s) (by_file s) b.
  Lemma okish_flag b s G Q F : okish s G Q F -> okish (flag b s) G Q F.
  Proof. intros K. constructor; apply K. Qed.
  Lemma ok_unflag s G Q F : okish s G Q F -> ok (flag false s) G Q F.
  Proof. intros K. apply ok_of; [now apply okish_flag|]. discriminate. Qed.

  Lemma insert_one_ok s G Q F x : okish s G Q F -> bounded s -> In (subj x) SS -> In (ty x) TT ->
    proper_fact x -> (N.of_nat (length G) < 4294967296)%N ->
    exists s' id st,
      insert_one s x = Some (s', ssub st) /\ okish s' (G ++ [(id, st)]) (add_Q Q (id, st)) (add_F F (id, st)) /\
      bounded s' /\ ex s' st = x /\ ordered s' = ordered s /\
      (exists ms mt, subjects s' = subjects s ++ ms /\ ruby_types s' = ruby_types s ++ mt).
  Proof.
    intros K B HS HT HP HB. pose proof (ok_unflag _ _ _ _ K) as K'.
    assert (bounded (flag false s)) as B' by exact B.
    destruct (store_subject_ok (flag false s) G Q F x K' B' HS HP) as (q & subs & E1 & S1 & (ms & S2) & S3 & S4).
    destruct (intern_type_ok s (ty x) (okish_types _ _ _ _ K) B HT) as (t & tys & E2 & T1 & (mt & T2) & T3 & T4).
    cbn [flag subjects] in E1, S2.
    set (st := mkStored q t (range x) (prov x)).
    destruct (holds_insert u32_ids (facts s) G st (okish_arena _ _ _ _ K) (room s G (okish_arena _ _ _ _ K) HB))
      as (id & a & E3 & HA & Hid & _).
    eexists _, id, st. unfold insert_one. rewrite E1, E2. fold st. rewrite E3.
    split; [reflexivity|].
    assert (valid_in subs tys st) as V.
    { split; cbn [st ssub sty]; [|apply nth_error_Some; congruence].
      destruct q; auto. apply nth_error_Some. congruence. }
    split; [|split; [|split; [|split]]].
    - constructor; cbn [facts subjects ruby_types by_subject by_file]; auto.
      + intros k. unfold add_Q, has_sub. cbn [snd st ssub]. destruct q as [k0|].
        * rewrite getd_push by apply Nat.eqb_eq. rewrite (okish_subject _ _ _ _ K).
          destruct (k0 =? k); auto. now rewrite map_app.
        * apply K.
      + intros k. unfold add_Q. rewrite filter_app. cbn [filter]. destruct (has_sub k (id, st)).
        * apply Permutation_app_tail. apply K.
        * rewrite app_nil_r. apply K.
      + intros n. rewrite getd_push by apply Nat.eqb_eq. rewrite (okish_file _ _ _ _ K). unfold add_F, of_file.
        change (file_of (snd (id, st))) with (file_id (range x)).
        destruct (file_id (range x) =? n); auto. now rewrite map_app.
      + intros n. unfold add_F. rewrite filter_app. cbn [filter]. destruct (of_file n (id, st)).
        * apply Permutation_app_tail. apply K.
        * rewrite app_nil_r. apply K.
      + intros y Hy. now apply S3.
      + intros e He. apply in_app_or in He. destruct He as [He|[<-|[]]]; [|exact V].
        rewrite S2, T2. apply valid_app. now apply K.
    - split; cbn [subjects ruby_types]; [|exact T3]. intros y Hy. now apply S3.
    - unfold ex, ex_in. cbn [subjects ruby_types st ssub sty srange sprov].
      rewrite (nth_error_nth _ _ _ T4). destruct q as [k|].
      + rewrite (nth_error_nth _ _ _ S4). now destruct x.
      + rewrite <- S4. now destruct x.
    - reflexivity.
    - exists ms, mt. auto.
  Qed.

  Lemma index_grow s G Q F s' ms q k : okish s G Q F -> subjects s' = subjects s ++ ms -> NoDup (subjects s') ->
    index_of same_subject (subjects s') q = Some k ->
    index_of same_subject (subjects s) q = Some k \/
    (index_of same_subject (subjects s) q = None /\ Q k = []).
  Proof.
    intros K ES ND E. destruct (index_of same_subject (subjects s) q) as [k'|] eqn:E'.
    - left. rewrite ES in E. now rewrite (index_of_app _ _ _ _ _ E') in E.
    - right. split; auto. destruct (Q k) as [|e l] eqn:EQ; auto. exfalso.
      assert (In e (Q k)) as He by (rewrite EQ; now left).
      apply (Permutation_in _ (okish_subject_perm _ _ _ _ K k)) in He. apply filter_In in He.
      destruct He as [He Hk]. destruct (okish_valid _ _ _ _ K e He) as [V _]. unfold has_sub in Hk.
      destruct (ssub (snd e)) as [k0|]; [|discriminate]. apply Nat.eqb_eq in Hk. subst k0.
      apply (index_of_some _ same_subject_eq) in E. rewrite ES, nth_error_app1 in E by auto.
      apply nth_error_In in E. apply (index_of_none _ same_subject_eq) in E'. contradiction.
  Qed.

  Lemma ex_grow s G s' ms mt (l : list entry) : (forall e, In e G -> valid_in (subjects s) (ruby_types s) (snd e)) ->
    subjects s' = subjects s ++ ms -> ruby_types s' = ruby_types s ++ mt -> (forall e, In e l -> In e G) ->
    map (ex s') (map snd l) = map (ex s) (map snd l).
  Proof.
    intros V ES ET HL. rewrite !map_map. apply map_ext_in. intros e He. unfold ex. rewrite ES, ET.
    apply ex_app. auto.
  Qed.

  Lemma okish_in_Q s G Q F k e : okish s G Q F -> In e (Q k) -> In e G.
  Proof.
    intros K H. apply (Permutation_in _ (okish_subject_perm _ _ _ _ K k)) in H. now apply filter_In in H.
  Qed.
  Lemma okish_in_F s G Q F k e : okish s G Q F -> In e (F k) -> In e G.
  Proof.
    intros K H. apply (Permutation_in _ (okish_file_perm _ _ _ _ K k)) in H. now apply filter_In in H.
  Qed.

  (** A stored fact has subject id [k] exactly when the fact is about the subject with that id. *)
  Lemma has_sub_about s k q (e : entry) : NoDup (subjects s) -> named q ->
    (forall q, In q (subjects s) -> named q) ->
    valid_in (subjects s) (ruby_types s) (snd e) -> index_of same_subject (subjects s) q = Some k ->
    has_sub k e = about q (ex s (snd e)).
  Proof.
    intros ND Nq NS [V _] E. apply eq_iff_eq_true. unfold has_sub, about. rewrite same_subject_eq.
    unfold ex, ex_in. cbn [subj]. destruct (ssub (snd e)) as [k0|].
    - rewrite Nat.eqb_eq. pose proof (index_of_some _ same_subject_eq _ _ _ E) as E1. split.
      + intros ->. now rewrite (nth_error_nth _ _ _ E1).
      + intros E2.
        assert (nth_error (subjects s) k0 = Some q) as E3 by (rewrite <- E2; now apply nth_error_nth').
        apply (index_of_nth _ same_subject_eq) in E3; auto. congruence.
    - split; [discriminate|]. intros <-. discriminate.
  Qed.

  Lemma not_about s q (e : entry) : named q ->
    valid_in (subjects s) (ruby_types s) (snd e) -> index_of same_subject (subjects s) q = None ->
    about q (ex s (snd e)) = false.
  Proof.
    intros Nq [V _] E. unfold about. destruct (same_subject _ _) eqn:E1; auto.
    apply same_subject_eq in E1. exfalso. unfold ex, ex_in in E1. cbn [subj] in E1.
    destruct (ssub (snd e)) as [k0|]; [|subst q; discriminate].
    apply (index_of_none _ same_subject_eq) in E. apply E. rewrite <- E1. now apply nth_In.
  Qed.

  Lemma insert_one_rel s G Q F LV SF FF x s' id st ms mt : okish s G Q F -> rel s G Q F LV SF FF ->
    okish s' (G ++ [(id, st)]) (add_Q Q (id, st)) (add_F F (id, st)) -> ex s' st = x ->
    subjects s' = subjects s ++ ms -> ruby_types s' = ruby_types s ++ mt ->
    rel s' (G ++ [(id, st)]) (add_Q Q (id, st)) (add_F F (id, st)) (after LV (Add x))
      (fun q => subject_after q (SF q) (Add x)) (fun n => file_after n (FF n) (Add x)).
  Proof.
    intros K [R1 R2 R3] K' EX ES ET. pose proof (ex_grow s G s' ms mt) as EG.
    specialize (fun l => EG l (okish_valid _ _ _ _ K) ES ET).
    assert (valid_in (subjects s') (ruby_types s') st) as V.
    { apply (okish_valid _ _ _ _ K' (id, st)). apply in_or_app. right. now left. }
    constructor.
    - rewrite !map_app, EG, R1 by auto. cbn [map snd after]. now rewrite EX.
    - intros q Hq. cbn [subject_after]. rewrite R2 by auto.
      destruct (index_of same_subject (subjects s') q) as [k|] eqn:E.
      + assert (about q x = has_sub k (id, st)) as ->.
        { rewrite <- EX. symmetry. apply (has_sub_about s' k q (id, st)); auto; apply K'. }
        unfold add_Q. destruct (index_grow s G Q F s' ms q k K ES (okish_subjects _ _ _ _ K') E) as [E'|[E' EQ]]; rewrite E'.
        * destruct (has_sub k (id, st)).
          -- rewrite !map_app, EG by (intros e; apply (okish_in_Q _ _ _ _ _ _ K)). cbn [map snd]. now rewrite EX.
          -- now rewrite EG by (intros e; apply (okish_in_Q _ _ _ _ _ _ K)).
        * rewrite EQ. destruct (has_sub k (id, st)); cbn [app map snd]; now rewrite ?EX.
      + pose proof (not_about s' q (id, st) Hq V E) as NA. cbn [snd] in NA. rewrite EX in NA. rewrite NA.
        destruct (index_of same_subject (subjects s) q) as [k'|] eqn:E'; auto.
        rewrite ES, (index_of_app _ _ _ _ _ E') in E. discriminate.
    - intros n. cbn [file_after]. rewrite R3. unfold add_F.
      assert (in_file n x = of_file n (id, st)) as -> by (now rewrite <- EX).
      destruct (of_file n (id, st)).
      + rewrite !map_app, EG by (intros e; apply (okish_in_F _ _ _ _ _ _ K)). cbn [map snd]. now rewrite EX.
      + now rewrite EG by (intros e; apply (okish_in_F _ _ _ _ _ _ K)).
  Qed.

  (** The fast path: one added fact. *)
  Lemma add_ok s G Q F LV SF FF x : ok s G Q F -> rel s G Q F LV SF FF -> bounded s ->
    In (subj x) SS -> In (ty x) TT -> proper_fact x -> (N.of_nat (length G) < 4294967296)%N ->
    exists s' G' Q' F', add s x = Some s' /\ ok s' G' Q' F' /\ bounded s' /\
      rel s' G' Q' F' (after LV (Add x)) (fun q => subject_after q (SF q) (Add x)) (fun n => file_after n (FF n) (Add x)).
  Proof.
    intros K R B HS HT HP HB.
    destruct (insert_one_ok s G Q F x (okish_of _ _ _ _ K) B HS HT HP HB)
      as (s' & id & st & E & K' & B' & EX & EO & (ms & mt & ES & ET)).
    exists (flag false s'), (G ++ [(id, st)]), (add_Q Q (id, st)), (add_F F (id, st)).
    unfold add. rewrite E. split; [reflexivity|]. split; [now apply ok_unflag|]. split; [exact B'|].
    pose proof (insert_one_rel s G Q F LV SF FF x s' id st ms mt (okish_of _ _ _ _ K) R K' EX ES ET) as [R1 R2 R3].
    constructor; [exact R1|exact R2|exact R3].
  Qed.

  (** ** replace_file *)

  Definition own (k : nat) (G2 : list entry) : list entry := filter (has_sub k) G2.

  Lemma insert_all_ok n xs : forall s G Q F touched, okish s G Q F -> bounded s ->
    (forall x, In x xs -> file_id (range x) = n /\ proper_fact x /\ In (subj x) SS /\ In (ty x) TT) ->
    (N.of_nat (length G + length xs) <= 4294967296)%N ->
    exists s' G2 Q' F' ms mt,
      insert_all n s touched xs =
        Some (s', fold_left touch (flat_map (fun e => match ssub (snd e) with Some k => [k] | None => [] end) G2) touched) /\
      okish s' (G ++ G2) Q' F' /\ bounded s' /\ ordered s' = ordered s /\
      map (ex s') (map snd G2) = xs /\
      (forall k, Q' k = Q k ++ own k G2) /\
      (forall m, F' m = if m =? n then F n ++ G2 else F m) /\
      (forall e, In e G2 -> file_of (snd e) = n) /\
      subjects s' = subjects s ++ ms /\ ruby_types s' = ruby_types s ++ mt.
  Proof.
    induction xs as [|x xs IH]; intros s G Q F touched K B HX HB.
    - exists s, [], Q, F, [], []. rewrite !app_nil_r. cbn. split; [reflexivity|]. split; [auto|].
      do 3 (split; auto). split; [intros; now rewrite app_nil_r|]. split; [|split; [easy|auto]].
      intros m. rewrite ?app_nil_r. now destruct (Nat.eqb_spec m n) as [->|].
    - cbn [insert_all]. destruct (HX x (or_introl eq_refl)) as (X1 & X2 & X3 & X4).
      rewrite X1, Nat.eqb_refl. cbn [length] in HB.
      destruct (insert_one_ok s G Q F x K B X3 X4 X2) as (s1 & id & st & E & K1 & B1 & EX & EO & (ms & mt & ES & ET)); [lia|].
      rewrite E.
      destruct (IH s1 (G ++ [(id, st)]) (add_Q Q (id, st)) (add_F F (id, st))
                  (match ssub st with Some k => touch touched k | None => touched end) K1 B1)
        as (s' & G2 & Q' & F' & ms' & mt' & E' & K' & B' & EO' & EX' & EQ & EF & HF & ES' & ET').
      { intros y Hy. apply HX. now right. }
      { rewrite app_length. cbn [length]. lia. }
      exists s', ((id, st) :: G2), Q', F', (ms ++ ms'), (mt ++ mt'). split.
      { rewrite E'. cbn [flat_map snd]. destruct (ssub st); reflexivity. }
      split; [now rewrite <- app_assoc in K'|]. split; [exact B'|]. split; [congruence|].
      assert (file_of st = n) as Fn.
      { transitivity (file_id (range (ex s1 st))); [reflexivity|]. now rewrite EX. }
      split.
      { cbn [map snd]. f_equal; [|exact EX']. rewrite <- EX. unfold ex. rewrite ES', ET'. apply ex_app.
        apply (okish_valid _ _ _ _ K1 (id, st)). apply in_or_app. right. now left. }
      split.
      { intros k. rewrite EQ. unfold add_Q, own. cbn [filter]. destruct (has_sub k (id, st)); auto.
        now rewrite <- app_assoc. }
      split.
      { intros m. rewrite EF. unfold add_F, of_file. cbn [snd]. rewrite Fn, Nat.eqb_refl.
        destruct (Nat.eqb_spec m n) as [->|N]; [now rewrite <- app_assoc|].
        destruct (Nat.eqb_spec n m); congruence. }
      split.
      { intros e [<-|He]; auto. }
      split; [rewrite ES', ES; now rewrite app_assoc|rewrite ET', ET; now rewrite app_assoc].
  Qed.

  (** The touched subjects with their counts. *)
  Definition occurs (k : nat) (ks : list nat) : nat := length (filter (Nat.eqb k) ks).

  Lemma touch_get l k k' : NoDup (map fst l) ->
    get Nat.eqb (touch l k) k' =
    (if k =? k' then Some (S (match get Nat.eqb l k with Some c => c | None => 0 end)) else get Nat.eqb l k').
  Proof.
    induction l as [|[j c] l IH]; intros ND; cbn [touch get].
    - reflexivity.
    - inversion ND; subst. destruct (Nat.eqb_spec j k) as [->|N].
      + cbn [get]. destruct (k =? k') eqn:E; auto.
      + cbn [get]. destruct (Nat.eqb_spec j k') as [->|N'].
        * destruct (Nat.eqb_spec k k'); [congruence|auto].
        * apply IH. auto.
  Qed.
  Lemma touch_keys l k : forall j, In j (map fst (touch l k)) -> In j (map fst l) \/ j = k.
  Proof.
    induction l as [|[i c] l IH]; cbn [touch map fst In]; intros j.
    - intros [<-|[]]. auto.
    - destruct (Nat.eqb_spec i k) as [->|N]; cbn [map fst In]; intros [H|H]; auto. apply IH in H. tauto.
  Qed.
  Lemma touch_nodup l k : NoDup (map fst l) -> NoDup (map fst (touch l k)).
  Proof.
    induction l as [|[i c] l IH]; cbn [touch map fst]; intros ND.
    - repeat constructor; auto.
    - inversion ND; subst. destruct (Nat.eqb_spec i k) as [->|N]; cbn [map fst]; [now constructor|].
      constructor; auto. intros H. apply touch_keys in H. destruct H; congruence.
  Qed.

  Lemma touched_get ks : forall l, NoDup (map fst l) ->
    NoDup (map fst (fold_left touch ks l)) /\
    forall k, get Nat.eqb (fold_left touch ks l) k =
      match occurs k ks with
      | 0 => get Nat.eqb l k
      | S c => Some (S c + match get Nat.eqb l k with Some d => d | None => 0 end)
      end.
  Proof.
    induction ks as [|j ks IH]; intros l ND; cbn [fold_left].
    - split; auto.
    - destruct (IH (touch l j) (touch_nodup l j ND)) as [I1 I2]. split; [exact I1|]. intros k.
      rewrite I2. unfold occurs. cbn [filter]. fold (occurs k ks).
      change (length (filter (Nat.eqb k) ks)) with (occurs k ks).
      rewrite touch_get by auto. rewrite (Nat.eqb_sym j k). destruct (Nat.eqb_spec k j) as [->|N]; auto.
      cbn [length]. change (length (filter (Nat.eqb j) ks)) with (occurs j ks).
      destruct (occurs j ks); auto. f_equal. lia.
  Qed.

  Lemma occurs_own k (G2 : list entry) :
    occurs k (flat_map (fun e => match ssub (snd e) with Some k => [k] | None => [] end) G2) = length (own k G2).
  Proof.
    induction G2 as [|e G2 IH]; auto. unfold own, occurs in *. cbn [flat_map]. rewrite filter_app, app_length, IH.
    cbn [filter]. unfold has_sub at 2. destruct (ssub (snd e)) as [j|]; auto. cbn [filter].
    rewrite Nat.eqb_sym. destruct (j =? k); auto.
  Qed.

  Definition placed (Q : nat -> list entry) (G2 : list entry) (k : nat) : list entry :=
    match own k G2 with [] => Q k | o => sort position_leb (Q k ++ o) end.

  Lemma place_touched_ok n fast a G (Q : nat -> list entry) G2 : holds a G ->
    (forall k e, In e (Q k ++ own k G2) -> In e G) ->
    (forall k e, In e (Q k) -> file_of (snd e) <> n) -> (forall e, In e G2 -> file_of (snd e) = n) ->
    (fast = true -> forall k, sorted_bucket (Q k)) ->
    forall touched m, NoDup (map fst touched) ->
    (forall k c, In (k, c) touched -> c = length (own k G2) /\ own k G2 <> []) ->
    (forall k, getd Nat.eqb m k = map fst (if existsb (Nat.eqb k) (map fst touched)
                                           then Q k ++ own k G2 else placed Q G2 k)) ->
    exists m', place_touched n fast a m touched = Some m' /\
      forall k, getd Nat.eqb m' k = map fst (placed Q G2 k).
  Proof.
    intros HA HG HQ HO HS. induction touched as [|[k c] touched IH]; intros m ND HC HM.
    - exists m. split; auto.
    - cbn [place_touched]. inversion ND; subst. destruct (HC k c (or_introl eq_refl)) as [-> NE].
      pose proof (HM k) as Hk. cbn [map fst existsb] in Hk. rewrite Nat.eqb_refl in Hk. cbn [orb] in Hk.
      unfold getd in Hk. destruct (get Nat.eqb m k) as [ids|] eqn:EG.
      2:{ exfalso. symmetry in Hk. apply map_eq_nil in Hk. apply app_eq_nil in Hk. tauto. }
      subst ids.
      assert ((if fast then place_appended subject_key (fun x => file_id (srange x)) a
                              (map fst (Q k ++ own k G2)) (length (own k G2)) n
               else sort_ids subject_key a (map fst (Q k ++ own k G2)))
              = Some (map fst (placed Q G2 k))) as ->.
      { assert (placed Q G2 k = sort position_leb (Q k ++ own k G2)) as ->.
        { unfold placed. destruct (own k G2); [congruence|auto]. }
        destruct fast.
        - rewrite <- (sort_id _ (entry_total _) (entry_trans _) _ (HS eq_refl k)) at 1.
          apply (place_appended_spec subject_key (fun x => file_id (srange x))) with (G := G); auto.
          + intros x y. unfold subject_key. cbn [lexb]. rewrite orb_true_iff, andb_true_iff, Nat.ltb_lt, Nat.eqb_eq. lia.
          + intros x y H. unfold subject_key. cbn [lexb]. apply orb_true_iff. left. now apply Nat.ltb_lt.
          + intros e He. apply (HG k). apply in_or_app. now left.
          + intros e He. apply (HG k). apply in_or_app. now right.
          + apply HQ.
          + intros e He. apply filter_In in He. apply HO. tauto.
        - unfold sort_ids. rewrite (holds_entries _ G) by (auto; apply HG). reflexivity. }
      apply IH; auto.
      + intros j c Hj. apply HC. now right.
      + intros j. rewrite getd_put by apply Nat.eqb_eq.
        destruct (Nat.eqb_spec k j) as [<-|N].
        * replace (existsb (Nat.eqb k) (map fst touched)) with false; auto. symmetry.
          apply not_true_is_false. intros E. apply existsb_exists in E. destruct E as (i & Hi & Ei).
          apply Nat.eqb_eq in Ei. congruence.
        * rewrite HM. cbn [map fst existsb]. destruct (Nat.eqb_spec j k); [congruence|auto].
  Qed.

  Definition file_leb := entry_leb (A := stored) file_key.

  Lemma ex_positions s (l : list entry) :
    map (ex s) (map snd (sort position_leb l)) = sort (key_leb position) (map (ex s) (map snd l)).
  Proof.
    rewrite !map_map. rewrite <- (sort_map (fun e : entry => ex s (snd e)) (key_leb position)). reflexivity.
  Qed.

  Lemma file_sort n (l : list entry) : (forall e, In e l -> file_of (snd e) = n) ->
    sort file_leb l = sort position_leb l.
  Proof.
    intros H. apply sort_ext. intros x y Hx Hy. unfold file_leb, position_leb, entry_leb, key_leb, file_key, subject_key.
    cbn [lexb]. change (file_id (srange (snd x))) with (file_of (snd x)). change (file_id (srange (snd y))) with (file_of (snd y)).
    rewrite (H x Hx), (H y Hy), Nat.ltb_irrefl, Nat.eqb_refl. reflexivity.
  Qed.

  Lemma map_own s k q (G2 : list entry) : NoDup (subjects s) -> named q ->
    (forall q, In q (subjects s) -> named q) -> index_of same_subject (subjects s) q = Some k ->
    (forall e, In e G2 -> valid_in (subjects s) (ruby_types s) (snd e)) ->
    map (ex s) (map snd (own k G2)) = filter (about q) (map (ex s) (map snd G2)).
  Proof.
    intros ND Nq NS E V. induction G2 as [|e G2 IH]; auto. unfold own in *. cbn [filter map].
    rewrite (has_sub_about s k q e) by (auto; apply V; now left).
    destruct (about q (ex s (snd e))); cbn [map]; rewrite IH; auto; intros e' He; apply V; now right.
  Qed.

  Lemma replace_ok s G Q F LV SF FF n xs : ok s G Q F -> rel s G Q F LV SF FF -> bounded s ->
    (forall x, In x xs -> file_id (range x) = n /\ proper_fact x /\ In (subj x) SS /\ In (ty x) TT) ->
    (N.of_nat (length (after LV (ReplaceFile n xs))) <= 4294967296)%N ->
    exists s' G' Q' F', replace_file s n xs = Some s' /\ ok s' G' Q' F' /\ bounded s' /\
      rel s' G' Q' F' (after LV (ReplaceFile n xs)) (fun q => subject_after q (SF q) (ReplaceFile n xs))
        (fun m => file_after m (FF m) (ReplaceFile n xs)).
  Proof.
    intros K R B HX HB.
    destruct (remove_ok s G Q F n K) as (K0 & ES0 & ET0 & EO0).
    pose proof (remove_rel s G Q F LV SF FF n K R) as [R1 R2 R3].
    set (s0 := remove_file s n) in *. set (G0 := filter (elsewhere n) G) in *.
    set (Q0 := fun k => filter (elsewhere n) (Q k)) in *.
    cbn [after subject_after file_after] in R1, R2, R3.
    assert (bounded s0) as B0 by (unfold bounded; rewrite ES0, ET0; exact B).
    destruct (insert_all_ok n xs s0 G0 Q0 (without_F F n) [] (okish_of _ _ _ _ K0) B0 HX)
      as (s1 & G2 & Q1 & F1 & ms & mt & E & K1 & B1 & EO & EX & EQ & EF & HF & ES & ET).
    { cbn [after] in HB. rewrite app_length, <- R1, !map_length in HB. exact HB. }
    unfold replace_file. fold s0. rewrite E.
    assert (without_F F n n = []) as WF by (unfold without_F; now rewrite Nat.eqb_refl).
    assert (forall k e, In e (Q0 k) -> file_of (snd e) <> n) as HQ0.
    { intros k e He. apply filter_In in He. destruct He as [_ He]. unfold elsewhere, of_file in He.
      destruct (Nat.eqb_spec (file_of (snd e)) n); [discriminate|auto]. }
    destruct (touched_get (flat_map (fun e => match ssub (snd e) with Some k => [k] | None => [] end) G2) []) as [T1 T2];
      [constructor|].
    set (touched := fold_left touch _ []) in *.
    destruct (place_touched_ok n (ordered s1) (facts s1) (G0 ++ G2) Q0 G2 (okish_arena _ _ _ _ K1))
      with (touched := touched) (m := by_subject s1) as (m' & EM & HM).
    { intros k e He. rewrite <- EQ in He. apply (okish_in_Q _ _ _ _ _ _ K1 He). }
    { exact HQ0. }
    { exact HF. }
    { rewrite EO. apply (ok_ordered _ _ _ _ K0). }
    { exact T1. }
    { intros k c Hc. apply (in_get Nat.eqb Nat.eqb_eq) in Hc; auto. rewrite T2, occurs_own in Hc.
      destruct (own k G2); cbn [length] in Hc; [discriminate|]. cbn [get] in Hc. injection Hc as <-.
      cbn [length]. split; [lia|discriminate]. }
    { intros k. rewrite (okish_subject _ _ _ _ K1), EQ. f_equal.
      destruct (existsb (Nat.eqb k) (map fst touched)) eqn:EE; auto.
      unfold placed. destruct (own k G2) as [|o l] eqn:Eo; [apply app_nil_r|]. exfalso.
      pose proof (T2 k) as Tk. rewrite occurs_own, Eo in Tk. cbn [length get] in Tk.
      apply get_in in Tk; [|apply Nat.eqb_eq]. apply (in_map fst) in Tk. cbn [fst] in Tk.
      assert (existsb (Nat.eqb k) (map fst touched) = true); [|congruence].
      apply existsb_exists. exists k. split; [exact Tk|apply Nat.eqb_refl]. }
    rewrite EM.
    pose proof (okish_file _ _ _ _ K1 n) as Fn. rewrite EF, Nat.eqb_refl, WF in Fn. cbn [app] in Fn.
    set (F2 := fun m => if m =? n then sort file_leb G2 else F m).
    assert (exists f, (match get Nat.eqb (by_file s1) n with
             | None => Some (by_file s1)
             | Some ids => match sort_ids file_key (facts s1) ids with
                           | None => None
                           | Some ids' => Some (put Nat.eqb (by_file s1) n ids')
                           end
             end) = Some f /\ forall m, getd Nat.eqb f m = map fst (F2 m)) as (f & -> & Hf).
    { assert (forall m, m <> n -> getd Nat.eqb (by_file s1) m = map fst (F m)) as Hm.
      { intros m N. rewrite (okish_file _ _ _ _ K1), EF. unfold without_F. destruct (Nat.eqb_spec m n); [congruence|auto]. }
      unfold getd in Fn. destruct (get Nat.eqb (by_file s1) n) as [ids|] eqn:EG.
      - subst ids. unfold sort_ids. rewrite (holds_entries _ (G0 ++ G2)).
        2:{ apply K1. }
        2:{ intros e He. apply in_or_app. now right. }
        eexists. split; [reflexivity|]. intros m. rewrite getd_put by apply Nat.eqb_eq. unfold F2.
        rewrite (Nat.eqb_sym n m). destruct (Nat.eqb_spec m n) as [->|N]; [reflexivity|]. now apply Hm.
      - symmetry in Fn. apply map_eq_nil in Fn. subst G2. eexists. split; [reflexivity|]. intros m. unfold F2.
        destruct (Nat.eqb_spec m n) as [->|N]; [|now apply Hm]. unfold getd. now rewrite EG. }
    eexists _, (G0 ++ G2), (placed Q0 G2), F2. split; [reflexivity|].
    assert (forall k, Permutation (placed Q0 G2 k) (Q1 k)) as PP.
    { intros k. rewrite EQ. unfold placed. destruct (own k G2) as [|o l]; [now rewrite app_nil_r|].
      symmetry. apply sort_perm. }
    assert (forall e, In e G2 -> valid_in (subjects s1) (ruby_types s1) (snd e)) as V2.
    { intros e He. apply (okish_valid _ _ _ _ K1). apply in_or_app. now right. }
    split; [|split].
    - constructor; cbn [facts subjects ruby_types by_subject by_file ordered]; auto; try apply K1.
      + intros k. rewrite PP. apply K1.
      + intros m. unfold F2. destruct (Nat.eqb_spec m n) as [->|N].
        * rewrite <- sort_perm. pose proof (okish_file_perm _ _ _ _ K1 n) as P. rewrite EF, Nat.eqb_refl, WF in P. exact P.
        * pose proof (okish_file_perm _ _ _ _ K1 m) as P. rewrite EF in P. unfold without_F in P.
          destruct (Nat.eqb_spec m n); [congruence|exact P].
      + intros Eo k. unfold placed. destruct (own k G2).
        * apply (ok_ordered _ _ _ _ K0). congruence.
        * apply sort_sorted; [apply entry_total|apply entry_trans].
    - exact B1.
    - pose proof (ex_grow s0 G0 s1 ms mt) as EG. specialize (fun l => EG l (ok_valid _ _ _ _ K0) ES ET).
      change (ex (mkStore (facts s1) (subjects s1) (ruby_types s1) m' f (ordered s1))) with (ex s1).
      match goal with |- rel ?t _ _ _ _ _ _ => set (s2 := t) end.
      assert (forall l, map (ex s2) l = map (ex s1) l) as E2 by reflexivity.
      constructor.
      + rewrite E2, !map_app, EG, R1 by auto. cbn [after]. f_equal. exact EX.
      + intros q Hq. cbn [s2 subjects subject_after]. pose proof (R2 q Hq) as R2q.
        set (kept := filter (fun x => negb (in_file n x)) (SF q)) in *.
        assert (forall e k, In e (Q0 k) -> In e G0) as HQG.
        { intros e k He. apply (in_Q _ _ _ _ _ _ K0) in He. tauto. }
        destruct (index_of same_subject (subjects s1) q) as [k|] eqn:Ek.
        * rewrite E2.
          assert (match index_of same_subject (subjects s0) q with
                  | Some k0 => map (ex s0) (map snd (Q0 k0)) | None => [] end = map (ex s0) (map snd (Q0 k))) as EQ0.
          { destruct (index_grow s0 G0 Q0 _ s1 ms q k (okish_of _ _ _ _ K0) ES (okish_subjects _ _ _ _ K1) Ek) as [-> |[-> ->]]; auto. }
          assert (kept = map (ex s0) (map snd (Q0 k))) as -> by (rewrite R2q; exact EQ0).
          rewrite <- EX, <- (map_own s1 k q G2) by (auto; apply K1).
          unfold placed. destruct (own k G2) as [|o l]; cbn [map].
          -- now rewrite EG by (intros e He; apply (HQG e k He)).
          -- rewrite ex_positions, !map_app. f_equal. f_equal. symmetry. apply EG.
             intros e He. apply (HQG e k He).
        * assert (filter (about q) xs = []) as ->.
          { rewrite <- EX, map_map. apply filter_nil. intros x Hx. apply in_map_iff in Hx. destruct Hx as (e & <- & He).
            apply not_about; auto. }
          rewrite R2q. destruct (index_of same_subject (subjects s0) q) as [k'|] eqn:E'; auto.
          rewrite ES, (index_of_app _ _ _ _ _ E') in Ek. discriminate.
      + intros m. rewrite E2. cbn [file_after]. unfold F2. rewrite (Nat.eqb_sym n m).
        destruct (Nat.eqb_spec m n) as [->|N].
        * rewrite (file_sort n G2 HF), ex_positions, EX. reflexivity.
        * assert (F m = without_F F n m) as -> by (unfold without_F; destruct (Nat.eqb_spec m n); congruence).
          rewrite EG by (intros e He; apply (in_F _ _ _ _ _ _ K0) in He; tauto).
          rewrite <- R3. rewrite (Nat.eqb_sym n m). destruct (Nat.eqb_spec m n); congruence.
  Qed.

  (** ** Updates in place *)

  Definition on (u : stored -> stored) (e : entry) : entry := (fst e, u (snd e)).
  Definition in_ids (ids : list nat) (e : entry) : bool := existsb (Nat.eqb (fst e)) ids.
  Definition chg (c : stored -> bool) (t : nat) (ids : list nat) (e : entry) : entry :=
    if in_ids ids e && c (snd e) then (fst e, set_type t (snd e)) else e.

  Lemma holds_set a G i (x y : stored) : holds a G -> In (i, x) G ->
    holds (mkArena (upd (slots a) i (Some y)) (free a)) (map (fun e => if fst e =? i then (i, y) else e) G).
  Proof.
    intros (ND & NF & HS & HF & HL) Hin.
    assert (nth_error (slots a) i = Some (Some x)) as Ei by now apply HS.
    repeat split; cbn [slots free]; auto.
    - rewrite map_map. erewrite map_ext_in; [exact ND|]. intros [j z] _. cbn.
      destruct (Nat.eqb_spec j i); cbn; congruence.
    - rewrite nth_upd, Ei. intros H. apply in_map_iff. destruct (Nat.eqb_spec i i0) as [<-|N].
      + injection H as ->. exists (i, x). cbn. now rewrite Nat.eqb_refl.
      + exists (i0, x0). cbn. destruct (Nat.eqb_spec i0 i); [congruence|]. split; auto. now apply HS.
    - rewrite nth_upd, Ei. intros H. apply in_map_iff in H. destruct H as [[j z] [E H]]. cbn in E.
      destruct (Nat.eqb_spec j i) as [->|N].
      + injection E as <- <-. now rewrite Nat.eqb_refl.
      + injection E as <- <-. destruct (Nat.eqb_spec i j); [congruence|]. now apply HS.
    - rewrite nth_upd, Ei. destruct (Nat.eqb_spec i i0) as [<-|N]; intros H; [discriminate|]. now apply HF.
    - intros H. rewrite nth_upd, Ei. destruct (Nat.eqb_spec i i0) as [<-|N]; [|now apply HF].
      apply HF in H. congruence.
    - rewrite upd_length, map_length. exact HL.
  Qed.

  Lemma retype_ids_ok c t L : forall a G, holds a G -> (forall e, In e L -> In e G) -> NoDup (map fst L) ->
    exists a', retype_ids c t a (map fst L) = Some (a', length (filter (fun e => c (snd e)) L)) /\
      holds a' (map (chg c t (map fst L)) G).
  Proof.
    induction L as [|[i x] L IH]; intros a G HA HL ND.
    - exists a. split; [reflexivity|]. rewrite map_ext with (g := fun e => e); [now rewrite map_id|]. reflexivity.
    - cbn [map fst retype_ids]. inversion ND; subst.
      assert (In (i, x) G) as Hin by (apply HL; now left).
      assert (NoDup (map fst G)) as NG by apply HA.
      rewrite (proj2 (holds_fact a G i x HA) Hin). cbn [filter snd].
      destruct (c x) eqn:Ec.
      + pose proof (holds_set a G i x (set_type t x) HA Hin) as HA1.
        destruct (IH _ _ HA1) as (a' & E & HA'); auto.
        { intros [j y] He. apply in_map_iff. exists (j, y). cbn [fst].
          destruct (Nat.eqb_spec j i) as [->|N].
          - exfalso. apply H1. now apply (in_map fst) in He.
          - split; auto. apply HL. now right. }
        exists a'. rewrite E. split; [reflexivity|]. rewrite map_map in HA'.
        erewrite map_ext_in; [exact HA'|]. intros [j y] He. cbn [fst].
        unfold chg, in_ids. cbn [fst snd existsb]. destruct (Nat.eqb_spec j i) as [->|N]; cbn [fst snd orb andb]; auto.
        rewrite (nodup_same G i y x NG He Hin), Ec.
        replace (existsb (Nat.eqb i) (map fst L)) with false; auto. symmetry.
        apply not_true_is_false. intros H. apply existsb_exists in H. destruct H as (k & Hk & Ek).
        apply Nat.eqb_eq in Ek. congruence.
      + destruct (IH a G HA) as (a' & E & HA'); auto.
        { intros e He. apply HL. now right. }
        exists a'. rewrite E. split; [reflexivity|].
        erewrite map_ext_in; [exact HA'|]. intros [j y] He.
        unfold chg, in_ids. cbn [fst snd existsb]. destruct (Nat.eqb_spec j i) as [->|N]; cbn [orb andb]; auto.
        rewrite (nodup_same G i y x NG He Hin), Ec. now rewrite !andb_false_r.
  Qed.

  Lemma mapped_filter u (p : entry -> bool) (l : list entry) : (forall e, p (on u e) = p e) ->
    filter p (map (on u) l) = map (on u) (filter p l).
  Proof.
    intros H. induction l as [|e l IH]; auto. cbn [map filter]. rewrite H. destruct (p e); cbn [map]; now rewrite IH.
  Qed.

  Lemma mapped_ok s G Q F u a tys mt : ok s G Q F ->
    (forall x, ssub (u x) = ssub x /\ srange (u x) = srange x /\ sprov (u x) = sprov x) ->
    holds a (map (on u) G) -> tys = ruby_types s ++ mt -> NoDup tys ->
    (forall e, In e G -> sty (u (snd e)) < length tys) ->
    ok (with_facts s a tys) (map (on u) G) (fun k => map (on u) (Q k)) (fun n => map (on u) (F n)).
  Proof.
    intros K HU HA ET ND HT.
    assert (forall l : list entry, map fst (map (on u) l) = map fst l) as EM by (intros; rewrite map_map; reflexivity).
    constructor; cbn [with_facts facts subjects ruby_types by_subject by_file ordered]; auto; try apply K.
    - intros k. rewrite EM. apply K.
    - intros k. rewrite mapped_filter; [apply Permutation_map, K|].
      intros e. unfold has_sub, on. cbn [snd]. now rewrite (proj1 (HU (snd e))).
    - intros n. rewrite EM. apply K.
    - intros n. rewrite mapped_filter; [apply Permutation_map, K|].
      intros e. unfold of_file, file_of, on. cbn [snd]. destruct (HU (snd e)) as (_ & -> & _). reflexivity.
    - intros e He. apply in_map_iff in He. destruct He as (e' & <- & He). unfold valid_in, on. cbn [snd].
      rewrite (proj1 (HU (snd e'))). split; [apply (ok_valid _ _ _ _ K e' He)|]. apply HT; auto.
    - intros Eo k. pose proof (ok_ordered _ _ _ _ K Eo k) as S. unfold sorted_bucket in *.
      assert (forall x y, position_leb (on u x) (on u y) = position_leb x y) as HP.
      { intros x y. unfold position_leb, entry_leb, key_leb, subject_key, on. cbn [snd].
        destruct (HU (snd x)) as (_ & -> & ->). destruct (HU (snd y)) as (_ & -> & ->). reflexivity. }
      induction S as [|x l S IH FA]; cbn [map]; constructor; auto.
      apply Forall_forall. intros y Hy. apply in_map_iff in Hy. destruct Hy as (z & <- & Hz).
      rewrite Forall_forall in FA. unfold le. rewrite HP. now apply FA.
  Qed.

  Lemma mapped_rel s G Q F LV SF FF u a tys (f : fact -> fact) : ok s G Q F -> rel s G Q F LV SF FF ->
    (forall e, In e G -> ex (with_facts s a tys) (u (snd e)) = f (ex s (snd e))) ->
    rel (with_facts s a tys) (map (on u) G) (fun k => map (on u) (Q k)) (fun n => map (on u) (F n))
      (map f LV) (fun q => map f (SF q)) (fun n => map f (FF n)).
  Proof.
    intros K [R1 R2 R3] H.
    assert (forall l : list entry, (forall e, In e l -> In e G) ->
      map (ex (with_facts s a tys)) (map snd (map (on u) l)) = map f (map (ex s) (map snd l))) as EM.
    { intros l HL. rewrite !map_map. apply map_ext_in. intros e He. unfold on. cbn [snd]. auto. }
    constructor.
    - rewrite EM by auto. now rewrite R1.
    - intros q Hq. rewrite R2 by auto. cbn [with_facts subjects]. destruct (index_of _ _ _) as [k|]; auto.
      symmetry. apply EM. intros e He. apply (in_Q _ _ _ _ _ _ K) in He. tauto.
    - intros n. rewrite R3. symmetry. apply EM. intros e He. apply (in_F _ _ _ _ _ _ K) in He. tauto.
  Qed.

  Lemma set_type_ex s mt a tys ti t x : tys = ruby_types s ++ mt -> nth_error tys ti = Some t ->
    ex (with_facts s a tys) (set_type ti x) = with_type t (ex s x).
  Proof.
    intros ET E. unfold ex, ex_in, with_type. cbn [with_facts subjects ruby_types set_type ssub sty srange sprov subj range prov].
    now rewrite (nth_error_nth _ _ _ E).
  Qed.

  Lemma bucket_count (L G : list entry) (p : entry -> bool) c (LV : list fact) s (d : fact -> bool) :
    Permutation L (filter p G) -> map (ex s) (map snd G) = LV ->
    (forall e, In e G -> p e && c (snd e) = d (ex s (snd e))) ->
    length (filter (fun e => c (snd e)) L) = length (filter d LV).
  Proof.
    intros P E H. rewrite (Permutation_length (filter_perm _ _ _ P)). subst LV. clear P.
    induction G as [|e G IH]; auto. cbn [filter map].
    rewrite <- (H e) by now left. destruct (p e); cbn [filter andb]; [destruct (c (snd e))|]; cbn [length];
      rewrite IH; auto; intros e' He; apply H; now right.
  Qed.

  (** One in-place update of the facts satisfying [c] in one bucket. *)
  Lemma update_ok s G Q F LV SF FF (L : list entry) (p : entry -> bool) c t ti tys mt (d : fact -> bool) :
    ok s G Q F -> rel s G Q F LV SF FF -> bounded s ->
    Permutation L (filter p G) ->
    tys = ruby_types s ++ mt -> NoDup tys -> (forall y, In y tys -> In y TT) -> nth_error tys ti = Some t ->
    (forall e, In e G -> p e && c (snd e) = d (ex s (snd e))) ->
    exists a G' Q' F', retype_ids c ti (facts s) (map fst L) = Some (a, length (filter d LV)) /\
      ok (with_facts s a tys) G' Q' F' /\ bounded (with_facts s a tys) /\
      rel (with_facts s a tys) G' Q' F' (map (fun x => if d x then with_type t x else x) LV)
        (fun q => map (fun x => if d x then with_type t x else x) (SF q))
        (fun n => map (fun x => if d x then with_type t x else x) (FF n)).
  Proof.
    intros K R B P ET ND HT Et Hd.
    assert (NoDup (map fst G)) as NG by apply (ok_arena _ _ _ _ K).
    assert (forall e, In e L <-> In e G /\ p e = true) as HL.
    { intros e. rewrite (Permutation_in' eq_refl P). apply filter_In. }
    destruct (retype_ids_ok c ti L (facts s) G) as (a & E & HA).
    { apply K. } { intros e He. now apply HL. }
    { eapply perm_fst_nodup; [exact P|]. now apply nodup_fst_filter. }
    assert (forall e, In e G -> in_ids (map fst L) e = p e) as HI.
    { intros e He. apply eq_iff_eq_true. unfold in_ids. rewrite existsb_exists. split.
      - intros (i & Hi & Ei). apply Nat.eqb_eq in Ei. apply in_map_iff in Hi. destruct Hi as [[j y] [E1 H]].
        cbn in E1. subst j. destruct e as [i' z]. cbn in Ei. subst i'. apply HL in H. destruct H as [H1 H2].
        now rewrite (nodup_same G i z y NG He H1).
      - intros Hp. exists (fst e). split; [|apply Nat.eqb_refl]. apply in_map. now apply HL. }
    set (u := fun x => if d (ex s x) then set_type ti x else x).
    assert (map (chg c ti (map fst L)) G = map (on u) G) as EG.
    { apply map_ext_in. intros e He. unfold chg, on, u. rewrite (HI e He), (Hd e He).
      destruct (d (ex s (snd e))); auto. now destruct e. }
    rewrite EG in HA.
    exists a, (map (on u) G), (fun k => map (on u) (Q k)), (fun n => map (on u) (F n)).
    split.
    { rewrite E. do 2 f_equal. eapply bucket_count; [exact P|apply (rel_live _ _ _ _ _ _ _ R)|exact Hd]. }
    split; [|split].
    - apply (mapped_ok s G Q F u a tys mt); auto.
      + intros x. unfold u. destruct (d (ex s x)); cbn [set_type ssub srange sprov]; auto.
      + intros e He. unfold u. destruct (d (ex s (snd e))); cbn [set_type sty].
        * apply nth_error_Some. congruence.
        * rewrite ET, app_length. destruct (ok_valid _ _ _ _ K e He) as [_ V]. lia.
    - split; [apply B|exact HT].
    - apply mapped_rel; auto. intros e He. unfold u. destruct (d (ex s (snd e))) eqn:Ed.
      + now apply (set_type_ex s mt).
      + unfold ex. cbn [with_facts subjects ruby_types]. rewrite ET.
        rewrite <- (app_nil_r (subjects s)) at 1. apply ex_app. now apply (ok_valid _ _ _ _ K).
  Qed.

  (** Interning a type changes nothing else. *)
  Lemma grow_types s G Q F LV SF FF tys mt : ok s G Q F -> rel s G Q F LV SF FF -> bounded s ->
    tys = ruby_types s ++ mt -> NoDup tys -> (forall y, In y tys -> In y TT) ->
    ok (with_facts s (facts s) tys) G Q F /\ rel (with_facts s (facts s) tys) G Q F LV SF FF /\
    bounded (with_facts s (facts s) tys).
  Proof.
    intros K [R1 R2 R3] B ET ND HT.
    assert (forall e, In e G -> ex (with_facts s (facts s) tys) (snd e) = ex s (snd e)) as EX.
    { intros e He. unfold ex. cbn [with_facts subjects ruby_types]. rewrite ET.
      rewrite <- (app_nil_r (subjects s)) at 1. apply ex_app. now apply (ok_valid _ _ _ _ K). }
    assert (forall l : list entry, (forall e, In e l -> In e G) ->
      map (ex (with_facts s (facts s) tys)) (map snd l) = map (ex s) (map snd l)) as EM.
    { intros l HL. rewrite !map_map. apply map_ext_in. auto. }
    split; [|split].
    - constructor; cbn [with_facts facts subjects ruby_types by_subject by_file ordered]; auto; try apply K.
      intros e He. destruct (ok_valid _ _ _ _ K e He) as [V1 V2]. split; auto. rewrite ET, app_length. lia.
    - constructor.
      + now rewrite EM.
      + intros q Hq. rewrite R2 by auto. cbn [with_facts subjects]. destruct (index_of _ _ _) as [k|]; auto.
        symmetry. apply EM. intros e He. apply (in_Q _ _ _ _ _ _ K) in He. tauto.
      + intros n. rewrite R3. symmetry. apply EM. intros e He. apply (in_F _ _ _ _ _ _ K) in He. tauto.
    - split; [apply B|exact HT].
  Qed.

  Lemma rel_same s G Q F LV SF FF (f : fact -> fact) : rel s G Q F LV SF FF ->
    ok s G Q F -> (forall e, In e G -> f (ex s (snd e)) = ex s (snd e)) ->
    rel s G Q F (map f LV) (fun q => map f (SF q)) (fun n => map f (FF n)).
  Proof.
    intros [R1 R2 R3] K H.
    assert (forall l : list entry, (forall e, In e l -> In e G) ->
      map f (map (ex s) (map snd l)) = map (ex s) (map snd l)) as EM.
    { intros l HL. rewrite !map_map. apply map_ext_in. auto. }
    constructor.
    - rewrite <- R1. symmetry. now apply EM.
    - intros q Hq. rewrite R2 by auto. destruct (index_of _ _ _) as [k|]; auto.
      apply EM. intros e He. apply (in_Q _ _ _ _ _ _ K) in He. tauto.
    - intros n. rewrite R3. apply EM. intros e He. apply (in_F _ _ _ _ _ _ K) in He. tauto.
  Qed.

  Lemma none_count (s : store) (G : list entry) LV (d : fact -> bool) : map (ex s) (map snd G) = LV ->
    (forall e, In e G -> d (ex s (snd e)) = false) -> length (filter d LV) = 0.
  Proof.
    intros <- H. rewrite filter_nil; auto. intros x Hx. rewrite map_map in Hx. apply in_map_iff in Hx.
    destruct Hx as (e & <- & He). auto.
  Qed.

  Definition target_hit (q : subject) (r : text_range) (x : fact) : bool :=
    negb (is_expression q) && about q x && same_range (range x) r.
  Definition local_hit (name : nat) (r : text_range) (x : fact) : bool :=
    is_local name (subj x) && same_range (range x) r.
  Definition return_hit (n m : nat) (x : fact) : bool :=
    about (MethodReturn m) x && in_file n x && same_prov (prov x) Inferred.

  (** A missing bucket is an empty one. *)
  Lemma missing (m : list (nat * list nat)) (Q : nat -> list entry) k : (forall k, getd Nat.eqb m k = map fst (Q k)) ->
    match get Nat.eqb m k with Some ids => ids = map fst (Q k) | None => Q k = [] end.
  Proof.
    intros H. specialize (H k). unfold getd in H. destruct (get Nat.eqb m k); auto.
    symmetry in H. now apply map_eq_nil in H.
  Qed.

  (** The facts of one subject that satisfy [c]: the shape shared by update_equation_target and each
      round of update_inferred_method_return_types_in_file. *)
  Lemma subject_update_ok s G Q F LV SF FF q c t (d : fact -> bool) : ok s G Q F -> rel s G Q F LV SF FF ->
    bounded s -> In t TT ->
    (forall x, d x = negb (is_expression q) && about q x && c x) ->
    (forall (c' : stored -> bool), (forall x, c' x = c (ex s x)) ->
    exists s' G' Q' F',
      match index_of same_subject (subjects s) q with
      | None => Some (s, 0)
      | Some k =>
          match intern_type (ruby_types s) t with
          | None => None
          | Some (ti, tys) =>
              match get Nat.eqb (by_subject s) k with
              | None => Some (with_facts s (facts s) tys, 0)
              | Some ids =>
                  match retype_ids c' ti (facts s) ids with
                  | None => None
                  | Some (a, c) => Some (with_facts s a tys, c)
                  end
              end
          end
      end = Some (s', length (filter d LV)) /\
      ok s' G' Q' F' /\ bounded s' /\ subjects s' = subjects s /\
      rel s' G' Q' F' (map (fun x => if d x then with_type t x else x) LV)
        (fun q => map (fun x => if d x then with_type t x else x) (SF q))
        (fun n => map (fun x => if d x then with_type t x else x) (FF n))).
  Proof.
    intros K R B HT Hd c' Hc.
    destruct (index_of same_subject (subjects s) q) as [k|] eqn:E.
    - assert (named q) as Nq.
      { apply (ok_named _ _ _ _ K). apply (index_of_some _ same_subject_eq) in E. now apply nth_error_In in E. }
      assert (forall e, In e G -> has_sub k e && c' (snd e) = d (ex s (snd e))) as HD.
      { intros e He. rewrite Hd, Hc, Nq. cbn [negb andb]. f_equal.
        apply has_sub_about; auto; try apply K; auto. }
      destruct (intern_type_ok s t (ok_types _ _ _ _ K) B HT) as (ti & tys & -> & T1 & (mt & T2) & T3 & T4).
      pose proof (missing _ _ k (ok_subject _ _ _ _ K)) as M.
      destruct (get Nat.eqb (by_subject s) k) as [ids|].
      + subst ids.
        destruct (update_ok s G Q F LV SF FF (Q k) (has_sub k) c' t ti tys mt d K R B)
          as (a & G' & Q' & F' & -> & K' & B' & R'); auto; try apply K.
        eexists _, G', Q', F'. split; [reflexivity|]. repeat (split; auto).
      + destruct (grow_types s G Q F LV SF FF tys mt K R B T2 T1 T3) as (K' & R' & B').
        assert (forall e, In e G -> d (ex s (snd e)) = false) as ND.
        { intros e He. rewrite <- HD by auto. destruct (has_sub k e) eqn:Eh; auto. exfalso.
          assert (In e (Q k)) as Hk.
          { apply (Permutation_in _ (Permutation_sym (ok_subject_perm _ _ _ _ K k))). now apply filter_In. }
          rewrite M in Hk. easy. }
        rewrite (none_count s G LV d (rel_live _ _ _ _ _ _ _ R) ND).
        eexists _, G, Q, F. split; [reflexivity|]. split; [exact K'|]. split; [exact B'|]. split; [reflexivity|].
        apply rel_same; auto. intros e He.
        assert (ex (with_facts s (facts s) tys) (snd e) = ex s (snd e)) as ->.
        { unfold ex. cbn [with_facts subjects ruby_types]. rewrite T2.
          rewrite <- (app_nil_r (subjects s)) at 1. apply ex_app. now apply (ok_valid _ _ _ _ K). }
        now rewrite ND.
    - assert (forall e, In e G -> d (ex s (snd e)) = false) as ND.
      { intros e He. rewrite Hd. destruct (is_expression q) eqn:Ee; auto.
        rewrite (not_about s q e); auto. now apply (ok_valid _ _ _ _ K). }
      rewrite (none_count s G LV d (rel_live _ _ _ _ _ _ _ R) ND).
      eexists s, G, Q, F. split; [reflexivity|]. split; [exact K|]. split; [exact B|]. split; [reflexivity|].
      apply rel_same; auto. intros e He. now rewrite ND.
  Qed.

  Lemma target_ok s G Q F LV SF FF q r t : ok s G Q F -> rel s G Q F LV SF FF -> bounded s -> In t TT ->
    exists s' G' Q' F', update_target s q r t = Some (s', length (filter (target_hit q r) LV)) /\
      ok s' G' Q' F' /\ bounded s' /\
      rel s' G' Q' F' (after LV (UpdateTarget q r t)) (fun q' => subject_after q' (SF q') (UpdateTarget q r t))
        (fun n => file_after n (FF n) (UpdateTarget q r t)).
  Proof.
    intros K R B HT.
    destruct (subject_update_ok s G Q F LV SF FF q (fun x => same_range (range x) r) t (target_hit q r) K R B HT)
      with (c' := fun x => same_range (srange x) r) as (s' & G' & Q' & F' & E & K' & B' & _ & R'); auto.
    exists s', G', Q', F'. split; [exact E|]. auto.
  Qed.

  Lemma local_ok s G Q F LV SF FF name r t : ok s G Q F -> rel s G Q F LV SF FF -> bounded s -> In t TT ->
    exists s' G' Q' F', update_local s name r t = Some (s', length (filter (local_hit name r) LV)) /\
      ok s' G' Q' F' /\ bounded s' /\
      rel s' G' Q' F' (after LV (UpdateLocal name r t)) (fun q' => subject_after q' (SF q') (UpdateLocal name r t))
        (fun n => file_after n (FF n) (UpdateLocal name r t)).
  Proof.
    intros K R B HT. unfold update_local.
    destruct (intern_type_ok s t (ok_types _ _ _ _ K) B HT) as (ti & tys & -> & T1 & (mt & T2) & T3 & T4).
    pose proof (missing _ _ (file_id r) (ok_file _ _ _ _ K)) as M.
    set (c := fun x => _ && _).
    assert (forall e, In e G -> of_file (file_id r) e && c (snd e) = local_hit name r (ex s (snd e))) as HD.
    { intros e He. unfold local_hit, c, of_file. destruct (ok_valid _ _ _ _ K e He) as [V _].
      change (range (ex s (snd e))) with (srange (snd e)).
      destruct (same_range (srange (snd e)) r) eqn:Er; [|now rewrite !andb_false_r].
      apply same_range_eq in Er. unfold file_of. rewrite Er, Nat.eqb_refl, andb_true_r. cbn [andb].
      unfold ex, ex_in. cbn [subj]. destruct (ssub (snd e)) as [k|]; auto.
      rewrite (nth_error_nth' _ (Expression (srange (snd e))) V). reflexivity. }
    destruct (get Nat.eqb (by_file s) (file_id r)) as [ids|].
    - subst ids.
      destruct (update_ok s G Q F LV SF FF (F (file_id r)) (of_file (file_id r)) c t ti tys mt (local_hit name r) K R B)
        as (a & G' & Q' & F' & -> & K' & B' & R'); auto; try apply K.
      eexists _, G', Q', F'. split; [reflexivity|]. auto.
    - destruct (grow_types s G Q F LV SF FF tys mt K R B T2 T1 T3) as (K' & R' & B').
      assert (forall e, In e G -> local_hit name r (ex s (snd e)) = false) as ND.
      { intros e He. rewrite <- HD by auto. destruct (of_file (file_id r) e) eqn:Eh; auto. exfalso.
        assert (In e (F (file_id r))) as Hk.
        { apply (Permutation_in _ (Permutation_sym (ok_file_perm _ _ _ _ K (file_id r)))). now apply filter_In. }
        rewrite M in Hk. easy. }
      rewrite (none_count s G LV _ (rel_live _ _ _ _ _ _ _ R) ND).
      eexists _, G, Q, F. split; [reflexivity|]. split; [exact K'|]. split; [exact B'|].
      apply (rel_same _ _ _ _ _ _ _ (updated (UpdateLocal name r t)) R' K'). intros e He.
      assert (ex (with_facts s (facts s) tys) (snd e) = ex s (snd e)) as ->.
      { unfold ex. cbn [with_facts subjects ruby_types]. rewrite T2.
        rewrite <- (app_nil_r (subjects s)) at 1. apply ex_app. now apply (ok_valid _ _ _ _ K). }
      specialize (ND e He). unfold local_hit in ND. cbn [updated]. now rewrite ND.
  Qed.

  Definition returns_count (n : nat) (us : list (nat * nat)) (l : list fact) : nat :=
    list_sum (map (fun u => length (filter (return_hit n (fst u)) l)) us).

  Lemma hit_same_type n m m' t x : return_hit n m (if return_hit n m' x then with_type t x else x) = return_hit n m x.
  Proof. destruct (return_hit n m' x); reflexivity. Qed.

  Lemma hits_map n m m' t l :
    length (filter (return_hit n m) (map (fun x => if return_hit n m' x then with_type t x else x) l)) =
    length (filter (return_hit n m) l).
  Proof.
    induction l as [|x l IH]; auto. cbn [map filter]. rewrite hit_same_type.
    destruct (return_hit n m x); cbn [length]; now rewrite IH.
  Qed.

  Lemma returns_ok n us : forall s G Q F LV SF FF, ok s G Q F -> rel s G Q F LV SF FF -> bounded s ->
    (forall u, In u us -> In (snd u) TT) ->
    exists s' G' Q' F', update_returns s n us = Some (s', returns_count n us LV) /\
      ok s' G' Q' F' /\ bounded s' /\
      rel s' G' Q' F' (map (new_return n us) LV) (fun q' => map (new_return n us) (SF q'))
        (fun m => map (new_return n us) (FF m)).
  Proof.
    induction us as [|[m t] us IH]; intros s G Q F LV SF FF K R B HT.
    - exists s, G, Q, F. split; [reflexivity|]. split; [exact K|]. split; [exact B|].
      apply rel_same; auto.
    - destruct (subject_update_ok s G Q F LV SF FF (MethodReturn m)
                  (fun x => in_file n x && same_prov (prov x) Inferred) t (return_hit n m) K R B)
        with (c' := fun x => (file_id (srange x) =? n) && same_prov (sprov x) Inferred)
        as (s1 & G1 & Q1 & F1 & E & K1 & B1 & ES & R1); auto.
      { apply (HT (m, t)). now left. }
      { intros x. unfold return_hit. cbn [is_expression negb andb]. now rewrite andb_assoc. }
      destruct (IH s1 G1 Q1 F1 _ _ _ K1 R1 B1) as (s' & G' & Q' & F' & E' & K' & B' & R').
      { intros u Hu. apply HT. now right. }
      exists s', G', Q', F'. split; [|split; [exact K'|split; [exact B'|]]].
      + assert (returns_count n us (map (fun x => if return_hit n m x then with_type t x else x) LV) = returns_count n us LV) as EC.
        { unfold returns_count. f_equal. apply map_ext. intros u. apply hits_map. }
        rewrite EC in E'. cbn [update_returns]. unfold returns_count in *. cbn [map fst list_sum fold_right].
        destruct (index_of same_subject (subjects s) (MethodReturn m)) as [k|].
        * destruct (intern_type (ruby_types s) t) as [[ti tys]|]; [|discriminate].
          destruct (get Nat.eqb (by_subject s) k) as [ids|].
          -- destruct (retype_ids _ ti (facts s) ids) as [[a c]|]; [|discriminate].
             assert (with_facts s a tys = s1 /\ c = length (filter (return_hit n m) LV)) as [<- ->]
               by (split; congruence).
             rewrite E'. reflexivity.
          -- assert (with_facts s (facts s) tys = s1 /\ 0 = length (filter (return_hit n m) LV)) as [<- <-]
               by (split; congruence).
             rewrite E'. reflexivity.
        * assert (s = s1 /\ 0 = length (filter (return_hit n m) LV)) as [<- <-] by (split; congruence).
          rewrite E'. reflexivity.
      + destruct R' as [R1' R2' R3']. constructor.
        * rewrite R1', map_map. reflexivity.
        * intros q Hq. rewrite <- R2' by auto. now rewrite map_map.
        * intros k. rewrite <- R3'. now rewrite map_map.
  Qed.
End Bounded.

(** ** Histories *)

Lemma rel_ext s G Q F LV SF FF LV' SF' FF' : rel s G Q F LV SF FF -> LV = LV' ->
  (forall q, SF q = SF' q) -> (forall n, FF n = FF' n) -> rel s G Q F LV' SF' FF'.
Proof.
  intros [R1 R2 R3] E1 E2 E3. constructor.
  - congruence.
  - intros q Hq. rewrite <- E2. auto.
  - intros n. rewrite <- E3. auto.
Qed.

Section Run.
  Variable SS : list subject.
  Variable TT : list nat.
  Hypothesis few_subjects : forall l, NoDup l -> (forall q, In q l -> named q /\ In q SS) ->
    (N.of_nat (length l) <= 2147483648)%N.
  Hypothesis few_types : forall l, NoDup l -> (forall t, In t l -> In t TT) ->
    (N.of_nat (length l) <= 4294967296)%N.

  Definition known (o : op) : Prop :=
    (forall x, In x (seen_facts o) -> In (subj x) SS) /\ (forall t, In t (seen_types o) -> In t TT).

  Lemma step_ok s G Q F LV SF FF o : ok s G Q F -> rel s G Q F LV SF FF -> bounded SS TT s ->
    proper o -> known o -> (N.of_nat (length (after LV o)) <= 4294967296)%N ->
    exists s' G' Q' F', step s o = Some s' /\ ok s' G' Q' F' /\ bounded SS TT s' /\
      rel s' G' Q' F' (after LV o) (fun q => subject_after q (SF q) o) (fun n => file_after n (FF n) o).
  Proof.
    intros K R B HP [KS KT] HB. destruct o as [x|n|n xs|n us|q r t|name r t]; cbn [step].
    - apply (add_ok SS TT few_subjects few_types s G Q F LV SF FF x K R B).
      + apply KS. now left.
      + apply KT. now left.
      + exact HP.
      + cbn [after] in HB. rewrite app_length, <- (rel_live _ _ _ _ _ _ _ R), !map_length in HB. cbn [length] in HB. unfold entry in *. lia.
    - destruct (remove_ok s G Q F n K) as (K' & ES & ET & _).
      eexists _, _, _, _. split; [reflexivity|]. split; [exact K'|]. split.
      + unfold bounded. rewrite ES, ET. exact B.
      + exact (remove_rel s G Q F LV SF FF n K R).
    - apply (replace_ok SS TT few_subjects few_types s G Q F LV SF FF n xs K R B); auto.
      intros x Hx. destruct (HP x Hx) as [P1 P2]. split; auto. split; auto. split; [now apply KS|].
      apply KT. cbn [seen_types]. now apply in_map.
    - destruct (returns_ok SS TT few_types n us s G Q F LV SF FF K R B) as (s' & G' & Q' & F' & E & K' & B' & R').
      + intros u Hu. apply KT. cbn [seen_types]. now apply in_map.
      + exists s', G', Q', F'. rewrite E. auto.
    - destruct (target_ok SS TT few_types s G Q F LV SF FF q r t K R B) as (s' & G' & Q' & F' & E & K' & B' & R').
      + apply KT. now left.
      + exists s', G', Q', F'. rewrite E. auto.
    - destruct (local_ok SS TT few_types s G Q F LV SF FF name r t K R B) as (s' & G' & Q' & F' & E & K' & B' & R').
      + apply KT. now left.
      + exists s', G', Q', F'. rewrite E. auto.
  Qed.

  Lemma run_from_ok h : forall s G Q F LV SF FF, ok s G Q F -> rel s G Q F LV SF FF -> bounded SS TT s ->
    (forall o, In o h -> proper o /\ known o) ->
    (forall h1 h2, h = h1 ++ h2 -> (N.of_nat (length (fold_left after h1 LV)) <= 4294967296)%N) ->
    exists s' G' Q' F', run_from s h = Some s' /\ ok s' G' Q' F' /\ bounded SS TT s' /\
      rel s' G' Q' F' (fold_left after h LV) (fun q => fold_left (subject_after q) h (SF q))
        (fun n => fold_left (file_after n) h (FF n)).
  Proof.
    induction h as [|o h IH]; intros s G Q F LV SF FF K R B HP HB.
    - exists s, G, Q, F. auto.
    - destruct (HP o (or_introl eq_refl)) as [P1 P2].
      destruct (step_ok s G Q F LV SF FF o K R B P1 P2) as (s1 & G1 & Q1 & F1 & E & K1 & B1 & R1).
      { apply (HB [o] h). reflexivity. }
      cbn [run_from]. rewrite E.
      destruct (IH s1 G1 Q1 F1 _ _ _ K1 R1 B1) as (s' & G' & Q' & F' & R').
      + intros o' Ho. apply HP. now right.
      + intros h1 h2 ->. apply (HB (o :: h1) h2). reflexivity.
      + exists s', G', Q', F'. exact R'.
  Qed.
End Run.

Lemma run_ok h : well_formed h -> fits h ->
  exists s G Q F, run h = Some s /\ ok s G Q F /\
    rel s G Q F (live h) (fun q => subject_facts q h) (fun n => file_facts n h).
Proof.
  intros W (F1 & F2 & F3).
  destruct (run_from_ok (map subj (flat_map seen_facts h)) (flat_map seen_types h) F2 F3 h
              new [] (fun _ => []) (fun _ => []) [] (fun _ => []) (fun _ => []) ok_new rel_new)
    as (s & G & Q & F & E & K & _ & R).
  - split; easy.
  - intros o Ho. split; [now apply W|]. split.
    + intros x Hx. apply in_map. apply in_flat_map. eauto.
    + intros t Ht. apply in_flat_map. eauto.
  - exact F1.
  - exists s, G, Q, F. auto.
Qed.

(** What an update reports. *)
Lemma update_count h o s : well_formed (h ++ [o]) -> fits (h ++ [o]) -> run h = Some s ->
  match o with
  | UpdateReturns n us => exists s', update_returns s n us = Some (s', concerned o (live h))
  | UpdateTarget q r t => exists s', update_target s q r t = Some (s', concerned o (live h))
  | UpdateLocal name r t => exists s', update_local s name r t = Some (s', concerned o (live h))
  | _ => True
  end.
Proof.
  intros W (F1 & F2 & F3) E.
  destruct (run_from_ok (map subj (flat_map seen_facts (h ++ [o]))) (flat_map seen_types (h ++ [o])) F2 F3 h
              new [] (fun _ => []) (fun _ => []) [] (fun _ => []) (fun _ => []) ok_new rel_new)
    as (s' & G & Q & F & E' & K & B & R).
  - split; easy.
  - intros o' Ho. split; [apply W; apply in_or_app; now left|].
    assert (In o' (h ++ [o])) by (apply in_or_app; now left). split.
    + intros x Hx. apply in_map. apply in_flat_map. eauto.
    + intros t Ht. apply in_flat_map. eauto.
  - intros h1 h2 ->. apply (F1 h1 (h2 ++ [o])). now rewrite app_assoc.
  - assert (s' = s) as -> by (unfold run in E; congruence).
    assert (forall t, In t (seen_types o) -> In t (flat_map seen_types (h ++ [o]))) as HT.
    { intros t Ht. apply in_flat_map. exists o. split; auto. apply in_or_app. right. now left. }
    destruct o as [x|n|n xs|n us|q r t|name r t]; auto.
    + destruct (returns_ok _ _ F3 n us s G Q F _ _ _ K R B) as (s' & G' & Q' & F' & EE & _).
      * intros u Hu. apply HT. cbn [seen_types]. now apply in_map.
      * exists s'. exact EE.
    + destruct (target_ok _ _ F3 s G Q F _ _ _ q r t K R B) as (s' & G' & Q' & F' & EE & _).
      * apply HT. now left.
      * exists s'. exact EE.
    + destruct (local_ok _ _ F3 s G Q F _ _ _ name r t K R B) as (s' & G' & Q' & F' & EE & _).
      * apply HT. now left.
      * exists s'. exact EE.
Qed.

(** ** Queries *)

Lemma expand_ok s x : valid_in (subjects s) (ruby_types s) x -> expand s x = Some (ex s x).
Proof.
  intros [V1 V2]. unfold expand, ex, ex_in. rewrite (nth_error_nth' _ 0 V2).
  destruct (ssub x) as [k|]; auto. now rewrite (nth_error_nth' _ (Expression (srange x)) V1).
Qed.

Lemma expand_all_ok s l : (forall x, In x l -> valid_in (subjects s) (ruby_types s) x) ->
  expand_all s l = Some (map (ex s) l).
Proof.
  induction l as [|x l IH]; intros H; auto. cbn [expand_all map].
  rewrite expand_ok by (apply H; now left). rewrite IH by (intros; apply H; now right). auto.
Qed.

Lemma filter_opt_ok {A} (p : A -> option bool) (p' : A -> bool) l : (forall x, In x l -> p x = Some (p' x)) ->
  filter_opt p l = Some (filter p' l).
Proof.
  induction l as [|x l IH]; intros H; auto. cbn [filter_opt filter].
  rewrite (H x) by now left. rewrite IH by (intros; apply H; now right). now destruct (p' x).
Qed.

Section Query.
  Variables (s : store) (G : list entry) (Q F : nat -> list entry).
  Variables (LV : list fact) (SF : subject -> list fact) (FF : nat -> list fact).
  Hypothesis K : ok s G Q F.
  Hypothesis R : rel s G Q F LV SF FF.

  Lemma V e : In e G -> valid_in (subjects s) (ruby_types s) (snd e).
  Proof. apply (ok_valid _ _ _ _ K). Qed.

  Lemma in_live x : In x LV <-> exists e, In e G /\ ex s (snd e) = x.
  Proof.
    rewrite <- (rel_live _ _ _ _ _ _ _ R), map_map, in_map_iff. split; intros (e & H1 & H2); exists e; auto.
  Qed.

  Lemma clone_ok L : (forall e, In e L -> In e G) -> clone_facts (facts s) (map fst L) = map snd L.
  Proof. intros H. apply (holds_clone _ G); auto. apply K. Qed.

  Lemma expand_bucket L : (forall e, In e L -> In e G) -> expand_all s (map snd L) = Some (map (ex s) (map snd L)).
  Proof.
    intros H. apply expand_all_ok. intros x Hx. apply in_map_iff in Hx. destruct Hx as (e & <- & He).
    apply V. auto.
  Qed.

  Lemma F_in n e : In e (F n) -> In e G.
  Proof. intros H. apply (in_F _ _ _ _ _ _ K) in H. tauto. Qed.
  Lemma Q_in n e : In e (Q n) -> In e G.
  Proof. intros H. apply (in_Q _ _ _ _ _ _ K) in H. tauto. Qed.

  Lemma facts_in_file_ok n : facts_in_file s n = Some (FF n).
  Proof.
    unfold facts_in_file. rewrite (ok_file _ _ _ _ K), clone_ok by apply F_in.
    rewrite expand_bucket by apply F_in. now rewrite (rel_file _ _ _ _ _ _ _ R).
  Qed.

  Lemma subj_expression e r : In e G -> (subj (ex s (snd e)) = Expression r <-> ssub (snd e) = None /\ srange (snd e) = r).
  Proof.
    intros He. destruct (V e He) as [V1 _]. unfold ex, ex_in. cbn [subj]. destruct (ssub (snd e)) as [k|].
    - split; [|intros []; discriminate]. intros E.
      assert (named (Expression r)); [|discriminate]. apply (ok_named _ _ _ _ K). rewrite <- E. now apply nth_In.
    - split; [intros E; injection E; auto|intros [_ ->]; auto].
  Qed.

  Lemma expr_hit e r : In e G -> is_none (ssub (snd e)) && same_range (srange (snd e)) r =
    about (Expression r) (ex s (snd e)).
  Proof.
    intros He. apply eq_iff_eq_true. rewrite andb_true_iff, same_range_eq. unfold about.
    rewrite same_subject_eq, subj_expression by auto. destruct (ssub (snd e)); cbn [is_none]; split; intros []; auto; discriminate.
  Qed.

  Lemma filter_map_ex (p : stored -> bool) (d : fact -> bool) (l : list entry) : (forall e, In e l -> p (snd e) = d (ex s (snd e))) ->
    map (ex s) (filter p (map snd l)) = filter d (map (ex s) (map snd l)).
  Proof.
    induction l as [|e l IH]; intros H; auto. cbn [map filter]. rewrite (H e) by now left.
    destruct (d (ex s (snd e))); cbn [map]; rewrite IH; auto; intros; apply H; now right.
  Qed.

  Definition report (q : subject) : list fact :=
    match q with Expression r => filter (about q) (FF (file_id r)) | _ => SF q end.

  Lemma facts_for_named q : named q ->
    match index_of same_subject (subjects s) q with
    | None => Some []
    | Some k => expand_all s (clone_facts (facts s) (getd Nat.eqb (by_subject s) k))
    end = Some (SF q).
  Proof.
    intros Nq. rewrite (rel_subject _ _ _ _ _ _ _ R) by auto. destruct (index_of _ _ _) as [k|]; auto.
    rewrite (ok_subject _ _ _ _ K), clone_ok by apply Q_in. apply expand_bucket, Q_in.
  Qed.

  Lemma facts_for_ok q : facts_for s q = Some (report q).
  Proof.
    destruct q as [| | | | | | |r]; try (apply facts_for_named; reflexivity).
    cbn [facts_for report]. rewrite (ok_file _ _ _ _ K), clone_ok by apply F_in.
    rewrite expand_all_ok.
    - f_equal. rewrite (rel_file _ _ _ _ _ _ _ R). apply filter_map_ex. intros e He.
      apply expr_hit. now apply F_in in He.
    - intros x Hx. apply filter_In in Hx. destruct Hx as [Hx _]. apply in_map_iff in Hx.
      destruct Hx as (e & <- & He). apply V. now apply F_in in He.
  Qed.

  Lemma all_facts_ok : exists l, all_facts s = Some l /\ Permutation l LV.
  Proof.
    pose proof (holds_occupied _ G (ok_arena _ _ _ _ K)) as P. unfold all_facts. rewrite expand_all_ok.
    - eexists. split; [reflexivity|]. rewrite <- (rel_live _ _ _ _ _ _ _ R). now apply Permutation_map.
    - intros x Hx. apply (Permutation_in _ P) in Hx. apply in_map_iff in Hx. destruct Hx as (e & <- & He). now apply V.
  Qed.

  Lemma fact_count_ok : fact_count s = length LV.
  Proof.
    unfold fact_count. rewrite (Permutation_length (holds_occupied _ G (ok_arena _ _ _ _ K))).
    now rewrite <- (rel_live _ _ _ _ _ _ _ R), !map_length.
  Qed.

  Lemma method_returns_list l : (forall x, In x l -> exists e, In e G /\ snd e = x) ->
    method_returns s l = Some (flat_map returned (map (ex s) l)).
  Proof.
    induction l as [|x l IH]; intros H; auto. cbn [method_returns map flat_map].
    destruct (H x (or_introl eq_refl)) as (e & He & <-). destruct (V e He) as [V1 V2].
    rewrite (nth_error_nth' _ 0 V2), IH by (intros; apply H; now right).
    set (m := flat_map returned (map (ex s) l)). unfold returned, ex, ex_in. cbn [subj ty]. destruct (ssub (snd e)) as [k|]; auto.
    rewrite (nth_error_nth' _ (Expression (srange (snd e))) V1).
    assert (named (nth k (subjects s) (Expression (srange (snd e))))) as Nk.
    { apply (ok_named _ _ _ _ K). now apply nth_In. }
    destruct (nth k _ _); auto. discriminate Nk.
  Qed.

  Lemma perm_flat_map {A B} (f : A -> list B) l m : Permutation l m -> Permutation (flat_map f l) (flat_map f m).
  Proof.
    induction 1; cbn; auto.
    - now apply Permutation_app_head.
    - rewrite !app_assoc. apply Permutation_app_tail, Permutation_app_comm.
    - eapply perm_trans; eauto.
  Qed.

  Lemma method_return_types_ok : exists l, method_return_types s = Some l /\ Permutation l (flat_map returned LV).
  Proof.
    pose proof (holds_occupied _ G (ok_arena _ _ _ _ K)) as P. unfold method_return_types.
    rewrite method_returns_list.
    - eexists. split; [reflexivity|]. apply perm_flat_map. rewrite <- (rel_live _ _ _ _ _ _ _ R). now apply Permutation_map.
    - intros x Hx. apply (Permutation_in _ P) in Hx. apply in_map_iff in Hx. destruct Hx as (e & <- & He). eauto.
  Qed.

  (** The bucket of a subject, whichever index it comes from. *)
  Lemma ids_for_ok q :
    match ids_for s q with
    | None => report q = []
    | Some ids => exists L, ids = map fst L /\ (forall e, In e L -> In e G) /\
        report q = filter (about q) (map (ex s) (map snd L))
    end.
  Proof.
    assert (named q -> match (match index_of same_subject (subjects s) q with
                              | None => None | Some k => get Nat.eqb (by_subject s) k end) with
                       | None => SF q = []
                       | Some ids => exists L, ids = map fst L /\ (forall e, In e L -> In e G) /\
                           SF q = filter (about q) (map (ex s) (map snd L)) end) as M.
    { intros Nq. rewrite (rel_subject _ _ _ _ _ _ _ R) by auto.
      destruct (index_of same_subject (subjects s) q) as [k|] eqn:E; auto.
      pose proof (missing _ _ k (ok_subject _ _ _ _ K)) as M.
      destruct (get Nat.eqb (by_subject s) k) as [ids|].
      - exists (Q k). split; auto. split; [apply Q_in|]. symmetry. apply filter_all. intros x Hx.
        rewrite map_map in Hx. apply in_map_iff in Hx. destruct Hx as (e & <- & He).
        apply (in_Q _ _ _ _ _ _ K) in He. destruct He as [He Es].
        rewrite <- (has_sub_about s k q e) by (auto; try apply K; auto). unfold has_sub. rewrite Es. apply Nat.eqb_refl.
      - now rewrite M. }
    destruct q as [| | | | | | |r]; try (apply M; reflexivity).
    cbn [ids_for report]. rewrite (rel_file _ _ _ _ _ _ _ R).
    pose proof (missing _ _ (file_id r) (ok_file _ _ _ _ K)) as M'.
    destruct (get Nat.eqb (by_file s) (file_id r)) as [ids|].
    - exists (F (file_id r)). split; auto. split; [apply F_in|]. reflexivity.
    - now rewrite M'.
  Qed.

  Lemma matches_ok q e : In e G -> matches s q (snd e) = Some (about q (ex s (snd e))).
  Proof.
    intros He. destruct (V e He) as [V1 _].
    assert (named q -> match ssub (snd e) with None => Some false
              | Some k => match nth_error (subjects s) k with Some q' => Some (same_subject q' q) | None => None end end =
            Some (about q (ex s (snd e)))) as M.
    { intros Nq. unfold about, ex, ex_in. cbn [subj]. destruct (ssub (snd e)) as [k|].
      - now rewrite (nth_error_nth' _ (Expression (srange (snd e))) V1).
      - f_equal. symmetry. apply not_true_is_false. intros H. apply same_subject_eq in H. subst q. discriminate. }
    unfold matches. destruct q as [| | | | | | |r]; try (rewrite <- M by reflexivity; destruct (ssub (snd e)); reflexivity).
    rewrite <- (expr_hit e r He). destruct (ssub (snd e)); reflexivity.
  Qed.

  Lemma reported_in q x : In x (report q) <-> In x LV /\ subj x = q.
  Proof.
    pose proof (in_live x) as IL.
    assert (named q -> (In x (SF q) <-> In x LV /\ subj x = q)) as M.
    { intros Nq. rewrite (rel_subject _ _ _ _ _ _ _ R) by auto. rewrite IL.
      destruct (index_of same_subject (subjects s) q) as [k|] eqn:E.
      - rewrite map_map, in_map_iff. split.
        + intros (e & <- & He). apply (in_Q _ _ _ _ _ _ K) in He. destruct He as [He Es]. split; [eauto|].
          apply same_subject_eq. change (about q (ex s (snd e)) = true).
          rewrite <- (has_sub_about s k q e) by (auto; try apply K; auto). unfold has_sub. rewrite Es. apply Nat.eqb_refl.
        + intros [(e & He & <-) Eq]. exists e. split; auto. apply (in_Q _ _ _ _ _ _ K). split; auto.
          assert (has_sub k e = true) as H.
          { rewrite (has_sub_about s k q e) by (auto; try apply K; auto). unfold about. now apply same_subject_eq. }
          unfold has_sub in H. destruct (ssub (snd e)); [|discriminate]. apply Nat.eqb_eq in H. congruence.
      - split; [easy|]. intros [(e & He & <-) Eq].
        pose proof (not_about s q e Nq (V e He) E) as H. unfold about in H.
        apply same_subject_eq in Eq. congruence. }
    destruct q as [| | | | | | |r]; try (apply M; reflexivity).
    cbn [report]. rewrite filter_In, (rel_file _ _ _ _ _ _ _ R), map_map, in_map_iff. unfold about.
    rewrite same_subject_eq, IL. split.
    - intros [(e & <- & He) Eq]. split; auto. exists e. split; auto. now apply F_in in He.
    - intros [(e & He & <-) Eq]. split; auto. exists e. split; auto. apply (in_F _ _ _ _ _ _ K). split; auto.
      apply subj_expression in Eq; auto. destruct Eq as [_ <-]. reflexivity.
  Qed.

  (** *** latest_non_unknown_type_with_range *)

  Lemma max_by_map {A B} (f : A -> B) (ka : A -> list nat) (kb : B -> list nat) l :
    (forall x, ka x = kb (f x)) -> forall b,
    option_map f (max_by ka b l) = max_by kb (option_map f b) (map f l).
  Proof.
    intros H. induction l as [|x l IH]; intros b; auto. cbn [max_by map]. rewrite IH. f_equal.
    destruct b as [b|]; auto. cbn [option_map]. rewrite !H. destruct (lexb (kb (f b)) (kb (f x))); auto.
  Qed.

  Lemma max_by_some l : forall b l0 l1, (forall y, In y l0 -> lexb (place y) (place b) = true) ->
    (forall y, In y l1 -> lexb (place b) (place y) = false) ->
    exists x, max_by place (Some b) l = Some x /\ last_greatest (l0 ++ b :: l1 ++ l) x.
  Proof.
    induction l as [|c l IH]; intros b l0 l1 H0 H1.
    - exists b. split; auto. rewrite app_nil_r. exists l0, l1. auto.
    - cbn [max_by]. destruct (lexb (place b) (place c)) eqn:E.
      + destruct (IH c (l0 ++ b :: l1) []) as (x & E1 & E2).
        * intros y Hy. apply in_app_or in Hy. destruct Hy as [Hy|[<-|Hy]]; auto.
          -- eapply lexb_trans; [apply H0; auto|exact E].
          -- apply lexb_trans with (place b); auto. destruct (lexb_total (place y) (place b)) as [T|T]; auto.
             rewrite H1 in T; auto. discriminate.
        * easy.
        * exists x. split; auto. cbn [app] in E2. rewrite <- app_assoc in E2. exact E2.
      + destruct (IH b l0 (l1 ++ [c]) H0) as (x & E1 & E2).
        * intros y Hy. apply in_app_or in Hy. destruct Hy as [Hy|[<-|[]]]; auto.
        * exists x. split; auto. rewrite <- app_assoc in E2. exact E2.
  Qed.

  Lemma max_by_spec l : match max_by place None l with None => l = [] | Some x => last_greatest l x end.
  Proof.
    destruct l as [|b l]; [reflexivity|]. cbn [max_by].
    destruct (max_by_some l b [] []) as (x & E & H); try easy. now rewrite E.
  Qed.

  Lemma latest_ok q : exists r, latest_non_unknown s q = Some r /\
    match r with
    | None => filter (fun x => negb (ty x =? unknown)) (report q) = []
    | Some (t, rg) => exists x, last_greatest (filter (fun x => negb (ty x =? unknown)) (report q)) x /\
        ty x = t /\ range x = rg
    end.
  Proof.
    unfold latest_non_unknown. pose proof (ids_for_ok q) as H. destruct (ids_for s q) as [ids|].
    - destruct H as (L & -> & HL & ER). rewrite clone_ok by auto.
      rewrite (filter_opt_ok _ (fun x => about q (ex s x))).
      2:{ intros x Hx. apply in_map_iff in Hx. destruct Hx as (e & <- & He). apply matches_ok. auto. }
      assert (forall x, In x (filter (fun x => about q (ex s x)) (map snd L)) ->
              valid_in (subjects s) (ruby_types s) x) as VL.
      { intros x Hx. apply filter_In in Hx. destruct Hx as [Hx _]. apply in_map_iff in Hx.
        destruct Hx as (e & <- & He). apply V. auto. }
      rewrite (filter_opt_ok _ (fun x => negb (ty (ex s x) =? unknown))).
      2:{ intros x Hx. destruct (VL x Hx) as [_ V2]. rewrite (nth_error_nth' _ 0 V2). reflexivity. }
      set (l := filter (fun x => negb (ty (ex s x) =? unknown)) (filter (fun x => about q (ex s x)) (map snd L))).
      assert (map (ex s) l = filter (fun x => negb (ty x =? unknown)) (report q)) as EL.
      { rewrite ER. unfold l. generalize (map snd L). intros m. induction m as [|x m IH]; auto. cbn [filter map].
        destruct (about q (ex s x)); cbn [filter]; auto.
        destruct (negb (ty (ex s x) =? unknown)); cbn [map]; now rewrite IH. }
      pose proof (max_by_map (ex s) place_key place l (fun _ => eq_refl) None) as MM. rewrite EL in MM.
      pose proof (max_by_spec (filter (fun x => negb (ty x =? unknown)) (report q))) as MS.
      cbn [option_map] in MM. rewrite <- MM in MS.
      destruct (max_by place_key None l) as [x|] eqn:EM; cbn [option_map] in MS.
      + assert (In x l) as Hx.
        { assert (forall m b, max_by place_key b m = Some x -> In x m \/ b = Some x) as H.
          { induction m as [|y m IH]; intros b; cbn [max_by]; auto. intros H. apply IH in H. destruct H as [H|H].
            - left. now right.
            - destruct b as [b|]; [destruct (lexb _ _)|]; injection H as <-; auto; left; now left. }
          apply H in EM. destruct EM; [auto|discriminate]. }
        assert (valid_in (subjects s) (ruby_types s) x) as [_ V2] by (apply VL; apply filter_In in Hx; tauto).
        rewrite (nth_error_nth' _ 0 V2). eexists. split; [reflexivity|]. exists (ex s x). auto.
      + eexists. split; [reflexivity|]. exact MS.
    - eexists. split; [reflexivity|]. now rewrite H.
  Qed.

  (** *** type_at *)

  Definition reachesL (q : subject) (n offset : nat) (x : fact) : Prop :=
    In x LV /\ subj x = q /\ file_id (range x) = n /\ start_byte (range x) <= offset.
  Definition latestL (q : subject) (n offset : nat) (x : fact) : Prop :=
    reachesL q n offset x /\
    forall y, reachesL q n offset y -> start_byte (range y) <= start_byte (range x).

  Lemma max_start_spec l : forall b,
    match max_start b l with
    | None => b = None /\ l = []
    | Some m => (b = Some m \/ In m l) /\ (forall y, In y l -> y <= m) /\ (forall c, b = Some c -> c <= m)
    end.
  Proof.
    induction l as [|x l IH]; intros b; cbn [max_start].
    - destruct b as [c|]; auto. split; auto. split; [easy|]. intros c' H. injection H as <-. auto.
    - specialize (IH (Some (match b with None => x | Some c => Nat.max c x end))).
      destruct (max_start _ l) as [m|]; [|destruct IH; discriminate].
      destruct IH as (H1 & H2 & H3). specialize (H3 _ eq_refl). split; [|split].
      + destruct H1 as [H1|H1]; [|right; now right]. injection H1 as <-. destruct b as [c|]; [|right; now left].
        destruct (Nat.max_spec c x) as [[_ ->]|[_ ->]]; [right; now left|now left].
      + intros y [<-|Hy]; auto. destruct b; lia.
      + intros c ->. lia.
  Qed.

  Lemma alike_eq a b : alike a b = true <-> ty a = ty b /\ prov a = prov b.
  Proof. unfold alike. rewrite andb_true_iff, Nat.eqb_eq, same_prov_eq. reflexivity. Qed.

  Lemma dedup_after_in l : forall a x, In x (dedup_after a l) -> In x l.
  Proof.
    induction l as [|y l IH]; intros a x; cbn [dedup_after]; auto.
    destruct (alike y a); intros H; [right; eauto|]. destruct H as [<-|H]; [now left|right; eauto].
  Qed.

  Lemma dedup_after_all l : forall a y, In y l -> alike y a = true \/ exists x, In x (dedup_after a l) /\ alike y x = true.
  Proof.
    induction l as [|z l IH]; intros a y; [easy|]. cbn [dedup_after]. intros [<-|Hy].
    - destruct (alike z a) eqn:E; auto. right. exists z. split; [now left|]. now apply alike_eq.
    - destruct (alike z a) eqn:E; [now apply IH|].
      destruct (IH z y Hy) as [H|(x & H1 & H2)]; right.
      + exists z. split; [now left|exact H].
      + exists x. split; [now right|exact H2].
  Qed.

  Lemma dedup_after_head l : forall a x m, dedup_after a l = x :: m -> alike x a = false.
  Proof.
    induction l as [|z l IH]; intros a x m; cbn [dedup_after]; [discriminate|].
    destruct (alike z a) eqn:E; [apply IH|]. intros H. injection H as <- _. exact E.
  Qed.

  Definition tie_break (show : nat -> list nat) := key_leb (text_key show).
  Definition strictly (show : nat -> list nat) (a b : fact) : Prop := tie_break show b a = false.

  Lemma text_key_eq show a b : (forall t u, show t = show u -> t = u) ->
    text_key show a = text_key show b -> ty a = ty b /\ prov a = prov b.
  Proof.
    intros HS H. unfold text_key in H.
    assert (forall l m p q, map S l ++ [0; p] = map S m ++ [0; q] -> l = m /\ p = q) as M.
    { induction l as [|x l IH]; intros [|y m] p q E; cbn [map app] in E.
      - injection E as ->. auto.
      - exfalso. discriminate.
      - exfalso. discriminate.
      - injection E as E1 E2. apply IH in E2. destruct E2 as [-> ->]. split; congruence. }
    apply M in H. destruct H as [H1 H2]. split; auto.
    destruct (prov a), (prov b); cbn in H2; congruence.
  Qed.

  Lemma dedup_after_strict show l : (forall t u, show t = show u -> t = u) -> forall a,
    StronglySorted (le (tie_break show)) (a :: l) -> StronglySorted (strictly show) (a :: dedup_after a l).
  Proof.
    intros HS. induction l as [|z l IH]; intros a S; cbn [dedup_after]; [repeat constructor|].
    inversion S as [|? ? S1 F1]; subst. destruct (alike z a) eqn:E.
    - apply IH. inversion S1; subst. constructor; auto. now inversion F1.
    - pose proof (IH z S1) as D. constructor; auto.
      assert (strictly show a z) as AZ.
      { unfold strictly. destruct (tie_break show z a) eqn:E2; auto.
        inversion F1; subst. pose proof (lexb_antisym _ _ H1 E2) as EK. apply (text_key_eq show _ _ HS) in EK.
        assert (alike z a = true) by (apply alike_eq; intuition). congruence. }
      constructor; auto. apply Forall_forall. intros y Hy. apply dedup_after_in in Hy.
      unfold strictly in *. destruct (tie_break show y a) eqn:E2; auto.
      inversion S1 as [|? ? _ F2]; subst. rewrite Forall_forall in F2. specialize (F2 y Hy).
      assert (tie_break show z a = true) by (eapply key_trans; eauto). congruence.
  Qed.

  Lemma type_at_ok show q n offset : exists r, type_at show s q n offset = Some r /\
    match r with
    | Unresolved => forall x, ~ reachesL q n offset x
    | Resolved x => latestL q n offset x /\ forall y, latestL q n offset y -> ty y = ty x /\ prov y = prov x
    | Ambiguous l =>
        ((forall x, In x l -> latestL q n offset x) /\
        (forall y, latestL q n offset y -> exists x, In x l /\ ty y = ty x /\ prov y = prov x) /\
        (exists x y, In x l /\ In y l /\ ~ (ty x = ty y /\ prov x = prov y))) /\
        ((forall t u, show t = show u -> t = u) -> StronglySorted (strictly show) l)
    end.
  Proof.
    unfold type_at. pose proof (ids_for_ok q) as H. destruct (ids_for s q) as [ids|].
    2:{ eexists. split; [reflexivity|]. intros x (H1 & H2 & _).
        assert (In x (report q)) as Hx by now apply reported_in. rewrite H in Hx. easy. }
    destruct H as (L & -> & HL & ER). rewrite clone_ok by auto.
    rewrite (filter_opt_ok _ (fun x => about q (ex s x))).
    2:{ intros x Hx. apply in_map_iff in Hx. destruct Hx as (e & <- & He). apply matches_ok. auto. }
    set (l := filter (fun x => about q (ex s x)) (map snd L)).
    assert (forall x, In x l -> valid_in (subjects s) (ruby_types s) x) as VL.
    { intros x Hx. apply filter_In in Hx. destruct Hx as [Hx _]. apply in_map_iff in Hx.
      destruct Hx as (e & <- & He). apply V. auto. }
    assert (map (ex s) l = report q) as EL.
    { rewrite ER. unfold l. generalize (map snd L). intros m. induction m as [|x m IH]; auto. cbn [filter map].
      destruct (about q (ex s x)); cbn [map]; now rewrite IH. }
    assert (forall x, In x (report q) <-> exists y, In y l /\ ex s y = x) as IR.
    { intros x. rewrite <- EL, in_map_iff. split; intros (y & H1 & H2); exists y; auto. }
    set (starts := map _ _).
    assert (forall b, In b starts <-> exists x, reachesL q n offset x /\ start_byte (range x) = b) as HS.
    { intros b. unfold starts. rewrite in_map_iff. split.
      - intros (y & <- & Hy). apply filter_In in Hy. destruct Hy as [Hy Hp].
        apply andb_true_iff in Hp. destruct Hp as [P1 P2]. apply Nat.eqb_eq in P1. apply Nat.leb_le in P2.
        exists (ex s y). split; [|reflexivity].
        assert (In (ex s y) (report q)) as Hr by (apply IR; eauto).
        apply reported_in in Hr. destruct Hr. repeat split; auto.
      - intros (x & (H1 & H2 & H3 & H4) & <-).
        assert (In x (report q)) as Hr by now apply reported_in.
        apply IR in Hr. destruct Hr as (y & Hy & <-). exists y. split; [reflexivity|]. apply filter_In. split; auto.
        apply andb_true_iff. split; [now apply Nat.eqb_eq|now apply Nat.leb_le]. }
    pose proof (max_start_spec starts None) as MS. destruct (max_start None starts) as [m|].
    2:{ eexists. split; [reflexivity|]. destruct MS as [_ MS]. intros x Hx.
        assert (In (start_byte (range x)) starts) as Hs by (apply HS; eauto). rewrite MS in Hs. easy. }
    destruct MS as ([MS|MS] & ML & _); [discriminate|].
    rewrite expand_all_ok.
    2:{ intros x Hx. apply filter_In in Hx. now apply VL. }
    set (cand := map (ex s) _).
    assert (forall x, In x cand <-> latestL q n offset x) as HC.
    { intros x. unfold cand. rewrite in_map_iff.
      apply HS in MS. destruct MS as (z & Hz & Ez).
      split.
      - intros (y & <- & Hy). apply filter_In in Hy. destruct Hy as [Hy Hp].
        apply andb_true_iff in Hp. destruct Hp as [P1 P2]. apply Nat.eqb_eq in P1. apply Nat.eqb_eq in P2.
        assert (In (ex s y) (report q)) as Hr by (apply IR; eauto).
        apply reported_in in Hr. destruct Hr as [Hr1 Hr2]. split.
        + repeat split; auto. change (start_byte (srange y) <= offset). rewrite P2, <- Ez. apply Hz.
        + intros w Hw. change (start_byte (range (ex s y))) with (start_byte (srange y)). rewrite P2.
          apply ML. apply HS. eauto.
      - intros [(H1 & H2 & H3 & H4) H5].
        assert (In x (report q)) as Hr by now apply reported_in.
        apply IR in Hr. destruct Hr as (y & Hy & <-). exists y. split; [reflexivity|]. apply filter_In. split; auto.
        apply andb_true_iff. split; [now apply Nat.eqb_eq|]. apply Nat.eqb_eq.
        apply Nat.le_antisymm.
        + apply ML. apply HS. exists (ex s y). split; [|reflexivity]. repeat split; auto.
        + rewrite <- Ez. now apply H5. }
    assert (StronglySorted (le (tie_break show)) (sort (tie_break show) cand)) as SO.
    { apply sort_sorted; [apply key_total|apply key_trans]. }
    assert (forall x, In x (sort (tie_break show) cand) <-> latestL q n offset x) as HC'.
    { intros x. rewrite sort_in. apply HC. }
    change (key_leb (text_key show)) with (tie_break show).
    assert (cand <> []) as NE.
    { apply HS in MS. destruct MS as (z & Hz & Ez). intros E. assert (In z cand) as Hc; [|rewrite E in Hc; easy].
      apply HC. split; auto. intros w Hw. rewrite Ez. apply ML. apply HS. eauto. }
    destruct (sort (tie_break show) cand) as [|a r] eqn:ES.
    { exfalso. apply NE. apply Permutation_nil. rewrite <- ES. symmetry. apply sort_perm. }
    cbn [dedup]. destruct (dedup_after a r) as [|b t] eqn:ED.
    - eexists. split; [reflexivity|]. split; [apply HC'; now left|]. intros y Hy. apply HC' in Hy.
      destruct Hy as [<-|Hy]; auto. destruct (dedup_after_all r a y Hy) as [H|(x & H & _)].
      + now apply alike_eq.
      + rewrite ED in H. easy.
    - eexists. split; [reflexivity|]. split.
      + split; [|split].
        * intros x [<-|Hx]; apply HC'; [now left|]. right. rewrite <- ED in Hx. now apply dedup_after_in in Hx.
        * intros y Hy. apply HC' in Hy. destruct Hy as [<-|Hy]; [exists a; split; auto; now left|].
          destruct (dedup_after_all r a y Hy) as [H|(x & H & E)].
          -- exists a. split; [now left|]. now apply alike_eq.
          -- exists x. split; [right; now rewrite <- ED|]. now apply alike_eq.
        * exists b, a. split; [right; now left|]. split; [now left|]. intros E.
          pose proof (dedup_after_head r a b t ED) as F1. apply alike_eq in E. congruence.
      + intros HJ. rewrite <- ED. now apply dedup_after_strict.
  Qed.

  (** *** named_type_in_file_before_matching *)

  Variable p : subject -> text_range -> bool.
  Variables n offset : nat.

  (** The stored facts the scan considers. *)
  Definition wanted (x : stored) : bool :=
    (start_byte (srange x) <=? offset) &&
    match ssub x with None => false | Some _ => p (subj (ex s x)) (srange x) end.

  Definition scanned (C : list stored) (st : option (nat * nat)) (amb : bool) : Prop :=
    match st with
    | None => C = [] /\ amb = false
    | Some (b, t) =>
        (exists x, In x C /\ start_byte (srange x) = b /\ sty x = t) /\
        (forall x, In x C -> start_byte (srange x) <= b) /\
        (amb = true <-> exists x, In x C /\ start_byte (srange x) = b /\ sty x <> t)
    end.

  Lemma scan_ok l : (forall x, In x l -> valid_in (subjects s) (ruby_types s) x) ->
    forall C st amb, scanned C st amb ->
    exists st' amb', scan s offset p st amb l = Some (st', amb') /\ scanned (C ++ filter wanted l) st' amb'.
  Proof.
    induction l as [|x l IH]; intros VL C st amb HC.
    - exists st, amb. rewrite app_nil_r. auto.
    - assert (forall y, In y l -> valid_in (subjects s) (ruby_types s) y) as VL' by (intros; apply VL; now right).
      destruct (VL x (or_introl eq_refl)) as [V1 _].
      cbn [scan filter]. unfold wanted at 1. rewrite Nat.leb_antisym.
      destruct (offset <? start_byte (srange x)); cbn [negb andb]; [now apply IH|].
      unfold ex, ex_in. cbn [subj]. destruct (ssub x) as [k|]; [|now apply IH].
      rewrite (nth_error_nth' _ (Expression (srange x)) V1).
      destruct (p (nth k (subjects s) (Expression (srange x))) (srange x)); cbn [negb]; [|now apply IH].
      assert (forall st' amb', scanned (C ++ [x]) st' amb' ->
        exists st'' amb'', scan s offset p st' amb' l = Some (st'', amb'') /\
          scanned (C ++ x :: filter wanted l) st'' amb'') as NX.
      { intros st' amb' H. destruct (IH VL' _ _ _ H) as (st'' & amb'' & H1 & H2). exists st'', amb''. split; auto.
        rewrite <- app_assoc in H2. exact H2. }
      destruct st as [[b t]|].
      + destruct HC as ((y & Y1 & Y2 & Y3) & HM & HA).
        destruct (Nat.ltb_spec b (start_byte (srange x))) as [L|L].
        * apply NX. cbn [scanned]. split; [|split].
          -- exists x. split; auto. apply in_or_app. right. now left.
          -- intros z Hz. apply in_app_or in Hz. destruct Hz as [Hz|[<-|[]]]; auto. apply HM in Hz. lia.
          -- split; [discriminate|]. intros (z & Hz & E1 & E2). apply in_app_or in Hz.
             destruct Hz as [Hz|[<-|[]]]; [apply HM in Hz; lia|congruence].
        * destruct (Nat.eqb_spec (start_byte (srange x)) b) as [E|N].
          -- apply NX. cbn [scanned]. split; [|split].
             ++ exists y. split; auto. apply in_or_app. now left.
             ++ intros z Hz. apply in_app_or in Hz. destruct Hz as [Hz|[<-|[]]]; auto.
             ++ rewrite orb_true_iff, HA, negb_true_iff, Nat.eqb_neq. split.
                ** intros [(z & Z1 & Z2)|H]; [exists z; split; auto; apply in_or_app; now left|].
                   exists x. split; auto. apply in_or_app. right. now left.
                ** intros (z & Hz & Z1 & Z2). apply in_app_or in Hz.
                   destruct Hz as [Hz|[<-|[]]]; [left; eauto|now right].
          -- apply NX. cbn [scanned]. split; [|split].
             ++ exists y. split; auto. apply in_or_app. now left.
             ++ intros z Hz. apply in_app_or in Hz. destruct Hz as [Hz|[<-|[]]]; auto.
             ++ rewrite HA. split; intros (z & Hz & Z1 & Z2); exists z; split; auto.
                ** apply in_or_app. now left.
                ** apply in_app_or in Hz. destruct Hz as [Hz|[<-|[]]]; auto. congruence.
      + destruct HC as [-> ->]. apply NX. cbn [scanned app]. split; [|split].
        * exists x. split; auto. now left.
        * intros z [<-|[]]. auto.
        * split; [discriminate|]. intros (z & [<-|[]] & _ & E). congruence.
  Qed.

  Definition named_reachesL (x : fact) : Prop :=
    In x LV /\ (forall r, subj x <> Expression r) /\ p (subj x) (range x) = true /\
    file_id (range x) = n /\ start_byte (range x) <= offset.
  Definition named_latestL (x : fact) : Prop :=
    named_reachesL x /\ forall y, named_reachesL y -> start_byte (range y) <= start_byte (range x).

  Lemma wanted_in x : named_reachesL x <-> exists e, In e (F n) /\ wanted (snd e) = true /\ ex s (snd e) = x.
  Proof.
    unfold named_reachesL. rewrite in_live. unfold wanted. split.
    - intros ((e & He & <-) & H1 & H2 & H3 & H4). exists e. split; [apply (in_F _ _ _ _ _ _ K); auto|].
      split; auto. rewrite andb_true_iff. split; [now apply Nat.leb_le|].
      destruct (ssub (snd e)) as [k|] eqn:E; [exact H2|]. exfalso. apply (H1 (srange (snd e))).
      now apply subj_expression.
    - intros (e & He & H & <-). apply andb_true_iff in H. destruct H as [H1 H2]. apply Nat.leb_le in H1.
      apply (in_F _ _ _ _ _ _ K) in He. destruct He as [He Hn]. destruct (ssub (snd e)) as [k|] eqn:E; [|discriminate].
      split; [eauto|]. split; [|auto]. intros r Er. apply subj_expression in Er; auto. destruct Er. congruence.
  Qed.

  Lemma type_inj x y : valid_in (subjects s) (ruby_types s) x -> valid_in (subjects s) (ruby_types s) y ->
    (ty (ex s x) = ty (ex s y) <-> sty x = sty y).
  Proof.
    intros [_ V1] [_ V2]. unfold ex, ex_in. cbn [ty]. split; [|congruence]. intros E.
    apply (proj1 (NoDup_nth (ruby_types s) 0) (ok_types _ _ _ _ K)); auto.
  Qed.

  Lemma named_type_ok : exists r, named_type_before s n offset p = Some r /\
    match r with
    | NUnresolved => forall x, ~ named_reachesL x
    | NResolved t => exists x, named_latestL x /\ ty x = t /\ forall y, named_latestL y -> ty y = t
    | NAmbiguous => exists x y, named_latestL x /\ named_latestL y /\ ty x <> ty y
    end.
  Proof.
    unfold named_type_before. pose proof (missing _ _ n (ok_file _ _ _ _ K)) as M.
    destruct (get Nat.eqb (by_file s) n) as [ids|].
    2:{ eexists. split; [reflexivity|]. intros x Hx. apply wanted_in in Hx. destruct Hx as (e & He & _).
        rewrite M in He. easy. }
    subst ids. rewrite clone_ok by apply F_in.
    assert (forall x, In x (map snd (F n)) -> valid_in (subjects s) (ruby_types s) x) as VL.
    { intros x Hx. apply in_map_iff in Hx. destruct Hx as (e & <- & He). apply V. now apply F_in in He. }
    destruct (scan_ok _ VL [] None false) as (st & amb & -> & HC); [cbn; auto|]. cbn [app] in HC.
    set (C := filter wanted (map snd (F n))) in *.
    assert (forall x, named_reachesL x <-> exists y, In y C /\ ex s y = x) as IC.
    { intros x. rewrite wanted_in. unfold C. split.
      - intros (e & He & Hw & <-). exists (snd e). split; auto. apply filter_In. split; auto. now apply in_map.
      - intros (y & Hy & <-). apply filter_In in Hy. destruct Hy as [Hy Hw]. apply in_map_iff in Hy.
        destruct Hy as (e & <- & He). eauto. }
    assert (forall y, In y C -> valid_in (subjects s) (ruby_types s) y) as VC.
    { intros y Hy. apply filter_In in Hy. now apply VL. }
    destruct st as [[b t]|].
    - destruct HC as ((x & X1 & X2 & X3) & HM & HA).
      assert (forall y, In y C -> start_byte (srange y) = b -> named_latestL (ex s y)) as NL.
      { intros y Hy Ey. split; [apply IC; eauto|]. intros z Hz. apply IC in Hz. destruct Hz as (w & Hw & <-).
        change (start_byte (srange w) <= start_byte (srange y)). rewrite Ey. auto. }
      destruct amb.
      + eexists. split; [reflexivity|]. destruct (proj1 HA eq_refl) as (y & Y1 & Y2 & Y3).
        exists (ex s x), (ex s y). split; [auto|]. split; [auto|]. rewrite type_inj by auto. congruence.
      + destruct (VC x X1) as [_ V2]. rewrite X3 in V2. rewrite (nth_error_nth' _ 0 V2). eexists. split; [reflexivity|].
        exists (ex s x). split; auto. split; [unfold ex, ex_in; cbn [ty]; congruence|].
        intros y [Hy Hm]. assert (nth t (ruby_types s) 0 = ty (ex s x)) as -> by (unfold ex, ex_in; cbn [ty]; congruence).
        pose proof Hy as Hy'. apply IC in Hy. destruct Hy as (w & Hw & <-). apply type_inj; auto.
        assert (start_byte (srange w) = b) as Ew.
        { apply Nat.le_antisymm; [auto|]. rewrite <- X2. apply (Hm (ex s x)). apply IC. eauto. }
        destruct (Nat.eq_dec (sty w) t) as [E|N]; [congruence|]. exfalso.
        assert (false = true) by (apply HA; eauto). discriminate.
    - destruct HC as [HC _]. eexists. split; [reflexivity|]. intros x Hx. apply IC in Hx. destruct Hx as (y & Hy & _).
      rewrite HC in Hy. easy.
  Qed.
End Query.
