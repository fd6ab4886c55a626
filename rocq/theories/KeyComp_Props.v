(** C108: completing the keys of a hash. *)
From Coq Require Import List Arith Bool NArith Lia Sorted.
From Verif Require Import Text_Lib Types_Model Types_Spec Types_Order Types_Widen Types_Sub KeyComp_Model KeyComp_Spec.
Import ListNotations.

(** ** The smallest call. *)
Section Pick.
Variable A : Type.
Variable ask : call -> option A.
Definition step (best : option (A * nat)) (c : call) : option (A * nat) :=
  match ask c with
  | None => best
  | Some a => if match best with Some (_, n) => n <=? span c | None => false end then best else Some (a, span c)
  end.
Definition smallest (l : list call) (b : option (A * nat)) : Prop :=
  match b with
  | None => forall c, In c l -> ask c = None
  | Some (a, n) => exists l1 c l2, l = l1 ++ c :: l2 /\ ask c = Some a /\ n = span c /\
      (forall d, In d l -> ask d <> None -> n <= span d) /\ (forall d, In d l1 -> ask d <> None -> n < span d)
  end.
Lemma pick_smallest l : smallest l (fold_left step l None).
Proof.
  induction l as [|c l IH] using rev_ind; [now intros c|]. rewrite fold_left_app. cbn [fold_left].
  destruct (fold_left step l None) as [[a n]|]; cbn [smallest] in IH.
  - destruct IH as (l1 & d & l2 & -> & D & -> & M & F). unfold step. destruct (ask c) as [b|] eqn:Q.
    + destruct (span d <=? span c) eqn:Le.
      * apply Nat.leb_le in Le. exists l1, d, (l2 ++ [c]). split; [now rewrite <- app_assoc|]. split; [exact D|]. split; [reflexivity|]. split; [|exact F].
        intros e I X. apply in_app_or in I as [I|[<-|[]]]; auto.
      * apply Nat.leb_gt in Le. exists (l1 ++ d :: l2), c, []. split; [reflexivity|]. split; [exact Q|]. split; [reflexivity|].
        assert (Y : forall e, In e (l1 ++ d :: l2) -> ask e <> None -> span c < span e) by (intros e I X; specialize (M e I X); lia).
        split; [|exact Y]. intros e I X. apply in_app_or in I as [I|[<-|[]]]; [|lia]. specialize (Y e I X). lia.
    + exists l1, d, (l2 ++ [c]). split; [now rewrite <- app_assoc|]. split; [exact D|]. split; [reflexivity|]. split; [|exact F].
      intros e I X. apply in_app_or in I as [I|[<-|[]]]; [auto|contradiction].
  - unfold step. destruct (ask c) as [b|] eqn:Q.
    + exists l, c, []. split; [reflexivity|]. split; [exact Q|]. split; [reflexivity|]. split.
      * intros e I X. apply in_app_or in I as [I|[<-|[]]]; [|lia]. now rewrite IH in X.
      * intros e I X. now rewrite IH in X.
    + cbn [smallest]. intros e I. apply in_app_or in I as [I|[<-|[]]]; auto.
Qed.
End Pick.

Lemma tree_ind' (P : KeyComp_Model.tree -> Prop) :
  (forall c l, Forall P l -> P (Call c l)) -> (forall l, Forall P l -> P (Node l)) -> forall t, P t.
Proof.
  intros HC HN. fix rec 1. intros [c l|l]; [apply HC|apply HN]; induction l as [|x l IH]; constructor; auto.
Qed.
Lemma calls_within c t : In c (calls t) <-> within c t.
Proof.
  revert t. apply tree_ind'.
  - intros d l IH. rewrite Forall_forall in IH. cbn [calls]. split.
    + intros [->|I]; [constructor|]. apply in_flat_map in I as (t & I & J). apply (in_call c d l t I). now apply IH.
    + intros W. inversion W; subst; [now left|]. right. apply in_flat_map. exists t. split; [assumption|]. now apply IH.
  - intros l IH. rewrite Forall_forall in IH. cbn [calls]. split.
    + intros I. apply in_flat_map in I as (t & I & J). apply (in_node c l t I). now apply IH.
    + intros W. inversion W; subst. apply in_flat_map. exists t. split; [assumption|]. now apply IH.
Qed.

Section Finder.
Variable cursor : nat.
Definition asked (c : call) : option target :=
  if c_index c then
    match c_recv c, c_args c with
    | Some r, Some [a] =>
        match literal_of a with
        | Some (s, t, (from, to)) => if cursor =? to then Some (mkTarget r s t from to) else None
        | None => None
        end
    | _, _ => None
    end
  else None.
Definition named_recv (c : call) : option recv :=
  match c_recv c, c_message c with
  | Some r, Some (from, to) => if (cursor <? from) || (to <? cursor) then None else Some r
  | _, _ => None
  end.
Definition sane (c : call) : Prop := c_from c <= c_to c /\ forall r, c_recv c = Some r -> r_from r < r_to r.
Lemma consider_step c b : sane c -> consider cursor c b = Some (step target asked b c).
Proof.
  intros [S1 S2]. unfold consider, step, asked. destruct (c_index c); [|reflexivity]. cbn [negb]. destruct (c_recv c) as [r|]; [|reflexivity].
  destruct (c_args c) as [[|a [|a' l]]|]; try reflexivity. destruct (literal_of a) as [[[s t] [from to]]|]; [|reflexivity].
  destruct (cursor =? to); cbn [negb]; [|reflexivity]. specialize (S2 r eq_refl). apply Nat.ltb_lt in S2. rewrite S2. cbn [negb].
  assert (c_to c <? c_from c = false) as -> by (apply Nat.ltb_ge; exact S1). unfold span. destruct (match b with Some _ => _ | None => _ end); reflexivity.
Qed.
Lemma receiver_step c b : sane c -> consider_receiver cursor c b = Some (step recv named_recv b c).
Proof.
  intros [S1 S2]. unfold consider_receiver, step, named_recv. destruct (c_recv c) as [r|]; [|reflexivity]. destruct (c_message c) as [[from to]|]; [|reflexivity].
  destruct (_ || _); [reflexivity|]. assert (c_to c <? c_from c = false) as -> by (apply Nat.ltb_ge; exact S1).
  specialize (S2 r eq_refl). apply Nat.ltb_lt in S2. rewrite S2. cbn [negb]. unfold span. destruct (match b with Some _ => _ | None => _ end); reflexivity.
Qed.
Lemma visits l : (forall c, In c l -> sane c) -> forall b r,
  fold_left (fun s c => visit cursor c s) l (Some (b, r)) = Some (fold_left (step target asked) l b, fold_left (step recv named_recv) l r).
Proof.
  induction l as [|c l IH]; intros H b r; [reflexivity|]. cbn [fold_left]. unfold visit at 2.
  rewrite consider_step, receiver_step by (apply H; now left). apply IH. intros d I. apply H. now right.
Qed.
Lemma asked_iff c g : asked c = Some g <-> asks cursor c (t_recv g) (t_syntax g) (t_partial g) (t_from g) /\ t_to g = cursor.
Proof.
  unfold asked, asks. split.
  - destruct (c_index c); [|discriminate]. destruct (c_recv c) as [r|]; [|discriminate]. destruct (c_args c) as [[|a [|a' l]]|]; try discriminate.
    destruct a as [t [[from to]|]|t [from to]|]; cbn [literal_of]; try discriminate; (destruct (Nat.eqb_spec cursor to) as [<-|]; [|discriminate]); intros [= <-]; cbn; repeat split; eexists; (split; [reflexivity|]); auto.
  - intros [(-> & -> & a & -> & H) T]. destruct g as [r s p from to]. cbn in *. subst to. destruct H as [(-> & ->)|(-> & ->)]; cbn [literal_of]; now rewrite Nat.eqb_refl.
Qed.
Lemma named_iff c r : named_recv c = Some r <-> names cursor c r.
Proof.
  unfold named_recv, names. destruct (c_recv c) as [r'|]; [|split; [discriminate|intros [E _]; discriminate]]. destruct (c_message c) as [[from to]|].
  - destruct (cursor <? from) eqn:E1; [|destruct (to <? cursor) eqn:E2]; cbn [orb].
    + apply Nat.ltb_lt in E1. split; [discriminate|]. intros [_ (f & t & [= <- <-] & ?)]. lia.
    + apply Nat.ltb_lt in E2. split; [discriminate|]. intros [_ (f & t & [= <- <-] & ?)]. lia.
    + apply Nat.ltb_ge in E1. apply Nat.ltb_ge in E2. split; [intros [= <-]; eauto 6|intros [[= <-] _]; reflexivity].
  - split; [discriminate|]. intros [_ (f & t & E & _)]. discriminate.
Qed.
Lemma placed_sane t : placed t -> forall c, In c (calls t) -> sane c.
Proof. intros P c I. apply P. now apply calls_within. Qed.
End Finder.

(** ** Sorted keys. *)
Definition klt (a b : lit) : Prop := lit_cmp a b = Lt.
Lemma add_in k l j : In j (add_key k l) <-> j = k \/ In j l.
Proof.
  induction l as [|i l IH]; cbn [add_key]; [cbn; intuition|]. destruct (key_lt k i); [cbn; intuition|]. destruct (lit_eqb k i) eqn:E; cbn [In].
  - apply lit_eqb_eq in E as <-. intuition.
  - rewrite IH. intuition.
Qed.
Lemma add_sorted k l : StronglySorted klt l -> StronglySorted klt (add_key k l).
Proof.
  induction 1 as [|i l HS IH HF]; cbn [add_key]; [repeat constructor|]. unfold key_lt. destruct (lit_cmp k i) eqn:C.
  - unfold lit_eqb. rewrite C. now constructor.
  - constructor; [now constructor|]. constructor; [exact C|]. eapply Forall_impl; [|exact HF]. intros a Ha. exact (lit_cmp_trans k i a C Ha).
  - unfold lit_eqb. rewrite C. constructor; [exact IH|]. apply Forall_forall. intros j J. apply add_in in J as [->|J].
    + unfold klt. rewrite lit_cmp_antisym, C. reflexivity.
    + rewrite Forall_forall in HF. auto.
Qed.
Lemma keys_of_spec fs : forall s, StronglySorted klt s ->
  StronglySorted klt (fold_left (fun s f => add_key (fkey f) s) fs s) /\
  forall k, In k (fold_left (fun s f => add_key (fkey f) s) fs s) <-> In k s \/ In k (map fkey fs).
Proof.
  induction fs as [|f fs IH]; intros s S1; cbn [fold_left map]; [split; [exact S1|]; cbn; intuition|].
  destruct (IH (add_key (fkey f) s) (add_sorted _ _ S1)) as [I1 I2]. split; [exact I1|]. intros k. rewrite I2, add_in. cbn [In]. intuition.
Qed.
Lemma keys_of_in fs k : In k (keys_of fs) <-> In k (map fkey fs).
Proof. unfold keys_of. rewrite (proj2 (keys_of_spec fs [] (SSorted_nil _))). cbn. intuition. Qed.
Lemma keys_of_sorted fs : StronglySorted klt (keys_of fs).
Proof. apply keys_of_spec. constructor. Qed.
Lemma filter_sorted (p : lit -> bool) l : StronglySorted klt l -> StronglySorted klt (filter p l).
Proof.
  induction 1 as [|k l S1 IH F]; cbn [filter]; [constructor|]. destruct (p k); [|exact IH]. constructor; [exact IH|].
  apply Forall_forall. intros j J. apply filter_In in J as [J _]. rewrite Forall_forall in F. auto.
Qed.
Lemma narrowed rest : forall common, StronglySorted klt common ->
  StronglySorted klt (fold_left (fun common fs => filter (fun k => existsb (lit_eqb k) (keys_of fs)) common) rest common) /\
  forall k, In k (fold_left (fun common fs => filter (fun k => existsb (lit_eqb k) (keys_of fs)) common) rest common)
    <-> In k common /\ forall fs, In fs rest -> In k (map fkey fs).
Proof.
  induction rest as [|fs rest IH]; intros common C; cbn [fold_left]; [split; [exact C|]; cbn; intuition|].
  destruct (IH (filter (fun k => existsb (lit_eqb k) (keys_of fs)) common) (filter_sorted _ _ C)) as [I1 I2]. split; [exact I1|].
  intros k. rewrite I2, filter_In, existsb_exists. cbn [In]. split.
  - intros ((K & j & J & E) & R). split; [exact K|]. apply lit_eqb_eq in E as <-. intros gs [<-|G]; [now apply keys_of_in|auto].
  - intros (K & R). split; [split; [exact K|]|intros gs G; apply R; now right]. exists k. split; [apply keys_of_in, R; now left|]. now apply lit_eqb_eq.
Qed.
Lemma shapes_spec l fss : shapes l = Some fss ->
  (forall m, In m l -> exists fs rest ex fr d, m = TShape fs rest ex fr d /\ In fs fss) /\
  (forall fs, In fs fss -> exists rest ex fr d, In (TShape fs rest ex fr d) l).
Proof.
  revert fss. induction l as [|m l IH]; intros fss E; cbn [shapes] in E; [injection E as <-; split; [easy|intros fs []]|].
  destruct m as [| | | | | | |fs rest ex fr d| |]; try discriminate. destruct (shapes l) as [r|]; [|discriminate]. cbn in E. injection E as <-. destruct (IH r eq_refl) as [I1 I2]. split.
  - intros m [<-|J]; [exists fs, rest, ex, fr, d; split; [reflexivity|now left]|]. destruct (I1 m J) as (a & b & c & e & f & -> & K). exists a, b, c, e, f. split; [reflexivity|now right].
  - intros gs [<-|J]; [exists rest, ex, fr, d; now left|]. destruct (I2 gs J) as (b & c & e & f & K). exists b, c, e, f. now right.
Qed.
Lemma shapes_some l : (forall m, In m l -> exists fs rest ex fr d, m = TShape fs rest ex fr d) -> exists fss, shapes l = Some fss.
Proof.
  induction l as [|m l IH]; intros H; [now exists []|]. destruct (H m (or_introl eq_refl)) as (fs & rest & ex & fr & d & ->). cbn [shapes].
  destruct IH as (fss & ->); [intros x X; apply H; now right|]. eexists. reflexivity.
Qed.
Lemma common_sorted t : StronglySorted klt (common_keys t).
Proof.
  unfold common_keys. destruct (match t with TShape fs _ _ _ _ => Some [fs] | TUnion l => shapes l | _ => None end) as [[|first rest]|]; [constructor| |constructor].
  apply narrowed, keys_of_sorted.
Qed.
Lemma common_in t k : In k (common_keys t) <-> listed t k.
Proof.
  unfold common_keys, listed. destruct t as [| | | | | | |fs rest ex fr d|l|]; try (split; [intros []|intros (? & ? & ? & ? & ? & ? & _); discriminate]).
  - rewrite (proj2 (narrowed [] (keys_of fs) (keys_of_sorted fs))), keys_of_in. split.
    + intros [H _]. exists fs, rest, ex, fr, d. auto.
    + intros (? & ? & ? & ? & ? & [= <- <- <- <- <-] & H). split; [exact H|]. intros gs [].
  - destruct (shapes l) as [[|first rest]|] eqn:E.
    + split; [intros []|]. intros [N1 H]. destruct l as [|m l]; [easy|]. apply shapes_spec in E as [E _]. destruct (E m (or_introl eq_refl)) as (? & ? & ? & ? & ? & _ & []).
    + rewrite (proj2 (narrowed rest (keys_of first) (keys_of_sorted first))), keys_of_in. apply shapes_spec in E as [E1 E2]. split.
      * intros [H1 H2]. split.
        { intros ->. destruct (E2 first (or_introl eq_refl)) as (? & ? & ? & ? & []). }
        intros m M. destruct (E1 m M) as (fs & r & ex & fr & d & -> & [<-|I]); do 5 eexists; (split; [reflexivity|]); auto.
      * intros [_ H]. assert (X : forall fs, In fs (first :: rest) -> In k (map fkey fs)).
        { intros fs I. destruct (E2 fs I) as (r & ex & fr & d & J). destruct (H _ J) as (? & ? & ? & ? & ? & [= <- <- <- <- <-] & K). exact K. }
        split; [apply X; now left|]. intros fs I. apply X. now right.
    + split; [intros []|]. intros [_ H]. destruct (shapes_some l) as (fss & F); [|congruence]. intros m M. destruct (H m M) as (fs & r & ex & fr & d & -> & _). eauto 8.
Qed.
Lemma starts_iff p t : starts p t = true <-> exists r, t = p ++ r.
Proof.
  revert t. induction p as [|a p IH]; intros t; cbn [starts app]; [split; eauto|]. destruct t as [|b t]; [split; [discriminate|intros (r & E); discriminate]|].
  rewrite andb_true_iff, N.eqb_eq, IH. split; [intros [-> (r & ->)]; eauto|intros (r & [= -> ->]); eauto].
Qed.
Lemma fits_iff spell s p k : fits spell s p k = true <-> typed spell s p k.
Proof.
  unfold fits, typed. destruct s, k as [n|n]; try (split; [discriminate|intros (m & r & _ & [[E F]|[E F]]); discriminate]); rewrite starts_iff; (split; [intros (r & E); exists n, r; auto|intros (m & r & E & [[F G]|[F G]]); try discriminate; injection G as ->; eauto]).
Qed.

(** ** Theorems. *)
(** The request is about the shortest call that asks at the cursor, the outermost of several equally
    short ones; without such a call the rest of completion answers.  Nothing panics. *)
Theorem C108_target : forall cursor t, placed t -> exists g r, targets cursor t = Some (g, r) /\
  match g with
  | None => forall c v s p from, within c t -> ~ asks cursor c v s p from
  | Some g => t_to g = cursor /\ exists c, within c t /\ asks cursor c (t_recv g) (t_syntax g) (t_partial g) (t_from g) /\
      forall d v s p from, within d t -> asks cursor d v s p from -> span c <= span d
  end.
Proof.
  intros cursor t P. unfold targets. rewrite (visits cursor (calls t) (placed_sane t P)). eexists _, _. split; [reflexivity|].
  pose proof (pick_smallest target (asked cursor) (calls t)) as S1. destruct (fold_left (step target (asked cursor)) (calls t) None) as [[g n]|]; cbn [smallest option_map fst] in *.
  - destruct S1 as (l1 & c & l2 & E & Q & -> & M & _). apply asked_iff in Q as [Q T]. split; [exact T|]. exists c. split; [apply calls_within; rewrite E; apply in_or_app; right; now left|]. split; [exact Q|].
    intros d v s p from W A. apply (M d); [now apply calls_within|]. rewrite (proj2 (asked_iff cursor d (mkTarget v s p from cursor)) (conj A eq_refl)). discriminate.
  - intros c v s p from W A. apply calls_within in W. specialize (S1 c W). rewrite (proj2 (asked_iff cursor c (mkTarget v s p from cursor)) (conj A eq_refl)) in S1. discriminate.
Qed.
(** The receiver of a method name is that of the shortest call whose name the cursor is in. *)
Theorem C108_receiver : forall cursor t, placed t -> exists g r, targets cursor t = Some (g, r) /\
  match r with
  | None => forall c v, within c t -> ~ names cursor c v
  | Some v => exists c, within c t /\ names cursor c v /\ forall d w, within d t -> names cursor d w -> span c <= span d
  end.
Proof.
  intros cursor t P. unfold targets. rewrite (visits cursor (calls t) (placed_sane t P)). eexists _, _. split; [reflexivity|].
  pose proof (pick_smallest recv (named_recv cursor) (calls t)) as S1. destruct (fold_left (step recv (named_recv cursor)) (calls t) None) as [[v n]|]; cbn [smallest option_map fst] in *.
  - destruct S1 as (l1 & c & l2 & E & Q & -> & M & _). apply named_iff in Q. exists c. split; [apply calls_within; rewrite E; apply in_or_app; right; now left|]. split; [exact Q|].
    intros d w W A. apply (M d); [now apply calls_within|]. apply named_iff in A. rewrite A. discriminate.
  - intros c v W A. apply calls_within in W. specialize (S1 c W). apply named_iff in A. congruence.
Qed.
(** Where only one call asks, the keys offered are exactly those every alternative of the receiver's
    type lists, of the kind written, beginning as typed; each is inserted in place of the literal's text. *)
Theorem C108_keys : forall spell exact local cursor t c r s p from, placed t ->
  within c t -> asks cursor c r s p from ->
  (forall d v s' p' from', within d t -> asks cursor d v s' p' from' -> d = c) ->
  exists l, answer spell exact local cursor t = Some (Some l) /\
    (forall i, In i l -> label i = new_text i /\ e_from i = from /\ e_to i = cursor) /\
    exists ks, map new_text l = map (key_text spell) ks /\ StronglySorted klt ks /\
      forall k, In k ks <-> typed spell s p k /\ exists ty, known_type exact local r ty /\ listed ty k.
Proof.
  intros spell exact local cursor t c r s p from P W A U. destruct (C108_target cursor t P) as (g & v & E & G). unfold answer. rewrite E.
  destruct g as [g|]; [|exfalso; exact (G c r s p from W A)]. destruct G as (T & d & D1 & D2 & _).
  assert (d = c) as -> by exact (U _ _ _ _ _ D1 D2).
  assert (t_recv g = r /\ t_syntax g = s /\ t_partial g = p /\ t_from g = from) as (Q1 & Q2 & Q3 & Q4).
  { destruct A as (_ & A1 & a & A2 & A3), D2 as (_ & B1 & b & B2 & B3). rewrite A1 in B1. injection B1 as <-. rewrite A2 in B2. injection B2 as <-.
    destruct A3 as [[-> ->]|[-> ->]], B3 as [[B3 B4]|[B3 B4]]; try discriminate; injection B4 as <- <-; auto. }
  exists (items spell exact local g). split; [reflexivity|]. split.
  - intros i I. unfold items in I. apply in_map_iff in I as (k & <- & _). cbn. auto.
  - exists (offered spell exact local g). split; [unfold items; rewrite map_map; reflexivity|]. unfold offered. rewrite Q1, Q2, Q3. split.
    + apply filter_sorted. destruct (receiver_type exact local r); [apply common_sorted|constructor].
    + intros k. rewrite filter_In, fits_iff. assert (X : forall u, receiver_type exact local r = Some u -> u <> TUnknown -> known_type exact local r u).
      { intros u R N0. split; [exact N0|]. unfold receiver_type in R. destruct (exact (r_from r) (r_to r)) as [w|].
        - left. destruct w; congruence.
        - right. split; [reflexivity|]. destruct (r_local r) as [n|]; [eauto|discriminate]. }
      split.
      * intros [I F]. split; [exact F|]. destruct (receiver_type exact local r) as [u|] eqn:R; [|destruct I]. exists u. split; [|now apply common_in].
        apply X; [reflexivity|]. intros ->. destruct I.
      * intros [F (u & [K1 K2] & L)]. split; [|exact F]. assert (receiver_type exact local r = Some u) as ->; [|now apply common_in].
        unfold receiver_type. destruct K2 as [-> |[-> (n & -> & K)]]; [destruct u; congruence|exact K].
Qed.
(** Inside such a key nothing else is offered; elsewhere keys are not. *)
Theorem C108_where : forall spell exact local cursor t, placed t ->
  ((exists l, answer spell exact local cursor t = Some (Some l)) <-> exists c r s p from, within c t /\ asks cursor c r s p from) /\
  (answer spell exact local cursor t = Some None <-> forall c r s p from, within c t -> ~ asks cursor c r s p from).
Proof.
  intros spell exact local cursor t P. destruct (C108_target cursor t P) as (g & v & E & G). unfold answer. rewrite E. destruct g as [g|].
  - destruct G as (_ & c & W & A & _). split; split; intros H; eauto 8; [discriminate|]. exfalso. exact (H _ _ _ _ _ W A).
  - split; split; intros H; auto.
    + destruct H as (l & H). discriminate.
    + exfalso. destruct H as (c & r & s & p & from & W & A). exact (G _ _ _ _ _ W A).
Qed.

(** ** What the keys mean. *)
Lemma lit_dec (a b : lit) : {a = b} + {a <> b}.
Proof. decide equality; apply Nat.eq_dec. Qed.
Lemma litval_inj a b : litval a = litval b -> a = b.
Proof. destruct a, b; cbn; congruence. Qed.
(** Every key that is certainly there is offered: if every value the type describes has the key, and
    each alternative describes some value, then every alternative lists it. *)
Theorem C108_complete : forall named t k, shape_only t -> members t <> [] ->
  (forall m, In m (members t) -> exists v, den named m v) ->
  (forall v, den named t v -> has_key v k) -> listed t k.
Proof.
  intros named t k O N0 I H.
  assert (X : forall m, In m (members t) -> lists m k).
  { intros m M. destruct (O m M) as (fs & rest & ex & fr & d & ->). exists fs, rest, ex, fr, d. split; [reflexivity|].
    destruct (in_dec lit_dec k (map fkey fs)) as [Y|Y]; [exact Y|exfalso].
    destruct (I _ M) as (v & es & -> & D1 & D2 & D3).
    set (keep := fun e : val * val => match fst e, k with VSym a, LSym b | VStr a, LStr b => negb (a =? b) | _, _ => true end).
    assert (K1 : forall x y, In (x, y) (filter keep es) <-> In (x, y) es /\ x <> litval k).
    { intros x y. rewrite filter_In. apply and_iff_compat_l. unfold keep. cbn [fst]. destruct x as [|a|a| |], k as [b|b]; cbn [litval]; try (split; [intros _; discriminate|reflexivity]);
        rewrite negb_true_iff, Nat.eqb_neq; split; congruence. }
    assert (D : den named (TShape fs rest ex fr d) (VHash (filter keep es))).
    { exists (filter keep es). split; [reflexivity|]. split; [|split].
      - intros j J. destruct (D1 j J) as (y & Q). exists y. apply K1. split; [exact Q|]. intros E.
        assert (j = k) as -> by (destruct j, k; cbn in E; congruence). apply Y. apply in_map_iff in J as ([j b] & F1 & J). apply filter_In in J as [J _].
        apply in_map_iff in J as ([[j' t'] b'] & F2 & J). cbn in F1. injection F2 as -> ->. subst j. apply in_map_iff. exists (k, t', b). split; [reflexivity|exact J].
      - intros x y J. apply K1 in J as [J _]. exact (D2 x y J).
      - intros x y J. apply K1 in J as [J _]. exact (D3 x y J). }
    destruct (H (VHash (filter keep es))) as (es' & y & [= <-] & Q).
    - destruct t as [| | | | | | | |l|]; cbn [members] in M; try (destruct M as [M|[]]; rewrite M; exact D). exists (den named (TShape fs rest ex fr d)). split; [now apply in_map|exact D].
    - apply K1 in Q as [_ Q]. now apply Q. }
  unfold listed. destruct t as [| | | | | | | |l|]; try (apply X; now left). split; [exact N0|exact X].
Qed.
(** No key is offered in vain: if every alternative describes some value, and something has the type it
    gives the key, then it describes a hash with that key. *)
Theorem C108_possible : forall named t k, listed t k -> (forall m, In m (members t) -> built m) ->
  (forall m, In m (members t) -> exists v, den named m v) ->
  (forall fs rest ex fr d f, In (TShape fs rest ex fr d) (members t) -> In f fs -> fkey f = k -> exists y, den named (fval f) y) ->
  forall m, In m (members t) -> exists v, den named m v /\ has_key v k.
Proof.
  intros named t k L B I Y m M.
  assert (lists m k) as (fs & rest & ex & fr & d & -> & K).
  { unfold listed in L. destruct t as [| | | | | | | |l|]; cbn [members] in M; try (destruct M as [M|[]]; rewrite <- M; exact L). now apply L. }
  destruct (I _ M) as (v & es & -> & D1 & D2 & D3). apply in_map_iff in K as (f & <- & F). destruct (Y _ _ _ _ _ f M F eq_refl) as (y & Hy).
  exists (VHash ((litval (fkey f), y) :: es)). split; [|exists ((litval (fkey f), y) :: es), y; split; [reflexivity|now left]].
  assert (N1 : NoDup (map fkey fs)).
  { exact (built_keys _ _ _ _ _ (B _ M)). }
  exists ((litval (fkey f), y) :: es). split; [reflexivity|]. split; [|split].
  - intros j J. destruct (D1 j J) as (z & Z). exists z. now right.
  - intros x z [[= <- <-]|J]; [|exact (D2 x z J)]. intros j P J E. apply in_map_iff in J as (g & G1 & G). destruct g as [[j' t'] b']. injection G1 as -> <-.
    apply litval_inj in E. assert ((j, t', b') = f) as G2; [|subst f; exact Hy].
    clear - N1 F G E. induction fs as [|h fs IH]; [destruct F|]. cbn [map] in N1. inversion_clear N1 as [|? ? N2 N3].
    destruct F as [->|F], G as [->|G]; auto; exfalso; apply N2; [rewrite E; change j with (fkey (j, t', b'))|change (fkey (j, t', b')) with j; rewrite <- E]; now apply in_map.
  - intros x z [[= <- <-]|J]; [|exact (D3 x z J)]. intros N2. exfalso. apply N2. apply in_map_iff. exists f. split; [now destruct f as [[? ?] ?]|exact F].
Qed.
(** A key every alternative requires is in every hash the type describes. *)
Theorem C108_present : forall named t k v, listed t k ->
  (forall fs rest ex fr d f, In (TShape fs rest ex fr d) (members t) -> In f fs -> fkey f = k -> freq f = true) ->
  den named t v -> has_key v k.
Proof.
  intros named t k v L R D.
  assert (X : forall m, In m (members t) -> den named m v -> has_key v k).
  { intros m M Dm. assert (lists m k) as (fs & rest & ex & fr & d & -> & K).
    { unfold listed in L. destruct t as [| | | | | | | |l|]; cbn [members] in M; try (destruct M as [M|[]]; rewrite <- M; exact L). now apply L. }
    destruct Dm as (es & -> & D1 & _). apply in_map_iff in K as (f & <- & F). specialize (R _ _ _ _ _ f M F eq_refl).
    destruct (D1 (fkey f)) as (y & Q); [|exists es, y; auto]. apply in_map_iff. exists (fkey f, freq f). split; [reflexivity|]. apply filter_In. split; [|exact R].
    apply in_map_iff. exists f. split; [now destruct f as [[? ?] ?]|exact F]. }
  destruct t as [| | | | | | | |l|]; try (apply (X _ (or_introl eq_refl)); exact D). destruct D as (P & I & HP). apply in_map_iff in I as (m & <- & I). exact (X m I HP).
Qed.

(** ** The text that is inserted. *)
(** Accepting a key made of name characters after a colon leaves a symbol that reads as that key. *)
Theorem C108_insert_symbol : forall word t a old b from to new t',
  t = a ++ 58%N :: old ++ b -> size (a ++ [58%N]) = from -> size (a ++ [58%N] ++ old) = to ->
  match b with [] => True | c :: _ => word c = false end -> Forall (fun c => word c = true) new ->
  replaced t from to new t' -> exists r, t' = a ++ 58%N :: r /\ reads_symbol word r new.
Proof.
  intros word t a old b from to new t' E F T B W (a' & old' & b' & E' & F' & T' & ->).
  assert (a' = a ++ [58%N] /\ old' ++ b' = old ++ b) as [-> Q].
  { apply (cut_eq t); [exact E'|rewrite E, <- app_assoc; reflexivity|congruence]. }
  assert (b' = b) as ->.
  { destruct (cut_eq t ((a ++ [58%N]) ++ old') b' ((a ++ [58%N]) ++ old) b) as [_ Y]; [rewrite E', app_assoc; reflexivity|rewrite E, <- !app_assoc; reflexivity| |exact Y].
    rewrite T', <- T, <- app_assoc. reflexivity. }
  exists (new ++ b). split; [now rewrite <- app_assoc|]. exists b. auto.
Qed.
(** Accepting a key without quotes, backslashes and hash signs in a string leaves a string that reads as
    that key. *)
Theorem C108_insert_string : forall quote t a old b from to new t',
  t = a ++ quote :: old ++ quote :: b -> size (a ++ [quote]) = from -> size (a ++ [quote] ++ old) = to ->
  Forall (fun c => c <> quote /\ c <> 92%N /\ c <> 35%N) new ->
  replaced t from to new t' -> exists r, t' = a ++ quote :: r /\ reads_string quote r new.
Proof.
  intros quote t a old b from to new t' E F T W (a' & old' & b' & E' & F' & T' & ->).
  assert (a' = a ++ [quote] /\ old' ++ b' = old ++ quote :: b) as [-> Q].
  { apply (cut_eq t); [exact E'|rewrite E, <- app_assoc; reflexivity|congruence]. }
  assert (b' = quote :: b) as ->.
  { destruct (cut_eq t ((a ++ [quote]) ++ old') b' ((a ++ [quote]) ++ old) (quote :: b)) as [_ Y]; [rewrite E', app_assoc; reflexivity|rewrite E, <- !app_assoc; reflexivity| |exact Y].
    rewrite T', <- T, <- app_assoc. reflexivity. }
  exists (new ++ quote :: b). split; [now rewrite <- app_assoc|]. split; [eauto|exact W].
Qed.
Print Assumptions C108_target.
Print Assumptions C108_receiver.
Print Assumptions C108_keys.
Print Assumptions C108_where.
Print Assumptions C108_complete.
Print Assumptions C108_possible.
Print Assumptions C108_present.
Print Assumptions C108_insert_symbol.
Print Assumptions C108_insert_string.

(** ** Concrete cases. *)
Open Scope N_scope.
(** The texts of the keys: 1 is [name], 2 is [na me], 3 is [id], 4 is [na], a quote, [me]. *)
Definition texts (n : nat) : text :=
  match n with
  | 1%nat => [110; 97; 109; 101] | 2%nat => [110; 97; 32; 109; 101] | 3%nat => [105; 100] | _ => [110; 97; 34; 109; 101]
  end.
(** [h[:na]] *)
Definition symbol_call : call := mkCall true (Some (mkRecv 0 1 (Some 7%nat))) (Some (1, 6)%nat) (Some [ASym [110; 97] (Some (3, 5)%nat)]) 0 6.
Definition string_call : call := mkCall true (Some (mkRecv 0 1 (Some 7%nat))) (Some (1, 7)%nat) (Some [AStr [110; 97] (3, 5)%nat]) 0 7.
Definition both : ty := TUnion [TShape [(LSym 1, string, true); (LSym 3, integer, true)] None true false 1;
                                TShape [(LSym 1, symbol, false); (LSym 2, symbol, true); (LStr 1, string, true)] None true false 1].
Definition local_only (t : ty) (n at_ : nat) : option ty := if Nat.eqb n 7 then Some t else None.
Lemma alone c : sane c -> placed (KeyComp_Model.Node [Call c []]).
Proof. intros S1 d W. inversion W as [| |l t I V E]; subst. destruct I as [<-|[]]. inversion V as [|e l t I|]; subst; [exact S1|destruct I]. Qed.
Example C108_keys_case : placed (KeyComp_Model.Node [Call symbol_call []])
  /\ asks 5 symbol_call (mkRecv 0 1 (Some 7%nat)) Symbols [110; 97] 3
  /\ answer texts (fun _ _ => None) (local_only both) 5 (KeyComp_Model.Node [Call symbol_call []]) = Some (Some [mkItem [110; 97; 109; 101] [110; 97; 109; 101] 3 5])
  /\ answer texts (fun _ _ => Some TUnknown) (local_only both) 5 (KeyComp_Model.Node [Call symbol_call []]) = Some (Some [])
  /\ answer texts (fun _ _ => None) (local_only both) 4 (KeyComp_Model.Node [Call symbol_call []]) = Some None.
Proof.
  split; [apply alone; split; [cbn; auto with arith|intros r [= <-]; cbn; auto with arith]|]. split; [|split; [|split]; vm_compute; reflexivity].
  split; [reflexivity|]. split; [reflexivity|]. eexists. split; [reflexivity|]. left. auto.
Qed.
(** Of two calls the inner one is asked about. *)
Example C108_target_case :
  let outer := mkCall false (Some (mkRecv 0 9 None)) (Some (10, 13)%nat) None 0 13 in
  let inner := mkCall true (Some (mkRecv 0 1 (Some 7%nat))) (Some (1, 6)%nat) (Some [ASym [110; 97] (Some (3, 5)%nat)]) 0 6 in
  targets 11 (Call outer [Call inner []]) = Some (None, Some (mkRecv 0 9 None))
  /\ targets 5 (Call outer [Call inner []]) = Some (Some (mkTarget (mkRecv 0 1 (Some 7%nat)) Symbols [110; 97] 3 5), Some (mkRecv 0 1 (Some 7%nat))).
Proof. split; reflexivity. Qed.
Definition all_objects : meaning := fun _ _ v => exists n, v = VObj n.
Example C108_present_case : listed both (LSym 1) /\ ~ listed both (LSym 3) /\ shape_only both
  /\ (forall m, In m (members both) -> exists v, den all_objects m v).
Proof.
  split; [|split; [|split]].
  - split; [discriminate|]. intros m [<-|[<-|[]]]; do 5 eexists; (split; [reflexivity|]); cbn; auto.
  - intros [_ H]. destruct (H _ (or_intror (or_introl eq_refl))) as (? & ? & ? & ? & ? & [= <- <- <- <- <-] & K). cbn in K. destruct K as [K|[K|[K|[]]]]; discriminate.
  - intros m [<-|[<-|[]]]; do 5 eexists; reflexivity.
  - intros m [<-|[<-|[]]].
    + exists (VHash [(VSym 1, VObj 0); (VSym 3, VObj 0)]). eexists. split; [reflexivity|]. split; [|split].
      * intros k K. cbn in K. destruct K as [<-|[<-|[]]]; exists (VObj 0); cbn; auto.
      * intros x y I k P J E. cbn in J. destruct J as [[= <- <-]|[[= <- <-]|[]]]; destruct I as [[= <- <-]|[[= <- <-]|[]]]; now exists 0%nat.
      * intros x y I N1. exfalso. apply N1. destruct I as [[= <- <-]|[[= <- <-]|[]]]; cbn; auto.
    + exists (VHash [(VSym 2, VObj 0); (VStr 1, VObj 0)]). eexists. split; [reflexivity|]. split; [|split].
      * intros k K. cbn in K. destruct K as [<-|[<-|[]]]; exists (VObj 0); cbn; auto.
      * intros x y I k P J E. cbn in J. destruct J as [[= <- <-]|[[= <- <-]|[[= <- <-]|[]]]]; destruct I as [[= <- <-]|[[= <- <-]|[]]]; now exists 0%nat.
      * intros x y I N1. exfalso. apply N1. destruct I as [[= <- <-]|[[= <- <-]|[]]]; cbn; auto.
Qed.

(** ** What does not hold. *)
Definition letters (c : N) : bool := (97 <=? c) && (c <=? 122).
(** A symbol key with a blank in it is inserted as it is: [h[:na]] becomes [h[:na me]], which reads
    another key. *)
Theorem C108_raw_symbol_refuted : exists exact i t', 
  answer texts exact (fun _ _ => None) 5 (KeyComp_Model.Node [Call symbol_call []]) = Some (Some [i]) /\
  replaced [104; 91; 58; 110; 97; 93] (e_from i) (e_to i) (new_text i) t' /\
  exists r, t' = [104; 91; 58] ++ r /\ forall name, reads_symbol letters r name -> name = [110; 97] /\ name <> label i.
Proof.
  exists (fun _ _ => Some (TShape [(LSym 2, string, true)] None true false 1)), (mkItem (texts 2) (texts 2) 3 5), [104; 91; 58; 110; 97; 32; 109; 101; 93].
  split; [vm_compute; reflexivity|]. split; [exists [104; 91; 58], [110; 97], [93]; repeat split|]. eexists. split; [reflexivity|].
  intros name (rest & E & F & R). assert (name = [110; 97]) as ->; [|split; [reflexivity|discriminate]].
  destruct name as [|a name]; cbn in E; [subst rest; discriminate|]. injection E as <- E. inversion_clear F as [|? ? _ F'].
  destruct name as [|a name]; cbn in E; [subst rest; discriminate|]. injection E as <- E. inversion_clear F' as [|? ? _ F].
  destruct name as [|a name]; [reflexivity|]. cbn in E. injection E as <- E. inversion_clear F as [|? ? F' _]. discriminate.
Qed.
(** A string key with a quote in it ends the string. *)
Theorem C108_raw_string_refuted : exists exact i t',
  answer texts exact (fun _ _ => None) 5 (KeyComp_Model.Node [Call string_call []]) = Some (Some [i]) /\
  replaced [104; 91; 34; 110; 97; 34; 93] (e_from i) (e_to i) (new_text i) t' /\
  exists r, t' = [104; 91; 34] ++ r /\ forall s, reads_string 34 r s -> s = [110; 97] /\ s <> label i.
Proof.
  exists (fun _ _ => Some (TShape [(LStr 4, string, true)] None true false 1)), (mkItem (texts 4) (texts 4) 3 5), [104; 91; 34; 110; 97; 34; 109; 101; 34; 93].
  split; [vm_compute; reflexivity|]. split; [exists [104; 91; 34], [110; 97], [34; 93]; repeat split|]. eexists. split; [reflexivity|].
  intros s ((rest & E) & F). assert (s = [110; 97]) as ->; [|split; [reflexivity|discriminate]].
  destruct s as [|a s]; cbn in E; [discriminate|]. injection E as <- E. inversion_clear F as [|? ? _ F'].
  destruct s as [|a s]; cbn in E; [discriminate|]. injection E as <- E. inversion_clear F' as [|? ? _ F].
  destruct s as [|a s]; [reflexivity|]. cbn in E. injection E as <- E. inversion_clear F as [|? ? (F' & _) _]. now elim F'.
Qed.
(** The name of an index call reaches from bracket to bracket, so everywhere between them, also inside
    a string, the hash itself is taken for the receiver in front of the cursor. *)
Theorem C108_bracket_refuted : forall c r from to cursor, sane c -> c_index c = true -> c_recv c = Some r ->
  c_message c = Some (from, to) -> (from < cursor < to)%nat -> exists g, targets cursor (Call c []) = Some (g, Some r).
Proof.
  intros c r from to cursor S1 I R M L. unfold targets. cbn [calls flat_map fold_left visit].
  rewrite (consider_step cursor c None S1), (receiver_step cursor c None S1). unfold step at 2. rewrite (proj2 (named_iff cursor c r)).
  - eexists. reflexivity.
  - split; [exact R|]. exists from, to. split; [exact M|]. split; apply Nat.lt_le_incl; apply L.
Qed.
(** [h[1, "a."]] *)
Example C108_bracket_case : targets 8 (Call (mkCall true (Some (mkRecv 0 1 (Some 7%nat))) (Some (1, 10)%nat) (Some [AElse; AStr [97; 46] (6, 8)%nat]) 0 10) []) = Some (None, Some (mkRecv 0 1 (Some 7%nat))).
Proof. reflexivity. Qed.
Print Assumptions C108_raw_symbol_refuted.
Print Assumptions C108_raw_string_refuted.
Print Assumptions C108_bracket_refuted.
