(** Invariants of the single-flight state machine. *)
From Coq Require Import List Arith Bool Lia.
From Verif Require Import Lib Flight_Model Flight_Spec.
Import ListNotations.

Definition must_in (kd : kind) (f : flight) : bool :=
  match f_phase f with
  | FNew | FRun | FLost | FGot _ => true
  | FSet | FPost => negb (is_blocking kd) && failed f
  | _ => false
  end.

Definition quiet (kd : kind) (r : res) : Prop := r = RPanicked -> is_blocking kd = true.
Definition fwf (kd : kind) (f : flight) : Prop :=
  match f_phase f with
  | FNew | FRun | FLost => f_res f = None /\ f_rung f = false
  | FGot r => f_res f = None /\ f_rung f = false /\ quiet kd r
  | FRemoved r => f_res f = None /\ f_rung f = false /\ quiet kd r /\ is_blocking kd = true /\ is_ok r = false
  | FSet => f_rung f = false /\ exists r, f_res f = Some r /\ quiet kd r
  | FPost | FDone => f_rung f = true /\ exists r, f_res f = Some r /\ quiet kd r
  | FEvict => f_rung f = true /\ limits kd <> None /\ exists r, f_res f = Some r /\ quiet kd r
  end.

Definition caller_ok (s : state) (k : caller) : Prop :=
  match k_phase k with
  | KStart | KPanic | KDropped => True
  | KOwner c | KReg c => for_key s c (k_key k)
  | KCheck c b => exists f, nth_error (flights s) c = Some f /\ f_key f = k_key k /\ (b = true -> f_rung f = true)
  | KSleep c b => b = false /\ for_key s c (k_key k)
  | KGot c r => for_key s c (k_key k) /\ result s c = Some r /\ r <> RPanicked
  end.

Record inv (kd : kind) (s : state) : Prop := mkInv {
  i_nodup : NoDup (map fst (entries s));
  i_ent : forall k c, In (k, c) (entries s) ->
          exists f, nth_error (flights s) c = Some f /\ f_key f = k /\ dropped kd f = false;
  i_in : forall c f, nth_error (flights s) c = Some f -> must_in kd f = true -> In (f_key f, c) (entries s);
  i_fwf : forall c f, nth_error (flights s) c = Some f -> fwf kd f;
  i_ev1 : forall c, evictor s = Some c -> exists f, nth_error (flights s) c = Some f /\ f_phase f = FEvict;
  i_ev2 : forall c f, nth_error (flights s) c = Some f -> f_phase f = FEvict -> evictor s = Some c;
  i_call : forall i k, nth_error (callers s) i = Some k -> caller_ok s k }.

Lemma nth_upd_lt {A} (l : list A) i x : i < length l -> nth_error (upd l i x) i = Some x.
Proof.
  intros H. destruct (nth_error l i) eqn:E; [apply (nth_upd_eq _ _ _ _ E)|].
  apply nth_error_None in E. lia.
Qed.

(** *** entries *)
Lemma find_entry_some k l c : find_entry k l = Some c -> In (k, c) l.
Proof.
  unfold find_entry. destruct (find _ l) as [[a b]|] eqn:E; [|discriminate].
  intros [= <-]. apply find_some in E. destruct E as [E1 E2]. simpl in *.
  apply Nat.eqb_eq in E2. subst. auto.
Qed.
Lemma find_entry_none k l : find_entry k l = None -> ~ In k (map fst l).
Proof.
  unfold find_entry. destruct (find _ l) as [[a b]|] eqn:E; [discriminate|].
  intros _ H. apply in_map_iff in H. destruct H as [[a b] [H1 H2]]. simpl in H1. subst.
  apply (find_none _ _ E) in H2. simpl in H2. rewrite Nat.eqb_refl in H2. discriminate.
Qed.
Lemma nodup_fst_inj (l : list (nat*nat)) k c d :
  NoDup (map fst l) -> In (k, c) l -> In (k, d) l -> c = d.
Proof.
  induction l as [|[a b] l IH]; simpl; [easy|]. intros N; inversion N as [|x xs N1 N2]; subst.
  intros [H|H] [H'|H'].
  - congruence.
  - injection H as -> ->. destruct N1. apply in_map_iff. exists (k, d); auto.
  - injection H' as -> ->. destruct N1. apply in_map_iff. exists (k, c); auto.
  - auto.
Qed.
Lemma find_entry_in k l c : NoDup (map fst l) -> In (k, c) l -> find_entry k l = Some c.
Proof.
  intros N H. destruct (find_entry k l) eqn:E.
  - apply find_entry_some in E. f_equal. eapply nodup_fst_inj; eauto.
  - apply find_entry_none in E. destruct E. apply in_map_iff. exists (k, c). auto.
Qed.
Lemma remove_entry_in k l x : In x (remove_entry k l) <-> In x l /\ fst x <> k.
Proof.
  unfold remove_entry. rewrite filter_In, negb_true_iff, Nat.eqb_neq. tauto.
Qed.
Lemma nodup_filter_fst p (l : list (nat*nat)) : NoDup (map fst l) -> NoDup (map fst (filter p l)).
Proof.
  induction l as [|a l IH]; simpl; intros N; [constructor|]. inversion N as [|x xs N1 N2]; subst.
  destruct (p a); simpl; auto. constructor; auto.
  intros H. apply N1. apply in_map_iff in H. destruct H as [x [E H]].
  apply filter_In in H. apply in_map_iff. exists x. tauto.
Qed.
Lemma remove_owned_spec k c l : NoDup (map fst l) ->
  NoDup (map fst (remove_if_owned k c l)) /\
  (forall x, In x (remove_if_owned k c l) <-> In x l /\ x <> (k, c)).
Proof.
  intros N. unfold remove_if_owned.
  destruct (find_entry k l) as [d|] eqn:E.
  - destruct (Nat.eqb_spec d c) as [->|D].
    + split; [apply nodup_filter_fst; auto|]. intros [a b].
      rewrite remove_entry_in. simpl. apply find_entry_some in E.
      split; intros [H1 H2]; split; auto; intros Q.
      * injection Q as -> ->. auto.
      * subst. apply H2. f_equal. eapply nodup_fst_inj; eauto.
    + split; auto. intros x. split; [|tauto]. intros H. split; auto. intros ->.
      rewrite (find_entry_in _ _ _ N H) in E. congruence.
  - split; auto. intros x; split; [|tauto]. intros H; split; auto. intros ->.
    apply find_entry_none in E. apply E. apply in_map_iff. exists (k, c). auto.
Qed.
Lemma remove_entry_length k c l : NoDup (map fst l) -> In (k, c) l ->
  S (length (remove_entry k l)) = length l.
Proof.
  induction l as [|[a b] l IH]; simpl; [easy|]. intros N [H|H]; inversion N as [|x xs N1 N2]; subst.
  - injection H as -> ->. rewrite Nat.eqb_refl. simpl. f_equal.
    unfold remove_entry. replace (filter _ l) with l; auto.
    clear IH N N2. induction l as [|[x y] l IH]; simpl in *; auto.
    destruct (Nat.eqb_spec x k); [tauto|]. simpl. f_equal. apply IH. tauto.
  - destruct (Nat.eqb_spec a k) as [->|D]; simpl.
    + destruct N1. apply in_map_iff. exists (k, c); auto.
    + f_equal. apply IH; auto.
Qed.

(** *** lifting *)
Definition fle (f f' : flight) : Prop :=
  f_key f' = f_key f /\ (f_res f = None \/ f_res f' = f_res f) /\ (f_rung f = true -> f_rung f' = true).

Lemma fle_refl f : fle f f. Proof. repeat split; auto. Qed.

Lemma caller_ok_mono s s' k :
  (forall c f, nth_error (flights s) c = Some f -> exists f', nth_error (flights s') c = Some f' /\ fle f f') ->
  caller_ok s k -> caller_ok s' k.
Proof.
  intros M. unfold caller_ok, for_key, result. destruct (k_phase k); auto.
  - intros (f & F & K). destruct (M _ _ F) as (f' & F' & A & _). exists f'. split; auto. congruence.
  - intros (f & F & K). destruct (M _ _ F) as (f' & F' & A & _). exists f'. split; auto. congruence.
  - intros (f & F & K & B). destruct (M _ _ F) as (f' & F' & A & _ & C). exists f'. repeat split; auto. congruence.
  - intros (B & f & F & K). destruct (M _ _ F) as (f' & F' & A & _). split; auto. exists f'. split; auto. congruence.
  - intros ((f & F & K) & R & N). destruct (M _ _ F) as (f' & F' & A & Q & _). rewrite F in R.
    split; [exists f'; split; auto; congruence|]. rewrite F'. split; auto.
    destruct Q as [Q|Q]; congruence.
Qed.

Lemma upd_fle s c f f' : nth_error (flights s) c = Some f -> fle f f' ->
  forall d g, nth_error (flights s) d = Some g ->
  exists g', nth_error (upd (flights s) c f') d = Some g' /\ fle g g'.
Proof.
  intros F L d g G. destruct (Nat.eq_dec d c) as [->|D].
  - exists f'. rewrite nth_upd_lt by (apply nth_error_Some; congruence). split; auto. congruence.
  - exists g. rewrite nth_upd_neq by auto. split; auto. apply fle_refl.
Qed.

Lemma inv_caller kd s i c p : inv kd s -> nth_error (callers s) i = Some c ->
  caller_ok s (mkK (k_key c) p) -> inv kd (with_caller s i c p).
Proof.
  intros [A B C D E E' F] H K. split; auto; simpl.
  intros j k. destruct (Nat.eq_dec j i) as [->|N].
  - rewrite nth_upd_lt by (apply nth_error_Some; congruence). intros [= <-]. exact K.
  - rewrite nth_upd_neq by auto. intros Q. apply (F _ _ Q).
Qed.

Lemma inv_cnt kd s n : inv kd s -> inv kd (with_cnt s n).
Proof. intros [A B C D E E' F]. split; auto. Qed.

Lemma inv_flight kd s c f f' e' ev' :
  inv kd s -> nth_error (flights s) c = Some f -> fle f f' -> fwf kd f' ->
  NoDup (map fst e') -> (forall x, In x e' -> In x (entries s)) ->
  (forall k d, In (k, d) (entries s) -> d <> c -> In (k, d) e') ->
  (must_in kd f' = true -> In (f_key f, c) e') ->
  (dropped kd f' = true -> ~ In (f_key f, c) e') ->
  ((ev' = Some c /\ f_phase f' = FEvict /\ evictor s = None) \/
   (ev' = None /\ evictor s = Some c /\ f_phase f' <> FEvict) \/
   (ev' = evictor s /\ f_phase f <> FEvict /\ f_phase f' <> FEvict)) ->
  inv kd (mkState e' (upd (flights s) c f') (callers s) ev' (cnt s)).
Proof.
  intros [A B C D E E' F] HF L W ND SUB KEEP IN OUT EV.
  assert (LT : c < length (flights s)) by (apply nth_error_Some; congruence).
  pose proof L as (LK & LR & LG).
  split; auto; simpl.
  - intros k d H. pose proof (B _ _ (SUB _ H)) as (g & G & K & O).
    destruct (Nat.eq_dec d c) as [->|N].
    + rewrite nth_upd_lt by auto. exists f'. assert (g = f) by congruence. subst g.
      repeat split; auto; try congruence.
      destruct (dropped kd f') eqn:Q; auto. destruct (OUT eq_refl). congruence.
    + rewrite nth_upd_neq by auto. exists g. auto.
  - intros d g. destruct (Nat.eq_dec d c) as [->|N].
    + rewrite nth_upd_lt by auto. intros [= <-]. rewrite LK. auto.
    + rewrite nth_upd_neq by auto. intros G M. apply KEEP; auto.
  - intros d g. destruct (Nat.eq_dec d c) as [->|N].
    + rewrite nth_upd_lt by auto. intros [= <-]. auto.
    + rewrite nth_upd_neq by auto. apply D.
  - intros d Q. destruct EV as [(->&P&_)|[(->&_)|(->&P&P')]].
    + injection Q as <-. exists f'. rewrite nth_upd_lt; auto.
    + discriminate.
    + destruct (E _ Q) as (g & G & PG). exists g. rewrite nth_upd_neq; auto. intros ->. congruence.
  - intros d g. destruct (Nat.eq_dec d c) as [->|N].
    + rewrite nth_upd_lt by auto. intros [= <-] P. destruct EV as [(->&_)|[(_&_&P')|(_&_&P')]]; congruence.
    + rewrite nth_upd_neq by auto. intros G P. pose proof (E' _ _ G P) as Q.
      destruct EV as [(_&_&Z)|[(_&Z&_)|(->&_)]]; congruence.
  - intros i k K. apply (caller_ok_mono s); [|apply (F _ _ K)]. simpl. apply (upd_fle s c f f'); auto.
Qed.

(* the common case: entries and evictor unchanged *)
Lemma inv_flight_same kd s c f f' :
  inv kd s -> nth_error (flights s) c = Some f -> fle f f' -> fwf kd f' ->
  (must_in kd f' = true -> must_in kd f = true) ->
  (dropped kd f' = true -> dropped kd f = true) ->
  f_phase f <> FEvict -> f_phase f' <> FEvict ->
  inv kd (with_flight s c f').
Proof.
  intros I HF L W MI MO P P'. pose proof I as [A B C D E E' F].
  apply (inv_flight kd s c f f'); auto.
  - intros Q H. apply B in H. destruct H as (g & G & K & O). replace g with f in O by congruence.
    rewrite MO in O; auto. discriminate.
Qed.


Section W.
Variable weight : nat -> nat.
Notation step := (step weight).

Lemma oldest_none l : oldest l = None -> l = [].
Proof. destruct l; simpl; auto. destruct (oldest l) as [e|]; [destruct (_ <=? _)|]; discriminate. Qed.
Lemma oldest_some l e : oldest l = Some e -> In e l /\ forall e', In e' l -> snd e <= snd e'.
Proof.
  revert e. induction l as [|a l IH]; simpl; [discriminate|]. intros e.
  destruct (oldest l) as [m|] eqn:O.
  - destruct (IH _ eq_refl) as [H1 H2].
    destruct (Nat.leb_spec (snd a) (snd m)); intros [= <-]; split; auto.
    + intros e' [->|H']; auto. specialize (H2 _ H'). lia.
    + intros e' [->|H']; auto. lia.
  - intros [= <-]. apply oldest_none in O. subst. split; auto. intros e' [->|[]]; auto.
Qed.

Ltac ph := unfold fwf, must_in, dropped, failed, fle, at_phase in *; simpl in *.

Lemma step_inv kd s o : inv kd s -> inv kd (step kd s o).
Proof.
  intros I. pose proof I as [A B C D E E' F]. destruct o; cbn [Flight_Model.step].
  - (* OCall *) split; auto; simpl. intros i c.
    destruct (Nat.lt_ge_cases i (length (callers s))).
    + rewrite nth_error_app1 by auto. intros Q. apply (F _ _ Q).
    + rewrite nth_error_app2 by auto. destruct (i - length (callers s)) as [|[|]]; simpl; try discriminate.
      intros [= <-]. exact Logic.I.
  - (* OLock *)
    destruct (nth_error (callers s) i) as [c|] eqn:HC; auto.
    destruct (k_phase c) eqn:HP; auto. destruct (free s) eqn:HF; auto.
    destruct (find_entry (k_key c) (entries s)) as [fl|] eqn:HE.
    + apply inv_cnt. apply inv_caller; auto. unfold caller_ok; simpl.
      apply find_entry_some in HE. apply B in HE. destruct HE as (f & G & K & _). exists f. auto.
    + assert (OLD : forall d g, nth_error (flights s) d = Some g ->
        nth_error (flights s ++ [mkF (k_key c) None false FNew]) d = Some g).
      { intros d g G. rewrite nth_error_app1; auto. apply nth_error_Some. congruence. }
      assert (NEW : nth_error (flights s ++ [mkF (k_key c) None false FNew]) (length (flights s))
                    = Some (mkF (k_key c) None false FNew)).
      { rewrite nth_error_app2 by auto. rewrite Nat.sub_diag. auto. }
      assert (INV : forall d g, nth_error (flights s ++ [mkF (k_key c) None false FNew]) d = Some g ->
        nth_error (flights s) d = Some g \/ (d = length (flights s) /\ g = mkF (k_key c) None false FNew)).
      { intros d g. destruct (Nat.lt_ge_cases d (length (flights s))).
        - rewrite nth_error_app1 by auto. auto.
        - rewrite nth_error_app2 by auto. intros G. right.
          destruct (d - length (flights s)) as [|[|]] eqn:Q; simpl in G; try discriminate.
          split; [lia|congruence]. }
      split; simpl.
      * rewrite map_app. simpl. apply find_entry_none in HE.
        apply NoDup_rev in A. rewrite <- (rev_involutive (_ ++ _)). apply NoDup_rev.
        rewrite rev_app_distr. simpl. constructor; auto. intros Q. apply in_rev in Q. auto.
      * intros k d Q. apply in_app_or in Q. destruct Q as [Q|[Q|[]]].
        -- destruct (B _ _ Q) as (f & G & K & O). exists f. auto.
        -- injection Q as <- <-. exists (mkF (k_key c) None false FNew). auto.
      * intros d g G M. apply in_or_app. destruct (INV _ _ G) as [G'|[-> ->]]; simpl; auto.
      * intros d g G. destruct (INV _ _ G) as [G'|[-> ->]]; [apply (D _ _ G')|split; auto].
      * intros d Q. destruct (E _ Q) as (f & G & P). exists f. auto.
      * intros d g G P. destruct (INV _ _ G) as [G'|[-> ->]]; [apply (E' _ _ G' P)|discriminate].
      * intros j k. destruct (Nat.eq_dec j i) as [->|N].
        -- rewrite nth_upd_lt by (apply nth_error_Some; congruence). intros [= <-].
           unfold caller_ok, for_key; simpl. exists (mkF (k_key c) None false FNew). auto.
        -- rewrite nth_upd_neq by auto. intros Q. apply (caller_ok_mono s); [|apply (F _ _ Q)].
           simpl. intros d g G. exists g. split; auto. apply fle_refl.
  - (* OStart *)
    destruct (nth_error (callers s) i) as [c|] eqn:HC; auto.
    destruct (k_phase c) eqn:HP; auto.
    destruct (nth_error (flights s) c0) as [f|] eqn:HF; auto.
    destruct (f_phase f) eqn:P; auto.
    assert (I2 : inv kd (with_flight s c0 (at_phase f FRun))).
    { pose proof (D _ _ HF) as Wf. apply (inv_flight_same kd s c0 f); auto; ph; rewrite ?P in *; intuition congruence. }
    destruct (is_blocking kd); [apply inv_cnt; auto|].
    apply inv_caller; [apply inv_cnt; auto|exact HC|].
    unfold caller_ok; simpl. exists (at_phase f FRun). simpl.
    rewrite nth_upd_lt by (apply nth_error_Some; congruence). split; auto.
    pose proof (F _ _ HC) as Q. unfold caller_ok in Q. rewrite HP in Q. destruct Q as (g & G & K). congruence.
  - (* OStartPanic *)
    destruct (is_blocking kd) eqn:BL; auto.
    destruct (nth_error (callers s) i) as [c|] eqn:HC; auto.
    destruct (k_phase c) eqn:HP; auto.
    destruct (nth_error (flights s) c0) as [f|] eqn:HF; auto.
    destruct (f_phase f) eqn:P; auto.
    apply inv_caller; [apply inv_cnt|exact HC|exact Logic.I].
    pose proof (D _ _ HF) as Wf. apply (inv_flight_same kd s c0 f); auto; ph; rewrite ?P in *; intuition congruence.
  - (* OFinish *)
    destruct (nth_error (flights s) c) as [f|] eqn:HF; auto.
    destruct (f_phase f) eqn:P; auto. apply inv_cnt.
    pose proof (D _ _ HF) as Wf. apply (inv_flight_same kd s c f); auto; ph; rewrite ?P in *; auto; try congruence.
    unfold quiet. destruct r; try destruct (is_blocking kd); intuition congruence.
  - (* OStep *)
    destruct (nth_error (flights s) c) as [f|] eqn:HF; auto.
    pose proof (D _ _ HF) as Wf.
    destruct (f_phase f) eqn:P; auto.
    + destruct (is_blocking kd && negb (is_ok r)) eqn:BE.
      * destruct (free s) eqn:FR; auto.
        destruct (remove_owned_spec (f_key f) c (entries s) A) as [N1 N2].
        apply (inv_flight kd s c f); auto; ph; rewrite ?P in *.
        -- intuition.
        -- apply andb_prop in BE. rewrite negb_true_iff in BE. intuition.
        -- intros x H. apply N2 in H. tauto.
        -- intros k d H ND. apply N2. split; auto. congruence.
        -- discriminate.
        -- intros _ H. apply N2 in H. tauto.
        -- right; right. repeat split; auto; congruence.
      * apply (inv_flight_same kd s c f); auto; ph; rewrite ?P in *; auto; try congruence.
        -- intuition congruence.
        -- destruct Wf as (W1 & W2 & W3). split; auto. exists r. auto.
        -- destruct (is_blocking kd); simpl in *; try discriminate. destruct r; simpl in *; auto; discriminate.
    + apply (inv_flight_same kd s c f); auto; ph; rewrite ?P in *; auto; try congruence.
      * intuition congruence.
      * destruct Wf as (W1 & W2 & W3 & W4). split; auto. exists r. auto.
      * destruct Wf as (W1 & W2 & W3 & W4 & W5). rewrite W4. simpl. discriminate.
      * destruct (is_blocking kd); simpl; auto; discriminate.
    + apply (inv_flight_same kd s c f); auto; ph; rewrite ?P in *; auto; try congruence.
      * intuition congruence.
    + destruct (f_res f) as [r|] eqn:R; auto.
      assert (DONE : is_ok r = true \/ is_blocking kd = true -> inv kd (with_flight s c (at_phase f FDone))).
      { intros OB. apply (inv_flight_same kd s c f); auto; ph; rewrite ?P in *; auto; try congruence.
        rewrite R. destruct OB as [OB|OB]; [destruct r; try discriminate|rewrite OB]; auto. }
      assert (EV : limits kd <> None -> is_ok r = true \/ is_blocking kd = true -> free s = true ->
                   inv kd (with_evictor (with_flight s c (at_phase f FEvict)) (Some c))).
      { intros LM OB FR. apply (inv_flight kd s c f); auto; ph; rewrite ?P in *; auto; try congruence.
        - intuition.
        - rewrite R. intros Q. intros H. apply B in H. destruct H as (g & G & _ & O).
          replace g with f in O by congruence. rewrite P, R in O.
          destruct OB as [OB|OB]; [destruct r; discriminate|]. rewrite OB in O. simpl in O. congruence.
        - left. unfold free in FR. destruct (evictor s); auto. discriminate. }
      assert (RM : is_blocking kd = false -> is_ok r = false -> free s = true ->
          inv kd (with_flight (with_entries s (remove_if_owned (f_key f) c (entries s))) c (at_phase f FDone))).
      { intros BL OK FR.
        destruct (remove_owned_spec (f_key f) c (entries s) A) as [N1 N2].
        apply (inv_flight kd s c f); auto; ph; rewrite ?P in *; auto; try congruence.
        - intros x H. apply N2 in H. tauto.
        - intros k d H ND. apply N2. split; auto. congruence.
        - intros _ H. apply N2 in H. tauto.
        - right; right. repeat split; auto; congruence. }
      ph. rewrite P in Wf. destruct Wf as (W1 & r' & W2 & W3). replace r' with r in W3 by congruence.
      destruct r as [v|e|]; simpl in *.
      * destruct (is_blocking kd) eqn:BL; [|destruct (limits kd) eqn:LM]; try (destruct (free s)); auto.
        -- apply EV; auto. destruct kd; simpl in *; congruence.
        -- apply EV; auto. congruence.
      * destruct (is_blocking kd) eqn:BL; destruct (free s); auto. apply EV; auto. destruct kd; simpl in *; congruence.
      * apply DONE; auto.
    + assert (FIN : inv kd (with_evictor (with_flight s c (at_phase f FDone)) None)).
      { apply (inv_flight kd s c f); auto; ph; rewrite ?P in *; auto; try congruence.
        - intuition.
        - intros Q H. apply B in H. destruct H as (g & G & _ & O).
          replace g with f in O by congruence. rewrite P in O. congruence.
        - right; left. repeat split; auto; try congruence. apply (E' _ _ HF P). }
      destruct (within weight kd s); auto. destruct (oldest (retained s)) as [e|] eqn:OL; auto.
      apply inv_cnt. apply oldest_some in OL. destruct OL as [OL _].
      unfold retained in OL. apply filter_In in OL. destruct OL as [OL1 OL2].
      destruct e as [ke ce]. unfold completed_ok, result in OL2. simpl in OL2.
      split; auto; simpl.
      * apply nodup_filter_fst; auto.
      * intros k d H. apply remove_entry_in in H. apply B; tauto.
      * intros d g G M. apply remove_entry_in. split; [apply C; auto|]. simpl. intros K.
        pose proof (C _ _ G M) as H. rewrite K in H. pose proof (nodup_fst_inj _ _ _ _ A H OL1). subst d.
        rewrite G in OL2. pose proof (D _ _ G) as Wg. ph.
        destruct (f_phase g); destruct (f_res g) as [[]|]; simpl in *; rewrite ?andb_false_r in M; try discriminate; destruct Wg; discriminate.
  - (* OOwner *)
    destruct (negb (is_blocking kd)); auto.
    destruct (nth_error (callers s) i) as [c|] eqn:HC; auto.
    destruct (k_phase c) eqn:HP; auto.
    destruct (nth_error (flights s) c0) as [f|] eqn:HF; auto.
    destruct (f_phase f) eqn:P; auto. apply inv_caller; auto.
    pose proof (F _ _ HC) as Q. unfold caller_ok in Q. rewrite HP in Q.
    destruct (f_res f) as [[]|]; exact Q || exact Logic.I.
  - (* OWait *)
    destruct (nth_error (callers s) i) as [c|] eqn:HC; auto.
    pose proof (F _ _ HC) as Q. unfold caller_ok in Q.
    destruct (k_phase c) eqn:HP; auto.
    + destruct (nth_error (flights s) c0) as [f|] eqn:HF; auto. apply inv_caller; auto.
      destruct Q as (g & G & K). exists g. replace f with g by congruence. auto.
    + destruct Q as (g & G & K & RG).
      destruct (result s c0) as [r|] eqn:R.
      * assert (inv kd (with_caller s i c (KGot c0 r)) \/ r = RPanicked).
        { destruct r; auto; left; apply inv_caller; auto; unfold caller_ok; simpl; repeat split; auto; try discriminate; exists g; auto. }
        destruct r; try (destruct H as [H|H]; [exact H|discriminate]).
        apply inv_caller; auto. exact Logic.I.
      * apply inv_caller; auto. unfold caller_ok; simpl. split; [|exists g; auto].
        destruct rung; auto. specialize (RG eq_refl). unfold result in R. rewrite G in R.
        pose proof (D _ _ G) as Wg. unfold fwf in Wg. rewrite R, RG in Wg.
        destruct (f_phase g); decompose [and ex] Wg; discriminate.
    + destruct (nth_error (flights s) c0) as [f|] eqn:HF; auto.
      destruct (Bool.eqb (f_rung f) rung); auto. apply inv_caller; auto. exact (proj2 Q).
  - (* ODrop *)
    destruct (is_blocking kd); auto.
    destruct (nth_error (callers s) i) as [c|] eqn:HC; auto.
    destruct (k_phase c) eqn:HP; auto; apply inv_caller; auto; exact Logic.I.
Qed.

Lemma init_inv kd : inv kd init.
Proof.
  split; simpl; try constructor; try discriminate; try easy;
  intros c f H; destruct c; discriminate.
Qed.

Lemma run_inv kd h : forall s, inv kd s -> inv kd (run weight kd s h).
Proof. induction h; simpl; auto. intros s I. apply IHh. apply step_inv. auto. Qed.

Lemma reachable_inv kd s : reachable weight kd s -> inv kd s.
Proof. intros [h ->]. apply run_inv, init_inv. Qed.
End W.
