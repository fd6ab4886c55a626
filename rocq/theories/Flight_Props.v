(** C12-C15, C54: the single-flight caches. *)
From Coq Require Import List Arith Bool Lia.
From Verif Require Import Lib Flight_Model Flight_Spec Flight_Proofs Flight_Proofs2 Flight_Proofs3.
Import ListNotations.

Section Props.
Variable weight : nat -> nat.
Notation step := (step weight).
Notation run := (run weight).
Notation reachable := (reachable weight).

(** At most one producer per key runs at any time. *)
Theorem C12_one_producer_per_key : forall kd s c d k,
  reachable kd s -> producing s c k -> producing s d k -> c = d.
Proof.
  intros kd s c d k R (f & F & K & P) (g & G & K' & P'). apply reachable_inv in R.
  assert (H1 : In (k, c) (entries s)).
  { rewrite <- K. apply (i_in _ _ R); auto. unfold must_in. rewrite P. auto. }
  assert (H2 : In (k, d) (entries s)).
  { rewrite <- K'. apply (i_in _ _ R); auto. unfold must_in. rewrite P'. auto. }
  apply (nodup_fst_inj _ _ _ _ (i_nodup _ _ R) H1 H2).
Qed.

(** A lookup made while a producer for the key runs takes that producer's flight. *)
Theorem C12_lookup_joins_running_producer : forall kd h1 h2 i k c c' r,
  let s := run kd init h1 in
  producing s c k -> evictor s = None -> call s i k KStart ->
  call (run kd init (h1 ++ OLock i :: h2)) i k (KGot c' r) -> c' = c.
Proof.
  intros kd h1 h2 i k c c' r s (f & F & K & P) EV C G.
  assert (I : inv kd s) by apply run_inv, init_inv.
  assert (H1 : In (k, c) (entries s)).
  { rewrite <- K. apply (i_in _ _ I); auto. unfold must_in. rewrite P. auto. }
  rewrite run_app in G. change (run kd (run kd init h1) (OLock i :: h2)) with (run kd (step kd s (OLock i)) h2) in G.
  assert (C1 : call (step kd s (OLock i)) i k (KReg c)).
  { unfold call in *. simpl. rewrite C. simpl. unfold free. rewrite EV.
    rewrite (find_entry_in _ _ _ (i_nodup _ _ I) H1). simpl. apply (nth_upd_eq _ _ _ _ C). }
  destruct (run_call weight kd h2 _ _ _ _ (step_inv _ _ _ _ I) C1) as (p & C2 & A); [discriminate|].
  unfold call in *. rewrite C2 in G. injection G as ->. simpl in A. symmetry. apply A. auto.
Qed.

(** What a call returns is what one run of a producer for the same key returned. *)
Theorem C12_results_come_from_the_producer : forall kd h i k c r,
  let s := run kd init h in
  call s i k (KGot c r) ->
  exists h1 r0 h2, h = h1 ++ OFinish c r0 :: h2 /\ producing (run kd init h1) c k /\
    r = match r0 with RPanicked => RErr join_error | _ => r0 end.
Proof.
  intros kd h i k c r s C. assert (I : inv kd s) by apply run_inv, init_inv.
  pose proof (i_call _ _ I _ _ C) as Q. unfold caller_ok in Q. simpl in Q.
  destruct Q as ((f & F & K) & R & N). unfold result in R. rewrite F in R.
  destruct (run_outcome weight kd h c f r F) as (h1 & r0 & h2 & E & P & E2).
  - pose proof (i_fwf _ _ I _ _ F) as W. unfold fwf in W. unfold outcome. rewrite R in *.
    destruct (f_phase f); auto; destruct W; discriminate.
  - rewrite K in P. exists h1, r0, h2. repeat split; auto. subst r. unfold published in *.
    destruct r0; auto. destruct (is_blocking kd); congruence.
Qed.

(** All calls attached to one flight get the same result, now and later. *)
Theorem C12_one_result_per_flight : forall kd h1 h2 i j k k' c r r',
  call (run kd init h1) i k (KGot c r) -> call (run kd init (h1 ++ h2)) j k' (KGot c r') -> r = r' /\ k = k'.
Proof.
  intros kd h1 h2 i j k k' c r r' C C'.
  assert (I : inv kd (run kd init h1)) by apply run_inv, init_inv.
  assert (I' : inv kd (run kd init (h1 ++ h2))) by apply run_inv, init_inv.
  pose proof (i_call _ _ I _ _ C) as Q. pose proof (i_call _ _ I' _ _ C') as Q'.
  unfold caller_ok, for_key, result in *. simpl in *.
  destruct Q as ((f & F & K) & R & _), Q' as ((f' & F' & K') & R' & _).
  rewrite F in R. rewrite F' in R'. rewrite run_app in F'.
  destruct (run_fle weight kd h2 _ _ _ I F) as (g & G & L1 & L2 & _). rewrite G in F'. injection F' as ->.
  split; [destruct L2; congruence|congruence].
Qed.

(** A failure published before a call looked up its key is never that call's result. *)
Theorem C13_blocking_failure_not_served : forall e w h1 h2 i k k' c r c' r',
  let kd := Blocking e w in
  let s := run kd init h1 in
  result s c = Some r -> failure r -> call s i k KStart ->
  call (run kd init (h1 ++ h2)) i k' (KGot c' r') -> c' <> c.
Proof.
  intros e w h1 h2 i k k' c r c' r' kd s R F C G ->.
  assert (I : inv kd s) by apply run_inv, init_inv.
  rewrite run_app in G.
  destruct (run_not_attached weight kd h2 _ _ _ _ _ I (blocking_failed_gone e w s c r I R F) C) as (p & C' & N); [simpl; auto|].
  fold s in G. unfold call in *. rewrite C' in G. injection G as -> ->. apply N. simpl. auto.
Qed.

(** For the asynchronous caches this holds once the producer's task has finished its
    clean-up; the window before that is [C13_async_failure_served_refuted]. *)
Theorem C13_failure_not_served_after_cleanup_partial : forall kd h1 h2 i k k' c r c' r',
  let s := run kd init h1 in
  result s c = Some r -> failure r -> phase_of s c = Some FDone -> call s i k KStart ->
  call (run kd init (h1 ++ h2)) i k' (KGot c' r') -> c' <> c.
Proof.
  intros kd h1 h2 i k k' c r c' r' s R F P C G ->.
  assert (I : inv kd s) by apply run_inv, init_inv.
  rewrite run_app in G.
  destruct (run_not_attached weight kd h2 _ _ _ _ _ I (done_failed_gone kd s c r I R F P) C) as (p & C' & N); [simpl; auto|].
  fold s in G. unfold call in *. rewrite C' in G. injection G as -> ->. apply N. simpl. auto.
Qed.

(** Once no published product is waiting for its producer's clean-up, the completed products
    respect both limits. *)
Theorem C14_limits_hold : forall kd e w s, limits kd = Some (e, w) -> reachable kd s ->
  (forall c, ~ unsettled s c) ->
  length (retained s) <= e /\ retained_weight weight s <= w.
Proof.
  intros kd e w s L [h ->] N.
  destruct (run_settled weight kd h init (init_inv kd) (init_settled weight kd)) as [[c U]|W]; [destruct (N _ U)|].
  unfold within in W. rewrite L in W. apply andb_prop in W. rewrite !Nat.leb_le in W. auto.
Qed.
(** [retained s] is exactly the keys with a successful product, without repetition. *)
Theorem C14_retained_means : forall kd s, reachable kd s ->
  NoDup (map fst (retained s)) /\
  forall k c, In (k, c) (retained s) <-> exists v, retained_value s k c v.
Proof.
  intros kd s R. apply reachable_inv in R. split.
  - apply nodup_filter_fst. apply R.
  - intros k c. unfold retained, retained_value, cached. rewrite filter_In. unfold completed_ok. simpl.
    split.
    + intros [H1 H2]. destruct (result s c) as [[]|]; try discriminate. eauto.
    + intros (v & H1 & H2). rewrite H2. auto.
Qed.

(** An entry leaves the cache only because its own producer failed, or because the completed
    products exceed a limit and it is the oldest of them. *)
Theorem C14_only_oldest_completed_evicted : forall kd s o k c, reachable kd s ->
  cached s k c -> ~ cached (step kd s o) k c ->
  (exists f, nth_error (flights s) c = Some f /\ failed f = true) \/
  (exists e w v, limits kd = Some (e, w) /\ retained_value s k c v /\
     (e < length (retained s) \/ w < retained_weight weight s) /\
     (forall k' c' v', retained_value s k' c' v' -> c <= c') /\
     evictions (cnt (step kd s o)) = S (evictions (cnt s)) /\
     forall k' c', c' <> c -> cached s k' c' -> cached (step kd s o) k' c').
Proof.
  intros kd s o k c R H. apply reachable_inv in R. rename R into I. unfold cached in *.
  destruct (step_effect weight kd s o I); simpl; try tauto.
  - rewrite H0, H1. replace (free s) with true by (unfold free; rewrite H2; auto).
    rewrite (find_entry_in _ _ _ (i_nodup _ _ I) H3). simpl. tauto.
  - intros N. destruct N. apply in_or_app. auto.
  - intros N. left.
    destruct (remove_owned_spec (f_key f) c0 (entries s) (i_nodup _ _ I)) as [_ Q].
    destruct (Nat.eq_dec c c0) as [->|D].
    + exists f. split; auto. unfold failed. destruct H3 as [(P&_)|(P&R&_)]; rewrite P; [|rewrite R]; destruct r; simpl in *; auto; discriminate.
    + destruct N. apply Q. split; auto. congruence.
  - intros N. right. unfold within in H2. destruct (limits kd) as [[me mw]|]; [|discriminate].
    apply oldest_some in H3. destruct H3 as [O1 O2]. destruct e as [ke ce].
    assert (ke = k /\ ce = c) as [-> ->].
    { pose proof O1 as O3. apply filter_In in O3. destruct O3 as [O3 _].
      destruct (Nat.eq_dec ke k) as [->|D].
      - split; auto. apply (nodup_fst_inj _ _ _ _ (i_nodup _ _ I) O3 H).
      - destruct N. apply remove_entry_in. simpl. auto. }
    pose proof O1 as O3. apply filter_In in O3. destruct O3 as [O3 O4].
    unfold completed_ok in O4. simpl in O4. destruct (result s c) as [[v| |]|] eqn:R; try discriminate.
    exists me, mw, v. split; auto. split; [split; auto|]. split.
    + apply andb_false_iff in H2. rewrite !Nat.leb_gt in H2. auto.
    + split; [|split; auto].
      * intros k' c' v' [A B]. apply (O2 (k', c')). unfold retained. apply filter_In. split; auto.
        unfold completed_ok. simpl. rewrite B. auto.
      * intros k' c' D Q. apply remove_entry_in. simpl. split; auto. intros ->. apply D.
        apply (nodup_fst_inj _ _ _ _ (i_nodup _ _ I) Q H).
Qed.

(** A flight whose producer has not returned keeps its entry. *)
Theorem C14_in_flight_kept : forall kd s c f, reachable kd s ->
  nth_error (flights s) c = Some f -> returned (f_phase f) = false -> cached s (f_key f) c.
Proof.
  intros kd s c f R F P. apply reachable_inv in R. apply (i_in _ _ R); auto.
  unfold must_in. destruct (f_phase f); auto; discriminate.
Qed.

Theorem C15_lookups_exact : forall kd s, reachable kd s ->
  lookups (cnt s) = length (callers s) /\
  hits (cnt s) + joined (cnt s) + misses (cnt s) = count past_lookup (callers s).
Proof.
  intros kd s [h ->]. destruct (run_cinv weight kd h init (init_inv kd) (init_cinv kd)). auto.
Qed.
(** ... so the sum equals lookups whenever no call is between counting and locking. *)
Theorem C15_sum_when_quiet : forall kd s, reachable kd s ->
  (forall i k, ~ call s i k KStart) ->
  lookups (cnt s) = hits (cnt s) + joined (cnt s) + misses (cnt s).
Proof.
  intros kd s R N. destruct (C15_lookups_exact kd s R) as [A B]. rewrite A, B.
  rewrite count_filter. clear A B. unfold call in N.
  induction (callers s) as [|c l IH]; simpl; auto.
  assert (past_lookup c = true).
  { destruct c as [k p]. unfold past_lookup. simpl. destruct p; auto. destruct (N 0 k). auto. }
  rewrite H. simpl. f_equal. apply IH. intros i k. apply (N (S i) k).
Qed.
Theorem C15_producers_exact : forall kd s, reachable kd s ->
  misses (cnt s) = length (flights s) /\
  producers (cnt s) = count begun (flights s) /\
  failures (cnt s) = count failed (flights s).
Proof.
  intros kd s [h ->]. destruct (run_cinv weight kd h init (init_inv kd) (init_cinv kd)). auto.
Qed.
Theorem C15_producers_equal_misses : forall kd s, reachable kd s ->
  (forall c, phase_of s c <> Some FNew) -> producers (cnt s) = misses (cnt s).
Proof.
  intros kd s R N. destruct (C15_producers_exact kd s R) as (A & B & _). rewrite A, B. clear A B R.
  rewrite count_filter. unfold phase_of in N. induction (flights s) as [|f l IH]; simpl; auto.
  assert (begun f = true).
  { unfold begun. destruct (f_phase f) eqn:P; auto. destruct (N 0). simpl. congruence. }
  rewrite H. simpl. f_equal. apply IH. intros c. apply (N (S c)).
Qed.
(** A lookup is a hit when the key has a published result, a join when its flight is still
    running, a miss when there is no entry, and changes no other lookup counter. *)
Theorem C15_lookup_classification : forall kd s i k, reachable kd s ->
  call s i k KStart -> evictor s = None ->
  let n := cnt s in let n' := cnt (step kd s (OLock i)) in
  ((exists c r, cached s k c /\ result s c = Some r) ->
     hits n' = S (hits n) /\ joined n' = joined n /\ misses n' = misses n) /\
  ((exists c, cached s k c /\ result s c = None) ->
     hits n' = hits n /\ joined n' = S (joined n) /\ misses n' = misses n) /\
  ((forall c, ~ cached s k c) ->
     hits n' = hits n /\ joined n' = joined n /\ misses n' = S (misses n)).
Proof.
  intros kd s i k R C E. pose proof R as R0. apply reachable_inv in R. rename R into I.
  unfold call, cached in *. simpl. rewrite C. unfold free. rewrite E. simpl.
  destruct (find_entry k (entries s)) as [fl|] eqn:F.
  - pose proof (find_entry_some _ _ _ F) as Q. split; [|split].
    + intros (c & r & A & B). rewrite (nodup_fst_inj _ _ _ _ (i_nodup _ _ I) A Q) in B. rewrite B.
      replace (if is_blocking kd then is_ok r else true) with true; auto.
      destruct (is_blocking kd) eqn:BL; auto. destruct kd as [| |e w]; try discriminate.
      destruct (is_ok r) eqn:OK; auto.
      destruct (blocking_failed_gone e w s fl r I B) as [_ G]; [intros v ->; discriminate|]. destruct (G _ Q).
    + intros (c & A & B). rewrite (nodup_fst_inj _ _ _ _ (i_nodup _ _ I) A Q) in B. rewrite B. auto.
    + intros N. destruct (N _ Q).
  - apply find_entry_none in F. simpl. split; [|split]; auto.
    + intros (c & r & A & _). destruct F. apply in_map_iff. exists (k, c). auto.
    + intros (c & A & _). destruct F. apply in_map_iff. exists (k, c). auto.
Qed.
(** Every miss is accounted for: still cached, evicted, or dropped as a failure. *)
Theorem C15_entries_balance : forall kd s, reachable kd s ->
  length (entries s) + evictions (cnt s) + count (dropped kd) (flights s) = misses (cnt s).
Proof.
  intros kd s [h ->]. destruct (run_cinv weight kd h init (init_inv kd) (init_cinv kd)). auto.
Qed.

(** A sleeping call whose producer has returned can always be answered by the producer's own
    remaining steps and the call's own: no lock or wake-up it needs is missing. *)
Theorem C54_waiter_can_be_answered : forall kd s i k c b p, reachable kd s ->
  call s i k (KSleep c b) -> phase_of s c = Some p -> p <> FNew -> p <> FRun -> p <> FLost ->
  exists h p', Forall (fun o => match o with OStep _ | OWait _ => True | _ => False end) h /\
    call (run kd s h) i k p' /\ (p' = KPanic \/ exists r, p' = KGot c r).
Proof.
  intros kd s i k c b p R C P N1 N2 N3. apply reachable_inv in R. rename R into I.
  unfold phase_of in P. destruct (nth_error (flights s) c) as [f|] eqn:F; [|discriminate].
  simpl in P. injection P as P.
  destruct (finish weight kd s c f I F) as (h & H1 & H2 & f' & r & F' & G & Re).
  { rewrite P. destruct p; auto; congruence. }
  assert (C' : call (run kd s h) i k (KSleep c b)) by (unfold call in *; congruence).
  pose proof (i_call _ _ I _ _ C) as Q. unfold caller_ok in Q. simpl in Q. destruct Q as [-> _].
  destruct (answer weight kd (run kd s h) i k c false f' r C' eq_refl F' G Re) as (p' & C2 & A).
  exists (h ++ [OWait i; OWait i; OWait i]), p'. rewrite run_app. split; [|split; auto].
  - apply Forall_app. split; [exact H1|repeat constructor].
  - assert (ATT : attached_phase p' c \/ p' = KPanic).
    { destruct (is_ok r); [subst; simpl; auto|]. destruct A as [->|(c' & r' & ->)]; auto.
      destruct (run_call weight kd [OWait i; OWait i; OWait i] _ _ _ _ (run_inv _ _ _ _ I) C') as (q & Cq & Aq); [discriminate|].
      unfold call in *. rewrite Cq in C2. injection C2 as ->. left. simpl in *. symmetry. apply Aq. auto. }
    destruct (is_ok r); [subst; eauto|]. destruct A as [->|(c' & r' & ->)]; auto.
    destruct ATT as [ATT|ATT]; [|discriminate]. simpl in ATT. subst. eauto.
Qed.

(** A sleeping call was not overtaken by the notification: if the producer has notified, the
    call's next step wakes it. *)
Theorem C54_notified_waiter_wakes : forall kd s i k c b f, reachable kd s ->
  call s i k (KSleep c b) -> nth_error (flights s) c = Some f -> f_rung f = true ->
  call (step kd s (OWait i)) i k (KReg c).
Proof.
  intros kd s i k c b f R C F G. apply reachable_inv in R. rename R into I.
  pose proof (i_call _ _ I _ _ C) as Q. unfold caller_ok in Q. simpl in Q. destruct Q as [-> _].
  unfold call in *. simpl. rewrite C. simpl. rewrite F, G. simpl. apply (nth_upd_eq _ _ _ _ C).
Qed.

(** If building the producer's future panics (after the entry was inserted), every later caller
    of that key waits forever. *)
Theorem C54_builder_panic_strands_key_refuted : exists h k i,
  call (run Unbounded init h) i k KStart /\
  forall h' k' c r, ~ call (run Unbounded init (h ++ OLock i :: h')) i k' (KGot c r).
Proof.
  exists [OCall 7; OLock 0; OStartPanic 0; OCall 7], 7, 1. split; [reflexivity|]. intros h' k' c r G.
  set (s := run Unbounded init [OCall 7; OLock 0; OStartPanic 0; OCall 7; OLock 1]) in *.
  assert (I : inv Unbounded s) by apply run_inv, init_inv.
  change ([OCall 7; OLock 0; OStartPanic 0; OCall 7] ++ OLock 1 :: h') with
    ([OCall 7; OLock 0; OStartPanic 0; OCall 7; OLock 1] ++ h') in G.
  rewrite run_app in G. fold s in G.
  assert (C1 : call s 1 7 (KReg 0)) by reflexivity.
  destruct (run_call weight Unbounded h' s 1 7 (KReg 0) I C1) as (p & C2 & A); [discriminate|].
  unfold call in *. rewrite C2 in G. injection G as <- ->. simpl in A. specialize (A c eq_refl). subst c.
  assert (L : nth_error (flights (run Unbounded s h')) 0 = Some (mkF 7 None false FLost)) by (apply run_lost; auto; reflexivity).
  pose proof (i_call _ _ (run_inv weight _ h' _ I) _ _ C2) as Q. destruct Q as (_ & Q & _). unfold result in Q.
  rewrite L in Q. discriminate.
Qed.
End Props.

Local Ltac conc := cbv zeta; repeat match goal with |- _ /\ _ => split end; try (vm_compute; reflexivity).

(** The asynchronous caches serve a failure to a caller that arrives after it was published:
    the entry is removed only after the waiters were notified. The late call is even counted
    as a cache hit. *)
Theorem C13_async_failure_served_refuted : exists h1 h2 i k c e,
  let s := run (fun v => v) Unbounded init h1 in
  result s c = Some (RErr e) /\ call s i k KStart /\
  call (run (fun v => v) Unbounded init (h1 ++ h2)) i k (KGot c (RErr e)) /\
  producers (cnt (run (fun v => v) Unbounded init (h1 ++ h2))) = 1 /\
  hits (cnt (run (fun v => v) Unbounded init (h1 ++ h2))) = 1.
Proof.
  exists [OCall 7; OLock 0; OStart 0; OFinish 0 (RErr 5); OStep 0; OCall 7],
         [OLock 1; OWait 1; OWait 1], 1, 7, 0, 5. conc.
Qed.

(** Eviction is not minimal: a newest product heavier than the limit first pushes out all older
    ones, although dropping it alone would have met both limits. *)
Theorem C14_minimal_eviction_refuted : exists h,
  let kd := Bounded 10 5 in
  let s := run (fun v => v) kd init h in
  entries s = [] /\ evictions (cnt s) = 2 /\ (forall c, ~ unsettled s c) /\
  exists h0 v, retained_value (run (fun v => v) kd init h0) 1 0 v /\ v <= 5 /\ exists h1, h = h0 ++ h1.
Proof.
  exists [OCall 1; OLock 0; OStart 0; OFinish 0 (ROk 1); OStep 0; OStep 0; OStep 0; OStep 0;
          OCall 2; OLock 1; OStart 1; OFinish 1 (ROk 9); OStep 1; OStep 1; OStep 1; OStep 1; OStep 1; OStep 1].
  conc.
  - intros c (f & v & F & R & P). vm_compute in F. destruct c as [|[|[|c]]]; simpl in F; try discriminate;
    injection F as <-; simpl in P; destruct P as [P|[P|P]]; discriminate.
  - exists [OCall 1; OLock 0; OStart 0; OFinish 0 (ROk 1); OStep 0; OStep 0; OStep 0; OStep 0], 1.
    split; [split; [left; vm_compute; reflexivity|vm_compute; reflexivity]|]. split; [lia|].
    eexists. reflexivity.
Qed.

(** *** The hypotheses are met *)
Definition ex_hist := [OCall 1; OLock 0; OStart 0; OCall 1; OCall 2; OLock 1; OLock 2; OStart 2;
  OWait 1; OWait 1; OFinish 0 (ROk 4); OFinish 1 (ROk 3); OStep 0; OStep 0].
Example ex_two_producers :
  let s := run (fun v => v) (Bounded 1 9) init [OCall 1; OLock 0; OStart 0; OCall 2; OLock 1; OStart 1] in
  producing s 0 1 /\ producing s 1 2 /\ phase_of s 0 = Some FRun.
Proof. conc; eexists; conc. Qed.
Example ex_sleeping :
  let s := run (fun v => v) (Bounded 1 9) init ex_hist in
  call s 1 1 (KSleep 0 false) /\ phase_of s 0 = Some FPost /\ unsettled s 0.
Proof. conc. exists (mkF 1 (Some (ROk 4)) true FPost), 4. conc. auto. Qed.
Example ex_joined_and_evicted :
  let s := run (fun v => v) (Bounded 1 9) init
    (ex_hist ++ [OStep 0; OStep 0; OWait 1; OWait 1; OWait 1; OStep 1; OStep 1; OStep 1; OStep 1; OStep 1]) in
  call s 1 1 (KGot 0 (ROk 4)) /\ entries s = [(2, 1)] /\ evictions (cnt s) = 1 /\
  phase_of s 0 = Some FDone /\ phase_of s 1 = Some FDone.
Proof. conc. Qed.
Example ex_blocking_failure :
  let kd := Blocking 4 9 in
  let h1 := [OCall 1; OLock 0; OStart 0; OFinish 0 (RErr 5); OStep 0; OStep 0; OCall 1] in
  let h2 := [OLock 1; OStart 1; OFinish 1 (ROk 2); OStep 1; OStep 1; OStep 1; OStep 1; OOwner 1; OWait 1; OWait 1] in
  result (run (fun v => v) kd init h1) 0 = Some (RErr 5) /\
  call (run (fun v => v) kd init h1) 1 1 KStart /\
  call (run (fun v => v) kd init (h1 ++ h2)) 1 1 (KGot 1 (ROk 2)).
Proof. conc. Qed.
Example ex_cleanup_done :
  let h1 := [OCall 1; OLock 0; OStart 0; OFinish 0 (RErr 5); OStep 0; OStep 0; OStep 0; OCall 1] in
  let s := run (fun v => v) Unbounded init h1 in
  result s 0 = Some (RErr 5) /\ phase_of s 0 = Some FDone /\ call s 1 1 KStart.
Proof. conc. Qed.

Print Assumptions C12_one_producer_per_key.
Print Assumptions C12_lookup_joins_running_producer.
Print Assumptions C12_results_come_from_the_producer.
Print Assumptions C12_one_result_per_flight.
Print Assumptions C13_blocking_failure_not_served.
Print Assumptions C13_failure_not_served_after_cleanup_partial.
Print Assumptions C13_async_failure_served_refuted.
Print Assumptions C14_limits_hold.
Print Assumptions C14_only_oldest_completed_evicted.
Print Assumptions C14_in_flight_kept.
Print Assumptions C14_minimal_eviction_refuted.
Print Assumptions C15_lookups_exact.
Print Assumptions C15_sum_when_quiet.
Print Assumptions C15_producers_exact.
Print Assumptions C15_producers_equal_misses.
Print Assumptions C15_lookup_classification.
Print Assumptions C15_entries_balance.
Print Assumptions C54_waiter_can_be_answered.
Print Assumptions C54_notified_waiter_wakes.
Print Assumptions C54_builder_panic_strands_key_refuted.
