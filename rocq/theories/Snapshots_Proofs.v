(** Proofs about source snapshots. *)
From Coq Require Import List Arith NArith Bool Lia.
From Verif Require Import Text_Lib Position_Model FileIds_Model FileIds_Spec FileIds_Proofs Snapshots_Model Snapshots_Spec.
Import ListNotations.

Section Proofs.
Context {core facts change : Type}.
Variable hash : text -> N.
Variable empty_core : core.
Variable replace_facts : N -> facts -> bool -> core -> core * change.
Notation call := (call core facts).
Notation answer := (answer change).
Notation engine := (engine core).
Notation world := (world core).
Notation step := (step hash core facts change empty_core replace_facts).
Notation run := (run hash core facts change empty_core replace_facts).
Notation register := (register hash core).
Notation register_if := (register_if hash core).
Notation commit := (commit core facts change replace_facts).
Notation file := (file core).
Notation ids := (ids core).
Notation files := (files core).
Notation instance := (instance core).
Notation next_revision := (next_revision core).
Notation engines := (engines core).
Notation next_instance := (next_instance core).

(** A stored source says [r]. *)
Definition describes (y : source) (r : entry) : Prop :=
  let '(k, t, pkg) := r in
  kind y = k /\ package y = pkg /\ content_hash y = hash t /\
  index_file t (negb (forallb (fun c => (c <? 128)%N) t)) = Some (shape y).

Definition good (x : engine) : Prop :=
  (exists hh, sound (ids x) hh) /\
  (forall p i, find_path (ids x) p = Some i -> exists y, file x i = Some y) /\
  (forall i y, file x i = Some y -> (revision y <= next_revision x)%N).

Lemma get_find m p : get m p = find_path m p.
Proof. unfold get. apply find_path_ext, components_normalize. Qed.

Lemma file_cons (x : engine) i y j : file (mkEngine core (instance x) (next_revision x) (ids x) ((i, y) :: files x) (rest core x)) j =
  if (i =? j)%N then Some y else file x j.
Proof. unfold Snapshots_Model.file. cbn. now destruct (i =? j)%N. Qed.

(** What a registration does. *)
Lemma register_spec x p t k pkg i x' : good x -> register x p t k pkg = Some (i, x') ->
  good x' /\ instance x' = instance x /\ rest core x' = rest core x /\ find_path (ids x') p = Some i /\
  (forall q j, find_path (ids x) q = Some j -> find_path (ids x') q = Some j) /\
  (forall q j, find_path (ids x') q = Some j -> find_path (ids x) q = Some j \/ same_file q p) /\
  (forall j, j <> i -> file x' j = file x j) /\
  exists y', file x' i = Some y' /\ describes y' (k, t, pkg) /\
    (file x i = Some y' \/ (next_revision x < revision y')%N /\ forall y, file x i = Some y -> ~ describes y (k, t, pkg)).
Proof.
  intros ((hh & SO) & HF & HR) E. unfold Snapshots_Model.register in E. destruct (match pkg with Some _ => _ | None => _ end); [easy|].
  destruct (index_file t _) as [s|] eqn:IX; [|easy]. unfold register_indexed_file in E.
  destruct (get_or_insert (ids x) p) as [[j m]|] eqn:G; [|easy]. destruct (sound_step _ _ _ _ _ SO G) as (A & B & C).
  assert (forall q j, find_path m q = Some j -> find_path (ids x) q = Some j \/ same_file q p) as D.
  { intros q j' H. destruct A as (A1 & A2 & A3 & A4 & A5). assert (exists i', find_path m q = Some i') as X by eauto.
    apply A4 in X. destruct X as (r & I & R). apply in_app_or in I. destruct I as [I|[<-|[]]].
    - left. destruct SO as (S1 & S2 & S3 & S4 & S5). destruct (proj2 (S4 q)) as (i' & F); [eauto|]. rewrite (C _ _ F) in H. congruence.
    - right. apply same_file_iff. congruence. }
  destruct (match file x j with Some y => _ | None => false end) eqn:M.
  - injection E as <- <-. destruct (file x j) as [y|] eqn:F; [|easy].
    apply andb_true_iff in M. destruct M as [M M4]. apply andb_true_iff in M. destruct M as [M M3]. apply andb_true_iff in M. destruct M as [M1 M2].
    apply N.eqb_eq in M1, M3. destruct (file_dec (shape y) s); [|easy]. destruct (package_dec (package y) pkg); [|easy].
    split; [|split; [reflexivity|split; [reflexivity|split; [exact B|split; [exact C|split; [exact D|split; [reflexivity|]]]]]]].
    + split; [eauto|]. split; [|exact HR]. intros q i' H. cbn [Snapshots_Model.ids] in H. change (exists y0, file x i' = Some y0).
      destruct (D _ _ H) as [H'|S']; [eauto|]. apply same_file_iff in S'. rewrite (find_path_ext m q p S') in H. exists y. congruence.
    + exists y. split; [exact F|]. split; [|now left]. repeat split; auto. now subst s.
  - destruct (bump (next_revision x)) as [r|] eqn:BU; [|easy]. injection E as <- <-.
    unfold bump in BU. destruct (next_revision x <? 18446744073709551615)%N; [|easy]. injection BU as <-.
    assert (forall i', file (mkEngine core (instance x) (next_revision x + 1) m ((j, mkSource s (hash t) k (next_revision x + 1) pkg) :: files x) (rest core x)) i'
      = if (j =? i')%N then Some (mkSource s (hash t) k (next_revision x + 1) pkg) else file x i') as FC.
    { intros i'. unfold Snapshots_Model.file. cbn. now destruct (j =? i')%N. }
    split; [|split; [reflexivity|split; [reflexivity|split; [exact B|split; [exact C|split; [exact D|split]]]]]].
    + split; [eauto|]. split.
      * intros q i' H. rewrite FC. destruct (N.eqb_spec j i'); [eauto|]. cbn [Snapshots_Model.ids] in H.
        destruct (D _ _ H) as [H'|S']; [eauto|]. apply same_file_iff in S'. rewrite (find_path_ext m q p S') in H. congruence.
      * intros i' y. rewrite FC. cbn [Snapshots_Model.next_revision]. destruct (N.eqb_spec j i').
        -- intros X. injection X as <-. cbn. lia.
        -- intros X. specialize (HR _ _ X). lia.
    + intros i' NE. rewrite FC. destruct (N.eqb_spec j i'); congruence.
    + eexists. rewrite FC, N.eqb_refl. split; [reflexivity|]. split; [repeat split; auto|]. right. cbn [revision]. split; [lia|].
      intros y F (D1 & D2 & D3 & D4). rewrite F in M. rewrite D1, D2, D3, !N.eqb_refl in M. rewrite IX in D4. injection D4 as ->.
      destruct (file_dec (shape y) (shape y)); [|easy]. destruct (package_dec pkg pkg); easy.
Qed.

Lemma same_files (x : engine) p q i : good x -> find_path (ids x) p = Some i -> find_path (ids x) q = Some i -> same_file p q.
Proof.
  intros ((hh & S1 & _) & _) A B. destruct (S1 _ _ A) as (a & P1 & E1), (S1 _ _ B) as (b & P2 & E2). apply same_file_iff. congruence.
Qed.
Lemma same_find (x : engine) p q : same_file p q -> find_path (ids x) p = find_path (ids x) q.
Proof. intros H. apply find_path_ext, same_file_iff, H. Qed.
Lemma same_sym p q : same_file p q -> same_file q p.
Proof. rewrite !same_file_iff. congruence. Qed.
Lemma same_trans p q r : same_file p q -> same_file q r -> same_file p r.
Proof. rewrite !same_file_iff. congruence. Qed.
Lemma same_refl p : same_file p p.
Proof. now rewrite same_file_iff. Qed.

(** What a call does to one engine: [c] answered [a], and engine [e] went from [x] to [x']. *)
Definition moved (c : call) (a : answer) (e : nat) (x x' : engine) : Prop :=
  good x' /\ instance x' = instance x /\
  (forall q j, find_path (ids x) q = Some j -> find_path (ids x') q = Some j) /\
  (forall q j, find_path (ids x') q = Some j -> find_path (ids x) q = Some j \/ exists p r, registers c a e p r /\ same_file q p) /\
  (forall p r, registers c a e p r -> exists i, find_path (ids x') p = Some i) /\
  (forall p i y', find_path (ids x') p = Some i -> file x' i = Some y' ->
     (forall q r, registers c a e q r -> same_file q p -> describes y' r) /\
     (forall y, find_path (ids x) p = Some i -> file x i = Some y ->
        (y' = y /\ forall q r, registers c a e q r -> same_file q p -> describes y r) \/
        ((revision y < revision y')%N /\ exists q r, registers c a e q r /\ same_file q p /\ ~ describes y r))).

Lemma moved_same c a e x x' : good x' -> instance x' = instance x -> ids x' = ids x -> files x' = files x ->
  (forall p r, ~ registers c a e p r) -> moved c a e x x'.
Proof.
  intros G I Q F NR. split; [exact G|]. split; [exact I|]. rewrite Q. split; [auto|]. split; [auto|]. split; [intros p r R; now apply NR in R|].
  intros p i y' H1 H2. split; [intros q r R; now apply NR in R|]. intros y H3 H4. unfold Snapshots_Model.file in *. rewrite F in H2.
  left. split; [congruence|]. intros q r R. now apply NR in R.
Qed.

Lemma moved_register c a e x p t k pkg i x' : good x -> register x p t k pkg = Some (i, x') ->
  (forall q r, registers c a e q r <-> q = p /\ r = (k, t, pkg)) -> moved c a e x x'.
Proof.
  intros G E RS. destruct (register_spec _ _ _ _ _ _ _ G E) as (A & I & _ & B & C & D & F & y' & F' & DE & CH).
  split; [exact A|]. split; [exact I|]. split; [exact C|]. split.
  - intros q j H. destruct (D _ _ H) as [H'|S']; auto. right. exists p, (k, t, pkg). split; auto. now apply RS.
  - split; [intros q r R; apply RS in R; destruct R as [-> ->]; eauto|].
    intros q j y2 H1 H2. destruct (N.eq_dec j i) as [->|NE].
    + assert (same_file p q) as SP by exact (same_files x' p q i A B H1). assert (y2 = y') as -> by congruence. split.
      * intros q' r R _. apply RS in R. destruct R as [-> ->]. exact DE.
      * intros y H3 H4. destruct CH as [CH|[L ND]].
        -- left. assert (y' = y) as -> by congruence. split; [reflexivity|]. intros q' r R _. apply RS in R. destruct R as [-> ->]. exact DE.
        -- right. split.
           ++ destruct G as (_ & _ & HR). specialize (HR _ _ H4). lia.
           ++ exists p, (k, t, pkg). split; [now apply RS|]. split; [exact SP|]. now apply ND.
    + assert (~ same_file p q) as NS. { intros SP. apply (same_find x') in SP. congruence. }
      split; [intros q' r R SQ; apply RS in R; destruct R as [-> ->]; now destruct NS|].
      intros y H3 H4. left. rewrite F in H2 by auto. split; [congruence|]. intros q' r R SQ. apply RS in R. destruct R as [-> ->]. now destruct NS.
Qed.

(** ** Lists of engines *)
Lemma nth_set {A} (l : list A) n x m : nth_error (set l n x) m =
  if m =? n then match nth_error l n with Some _ => Some x | None => None end else nth_error l m.
Proof.
  revert n m. induction l as [|y l IH]; intros n m.
  - destruct n, m; cbn; auto. now destruct (m =? n).
  - destruct n as [|n], m as [|m]; cbn; auto.
Qed.
Lemma set_length {A} (l : list A) n x : length (set l n x) = length l.
Proof. revert n. induction l as [|y l IH]; intros [|n]; cbn; auto. Qed.

Local Open Scope N_scope.
Definition calm (w : world) : Prop :=
  next_instance w = N.of_nat (length (engines w)) + 1 /\
  forall e x, nth_error (engines w) e = Some x -> good x /\ instance x = N.of_nat e + 1.

Lemma good_rest x c : good x -> good (mkEngine core (instance x) (next_revision x) (ids x) (files x) c).
Proof. intros H. exact H. Qed.

(** Whichever engine existed has moved; a created engine is empty or a copy. *)
Lemma step_spec w c w' a : calm w -> step w c = Some (w', a) ->
  calm w' /\
  (forall e x, nth_error (engines w) e = Some x -> exists x', nth_error (engines w') e = Some x' /\ moved c a e x x') /\
  match c with
  | New _ _ => length (engines w') = S (length (engines w)) /\
      exists x', nth_error (engines w') (length (engines w)) = Some x' /\ ids x' = new /\ files x' = []
  | Clone _ _ e => length (engines w') = S (length (engines w)) /\
      exists x x', nth_error (engines w) e = Some x /\ nth_error (engines w') (length (engines w)) = Some x' /\
        ids x' = ids x /\ files x' = files x /\ next_revision x' = next_revision x
  | _ => length (engines w') = length (engines w)
  end.
Proof.
  intros (NI & GE) E.
  assert (forall e (f : engine -> option (engine * answer)),
    match nth_error (engines w) e with
    | None => None
    | Some x => match f x with Some (x', a) => Some (mkWorld core (set (engines w) e x') (next_instance w), a) | None => None end
    end = Some (w', a) ->
    (forall x x', nth_error (engines w) e = Some x -> f x = Some (x', a) -> good x -> moved c a e x x') ->
    (forall e' p r, registers c a e' p r -> e' = e) ->
    calm w' /\ (forall e x, nth_error (engines w) e = Some x -> exists x', nth_error (engines w') e = Some x' /\ moved c a e x x') /\
    length (engines w') = length (engines w)) as On.
  { intros e f H MV RE. destruct (nth_error (engines w) e) as [x|] eqn:NX; [|easy]. destruct (f x) as [[x' a']|] eqn:FX; [|easy].
    injection H as <- ->. cbn [Snapshots_Model.engines Snapshots_Model.next_instance].
    destruct (GE _ _ NX) as [Gx Ix]. pose proof (MV x x' eq_refl FX Gx) as M.
    split; [split|split; [|apply set_length]].
    - cbn [Snapshots_Model.engines Snapshots_Model.next_instance]. rewrite set_length. exact NI.
    - cbn [Snapshots_Model.engines]. intros e' z. rewrite nth_set. destruct (Nat.eqb_spec e' e) as [->|NE]; [|apply GE]. rewrite NX. intros Z. injection Z as <-.
      destruct M as (Gx' & Ix' & _). split; congruence.
    - intros e' z NZ. rewrite nth_set. destruct (Nat.eqb_spec e' e) as [->|NE].
      + rewrite NX in NZ. injection NZ as <-. rewrite NX. eauto.
      + exists z. split; [exact NZ|]. apply moved_same; auto; [now apply (GE e')|]. intros p r R. now apply RE in R. }
  assert (forall f : N -> engine,
    match bump (next_instance w) with Some n => Some (mkWorld core (engines w ++ [f (next_instance w)]) n, Done change) | None => None end = Some (w', a) ->
    good (f (next_instance w)) -> instance (f (next_instance w)) = next_instance w ->
    (forall e p r, ~ registers c a e p r) ->
    calm w' /\ (forall e x, nth_error (engines w) e = Some x -> exists x', nth_error (engines w') e = Some x' /\ moved c a e x x') /\
    length (engines w') = S (length (engines w)) /\ nth_error (engines w') (length (engines w)) = Some (f (next_instance w))) as Create.
  { intros f H Gf If NR. unfold bump in H. destruct (_ <? _); [|easy]. injection H as <- <-.
    cbn [Snapshots_Model.engines Snapshots_Model.next_instance].
    split; [split|split; [|split; [rewrite app_length; cbn; lia|rewrite nth_error_app2, Nat.sub_diag by lia; reflexivity]]].
    - cbn [Snapshots_Model.engines Snapshots_Model.next_instance]. rewrite app_length. cbn [length]. lia.
    - cbn [Snapshots_Model.engines]. intros e x NX. destruct (Nat.lt_ge_cases e (length (engines w))) as [L|L].
      + rewrite nth_error_app1 in NX by auto. now apply GE.
      + rewrite nth_error_app2 in NX by auto. destruct (e - length (engines w))%nat as [|n] eqn:D; [|now destruct n].
        injection NX as <-. split; [exact Gf|]. rewrite If, NI. f_equal. lia.
    - intros e x NX. exists x. split; [rewrite nth_error_app1; auto; apply nth_error_Some; congruence|].
      apply moved_same; auto. now apply (GE e). }
  destruct c as [|e|e p t k pkg|e p|e p t k ex|e s f m|e f]; cbn [Snapshots_Model.step] in E.
  - destruct (Create (fun i => mkEngine core i 0 new [] empty_core) E) as (A & B & C & D); auto.
    + split; [exists []; apply sound_new|]. split; [|easy]. intros p i H. discriminate.
    + split; [exact A|]. split; [exact B|]. split; [exact C|]. eexists. split; [exact D|]. auto.
  - destruct (nth_error (engines w) e) as [x|] eqn:NX; [|easy].
    destruct (Create (fun i => mkEngine core i (next_revision x) (ids x) (files x) (rest core x)) E) as (A & B & C & D); auto.
    + destruct (GE _ _ NX) as [G _]. exact G.
    + split; [exact A|]. split; [exact B|]. split; [exact C|]. exists x. eexists. split; [reflexivity|]. split; [exact D|]. auto.
  - destruct (On e _ E) as (A & B & C); auto.
    + intros x x' NX FX Gx. destruct (register x p t k pkg) as [[i y]|] eqn:R; [|easy]. cbn in FX. injection FX as <- <-.
      apply (moved_register _ _ _ _ _ _ _ _ _ _ Gx R). intros q r. cbn. intuition congruence.
    + intros e' q r R. now destruct R.
  - destruct (On e (fun x => Some (x, Snapped change (source_snapshot_for_path core x p))) E) as (A & B & C); auto.
    + intros x x' NX FX Gx. injection FX as <- <-. apply moved_same; auto.
    + intros e' q r [].
  - destruct (On e _ E) as (A & B & C); auto.
    + intros x x' NX FX Gx. destruct (register_if x p t k ex) as [[y o]|] eqn:R; [|easy]. cbn in FX. injection FX as <- <-.
      unfold Snapshots_Model.register_if in R. destruct (match ex with Some _ => _ | None => _ end); [easy|].
      destruct (snapshot_dec _ _).
      * destruct (register x p t k None) as [[i z]|] eqn:R'; [|easy]. destruct (file z i) as [v|]; [|easy]. injection R as <- <-.
        apply (moved_register _ _ _ _ _ _ _ _ _ _ Gx R'). intros q r. cbn. intuition congruence.
      * injection R as <- <-. apply moved_same; auto.
    + intros e' q r R. cbn in R. destruct a as [|[s|]|]; try easy; now destruct R.
  - destruct (On e _ E) as (A & B & C); auto.
    + intros x x' NX FX Gx. destruct (commit x s f m) as [[y o]|] eqn:R; [|easy]. cbn in FX. injection FX as <- <-.
      unfold Snapshots_Model.commit in R. destruct (_ =? _); [|easy]. destruct (match file x _ with Some _ => _ | None => _ end).
      * destruct (replace_facts _ _ _ _) as [c1 ch]. injection R as <- <-. apply moved_same; auto.
      * injection R as <- <-. apply moved_same; auto.
    + intros e' q r [].
  - destruct (On e (fun x => Some (mkEngine core (instance x) (next_revision x) (ids x) (files x) (f (rest core x)), Done change)) E) as (A & B & C); auto.
    + intros x x' NX FX Gx. injection FX as <- <-. apply moved_same; auto.
    + intros e' q r [].
Qed.

Lemma calm_start : calm (start core).
Proof. split; [reflexivity|]. intros [|e] x H; discriminate. Qed.

(** ** Histories *)
Lemma run_app h1 h2 w w2 l : run w (h1 ++ h2) = Some (w2, l) <->
  exists w1 l1 l2, run w h1 = Some (w1, l1) /\ run w1 h2 = Some (w2, l2) /\ l = l1 ++ l2.
Proof.
  revert w l. induction h1 as [|c h1 IH]; intros w l; cbn [app Snapshots_Model.run].
  - split; [intros H; exists w, [], l; auto|]. intros (w1 & l1 & l2 & A & B & ->). injection A as <- <-. exact B.
  - destruct (step w c) as [[w' a]|]; [|split; [easy|intros (? & ? & ? & A & _); easy]]. split.
    + destruct (run w' (h1 ++ h2)) as [[w'' l']|] eqn:R; [|easy]. intros H. injection H as <- <-. apply IH in R.
      destruct R as (w1 & l1 & l2 & A & B & ->). exists w1, (a :: l1), l2. rewrite A. auto.
    + intros (w1 & l1 & l2 & A & B & ->). destruct (run w' h1) as [[w'' l']|] eqn:R; [|easy]. injection A as <- <-.
      assert (run w' (h1 ++ h2) = Some (w2, l' ++ l2)) as X; [|now rewrite X]. apply IH. exists w'', l', l2. auto.
Qed.
Lemma run_one w c w' l : run w [c] = Some (w', l) <-> exists a, step w c = Some (w', a) /\ l = [a].
Proof.
  cbn [Snapshots_Model.run]. destruct (step w c) as [[w1 a]|].
  - split; [intros H; injection H as <- <-; eauto|]. intros (a' & H & ->). now injection H as <- <-.
  - split; [easy|]. intros (a' & H & _). easy.
Qed.
Lemma run_calm h : forall w w' l, calm w -> run w h = Some (w', l) -> calm w' /\ length l = length h.
Proof.
  induction h as [|c h IH]; intros w w' l C R; cbn [Snapshots_Model.run] in R; [injection R as <- <-; auto|].
  destruct (step w c) as [[w1 a]|] eqn:E; [|easy]. destruct (run w1 h) as [[w2 l2]|] eqn:R2; [|easy]. injection R as <- <-.
  destruct (step_spec _ _ _ _ C E) as (C1 & _). destruct (IH _ _ _ C1 R2). cbn. auto.
Qed.

Lemma created_length h : forall w l, run (start core) h = Some (w, l) -> length (engines w) = created h.
Proof.
  induction h as [|c h IH] using rev_ind; intros w l R.
  - now injection R as <- <-.
  - apply run_app in R. destruct R as (w1 & l1 & l2 & R1 & R2 & ->). apply run_one in R2. destruct R2 as (a & E & ->).
    specialize (IH _ _ R1). destruct (run_calm _ _ _ _ calm_start R1) as [C1 _]. destruct (step_spec _ _ _ _ C1 E) as (_ & _ & CS).
    unfold created in *. rewrite filter_app, app_length. destruct c; cbn [filter length]; (lia || (destruct CS as [CS _]; lia)).
Qed.

Lemma holds_exists h l e p r : holds h l e p r -> forall w, run (start core) h = Some (w, l) -> exists x, nth_error (engines w) e = Some x.
Proof.
  intros HH. induction HH as [h l c a e p q r LN RG SF|h l c a e p r HH IHh NR|h l a e p r HH IHh]; intros w1 R1;
    apply run_app in R1; destruct R1 as (w0 & l1 & l2 & R0 & R2 & EL); apply run_one in R2; destruct R2 as (a' & E & ->);
    apply app_inj_tail in EL; destruct EL as [<- <-]; destruct (run_calm _ _ _ _ calm_start R0) as [C0 _];
    destruct (step_spec _ _ _ _ C0 E) as (_ & MV & CS).
  - assert (exists x, nth_error (engines w0) e = Some x) as (x & N0).
    { destruct c as [| |e' p' t k pkg| |e' p' t k ex| |]; try easy.
      - destruct RG as (-> & _). cbn [Snapshots_Model.step] in E. destruct (nth_error (engines w0) e); [eauto|easy].
      - cbn in RG. destruct a as [|[s|]|]; try easy. destruct RG as (-> & _).
        cbn [Snapshots_Model.step] in E. destruct (nth_error (engines w0) e); [eauto|easy]. }
    destruct (MV _ _ N0) as (x' & N' & _). eauto.
  - destruct (IHh _ R0) as (x & N0). destruct (MV _ _ N0) as (x' & N' & _). eauto.
  - destruct CS as (_ & x & x' & _ & N' & _). rewrite <- (created_length _ _ _ R0). eauto.
Qed.

(** The engines after a history: who exists, and what each file's entry says. *)
Lemma history h : forall w l, run (start core) h = Some (w, l) ->
  length (engines w) = created h /\
  forall e x, nth_error (engines w) e = Some x ->
    (forall p, (exists i, find_path (ids x) p = Some i) <-> exists r, holds h l e p r) /\
    (forall p r i y, holds h l e p r -> find_path (ids x) p = Some i -> file x i = Some y -> describes y r).
Proof.
  induction h as [|c h IH] using rev_ind; intros w l R.
  - injection R as <- <-. split; [reflexivity|]. intros [|e] x H; discriminate.
  - apply run_app in R. destruct R as (w1 & l1 & l2 & R1 & R2 & ->). apply run_one in R2. destruct R2 as (a & E & ->).
    destruct (IH _ _ R1) as [CR H]. destruct (run_calm _ _ _ _ calm_start R1) as [C1 LL]. destruct (step_spec _ _ _ _ C1 E) as (C2 & MV & CS).
    assert (length (engines w) = created (h ++ [c])) as CR'.
    { unfold created in *. rewrite filter_app, app_length. destruct c; cbn [filter length]; (lia || (destruct CS as [CS _]; lia)). }
    split; [exact CR'|].
    assert (forall e p r, holds (h ++ [c]) (l1 ++ [a]) e p r ->
      (exists q, registers c a e q r /\ same_file q p) \/
      (holds h l1 e p r /\ forall q y, registers c a e q y -> ~ same_file q p) \/
      (exists e', c = Clone _ _ e' /\ e = created h /\ holds h l1 e' p r)) as HI.
    { intros e p r HH. remember (h ++ [c]) as hc eqn:EH. remember (l1 ++ [a]) as la eqn:EL.
      destruct HH as [h' l' c' a' e p q r LN RG SF|h' l' c' a' e p r HH NR|h' l' a' e p r HH]; apply app_inj_tail in EH, EL;
        destruct EH as [-> <-], EL as [-> <-]; eauto 8. }
    (* a later engine: one that existed, or the created one *)
    assert (forall e x, nth_error (engines w) e = Some x -> (exists x0, nth_error (engines w1) e = Some x0 /\ moved c a e x0 x) \/
      (e = length (engines w1) /\ nth_error (engines w1) e = None)) as Old.
    { intros e x NX. destruct (nth_error (engines w1) e) as [x0|] eqn:N0.
      - left. exists x0. split; [reflexivity|]. destruct (MV _ _ N0) as (x' & N' & M). congruence.
      - right. split; [|reflexivity]. apply nth_error_None in N0.
        assert (e < length (engines w))%nat as L by (apply nth_error_Some; congruence).
        destruct c; try lia; destruct CS as [CS _]; lia. }
    intros e x NX. destruct (Old e x NX) as [(x0 & N0 & M)|[-> N0]].
    + destruct (H _ _ N0) as [H1 H2]. destruct M as (Gx & Ix & M1 & M2 & M3 & M4).
      assert (e <> created h) as NC. { rewrite <- CR. apply Nat.lt_neq, nth_error_Some. congruence. }
      split.
      * intros p. split.
        -- intros (i & F). destruct (M2 _ _ F) as [F0|(q & r & RG & SF)].
           ++ destruct (proj1 (H1 p)) as (r & HH); [eauto|].
              assert ((exists q y, registers c a e q y /\ same_file q p) \/ forall q y, registers c a e q y -> ~ same_file q p) as [(q & y & RG & SF)|NR].
              { destruct c as [|? |e' p' t k pkg| |e' p' t k ex| |]; try (right; now intros q y []).
                - destruct (Nat.eq_dec e' e) as [->|NE]; [|right; intros q y [? _]; congruence].
                  destruct (list_eq_dec component_dec (components p') (components p)) as [Q|Q]; rewrite <- same_file_iff in Q.
                  + left. exists p', (k, t, pkg). cbn. auto.
                  + right. intros q y (_ & <- & _). exact Q.
                - destruct a as [|[s|]|]; try (right; now intros q y []).
                  destruct (Nat.eq_dec e' e) as [->|NE]; [|right; intros q y [? _]; congruence].
                  destruct (list_eq_dec component_dec (components p') (components p)) as [Q|Q]; rewrite <- same_file_iff in Q.
                  + left. exists p', (k, t, None). cbn. auto.
                  + right. intros q y (_ & <- & _). exact Q. }
              ** exists y. eapply now; eauto.
              ** exists r. now apply earlier.
           ++ exists r. eapply now; eauto. now apply same_sym.
        -- intros (r & HH). destruct (HI _ _ _ HH) as [(q & RG & SF)|[(HO & NR)|(e' & _ & EC & _)]].
           ++ destruct (M3 _ _ RG) as (i & F). exists i. rewrite <- (same_find x q p SF). exact F.
           ++ destruct (proj2 (H1 p)) as (i & F); [eauto|]. eauto.
           ++ congruence.
      * intros p r i y HH F FY. destruct (HI _ _ _ HH) as [(q & RG & SF)|[(HO & NR)|(e' & _ & EC & _)]].
        -- destruct (M4 p i y F FY) as [A _]. eapply A; eauto.
        -- destruct (proj2 (H1 p)) as (i0 & F0); [eauto|]. assert (i0 = i) as -> by (apply M1 in F0; congruence).
           destruct (C1) as [_ GE]. destruct (GE _ _ N0) as [(_ & G2 & _) _]. destruct (G2 _ _ F0) as (y0 & FY0).
           destruct (M4 p i y F FY) as [_ B]. destruct (B y0 F0 FY0) as [[-> _]|[_ (q & r' & RG & SF & _)]].
           ++ eapply H2; eauto.
           ++ destruct (NR _ _ RG SF).
        -- congruence.
    + assert (forall p r, ~ holds h l1 (length (engines w1)) p r) as NH.
      { intros p r HH. destruct (holds_exists _ _ _ _ _ HH _ R1) as (z & NZ). congruence. }
      destruct c as [|e0| | | | |]; try (exfalso; apply nth_error_None in N0; assert (length (engines w1) < length (engines w))%nat by (apply nth_error_Some; congruence); lia).
      * destruct CS as (_ & x' & NX' & Q & F). assert (x' = x) as -> by congruence. rewrite Q. split.
        -- intros p. split; [intros (i & FP); discriminate|]. intros (r & HH). exfalso.
           destruct (HI _ _ _ HH) as [(q & [] & _)|[(HO & _)|(e' & EC & _)]]; [now apply NH in HO|discriminate].
        -- intros p r i y _ FP. discriminate.
      * destruct CS as (_ & x0 & x' & NX0 & NX' & Q & F & _). assert (x' = x) as -> by congruence. destruct (H _ _ NX0) as [H1 H2].
        assert (forall p r, holds (h ++ [Clone core facts e0]) (l1 ++ [a]) (length (engines w1)) p r <-> holds h l1 e0 p r) as HC.
        { intros p r. split.
          - intros HH. destruct (HI _ _ _ HH) as [(q & [] & _)|[(HO & _)|(e' & EC & _ & HO)]]; [now apply NH in HO|]. injection EC as <-. exact HO.
          - intros HO. rewrite CR. now apply cloned. }
        rewrite Q. split.
        -- intros p. rewrite H1. split; intros (r & HH); exists r; now apply HC.
        -- intros p r i y HH FP FY. apply HC in HH. unfold Snapshots_Model.file in FY. rewrite F in FY. eapply H2; eauto.
Qed.

(** ** What becomes of one file's entry *)
Lemma evolve h : forall w w' l e x p i y, calm w -> run w h = Some (w', l) -> nth_error (engines w) e = Some x ->
  find_path (ids x) p = Some i -> file x i = Some y ->
  exists x' y', nth_error (engines w') e = Some x' /\ good x' /\ instance x' = instance x /\ find_path (ids x') p = Some i /\ file x' i = Some y' /\
    ((y' = y /\ forall c a q r, In (c, a) (combine h l) -> registers c a e q r -> same_file q p -> describes y r) \/
     ((revision y < revision y')%N /\ exists c a q r, In (c, a) (combine h l) /\ registers c a e q r /\ same_file q p /\ ~ describes y r)).
Proof.
  induction h as [|c h IH]; intros w w' l e x p i y C R NX F FY; cbn [Snapshots_Model.run] in R.
  - injection R as <- <-. exists x, y. repeat split; auto; try apply (proj2 C _ _ NX). left. split; [reflexivity|]. now intros c a q r [].
  - destruct (step w c) as [[w1 a]|] eqn:E; [|easy]. destruct (run w1 h) as [[w2 l2]|] eqn:R2; [|easy]. injection R as <- <-.
    destruct (step_spec _ _ _ _ C E) as (C1 & MV & _). destruct (MV _ _ NX) as (x1 & N1 & G1 & I1 & M1 & M2 & M3 & M4).
    pose proof (M1 _ _ F) as F1. destruct G1 as (GA & GB & GC). destruct (GB _ _ F1) as (y1 & FY1).
    destruct (IH _ _ _ _ _ _ _ _ C1 R2 N1 F1 FY1) as (x' & y' & N' & G' & I' & F' & FY' & D).
    exists x', y'. split; [exact N'|]. split; [exact G'|]. split; [congruence|]. split; [exact F'|]. split; [exact FY'|].
    destruct (M4 p i y1 F1 FY1) as [_ B]. destruct (B y F FY) as [[-> A]|[L (q & r & RG & SF & ND)]].
    + destruct D as [[-> D]|[L (c' & a' & q & r & IN & RG & SF & ND)]].
      * left. split; [reflexivity|]. intros c' a' q r IN RG SF. cbn [combine] in IN. destruct IN as [EQ|IN].
        -- injection EQ as <- <-. eapply A; eauto.
        -- eapply D; eauto.
      * right. split; [exact L|]. exists c', a', q, r. repeat split; auto. now right.
    + right. split.
      * destruct D as [[-> _]|[L' _]]; lia.
      * exists c, a, q, r. repeat split; auto. now left.
Qed.

Lemma describes_eq (h : list call) y r r' : distinguishes hash h -> In (snd (fst r)) (texts h) -> In (snd (fst r')) (texts h) ->
  describes y r -> describes y r' -> r' = r.
Proof.
  destruct r as [[k t] pkg], r' as [[k' t'] pkg']. cbn [fst snd]. intros D I I' (A & B & H & _) (A' & B' & H' & _).
  rewrite (D t' t I' I) by congruence. congruence.
Qed.
Lemma registers_text (c : call) (a : answer) e q r h : registers c a e q r -> In c h -> In (snd (fst r)) (texts h).
Proof.
  intros R I. unfold texts. apply in_flat_map. exists c. split; [exact I|]. destruct c; try easy.
  - destruct R as (_ & _ & ->). now left.
  - cbn in R. destruct a as [|[s|]|]; try easy. destruct R as (_ & _ & ->). now left.
Qed.
Lemma texts_app (h h' : list call) : texts (h ++ h') = texts h ++ texts h'.
Proof. apply flat_map_app. Qed.
Lemma holds_text (h : list call) (l : list answer) e p r : holds h l e p r -> In (snd (fst r)) (texts h).
Proof.
  intros H. induction H as [h l c a e p q r LN RG SF|h l c a e p r HH IH NR|h l a e p r HH IH]; rewrite texts_app; apply in_or_app; auto.
  right. apply (registers_text c a e q r); auto. now left.
Qed.

Lemma snapshot_spec (x : engine) p : good x -> forall s, source_snapshot_for_path core x p = Some s <->
  exists i y, find_path (ids x) p = Some i /\ file x i = Some y /\ s = mkSnapshot (instance x) i (revision y).
Proof.
  intros G s. unfold source_snapshot_for_path. rewrite get_find. split.
  - destruct (find_path (ids x) p) as [i|] eqn:F; [|easy]. destruct (file x i) as [y|] eqn:Y; [|easy]. intros H. injection H as <-. eauto 6.
  - intros (i & y & -> & -> & ->). reflexivity.
Qed.

(** The snapshot taken after [h1], looked at after [h2]. *)
Lemma later h1 w1 l1 e p w2 s h2 l2 r : run (start core) h1 = Some (w1, l1) ->
  run w1 (Snapshot _ _ e p :: h2) = Some (w2, Snapped _ (Some s) :: l2) -> distinguishes hash (h1 ++ h2) -> holds h1 l1 e p r ->
  exists x i y, nth_error (engines w2) e = Some x /\ good x /\ instance x = snap_instance s /\ snap_file s = i /\
    find_path (ids x) p = Some i /\ file x i = Some y /\
    (revision y = snap_revision s <-> only h2 l2 e p r).
Proof.
  intros R1 R2 DI HH. destruct (run_calm _ _ _ _ calm_start R1) as [C1 _]. destruct (history _ _ _ R1) as [_ HI].
  cbn [Snapshots_Model.run] in R2. destruct (step w1 (Snapshot core facts e p)) as [[w1' a]|] eqn:E; [|easy].
  destruct (run w1' h2) as [[w2' l2']|] eqn:R; [|easy]. injection R2 as -> -> ->.
  cbn [Snapshots_Model.step] in E. destruct (nth_error (engines w1) e) as [x|] eqn:NX; [|easy].
  injection E as <- ES. destruct (HI _ _ NX) as [_ HD]. destruct (proj2 C1 _ _ NX) as [G I].
  apply (snapshot_spec x p G) in ES. destruct ES as (i & y & F & FY & ->).
  assert (calm (mkWorld core (set (engines w1) e x) (next_instance w1))) as C1'.
  { destruct C1 as [A B]. split; cbn [Snapshots_Model.engines Snapshots_Model.next_instance]; [now rewrite set_length|].
    intros e' z. rewrite nth_set, NX. destruct (Nat.eqb_spec e' e) as [->|]; [|apply B]. intros Z. injection Z as <-. auto. }
  assert (nth_error (engines (mkWorld core (set (engines w1) e x) (next_instance w1))) e = Some x) as NX'.
  { cbn [Snapshots_Model.engines]. now rewrite nth_set, Nat.eqb_refl, NX. }
  destruct (evolve _ _ _ _ _ _ _ _ _ C1' R NX' F FY) as (x' & y' & N' & G' & I' & F' & FY' & D).
  exists x', i, y'. cbn [snap_instance snap_file snap_revision]. repeat (split; [assumption || reflexivity|]).
  pose proof (HD _ _ _ _ HH F FY) as DY. destruct D as [[-> D]|[L (c & a & q & r' & IN & RG & SF & ND)]].
  - split; [|reflexivity]. intros _ c a q z IN RG SF. apply (describes_eq (h1 ++ h2) y r z DI).
    + rewrite texts_app. apply in_or_app. left. eapply holds_text; eauto.
    + rewrite texts_app. apply in_or_app. right. apply in_combine_l in IN. eapply registers_text; eauto.
    + exact DY.
    + eapply D; eauto.
  - split; [lia|]. intros O. destruct ND. rewrite (O _ _ _ _ IN RG SF). exact DY.
Qed.
End Proofs.
