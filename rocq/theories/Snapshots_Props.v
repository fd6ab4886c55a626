(** Source snapshots: the theorems. *)
From Coq Require Import List Arith NArith Bool Lia Logic.FinFun.
From Verif Require Import Text_Lib Position_Model FileIds_Model FileIds_Spec FileIds_Proofs Snapshots_Model Snapshots_Spec Snapshots_Proofs.
Import ListNotations.

Section Claims.
Context {core facts change : Type}.
Variable hash : text -> N.
Variable empty_core : core.
Variable replace_facts : N -> facts -> bool -> core -> core * change.
Notation step := (step hash core facts change empty_core replace_facts).
Notation run := (run hash core facts change empty_core replace_facts).
Notation New := (New core facts).
Notation Snapshot := (Snapshot core facts).
Notation Commit := (Commit core facts).
Notation RegisterIf := (RegisterIf core facts).
Notation Committed := (Committed change).
Notation Snapped := (Snapped change).

(** A file has a snapshot exactly when it is registered. *)
Theorem C45_snapshot : forall h w l e p w' o, run (start core) h = Some (w, l) ->
  step w (Snapshot e p) = Some (w', Snapped o) -> (o <> None <-> exists x, holds h l e p x).
Proof.
  intros h w l e p w' o R E. destruct (history hash empty_core replace_facts _ _ _ R) as [_ H]. destruct (run_calm hash empty_core replace_facts _ _ _ _ calm_start R) as [[_ C] _].
  cbn [Snapshots_Model.step] in E. destruct (nth_error (engines core w) e) as [x|] eqn:NX; [|easy]. injection E as _ <-.
  destruct (H _ _ NX) as [H1 _]. destruct (C _ _ NX) as [G _]. rewrite <- H1. pose proof (snapshot_spec x p G) as S1. destruct G as (_ & G & _).
  destruct (source_snapshot_for_path core x p) as [s|] eqn:ES.
  - split; [intros _|easy]. destruct (proj1 (S1 s) eq_refl) as (i & y & F & _). eauto.
  - split; [easy|]. intros (i & F) _. destruct (G _ _ F) as (y & FY).
    discriminate (proj2 (S1 _) (ex_intro _ i (ex_intro _ y (conj F (conj FY eq_refl))))).
Qed.

(** Facts collected for the content registered at a snapshot are committed if, and only if, nothing else was
    registered for the file since, whatever other calls came between; otherwise nothing changes.  The hash
    of the text must tell the texts of the history apart. *)
Theorem C45_commit_partial : forall h1 w1 l1 e p x h2 w2 s l2 f m, run (start core) h1 = Some (w1, l1) -> holds h1 l1 e p x ->
  run w1 (Snapshot e p :: h2) = Some (w2, Snapped (Some s) :: l2) -> distinguishes hash (h1 ++ h2) ->
  exists w3 r, step w2 (Commit e s f m) = Some (w3, Committed r) /\
    (r <> None <-> only h2 l2 e p x) /\ (r = None -> w3 = w2).
Proof.
  intros h1 w1 l1 e p x h2 w2 s l2 f m R1 HH R2 DI.
  destruct (later hash empty_core replace_facts _ _ _ _ _ _ _ _ _ _ R1 R2 DI HH) as (z & i & y & NZ & G & I & FI & F & FY & RV).
  cbn [Snapshots_Model.step]. rewrite NZ. unfold commit. rewrite I, N.eqb_refl, FI, FY.
  destruct (N.eqb_spec (revision y) (snap_revision s)) as [E|E].
  - destruct (replace_facts i f m (rest core z)) as [c ch]. cbn [option_map fst snd]. eexists. eexists. split; [reflexivity|].
    split; [|easy]. split; [intros _; now apply RV|easy].
  - cbn [option_map fst snd]. eexists. eexists. split; [reflexivity|]. split.
    + split; [easy|]. intros O. now apply RV in O.
    + intros _. destruct w2 as [es n]. cbn [engines next_instance] in *. f_equal. clear - NZ. revert e NZ.
      induction es as [|y es IH]; intros [|e] NZ; cbn in *; auto; [congruence|]. f_equal. now apply IH.
Qed.

(** An accepted commit replaces the facts of that file in that engine and touches nothing else. *)
Theorem C45_accepted : forall w e s f m w' ch, step w (Commit e s f m) = Some (w', Committed (Some ch)) ->
  exists x x', nth_error (engines core w) e = Some x /\ nth_error (engines core w') e = Some x' /\
    (rest core x', ch) = replace_facts (snap_file s) f m (rest core x) /\
    instance core x' = instance core x /\ ids core x' = ids core x /\ files core x' = files core x /\ next_revision core x' = next_revision core x /\
    (forall e', e' <> e -> nth_error (engines core w') e' = nth_error (engines core w) e').
Proof.
  intros w e s f m w' ch E. cbn [Snapshots_Model.step] in E. destruct (nth_error (engines core w) e) as [x|] eqn:NX; [|easy].
  unfold commit in E. destruct (_ =? _)%N; [|easy]. destruct (match file core x _ with Some _ => _ | None => _ end); [|easy].
  destruct (replace_facts _ _ _ _) as [c ch'] eqn:RF. cbn in E. injection E as <- ->. exists x. eexists. split; [reflexivity|].
  cbn [engines]. split; [rewrite nth_set, Nat.eqb_refl, NX; reflexivity|]. cbn. rewrite RF. repeat (split; [reflexivity|]).
  intros e' NE. rewrite nth_set. destruct (Nat.eqb_spec e' e); congruence.
Qed.

(** A snapshot is good for the engine that issued it only: elsewhere (a clone included) it is a panic. *)
Theorem C45_foreign : forall h1 w1 l1 e p h2 w2 s l2 e' f m, run (start core) h1 = Some (w1, l1) ->
  run w1 (Snapshot e p :: h2) = Some (w2, Snapped (Some s) :: l2) -> e' <> e ->
  step w2 (Commit e' s f m) = None /\ forall q t k, step w2 (RegisterIf e' q t k (Some s)) = None.
Proof.
  intros h1 w1 l1 e p h2 w2 s l2 e' f m R1 R2 NE.
  destruct (run_calm hash empty_core replace_facts _ _ _ _ calm_start R1) as [C1 _].
  destruct (run_calm hash empty_core replace_facts _ _ _ _ C1 R2) as [[_ C2] _].
  cbn [Snapshots_Model.run] in R2. destruct (step w1 (Snapshot e p)) as [[w1' a]|] eqn:E; [|easy].
  destruct (run w1' h2) as [[w2' l2']|]; [|easy]. injection R2 as -> -> ->.
  cbn [Snapshots_Model.step] in E. destruct (nth_error (engines core w1) e) as [x|] eqn:NX; [|easy]. injection E as _ ES.
  destruct C1 as [_ C1]. destruct (C1 _ _ NX) as [G I]. apply (snapshot_spec x p G) in ES. destruct ES as (i & y & _ & _ & ->).
  cbn [Snapshots_Model.step]. destruct (nth_error (engines core w2) e') as [z|] eqn:NZ; [|split; reflexivity].
  destruct (C2 _ _ NZ) as [_ I']. assert ((instance core x =? instance core z)%N = false) as Q by (apply N.eqb_neq; lia).
  unfold commit, register_if. cbn [snap_instance]. rewrite Q. split; reflexivity.
Qed.

(** A conditional registration goes through if, and only if, nothing else was registered since the expected
    snapshot; otherwise nothing changes. *)
Theorem C45_register_if_partial : forall h1 w1 l1 e p x h2 w2 s l2 t k w3 r, run (start core) h1 = Some (w1, l1) -> holds h1 l1 e p x ->
  run w1 (Snapshot e p :: h2) = Some (w2, Snapped (Some s) :: l2) -> distinguishes hash (h1 ++ h2) ->
  step w2 (RegisterIf e p t k (Some s)) = Some (w3, Snapped r) ->
  (r <> None <-> only h2 l2 e p x) /\ (r = None -> w3 = w2) /\
  (forall s', r = Some s' -> step w3 (Snapshot e p) = Some (w3, Snapped (Some s'))).
Proof.
  intros h1 w1 l1 e p x h2 w2 s l2 t k w3 r R1 HH R2 DI E.
  destruct (later hash empty_core replace_facts _ _ _ _ _ _ _ _ _ _ R1 R2 DI HH) as (z & i & y & NZ & G & I & FI & F & FY & RV).
  cbn [Snapshots_Model.step] in E. rewrite NZ in E. unfold register_if in E. rewrite I, N.eqb_refl in E. cbn [negb] in E.
  assert (forall (es : list (engine core)) n v, nth_error es n = Some v -> set es n v = es) as SS.
  { clear. induction es as [|y es IH]; intros [|n] v NZ; cbn in *; auto; [congruence|]. f_equal. now apply IH. }
  destruct (snapshot_dec _ _) as [Q|Q].
  - destruct (register hash core z p t k None) as [[j z']|] eqn:RE; [|easy].
    destruct (register_spec hash _ _ _ _ _ _ _ G RE) as (G' & I' & _ & B & _ & _ & _ & y' & FY' & _). rewrite FY' in E. cbn in E. injection E as <- <-.
    split; [|split; [easy|]].
    + split; [intros _|easy]. apply RV. apply (snapshot_spec z p G) in Q. destruct Q as (i' & v & F' & FV & ->). cbn [snap_revision]. congruence.
    + intros s' ES. injection ES as <-. cbn [Snapshots_Model.step engines]. rewrite nth_set, Nat.eqb_refl, NZ. cbn [next_instance].
      assert (source_snapshot_for_path core z' p = Some (mkSnapshot (instance core z') j (revision y'))) as ->.
      { apply (snapshot_spec z' p G'). eauto. }
      f_equal. f_equal. f_equal. apply SS. now rewrite nth_set, Nat.eqb_refl, NZ.
  - cbn in E. injection E as <- <-. split; [|split].
    + split; [easy|]. intros O. destruct Q. apply (snapshot_spec z p G). exists i, y. repeat split; auto.
      apply RV in O. destruct s as [si sf sr]. cbn in *. congruence.
    + intros _. destruct w2 as [es n]. cbn [engines next_instance] in *. f_equal. now apply SS.
    + easy.
Qed.

(** Expecting an unregistered file: it goes through exactly if the file was never registered. *)
Theorem C45_register_new : forall h w l e p t k w' r, run (start core) h = Some (w, l) ->
  step w (RegisterIf e p t k None) = Some (w', Snapped r) ->
  (r <> None <-> forall x, ~ holds h l e p x) /\ (r = None -> w' = w).
Proof.
  intros h w l e p t k w' r R E. destruct (history hash empty_core replace_facts _ _ _ R) as [_ H]. destruct (run_calm hash empty_core replace_facts _ _ _ _ calm_start R) as [[_ C] _].
  cbn [Snapshots_Model.step] in E. destruct (nth_error (engines core w) e) as [z|] eqn:NZ; [|easy].
  destruct (H _ _ NZ) as [H1 _]. destruct (C _ _ NZ) as [G _]. pose proof (snapshot_spec z p G) as S1. unfold register_if in E.
  destruct (snapshot_dec _ _) as [Q|Q].
  - destruct (register hash core z p t k None) as [[j z']|] eqn:RE; [|easy].
    destruct (file core z' j) as [v|]; [|easy]. cbn in E. injection E as <- <-. split; [|easy]. split; [intros _ x HH|easy].
    destruct (proj2 (H1 p)) as (i & F); [eauto|]. destruct G as (_ & G & _). destruct (G _ _ F) as (y & FY).
    rewrite (proj2 (S1 _) (ex_intro _ i (ex_intro _ y (conj F (conj FY eq_refl))))) in Q. discriminate.
  - cbn in E. injection E as <- <-. split.
    + split; [easy|]. intros NH. destruct (source_snapshot_for_path core z p) as [s|] eqn:ES; [|easy].
      destruct (proj1 (S1 s) eq_refl) as (i & y & F & _). destruct (proj1 (H1 p)) as (x & HH); [eauto|]. now apply NH in HH.
    + intros _. destruct w as [es n]. cbn [engines next_instance] in *. f_equal. clear - NZ. revert e NZ.
      induction es as [|y es IH]; intros [|e] NZ; cbn in *; auto; [congruence|]. f_equal. now apply IH.
Qed.
End Claims.
Print Assumptions C45_snapshot.
Print Assumptions C45_commit_partial.
Print Assumptions C45_accepted.
Print Assumptions C45_foreign.
Print Assumptions C45_register_if_partial.
Print Assumptions C45_register_new.

(** ** Without the hypothesis on the hash *)

(** Every text over two letters. *)
Fixpoint words (n : nat) : list text :=
  match n with 0 => [[]] | S n' => List.map (cons 97%N) (words n') ++ List.map (cons 98%N) (words n') end.
Lemma words_spec n w : In w (words n) <-> length w = n /\ Forall (fun c => c = 97%N \/ c = 98%N) w.
Proof.
  revert w. induction n as [|n IH]; intros w; cbn [words].
  - split; [intros [<-|[]]; auto|]. intros [L _]. destruct w; [now left|easy].
  - rewrite in_app_iff, !in_map_iff. split.
    + intros [(v & <- & I)|(v & <- & I)]; apply IH in I; destruct I; cbn [length]; auto.
    + intros [L F]. destruct w as [|c w]; [easy|]. apply Forall_cons_iff in F. destruct F as [[->| ->] F]; [left|right]; exists w; split; auto; apply IH; split; auto.
Qed.
Lemma words_length n : N.of_nat (length (words n)) = (2 ^ N.of_nat n)%N.
Proof.
  induction n as [|n IH]; [reflexivity|]. cbn [words]. rewrite app_length, !map_length, Nat2N.inj_add. unfold text in *. rewrite IH.
  replace (N.of_nat (S n)) with (N.succ (N.of_nat n)) by lia. rewrite N.pow_succ_r'. lia.
Qed.
Lemma words_distinct n : NoDup (words n).
Proof.
  induction n as [|n IH]; cbn [words]; [constructor; [easy|constructor]|].
  assert (forall c, NoDup (List.map (cons c) (words n))) as M by (intros c; apply Injective_map_NoDup; auto; intros a b E; congruence).
  revert M. generalize (words n) as v. clear. intros v M.
  assert (forall l1 l2 : list text, NoDup l1 -> NoDup l2 -> (forall x, In x l1 -> ~ In x l2) -> NoDup (l1 ++ l2)) as A.
  { clear. induction l1 as [|x l1 IH]; intros l2 H1 H2 D; auto. inversion H1; subst. cbn. constructor.
    - intros I. apply in_app_or in I. destruct I as [I|I]; auto. apply (D x); [now left|auto].
    - apply IH; auto. intros y Y. apply D. now right. }
  apply A; auto. intros x I J. apply in_map_iff in I, J. destruct I as (a & <- & _), J as (b & E & _). discriminate.
Qed.
Lemma text_dec : forall a b : text, {a = b} + {a <> b}.
Proof. apply (list_eq_dec N.eq_dec). Qed.
(** A hash with fewer values than there are texts maps two of them to one value. *)
Lemma pigeon (hash : text -> N) (B : N) n : (forall t, (hash t < B)%N) -> (B < 2 ^ N.of_nat n)%N ->
  exists t t', In t (words n) /\ In t' (words n) /\ t <> t' /\ hash t = hash t'.
Proof.
  intros HB HL.
  assert (forall l : list text, NoDup l -> (forall t t', In t l -> In t' l -> hash t = hash t' -> t = t') \/
    exists t t', In t l /\ In t' l /\ t <> t' /\ hash t = hash t') as D.
  { induction l as [|x l IH]; intros ND; [now left|]. inversion ND as [|? ? NX ND']; subst. destruct (IH ND') as [I|(t & t' & A & B' & C & E)].
    - destruct (in_dec N.eq_dec (hash x) (List.map hash l)) as [J|J].
      + right. apply in_map_iff in J. destruct J as (y & E & Y). exists x, y. repeat split; [now left|now right| |congruence]. intros ->. easy.
      + left. intros t t' [<-|T] [<-|T'] E; auto.
        * destruct J. rewrite E. now apply in_map.
        * destruct J. rewrite <- E. now apply in_map.
    - right. exists t, t'. repeat split; auto; now right. }
  destruct (D _ (words_distinct n)) as [I|H]; auto. exfalso.
  assert (NoDup (List.map hash (words n))) as ND.
  { clear - I. pose proof (words_distinct n) as W. revert I W. generalize (words n) as l. induction l as [|x l IH]; intros I W; [constructor|].
    inversion W; subst. cbn. constructor.
    - intros J. apply in_map_iff in J. destruct J as (y & E & Y). assert (y = x) as -> by (apply I; [now right|now left|auto]). easy.
    - apply IH; auto. intros t t' T T'. apply I; now right. }
  assert (incl (List.map hash (words n)) (List.map N.of_nat (seq 0 (N.to_nat B)))) as IN.
  { intros v V. apply in_map_iff in V. destruct V as (t & <- & _). apply in_map_iff. exists (N.to_nat (hash t)).
    split; [apply N2Nat.id|]. apply in_seq. specialize (HB t). lia. }
  pose proof (NoDup_incl_length ND IN) as X. pose proof (words_length n) as L. unfold text in *. rewrite !map_length, seq_length in X.
  revert X L HL. generalize (length (words n)). generalize (2 ^ N.of_nat n)%N. intros. lia.
Qed.

Lemma word_index w n : In w (words n) -> (0 < n < 1000) ->
  index_file w (negb (forallb (fun c => (c <? 128)%N) w)) = Some (mkFile [0; n] n true None).
Proof.
  intros I Hn. apply words_spec in I. destruct I as [L F].
  assert (forallb (fun c => (c <? 128)%N) w = true) as A.
  { apply forallb_forall. intros c C. rewrite Forall_forall in F. destruct (F c C) as [->| ->]; reflexivity. }
  assert (size w = n) as Z.
  { rewrite <- L. clear - F. induction F as [|c w [->| ->] F IH]; auto; rewrite size_cons, IH; reflexivity. }
  assert (line_starts 0 w = []) as LS.
  { generalize 0 as o. clear - F. induction F as [|c w [->| ->] F IH]; intros o; auto; cbn [line_starts N.eqb Pos.eqb nl app]; apply IH. }
  unfold index_file. rewrite A, Z. cbn [negb]. unfold u32. destruct (N.leb_spec (N.of_nat n) 4294967295); [|lia].
  unfold compute_line_offsets. rewrite LS, Z. cbn [last app]. destruct (Nat.eqb_spec 0 n); [lia|]. reflexivity.
Qed.

(** Any hash of 64 bits lets a stale commit through: ASCII texts are not kept, so two of them with the same
    hash and line lengths are taken for the same content. *)
Theorem C45_hash_refuted : forall hash, (forall t, (hash t < 2 ^ 64)%N) ->
  exists h1 w1 l1 p x h2 w2 s l2 w3, let run := run hash unit unit unit tt (fun _ _ _ _ => (tt, tt)) in
    run (start unit) h1 = Some (w1, l1) /\ holds h1 l1 0 p x /\
    run w1 (Snapshot _ _ 0 p :: h2) = Some (w2, Snapped _ (Some s) :: l2) /\ ~ only h2 l2 0 p x /\
    step hash unit unit unit tt (fun _ _ _ _ => (tt, tt)) w2 (Commit _ _ 0 s tt true) = Some (w3, Committed _ (Some tt)).
Proof.
  intros hash HB. destruct (pigeon hash (2 ^ 64) 65 HB) as (t & t' & I & I' & NE & E); [reflexivity|].
  pose proof (word_index t 65 I ltac:(lia)) as X. pose proof (word_index t' 65 I' ltac:(lia)) as X'.
  set (rf := fun (_ : N) (_ : unit) (_ : bool) (_ : unit) => (tt, tt)).
  set (src := mkSource (mkFile [0; 65] 65 true None) (hash t) 0 1 None).
  set (m := mkMap [([97%N], 0%N)] [(0%N, [97%N])] 1).
  set (en := mkEngine unit 1 1 m [(0%N, src)] tt).
  set (w := mkWorld unit [en] 2).
  assert (forall v, hash v = hash t -> index_file v (negb (forallb (fun c => (c <? 128)%N) v)) = Some (mkFile [0; 65] 65 true None) ->
    register hash unit en [97%N] v 0 None = Some (0%N, en)) as RG.
  { intros v Ev Iv. unfold register. rewrite Iv, Ev. unfold register_indexed_file.
    change (get_or_insert (ids unit en) [97%N]) with (Some (0%N, m)). cbv iota beta.
    change (file unit en 0) with (Some src). cbv iota beta. cbn [kind src content_hash shape package].
    rewrite !N.eqb_refl. destruct (file_dec _ _); [|easy]. destruct (package_dec None None); [|easy]. reflexivity. }
  exists [New _ _; Register _ _ 0 [97%N] t 0 None], w, [Done _; Done _], [97%N], (0%N, t, None), [Register _ _ 0 [97%N] t' 0 None], w,
    (mkSnapshot 1 0 1), [Done _], w.
  cbv zeta. repeat split.
  - cbn [run step bump start next_instance engines app nth_error]. cbn [N.ltb N.compare Pos.compare Pos.compare_cont N.add Pos.add].
    unfold register. rewrite X. reflexivity.
  - apply (now [New _ _] [Done _] (Register _ _ 0 [97%N] t 0 None) (Done unit) 0 [97%N] [97%N]); [reflexivity| |].
    + repeat split.
    + apply same_file_iff. reflexivity.
  - cbn [run]. change (step hash unit unit unit tt rf w (Snapshot unit unit 0 [97%N])) with (Some (w, Snapped unit (Some (mkSnapshot 1 0 1)))).
    cbv iota beta. cbn [step engines w nth_error]. rewrite (RG t' (eq_sym E) X'). reflexivity.
  - intros O. assert ((0%N, t', @None N) = (0%N, t, None)) as Q; [|congruence].
    apply (O (Register _ _ 0 [97%N] t' 0 None) (Done _) [97%N]); [now left|repeat split|]. apply same_file_iff. reflexivity.
Qed.
Print Assumptions C45_hash_refuted.

(** Non-vacuity of [C45_commit_partial]: a commit with nothing but the same text registered since, and one after an
    edit that was undone. *)
Definition first_char (t : text) : N := hd 0%N t.
Definition demo := run first_char unit unit unit tt (fun _ _ _ _ => (tt, tt)).
Example C45_example :
  let a := [97%N] in let x := [120%N] in let y := [121%N] in
  let h1 := [New _ _; Register _ _ 0 a x 0 None] in
  exists w1 w2 w2' s,
    demo (start unit) h1 = Some (w1, [Done _; Done _]) /\ holds h1 [Done unit; Done _] 0 a (0%N, x, None) /\
    demo w1 [Snapshot _ _ 0 a; Register _ _ 0 a x 0 None] = Some (w2, [Snapped _ (Some s); Done _]) /\
    demo w1 [Snapshot _ _ 0 a; Register _ _ 0 a y 0 None; Register _ _ 0 a x 0 None] = Some (w2', [Snapped _ (Some s); Done _; Done _]) /\
    distinguishes first_char (h1 ++ [Register unit unit 0 a y 0 None; Register _ _ 0 a x 0 None]) /\
    option_map snd (demo w2 [Commit _ _ 0 s tt true]) = Some [Committed _ (Some tt)] /\
    option_map snd (demo w2' [Commit _ _ 0 s tt true]) = Some [Committed _ None].
Proof.
  cbv zeta. eexists. eexists. eexists. exists (mkSnapshot 1 0 1). split; [reflexivity|]. split.
  { apply (now [New _ _] [Done _] (Register _ _ 0 [97%N] [120%N] 0 None) (Done unit) 0 [97%N] [97%N]); [reflexivity|repeat split|].
    apply same_file_iff. reflexivity. }
  split; [reflexivity|]. split; [reflexivity|]. split; [|split; reflexivity].
  intros t t' T T'. cbn in T, T'. repeat (destruct T as [<-|T]); repeat (destruct T' as [<-|T']); cbn; try easy.
Qed.
