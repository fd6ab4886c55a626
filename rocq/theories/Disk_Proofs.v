From Coq Require Import List Arith Bool Lia.
From Verif Require Import Lib Disk_Model.
Import ListNotations.

Section D.
Variable payload : Type.
Variable enc : payload -> bytes.
Variable dec : nat -> bytes -> option payload.
Variable shard : nat -> nat.
Variable files : nat -> option bytes.
Variable dirs : nat -> bool.
Notation state := (state payload).
Notation phase := (phase payload).
Notation op := (op payload).
Notation step := (step payload enc dec shard).
Notation run := (run payload enc dec shard).
Arguments phase_of {payload} _ _.
Arguments setp {payload} _ _ _.
Arguments link {payload} _ _ _.
Arguments mkdir {payload} _ _.
Arguments set_inodes {payload} _ _.
Arguments paths {payload} _.
Arguments inodes {payload} _.
Arguments actors {payload} _.
Arguments gen {payload} _.
Arguments dir_there {payload} _.
Arguments dir_safe {payload} _.
Arguments linked {payload} _.
Arguments synced {payload} _.
Arguments data {payload} _.
Arguments ikey {payload} _.
Arguments ipay {payload} _.
Arguments iowner {payload} _.
Arguments holds_excl {payload} _.
Arguments holds_shared {payload} _.
Arguments key_lock {payload} _.
Arguments holds_key {payload} _ _ _.
Arguments read {payload} _ _.
Arguments file {payload} _ _.
Arguments others {payload} _ _ _.

(** *** Frame facts *)
Lemma phase_setp (s : state) a p b :
  phase_of (setp s a p) b = if b =? a then match phase_of s a with Some _ => Some p | None => None end else phase_of s b.
Proof.
  unfold setp, phase_of. destruct (nth_error (actors s) a) as [x|] eqn:N.
  - unfold setA. cbn [actors]. rewrite nth_upd. rewrite (Nat.eqb_sym b a). destruct (Nat.eqb_spec a b) as [->|].
    + rewrite N. reflexivity.
    + reflexivity.
  - destruct (Nat.eqb_spec b a) as [->|]; [rewrite N|]; reflexivity.
Qed.
Lemma setp_inodes (s : state) a p : inodes (setp s a p) = inodes s.
Proof. unfold setp. destruct (nth_error _ _); reflexivity. Qed.
Lemma setp_paths (s : state) a p : paths (setp s a p) = paths s.
Proof. unfold setp. destruct (nth_error _ _); reflexivity. Qed.
Lemma setp_gen (s : state) a p : gen (setp s a p) = gen s.
Proof. unfold setp. destruct (nth_error _ _); reflexivity. Qed.
Lemma setp_safe (s : state) a p : dir_safe (setp s a p) = dir_safe s.
Proof. unfold setp. destruct (nth_error _ _); reflexivity. Qed.
Lemma mkdir_eq (s : state) d : inodes (mkdir s d) = inodes s /\ paths (mkdir s d) = paths s /\ actors (mkdir s d) = actors s /\ gen (mkdir s d) = gen s.
Proof. unfold mkdir. destruct (dir_there s d); auto. Qed.

Lemma others_false (f : phase -> bool) (s : state) a b p :
  others f s a = false -> b <> a -> phase_of s b = Some p -> f p = false.
Proof.
  unfold others, phase_of. intros H N P. destruct (nth_error (actors s) b) as [x|] eqn:E; [|discriminate].
  injection P as <-. destruct (f (ph payload x)) eqn:F; auto. exfalso.
  assert (L : b < length (actors s)) by (apply nth_error_Some; congruence).
  assert (T : existsb (fun b => negb (b =? a) && match nth_error (actors s) b with Some x => f (ph payload x) | None => false end) (seq 0 (length (actors s))) = true).
  { apply existsb_exists. exists b. split; [apply in_seq; lia|]. rewrite E, F.
    destruct (Nat.eqb_spec b a); [congruence|reflexivity]. }
  congruence.
Qed.
Lemma others_true (f : phase -> bool) (s : state) a :
  others f s a = true -> exists b p, b <> a /\ phase_of s b = Some p /\ f p = true.
Proof.
  unfold others, phase_of. intros H. apply existsb_exists in H. destruct H as (b & _ & H).
  apply andb_prop in H. destruct H as [H1 H2]. destruct (nth_error (actors s) b) as [x|] eqn:E; [|discriminate].
  exists b, (ph payload x). rewrite E. destruct (Nat.eqb_spec b a); [discriminate|]. auto.
Qed.

Lemma phase_kill d (s : state) b p :
  option_map (ph payload) (nth_error (kill payload d (actors s)) b) = Some p ->
  p = Dead payload \/ phase_of s b = Some p.
Proof.
  unfold kill, phase_of. rewrite nth_error_map. destruct (nth_error (actors s) b) as [x|]; [|discriminate].
  simpl. destruct (d x); intros [= <-]; auto.
Qed.
Lemma phase_spawn (s : state) q b p :
  option_map (ph payload) (nth_error (actors s ++ [mkA payload q (Idle payload)]) b) = Some p ->
  p = Idle payload \/ phase_of s b = Some p.
Proof.
  unfold phase_of. intros H. destruct (Nat.lt_ge_cases b (length (actors s))) as [L|L].
  - rewrite nth_error_app1 in H by lia. auto.
  - rewrite nth_error_app2 in H by lia. destruct (b - length (actors s)) as [|[|?]]; simpl in H; try discriminate.
    injection H as <-. auto.
Qed.

(** *** Locks *)
Definition opened (p : phase) : option (nat * nat) :=
  match p with WantK _ k g => Some (k, g) | _ => key_lock p end.

Record linv (s : state) : Prop := {
  l_excl : forall a b pa pb, a <> b -> phase_of s a = Some pa -> phase_of s b = Some pb ->
     holds_excl pa = true -> holds_shared pb = false /\ holds_excl pb = false;
  l_gen : forall a p k g, phase_of s a = Some p -> opened p = Some (k, g) -> g = gen s;
  l_key : forall a b pa pb kg, a <> b -> phase_of s a = Some pa -> phase_of s b = Some pb ->
     key_lock pa = Some kg -> key_lock pb <> Some kg
}.

(** one actor moves from phase p to p' *)
Lemma linv_move (s s' : state) a p p' :
  linv s -> phase_of s a = Some p -> gen s' = gen s ->
  (forall b, phase_of s' b = if b =? a then Some p' else phase_of s b) ->
  (holds_excl p' = true -> holds_excl p = true \/ others (fun q => holds_shared q || holds_excl q) s a = false) ->
  (holds_shared p' = true -> holds_shared p = true \/ others holds_excl s a = false) ->
  (forall k g, key_lock p' = Some (k, g) -> key_lock p = Some (k, g) \/ others (holds_key k g) s a = false) ->
  (forall k g, opened p' = Some (k, g) -> opened p = Some (k, g) \/ g = gen s) ->
  linv s'.
Proof.
  intros I P G F X1 X2 X3 X4. constructor.
  - intros c d pc pd N Pc Pd H. rewrite F in Pc, Pd. 
    destruct (Nat.eqb_spec c a) as [->|C], (Nat.eqb_spec d a) as [->|D]; try congruence.
    + injection Pc as <-. destruct (X1 H) as [E|E].
      * apply (l_excl _ I a d p pd); auto.
      * pose proof (others_false _ _ _ d pd E D Pd) as Q. apply orb_false_iff in Q. auto.
    + injection Pd as <-. pose proof (l_excl _ I c a pc p C Pc P H) as [Q1 Q2]. split.
      * destruct (holds_shared p') eqn:E; auto. destruct (X2 eq_refl) as [E'|E']; [congruence|].
        pose proof (others_false _ _ _ c pc E' C Pc). congruence.
      * destruct (holds_excl p') eqn:E; auto. destruct (X1 eq_refl) as [E'|E']; [congruence|].
        pose proof (others_false _ _ _ c pc E' C Pc) as Q. simpl in Q. rewrite H, orb_true_r in Q. discriminate.
    + apply (l_excl _ I c d pc pd); auto.
  - intros c pc k g Pc O. rewrite F in Pc. rewrite G. destruct (Nat.eqb_spec c a) as [->|C].
    + injection Pc as <-. destruct (X4 _ _ O) as [E|E]; auto. apply (l_gen _ I a p k g); auto.
    + apply (l_gen _ I c pc k g); auto.
  - assert (H3 : forall d pd k g, d <> a -> phase_of s d = Some pd -> key_lock p' = Some (k, g) -> key_lock pd <> Some (k, g)).
    { intros d pd k g D Pd H E. destruct (X3 _ _ H) as [Q|Q].
      - apply (l_key _ I a d p pd (k, g)); auto.
      - pose proof (others_false _ _ _ d pd Q D Pd) as R. unfold holds_key in R. rewrite E, !Nat.eqb_refl in R. discriminate. }
    intros c d pc pd [k g] N Pc Pd H E. rewrite F in Pc, Pd.
    destruct (Nat.eqb_spec c a) as [->|C], (Nat.eqb_spec d a) as [->|D]; try congruence.
    + injection Pc as <-. apply (H3 d pd k g D Pd H E).
    + injection Pd as <-. apply (H3 c pc k g C Pc E H).
    + apply (l_key _ I c d pc pd (k, g)); auto.
Qed.

Lemma linv_frame (s s' : state) : linv s -> gen s' = gen s ->
  (forall b p, phase_of s' b = Some p -> phase_of s b = Some p \/ p = Dead payload \/ p = Idle payload) -> linv s'.
Proof.
  intros I G F. constructor.
  - intros a b pa pb N Pa Pb H. destruct (F _ _ Pa) as [Qa|[->| ->]], (F _ _ Pb) as [Qb|[->| ->]]; try discriminate; auto.
    apply (l_excl _ I a b pa pb); auto.
  - intros a p k g P O. rewrite G. destruct (F _ _ P) as [Q|[->| ->]]; try discriminate. apply (l_gen _ I a p k g); auto.
  - intros a b pa pb kg N Pa Pb H. destruct (F _ _ Pa) as [Qa|[->| ->]], (F _ _ Pb) as [Qb|[->| ->]]; try discriminate.
    apply (l_key _ I a b pa pb kg); auto.
Qed.

Lemma phase_move (s s' : state) a p p' : phase_of s a = Some p -> s' = setp s a p' ->
  forall b, phase_of s' b = if b =? a then Some p' else phase_of s b.
Proof. intros P -> b. rewrite phase_setp, P. reflexivity. Qed.

Lemma gen_link (s : state) k r : gen (link s k r) = gen s. Proof. reflexivity. Qed.
Lemma phase_link (s : state) k r b : phase_of (link s k r) b = phase_of s b. Proof. reflexivity. Qed.
Lemma phase_inodes (s : state) l b : phase_of (set_inodes s l) b = phase_of s b. Proof. reflexivity. Qed.
Lemma phase_mkdir (s : state) d b : phase_of (mkdir s d) b = phase_of s b.
Proof. unfold phase_of. rewrite (proj1 (proj2 (proj2 (mkdir_eq s d)))). reflexivity. Qed.

Local Arguments setp : simpl never.
Local Arguments link : simpl never.
Local Arguments mkdir : simpl never.
Local Arguments phase_of : simpl never.

Ltac mv I P := eapply (linv_move _ _ _ _ _ I P);
  [ repeat first [rewrite setp_gen | rewrite gen_link | reflexivity | apply (proj2 (proj2 (proj2 (mkdir_eq _ _))))]
  | intros ?b; rewrite phase_setp; rewrite ?phase_link, ?phase_inodes, ?phase_mkdir; try rewrite P; reflexivity
  | cbn; intros; auto; try discriminate
  | cbn; intros; auto; try discriminate
  | cbn; intros; auto; try discriminate
  | cbn; intros; auto; try discriminate ].

Lemma linv_step s o : linv s -> linv (step s o).
Proof.
  intros I. destruct o; cbn [Disk_Model.step].
  - (* spawn *) apply (linv_frame s); auto. intros b p H. apply phase_spawn in H. tauto.
  - (* lookup *) destruct (phase_of s a) as [[]|] eqn:P; auto. mv I P.
  - (* read *) destruct (phase_of s a) as [[]|] eqn:P; auto.
    destruct (option_map (read s) r) as [b|]; [destruct (dec k b)|]; mv I P.
  - (* shared *) destruct (phase_of s a) as [[]|] eqn:P; auto. destruct (others holds_excl s a) eqn:O; auto. mv I P.
  - (* open key *) destruct (phase_of s a) as [[]|] eqn:P; auto. mv I P. injection H as <- <-. auto.
  - (* key *) destruct (phase_of s a) as [[]|] eqn:P; auto. destruct (others _ s a) eqn:O; auto. mv I P.
    + injection H as <- <-. auto.
  - (* open2 *) destruct (phase_of s a) as [[]|] eqn:P; auto. mv I P.
  - (* read2 *) destruct (phase_of s a) as [[]|] eqn:P; auto.
    destruct (option_map (read s) r) as [b|]; [destruct (dec k b)|]; mv I P.
  - (* remove *) destruct (phase_of s a) as [[]|] eqn:P; auto. mv I P.
  - (* create *) destruct (phase_of s a) as [[]|] eqn:P; auto. mv I P.
  - (* write *) destruct (phase_of s a) as [[]|] eqn:P; auto. destruct (nth_error (inodes s) i); auto. mv I P.
  - (* fsync *) destruct (phase_of s a) as [[]|] eqn:P; auto. destruct (nth_error (inodes s) i); auto. destruct (_ <=? _); auto. mv I P.
  - (* rename *) destruct (phase_of s a) as [[]|] eqn:P; auto. destruct (nth_error (inodes s) i); auto. mv I P.
  - (* dirsync *) destruct (phase_of s a) as [[]|] eqn:P; auto.
    apply (linv_move s _ a _ (Rel payload k g p) I P); [rewrite setp_gen; reflexivity| |cbn; auto; discriminate..].
    intros b. rewrite phase_setp. unfold phase_of in *. cbn [actors]. rewrite P. reflexivity.
  - (* unlock *) destruct (phase_of s a) as [[]|] eqn:P; auto. mv I P.
  - (* stop *) destruct (phase_of s a) as [p|] eqn:P; auto.
    assert (Q : linv (setp s a (Idle payload))) by mv I P. destruct p; exact Q || exact I.
  - (* wantx *) destruct (phase_of s a) as [[]|] eqn:P; auto. mv I P.
  - (* takex *) destruct (phase_of s a) as [[]|] eqn:P; auto. destruct (others _ s a) eqn:O; auto. mv I P.
  - (* keyx *) destruct (phase_of s a) as [[]|] eqn:P; auto. destruct (others _ s a) eqn:O; auto. mv I P.
    + injection H as <- <-. auto.
    + injection H as <- <-. auto.
  - (* rmx *) destruct (phase_of s a) as [p|] eqn:P; auto. destruct (holds_excl p); auto.
    apply (linv_frame s); auto.
  - (* cleardir *) destruct (phase_of s a) as [[]|] eqn:P; auto. apply (linv_frame s); auto.
  - (* locks *) destruct (phase_of s a) as [[]|] eqn:P; auto.
    assert (K : forall b p, phase_of s b = Some p -> opened p = None).
    { intros b p Pb. destruct (Nat.eq_dec a b) as [<-|N]; [rewrite P in Pb; injection Pb as <-; reflexivity|].
      destruct (l_excl _ I a b _ p N P Pb eq_refl) as [Q1 Q2]. destruct p; simpl in *; auto; discriminate. }
    constructor.
    + apply (l_excl _ I).
    + intros b p k g Pb O. unfold phase_of in Pb. cbn [actors] in Pb. rewrite (K b p Pb) in O. discriminate.
    + apply (l_key _ I).
  - (* kill *) apply (linv_frame s); auto. intros b p H. apply phase_kill in H. tauto.
  - (* power *) apply (linv_frame s); auto. intros b p H. apply phase_kill in H. tauto.
Qed.

Lemma linv_init : linv (init payload files dirs).
Proof. constructor; intros; unfold phase_of in *; destruct a; discriminate. Qed.
Lemma linv_run h : linv (run (init payload files dirs) h).
Proof.
  induction h using rev_ind; [apply linv_init|]. unfold Disk_Model.run in *. rewrite fold_left_app. apply linv_step. auto.
Qed.

(** *** File contents *)
Definition good (s : state) (k : nat) (r : option ref) : Prop :=
  match r with
  | None => True
  | Some (Old b) => files k = Some b
  | Some (New i) => exists nd, nth_error (inodes s) i = Some nd /\ linked nd = true /\ ikey nd = k
  end.
Definition from (s : state) (k : nat) (b : bytes) : Prop :=
  files k = Some b \/ exists i nd, nth_error (inodes s) i = Some nd /\ linked nd = true /\ ikey nd = k /\ b = enc (ipay nd).
Definition mine (s : state) (a i k : nat) (p : payload) (d : bytes) (sy : bool) : Prop :=
  exists nd, nth_error (inodes s) i = Some nd /\ linked nd = false /\ iowner nd = a /\ ikey nd = k /\ ipay nd = p /\ data nd = d /\ (sy = true -> synced nd = true).
Definition here (s : state) (k : nat) (p : payload) : Prop :=
  exists i nd, cur (paths s k) = Some (New i) /\ nth_error (inodes s) i = Some nd /\ linked nd = true /\ ipay nd = p.

Definition ph_ok (s : state) (a : nat) (p : phase) : Prop :=
  match p with
  | Rd1 _ k r | Rd2 _ k _ r => good s k r
  | Hit _ k p => exists b, dec k b = Some p /\ from s k b
  | Tmp _ k _ i p w => mine s a i k p (firstn w (enc p)) false
  | Full _ k _ i p => mine s a i k p (enc p) true
  | Ren _ k _ p => here s k p
  | Rel _ k _ p => here s k p /\ past (paths s k) = [cur (paths s k)]
  | _ => True
  end.

Record inv (s : state) : Prop := {
  i_past : forall k r, In r (past (paths s k)) -> good s k r;
  i_cur : forall k, In (cur (paths s k)) (past (paths s k));
  i_linked : forall i nd, nth_error (inodes s) i = Some nd -> linked nd = true -> synced nd = true /\ data nd = enc (ipay nd);
  i_ph : forall a p, phase_of s a = Some p -> ph_ok s a p
}.

(** the inodes another actor relies on are untouched *)
Definition keeps (a : nat) (s s' : state) : Prop :=
  forall i nd, nth_error (inodes s) i = Some nd -> linked nd = true \/ iowner nd <> a -> nth_error (inodes s') i = Some nd.

Lemma good_keeps a s s' k r : keeps a s s' -> good s k r -> good s' k r.
Proof. intros K. destruct r as [[b|i]|]; simpl; auto. intros (nd & N & L & E). exists nd. split; auto. Qed.
Lemma from_keeps a s s' k b : keeps a s s' -> from s k b -> from s' k b.
Proof. intros K [F|(i & nd & N & L & E & Q)]; [left; auto|]. right. exists i, nd. split; auto. Qed.
Lemma mine_keeps a b s s' i k p d y : keeps a s s' -> a <> b -> mine s b i k p d y -> mine s' b i k p d y.
Proof. intros K N (nd & X & L & O & R). exists nd. split; [apply K; auto; right; congruence|]. split; auto. Qed.

Definition writes_ok (a : nat) (s s' : state) : Prop :=
  (forall k, paths s' k = paths s k) \/
  (* only a path whose lock a holds, or everything when a holds the exclusive lock *)
  (forall b p k g, b <> a -> phase_of s b = Some p -> key_lock p = Some (k, g) -> paths s' k = paths s k).

Lemma inv_move s s' a p' :
  inv s -> keeps a s s' ->
  (forall b p, phase_of s' b = Some p -> (b = a /\ p = p') \/ (b <> a /\ phase_of s b = Some p)) ->
  (forall k r, In r (past (paths s' k)) -> In r (past (paths s k)) \/ good s' k r) ->
  (forall k, In (cur (paths s' k)) (past (paths s' k))) ->
  (forall i nd, nth_error (inodes s') i = Some nd -> linked nd = true -> synced nd = true /\ data nd = enc (ipay nd)) ->
  (forall b p k g, b <> a -> phase_of s b = Some p -> key_lock p = Some (k, g) ->
     cur (paths s' k) = cur (paths s k) /\ (past (paths s k) = [cur (paths s k)] -> past (paths s' k) = [cur (paths s k)])) ->
  ph_ok s' a p' -> inv s'.
Proof.
  intros I K F P1 P2 L W O. constructor; auto.
  - intros k r H. destruct (P1 _ _ H) as [Q|Q]; auto. apply (good_keeps a s); auto. apply (i_past _ I). auto.
  - intros b p H. destruct (F _ _ H) as [[-> ->]|[N Pb]]; auto.
    pose proof (i_ph _ I _ _ Pb) as Q. destruct p; simpl in *; auto.
    + apply (good_keeps a s); auto.
    + apply (good_keeps a s); auto.
    + eapply mine_keeps; eauto.
    + eapply mine_keeps; eauto.
    + destruct Q as (i & nd & Q1 & Q2 & Q3 & Q4). destruct (W b _ k g N Pb eq_refl) as [W1 W2].
      exists i, nd. rewrite W1. auto.
    + destruct Q as ((i & nd & Q1 & Q2 & Q3 & Q4) & Q5). destruct (W b _ k g N Pb eq_refl) as [W1 W2].
      split.
      * exists i, nd. rewrite W1. auto.
      * rewrite W1. auto.
    + destruct Q as (y & Q1 & Q2). exists y. split; auto. apply (from_keeps a s); auto.
Qed.

(** moving only the phase *)
Lemma inv_phase s a p p' : inv s -> phase_of s a = Some p -> (ph_ok s a p -> ph_ok s a p') -> inv (setp s a p').
Proof.
  intros I P H. apply (inv_move s _ a p'); auto.
  - intros i nd N _. rewrite setp_inodes. auto.
  - intros b q. rewrite phase_setp, P. destruct (Nat.eqb_spec b a) as [->|N]; [intros [= <-]|]; auto.
  - intros k r. rewrite setp_paths. auto.
  - intros k. rewrite setp_paths. apply (i_cur _ I).
  - rewrite setp_inodes. apply (i_linked _ I).
  - intros. rewrite setp_paths. auto.
  - pose proof (H (i_ph _ I _ _ P)) as Q. revert Q.
    destruct p'; unfold ph_ok, good, mine, here, from; rewrite ?setp_inodes, ?setp_paths; auto.
Qed.

Lemma link_paths (s : state) k r x :
  paths (link s k r) x = if x =? k then mkP r (r :: past (paths s k)) else paths s x.
Proof. reflexivity. Qed.

(** unlinking a path that nobody else has locked *)
Lemma inv_unlink s a k p p' : inv s -> phase_of s a = Some p ->
  (forall b q g, b <> a -> phase_of s b = Some q -> key_lock q <> Some (k, g)) ->
  ph_ok (setp (link s k None) a p') a p' -> inv (setp (link s k None) a p').
Proof.
  intros I P L O. apply (inv_move s _ a p'); auto.
  - intros i nd N _. rewrite setp_inodes. auto.
  - intros b q. rewrite phase_setp, !phase_link, P. destruct (Nat.eqb_spec b a) as [->|N]; [intros [= <-]|]; auto.
  - intros x r. rewrite setp_paths, link_paths. destruct (Nat.eqb_spec x k) as [->|]; auto. simpl.
    intros [<-|H]; auto. right. exact Logic.I.
  - intros x. rewrite setp_paths, link_paths. destruct (Nat.eqb_spec x k) as [->|]; simpl; auto. apply (i_cur _ I).
  - rewrite setp_inodes. apply (i_linked _ I).
  - intros b q x g N Pb K. rewrite setp_paths, link_paths. destruct (Nat.eqb_spec x k) as [->|]; auto.
    destruct (L b q g N Pb K).
Qed.

Lemma reboot_nth junk : forall l j i, nth_error (reboot_inodes payload junk j l) i =
  option_map (fun n => if synced n then n else mkI payload (junk (j + i)) false (linked n) (iowner n) (ikey n) (ipay n)) (nth_error l i).
Proof.
  induction l; intros j i; destruct i; simpl; auto.
  - rewrite Nat.add_0_r. reflexivity.
  - rewrite IHl. replace (S j + i) with (j + S i) by lia. reflexivity.
Qed.

Lemma inv_init : inv (init payload files dirs).
Proof.
  constructor.
  - intros k r [<-|[]]. simpl. destruct (files k) eqn:E; simpl; auto.
  - intros k. simpl. auto.
  - intros i nd. destruct i; discriminate.
  - intros a p H. unfold phase_of in H. destruct a; discriminate.
Qed.

Lemma excl_alone s a p : linv s -> phase_of s a = Some p -> holds_excl p = true ->
  forall b q k g, b <> a -> phase_of s b = Some q -> key_lock q <> Some (k, g).
Proof.
  intros I P X b q k g N Pb E. destruct (l_excl _ I a b p q) as [Q1 Q2]; auto.
  destruct q; simpl in *; discriminate.
Qed.

Lemma good_from s k r b : inv s -> good s k r -> option_map (read s) r = Some b -> from s k b.
Proof.
  intros I G E. destruct r as [[x|i]|]; simpl in *; try discriminate.
  - left. congruence.
  - destruct G as (nd & N & L & K). rewrite N in E. injection E as <-. right. exists i, nd.
    destruct (i_linked _ I _ _ N L). auto.
Qed.

Lemma inv_step s o : linv s -> inv s -> inv (step s o).
Proof.
  intros LI I. destruct o; cbn [Disk_Model.step].
  - (* spawn *) constructor; try apply I. intros a p H. apply phase_spawn in H. destruct H as [->|H]; [exact Logic.I|].
    apply (i_ph _ I _ _ H).
  - destruct (phase_of s a) as [[]|] eqn:P; auto. apply (inv_phase s a _ _ I P). intros _. apply (i_past _ I). apply (i_cur _ I).
  - destruct (phase_of s a) as [[]|] eqn:P; auto.
    destruct (option_map (read s) r) as [b|] eqn:R; [destruct (dec k b) as [q|] eqn:D|]; apply (inv_phase s a _ _ I P); simpl; auto.
    intros G. exists b. split; auto. eapply good_from; eauto.
  - destruct (phase_of s a) as [[]|] eqn:P; auto. destruct (others _ s a); auto. apply (inv_phase s a _ _ I P). simpl. auto.
  - destruct (phase_of s a) as [[]|] eqn:P; auto. apply (inv_phase s a _ _ I P). simpl. auto.
  - destruct (phase_of s a) as [[]|] eqn:P; auto. destruct (others _ s a); auto. apply (inv_phase s a _ _ I P). simpl. auto.
  - destruct (phase_of s a) as [[]|] eqn:P; auto. apply (inv_phase s a _ _ I P). intros _. apply (i_past _ I). apply (i_cur _ I).
  - destruct (phase_of s a) as [[]|] eqn:P; auto.
    destruct (option_map (read s) r) as [b|] eqn:R; [destruct (dec k b) as [q|] eqn:D|]; apply (inv_phase s a _ _ I P); simpl; auto.
    intros G. exists b. split; auto. eapply good_from; eauto.
  - (* remove *) destruct (phase_of s a) as [[]|] eqn:P; auto. apply (inv_unlink s a _ _ _ I P); simpl; auto.
    intros b q g' N Pb K. pose proof (l_gen _ LI a _ k g P eq_refl). assert (opened q = Some (k, g')) by (destruct q; simpl in *; auto; discriminate).
    pose proof (l_gen _ LI b _ k g' Pb H0). subst. apply (l_key _ LI a b _ q (k, gen s) (not_eq_sym N) P Pb); auto.
  - (* create *) destruct (phase_of s a) as [[]|] eqn:P; auto.
    destruct (mkdir_eq s (shard k)) as (M1 & M2 & M3 & M4). cbv zeta.
    assert (FR : forall i nd, nth_error (inodes s) i = Some nd -> nth_error (inodes s ++ [mkI payload [] false false a k p]) i = Some nd).
    { intros i nd N. rewrite nth_error_app1; auto. apply nth_error_Some. congruence. }
    eapply (inv_move s _ a); eauto.
    + intros i nd N _. rewrite setp_inodes. cbn [inodes set_inodes]. rewrite M1. auto.
    + intros b q. rewrite phase_setp, !phase_inodes, !phase_mkdir, P.
      destruct (Nat.eqb_spec b a) as [->|N]; [intros [= <-]|]; auto.
    + intros x r. rewrite setp_paths. cbn [paths set_inodes]. rewrite M2. auto.
    + intros x. rewrite setp_paths. cbn [paths set_inodes]. rewrite M2. apply (i_cur _ I).
    + rewrite setp_inodes. cbn [inodes set_inodes]. rewrite M1. intros i nd N L.
      destruct (Nat.lt_ge_cases i (length (inodes s))) as [Q|Q].
      * rewrite nth_error_app1 in N by lia. apply (i_linked _ I _ _ N L).
      * rewrite nth_error_app2 in N by lia. destruct (i - length (inodes s)) as [|[|?]]; try discriminate.
        injection N as <-. discriminate.
    + intros. rewrite setp_paths. cbn [paths set_inodes]. rewrite M2. auto.
    + simpl. unfold mine. rewrite setp_inodes. cbn [inodes set_inodes]. rewrite M1.
      eexists. split; [rewrite nth_error_app2, Nat.sub_diag by lia; reflexivity|]. cbn. repeat split; auto.
  - (* write *) destruct (phase_of s a) as [[]|] eqn:P; auto. destruct (nth_error (inodes s) i) as [nd|] eqn:N; auto.
    pose proof (i_ph _ I _ _ P) as (nd' & N' & ML & MO & MK & MP & MD & MS). rewrite N in N'. injection N' as <-.
    assert (NU : forall j, nth_error (inodes (setp (set_inodes s (upd (inodes s) i (mkI payload (firstn (w + n) (enc p)) false (linked nd) (iowner nd) (ikey nd) (ipay nd)))) a
        (Tmp payload k g i p (Nat.min (w + n) (length (enc p)))))) j = if i =? j then Some (mkI payload (firstn (w + n) (enc p)) false (linked nd) (iowner nd) (ikey nd) (ipay nd)) else nth_error (inodes s) j).
    { intros j. rewrite setp_inodes. cbn [inodes set_inodes]. rewrite nth_upd. destruct (Nat.eqb_spec i j) as [->|]; auto. rewrite N. auto. }
    eapply (inv_move s _ a); eauto.
    + intros j md Nj H. rewrite NU. destruct (Nat.eqb_spec i j) as [->|]; auto. exfalso. assert (md = nd) by congruence. subst. destruct H; congruence.
    + intros b q. rewrite phase_setp, !phase_inodes, P. destruct (Nat.eqb_spec b a) as [->|Nb]; [intros [= <-]|]; auto.
    + intros x r. rewrite setp_paths. auto.
    + intros x. rewrite setp_paths. apply (i_cur _ I).
    + intros j md. rewrite NU. destruct (Nat.eqb_spec i j) as [->|]; [|apply (i_linked _ I)].
      intros [= <-]. simpl. congruence.
    + intros. rewrite setp_paths. auto.
    + simpl. unfold mine. rewrite NU, Nat.eqb_refl. eexists. split; [reflexivity|]. cbn. repeat split; auto.
      destruct (Nat.le_ge_cases (w + n) (length (enc p))); [rewrite Nat.min_l by lia; auto|].
      rewrite Nat.min_r by lia. rewrite firstn_all. apply firstn_all2. lia.
  - (* fsync *) destruct (phase_of s a) as [[]|] eqn:P; auto. destruct (nth_error (inodes s) i) as [nd|] eqn:N; auto.
    destruct (Nat.leb_spec (length (enc p)) w) as [W|]; auto.
    pose proof (i_ph _ I _ _ P) as (nd' & N' & ML & MO & MK & MP & MD & MS). rewrite N in N'. injection N' as <-.
    assert (NU : forall j, nth_error (inodes (setp (set_inodes s (upd (inodes s) i (mkI payload (data nd) true (linked nd) (iowner nd) (ikey nd) (ipay nd)))) a
        (Full payload k g i p))) j = if i =? j then Some (mkI payload (data nd) true (linked nd) (iowner nd) (ikey nd) (ipay nd)) else nth_error (inodes s) j).
    { intros j. rewrite setp_inodes. cbn [inodes set_inodes]. rewrite nth_upd. destruct (Nat.eqb_spec i j) as [->|]; auto. rewrite N. auto. }
    eapply (inv_move s _ a); eauto.
    + intros j md Nj H. rewrite NU. destruct (Nat.eqb_spec i j) as [->|]; auto. exfalso. assert (md = nd) by congruence. subst. destruct H; congruence.
    + intros b q. rewrite phase_setp, !phase_inodes, P. destruct (Nat.eqb_spec b a) as [->|Nb]; [intros [= <-]|]; auto.
    + intros x r. rewrite setp_paths. auto.
    + intros x. rewrite setp_paths. apply (i_cur _ I).
    + intros j md. rewrite NU. destruct (Nat.eqb_spec i j) as [->|]; [|apply (i_linked _ I)].
      intros [= <-]. simpl. congruence.
    + intros. rewrite setp_paths. auto.
    + simpl. unfold mine. rewrite NU, Nat.eqb_refl. eexists. split; [reflexivity|]. cbn. repeat split; auto.
      rewrite MD. apply firstn_all2. lia.
  - (* rename *) destruct (phase_of s a) as [[]|] eqn:P; auto. destruct (nth_error (inodes s) i) as [nd|] eqn:N; auto.
    pose proof (i_ph _ I _ _ P) as (nd' & N' & ML & MO & MK & MP & MD & MS). rewrite N in N'. injection N' as <-.
    set (nd1 := mkI payload (data nd) (synced nd) true (iowner nd) (ikey nd) (ipay nd)).
    set (s' := setp _ a _).
    assert (NU : forall j, nth_error (inodes s') j = if i =? j then Some nd1 else nth_error (inodes s) j).
    { intros j. unfold s'. rewrite setp_inodes. unfold link, set_inodes. cbn [inodes]. rewrite nth_upd. destruct (Nat.eqb_spec i j) as [->|]; auto. rewrite N. auto. }
    assert (PU : forall x, paths s' x = if x =? k then mkP (Some (New i)) (Some (New i) :: past (paths s k)) else paths s x).
    { intros x. unfold s'. rewrite setp_paths, link_paths. reflexivity. }
    assert (K1 : keeps a s s').
    { intros j md Nj H. rewrite NU. destruct (Nat.eqb_spec i j) as [->|]; auto. exfalso. assert (md = nd) by congruence. subst. destruct H; congruence. }
    apply (inv_move s s' a (Ren payload k g p)); auto.
    + intros b q. unfold s'. rewrite phase_setp, !phase_link, !phase_inodes, P. destruct (Nat.eqb_spec b a) as [->|Nb]; [intros [= <-]|]; auto.
    + intros x r. rewrite PU. destruct (Nat.eqb_spec x k) as [->|]; auto. intros [<-|H]; auto. right.
      simpl. exists nd1. rewrite NU, Nat.eqb_refl. auto.
    + intros x. rewrite PU. destruct (Nat.eqb_spec x k) as [->|]; simpl; auto. apply (i_cur _ I).
    + intros j md. rewrite NU. destruct (Nat.eqb_spec i j) as [->|]; [|apply (i_linked _ I)].
      intros [= <-] _. simpl. split; auto. congruence.
    + intros b q x g' Nb Pb K. rewrite PU. destruct (Nat.eqb_spec x k) as [->|]; auto. exfalso.
      pose proof (l_gen _ LI a _ k g P eq_refl). assert (O : opened q = Some (k, g')) by (destruct q; simpl in *; auto; discriminate).
      pose proof (l_gen _ LI b _ k g' Pb O). subst g g'. apply (l_key _ LI a b _ q (k, gen s) (not_eq_sym Nb) P Pb); auto.
    + simpl. exists i, nd1. rewrite PU, NU, !Nat.eqb_refl. auto.
  - (* dirsync *) destruct (phase_of s a) as [[]|] eqn:P; auto.
    set (s' := setp _ a _).
    assert (PU : forall x, paths s' x = if shard x =? shard k then mkP (cur (paths s x)) [cur (paths s x)] else paths s x).
    { intros x. unfold s'. rewrite setp_paths. reflexivity. }
    assert (IU : inodes s' = inodes s) by (unfold s'; rewrite setp_inodes; reflexivity).
    apply (inv_move s s' a (Rel payload k g p)); auto.
    + intros j md Nj H. rewrite IU. auto.
    + intros b q. unfold s'. rewrite phase_setp. unfold phase_of in *. cbn [actors]. rewrite P.
      destruct (Nat.eqb_spec b a) as [->|Nb]; [intros [= <-]|]; auto.
    + intros x r. rewrite PU. destruct (_ =? _); auto. intros [<-|[]]. left. apply (i_cur _ I).
    + intros x. rewrite PU. destruct (_ =? _); [simpl; auto|apply (i_cur _ I)].
    + rewrite IU. apply (i_linked _ I).
    + intros. rewrite PU. destruct (_ =? _); auto.
    + pose proof (i_ph _ I _ _ P) as (i & nd & Q1 & Q2 & Q3 & Q4). simpl. rewrite PU, Nat.eqb_refl. split; auto.
      exists i, nd. rewrite PU, IU, Nat.eqb_refl. auto.
  - destruct (phase_of s a) as [[]|] eqn:P; auto. apply (inv_phase s a _ _ I P). simpl. auto.
  - destruct (phase_of s a) as [q|] eqn:P; auto.
    assert (Q : inv (setp s a (Idle payload))) by (apply (inv_phase s a _ _ I P); simpl; auto). destruct q; exact Q || exact I.
  - destruct (phase_of s a) as [[]|] eqn:P; auto. apply (inv_phase s a _ _ I P). simpl. auto.
  - destruct (phase_of s a) as [[]|] eqn:P; auto. destruct (others _ s a); auto. apply (inv_phase s a _ _ I P). simpl. auto.
  - destruct (phase_of s a) as [[]|] eqn:P; auto. destruct (others _ s a); auto. apply (inv_phase s a _ _ I P). simpl. auto.
  - (* rmx *) destruct (phase_of s a) as [q|] eqn:P; auto. destruct (holds_excl q) eqn:X; auto.
    pose proof (excl_alone s a q LI P X) as AL.
    apply (inv_move s _ a q); auto.
    + intros j md Nj H. auto.
    + intros b r Pb. rewrite phase_link in Pb. destruct (Nat.eq_dec b a) as [->|]; auto. left. split; auto. congruence.
    + intros x r. rewrite link_paths. destruct (Nat.eqb_spec x k) as [->|]; auto. simpl. intros [<-|H]; auto. right. exact Logic.I.
    + intros x. rewrite link_paths. destruct (Nat.eqb_spec x k) as [->|]; simpl; auto. apply (i_cur _ I).
    + apply (i_linked _ I).
    + intros b r x g Nb Pb K. destruct (AL b r x g Nb Pb K).
    + destruct q; try discriminate; exact Logic.I.
  - (* cleardir *) destruct (phase_of s a) as [[]|] eqn:P; auto.
    pose proof (excl_alone s a _ LI P eq_refl) as AL.
    apply (inv_move s _ a (HaveX payload)); auto.
    + intros j md Nj H. auto.
    + intros b r Pb. destruct (Nat.eq_dec b a) as [->|]; auto. left. split; auto. unfold phase_of in *. cbn [actors] in Pb. congruence.
    + intros x r. cbn [paths]. destruct (_ =? _); auto. simpl. intros [<-|H]; auto. right. exact Logic.I.
    + intros x. cbn [paths]. destruct (_ =? _); simpl; auto. apply (i_cur _ I).
    + apply (i_linked _ I).
    + intros b r x g Nb Pb K. destruct (AL b r x g Nb Pb K).
    + exact Logic.I.
  - (* locks *) destruct (phase_of s a) as [[]|] eqn:P; auto. constructor; apply I.
  - (* kill *) constructor; try apply I. intros a p H. apply phase_kill in H. destruct H as [->|H]; [exact Logic.I|].
    apply (i_ph _ I _ _ H).
  - (* power *) 
    assert (GK : forall k r, good s k r -> forall s', inodes s' = reboot_inodes payload junk 0 (inodes s) -> good s' k r).
    { intros k r G s' E. destruct r as [[b|i]|]; simpl in *; auto. destruct G as (nd & N & L & Q).
      exists nd. rewrite E, reboot_nth, N. simpl. destruct (i_linked _ I _ _ N L) as [S1 S2]. rewrite S1. auto. }
    constructor.
    + intros k r [<-|[]]. eapply GK; [|reflexivity]. destruct (_ && _); [exact Logic.I|].
      destruct (Nat.lt_ge_cases (pick k) (length (past (paths s k)))) as [L|L].
      * apply (i_past _ I). apply nth_In. auto.
      * rewrite nth_overflow by lia. apply (i_past _ I). apply (i_cur _ I).
    + intros k. simpl. auto.
    + intros i nd N L. cbn [inodes] in N. rewrite reboot_nth in N. destruct (nth_error (inodes s) i) as [md|] eqn:M; [|discriminate].
      simpl in N. destruct (synced md) eqn:SY; injection N as <-.
      * apply (i_linked _ I _ _ M L).
      * simpl in L. destruct (i_linked _ I _ _ M L). congruence.
    + intros a p H. unfold phase_of in H. cbn [actors] in H. unfold kill in H. rewrite nth_error_map in H.
      destruct (nth_error (actors s) a); [|discriminate]. injection H as <-. exact Logic.I.
Qed.

Lemma inv_run h : inv (run (init payload files dirs) h).
Proof.
  induction h using rev_ind; [apply inv_init|]. pose proof (linv_run h) as L.
  unfold Disk_Model.run in *. rewrite fold_left_app. apply inv_step; auto.
Qed.

(** where linked inodes come from *)
Definition renamed (s0 : state) (h : list op) (k : nat) (p : payload) : Prop :=
  exists h1 a h2 g i, h = h1 ++ ORename payload a :: h2 /\ phase_of (run s0 h1) a = Some (Full payload k g i p).

Lemma linked_origin h i nd :
  nth_error (inodes (run (init payload files dirs) h)) i = Some nd -> linked nd = true ->
  renamed (init payload files dirs) h (ikey nd) (ipay nd).
Proof.
  revert i nd. induction h as [|o h IH] using rev_ind; intros i nd N L.
  - destruct i; discriminate.
  - set (s := run (init payload files dirs) h) in *.
    assert (R : run (init payload files dirs) (h ++ [o]) = step s o) by (unfold Disk_Model.run; rewrite fold_left_app; reflexivity).
    rewrite R in N.
    assert (EX : (exists md, nth_error (inodes s) i = Some md /\ linked md = true /\ ikey md = ikey nd /\ ipay md = ipay nd)
                 -> renamed (init payload files dirs) (h ++ [o]) (ikey nd) (ipay nd)).
    { intros (md & M & ML & E1 & E2). destruct (IH _ _ M ML) as (h1 & a & h2 & g & j & -> & Q).
      exists h1, a, (h2 ++ [o]), g, j. rewrite <- app_assoc. simpl. rewrite <- E1, <- E2. auto. }
    assert (SAME : inodes (step s o) = inodes s -> renamed (init payload files dirs) (h ++ [o]) (ikey nd) (ipay nd)).
    { intros E. apply EX. exists nd. rewrite <- E. auto. }
    pose proof (inv_run h) as I. fold s in I.
    destruct o; cbn [Disk_Model.step] in N, SAME; try (apply SAME; reflexivity).
    all: try (apply SAME; clear; repeat match goal with
        | |- context [match ?x with _ => _ end] => destruct x
        end; rewrite ?setp_inodes; try reflexivity; fail).
    + (* create *) destruct (phase_of s a) as [[]|] eqn:P; try (apply SAME; reflexivity).
      rewrite setp_inodes in N. cbn [inodes set_inodes] in N. rewrite (proj1 (mkdir_eq s (shard k))) in N.
      destruct (Nat.lt_ge_cases i (length (inodes s))) as [Q|Q].
      * rewrite nth_error_app1 in N by lia. apply EX. eauto.
      * rewrite nth_error_app2 in N by lia. destruct (i - length (inodes s)) as [|[|?]]; try discriminate.
        injection N as <-. discriminate.
    + (* write *) destruct (phase_of s a) as [[]|] eqn:P; try (apply SAME; reflexivity).
      destruct (nth_error (inodes s) i0) as [md|] eqn:M; try (apply SAME; reflexivity).
      rewrite setp_inodes in N. cbn [inodes set_inodes] in N. rewrite nth_upd in N.
      destruct (Nat.eqb_spec i0 i) as [->|]; [|apply EX; eauto]. rewrite M in N. injection N as <-.
      apply EX. exists md. auto.
    + (* fsync *) destruct (phase_of s a) as [[]|] eqn:P; try (apply SAME; reflexivity).
      destruct (nth_error (inodes s) i0) as [md|] eqn:M; try (apply SAME; reflexivity).
      destruct (_ <=? _); try (apply SAME; reflexivity).
      rewrite setp_inodes in N. cbn [inodes set_inodes] in N. rewrite nth_upd in N.
      destruct (Nat.eqb_spec i0 i) as [->|]; [|apply EX; eauto]. rewrite M in N. injection N as <-.
      apply EX. exists md. auto.
    + (* rename *) destruct (phase_of s a) as [[]|] eqn:P; try (apply SAME; reflexivity).
      destruct (nth_error (inodes s) i0) as [md|] eqn:M; try (apply SAME; reflexivity).
      rewrite setp_inodes in N. unfold link in N. cbn [inodes set_inodes] in N. rewrite nth_upd in N.
      destruct (Nat.eqb_spec i0 i) as [->|]; [|apply EX; eauto]. rewrite M in N. injection N as <-.
      pose proof (i_ph _ I _ _ P) as (nd' & N' & ML & MO & MK & MP & MD & MS). rewrite M in N'. injection N' as <-.
      exists h, a, [], g, i. split; auto. simpl. rewrite MK, MP. exact P.
    + (* power *) cbn [inodes] in N. rewrite reboot_nth in N.
      destruct (nth_error (inodes s) i) as [md|] eqn:M; [|discriminate]. simpl in N.
      apply EX. exists md. destruct (synced md); injection N as <-; auto.
Qed.

Lemma file_origin h k b : file (run (init payload files dirs) h) k = Some b ->
  files k = Some b \/ exists p, renamed (init payload files dirs) h k p /\ b = enc p.
Proof.
  intros F. pose proof (inv_run h) as I. unfold file in F.
  destruct (good_from _ k _ b I (i_past _ I _ _ (i_cur _ I k)) F) as [Q|(i & nd & N & L & K & E)]; auto.
  right. exists (ipay nd). split; auto. rewrite <- K. apply (linked_origin _ i); auto.
Qed.
Lemma hit_origin h a k p : phase_of (run (init payload files dirs) h) a = Some (Hit payload k p) ->
  exists b, dec k b = Some p /\ (files k = Some b \/ exists q, renamed (init payload files dirs) h k q /\ b = enc q).
Proof.
  intros P. pose proof (inv_run h) as I. destruct (i_ph _ I _ _ P) as (b & D & F). exists b. split; auto.
  destruct F as [F|(i & nd & N & L & K & E)]; auto. right. exists (ipay nd). split; auto. rewrite <- K. apply (linked_origin _ i); auto.
Qed.

Lemma rel_survives h a k g p pick lose junk :
  let s := run (init payload files dirs) h in
  phase_of s a = Some (Rel payload k g p) -> lose (shard k) = false \/ dir_safe s (shard k) = true ->
  file (step s (OPower payload pick lose junk)) k = Some (enc p).
Proof.
  intros s P SF. pose proof (inv_run h) as I. fold s in I.
  destruct (i_ph _ I _ _ P) as ((i & nd & C & N & L & E) & PA).
  unfold file. cbn [Disk_Model.step paths]. unfold reboot_path. cbn [cur].
  replace (lose (shard k) && negb (dir_safe s (shard k))) with false
    by (destruct SF as [-> | ->]; [reflexivity|rewrite andb_false_r; reflexivity]).
  rewrite PA, C. assert (Q : nth (pick k) [Some (New i)] (Some (New i)) = Some (New i)) by (destruct (pick k) as [|[|?]]; reflexivity).
  rewrite Q. simpl. rewrite reboot_nth, N. simpl. destruct (i_linked _ I _ _ N L) as [S1 S2]. rewrite S1. congruence.
Qed.

(** While a publisher holds its reservation the path stays empty until its own rename. *)
Definition held (s : state) (p : phase) : Prop :=
  match p with
  | Rd2 _ k _ r => cur (paths s k) = r
  | Resv _ k _ | Tmp _ k _ _ _ _ | Full _ k _ _ _ => cur (paths s k) = None
  | _ => True
  end.
Definition hinv (s : state) : Prop := forall a p, phase_of s a = Some p -> held s p.

Lemma hinv_move s s' a p' :
  hinv s ->
  (forall b p, phase_of s' b = Some p -> (b = a /\ p = p') \/ (b <> a /\ phase_of s b = Some p)) ->
  (forall b p k g, b <> a -> phase_of s b = Some p -> key_lock p = Some (k, g) -> cur (paths s' k) = cur (paths s k)) ->
  held s' p' -> hinv s'.
Proof.
  intros I F W O b p H. destruct (F _ _ H) as [[-> ->]|[N Pb]]; auto.
  pose proof (I _ _ Pb) as Q. destruct p; simpl in *; auto;
  match goal with
  | |- cur (paths s' ?k) = _ => rewrite (W b _ k g N Pb eq_refl); auto
  end.
Qed.
Lemma hinv_phase s a p p' : hinv s -> phase_of s a = Some p -> (held s p -> held s p') -> hinv (setp s a p').
Proof.
  intros I P H. apply (hinv_move s _ a p'); auto.
  - intros b q. rewrite phase_setp, P. destruct (Nat.eqb_spec b a) as [->|N]; [intros [= <-]|]; auto.
  - intros. rewrite setp_paths. auto.
  - pose proof (H (I _ _ P)) as Q. destruct p'; simpl in *; rewrite ?setp_paths; auto.
Qed.
Lemma key_alone s a p k g : linv s -> phase_of s a = Some p -> key_lock p = Some (k, g) ->
  forall b q g', b <> a -> phase_of s b = Some q -> key_lock q <> Some (k, g').
Proof.
  intros LI P KL b q g' N Pb K.
  assert (O1 : opened p = Some (k, g)) by (destruct p; simpl in *; auto; discriminate).
  assert (O2 : opened q = Some (k, g')) by (destruct q; simpl in *; auto; discriminate).
  pose proof (l_gen _ LI a _ k g P O1). pose proof (l_gen _ LI b _ k g' Pb O2). subst g g'.
  apply (l_key _ LI a b p q (k, gen s) (not_eq_sym N) P Pb); auto.
Qed.

Lemma hinv_step s o : linv s -> hinv s -> hinv (step s o).
Proof.
  intros LI I. destruct o; cbn [Disk_Model.step].
  - intros a p H. apply phase_spawn in H. destruct H as [->|H]; [exact Logic.I|]. apply (I _ _ H).
  - destruct (phase_of s a) as [[]|] eqn:P; auto. apply (hinv_phase s a _ _ I P). simpl. auto.
  - destruct (phase_of s a) as [[]|] eqn:P; auto.
    destruct (option_map (read s) r) as [b|]; [destruct (dec k b)|]; apply (hinv_phase s a _ _ I P); simpl; auto.
  - destruct (phase_of s a) as [[]|] eqn:P; auto. destruct (others _ s a); auto. apply (hinv_phase s a _ _ I P); simpl; auto.
  - destruct (phase_of s a) as [[]|] eqn:P; auto. apply (hinv_phase s a _ _ I P); simpl; auto.
  - destruct (phase_of s a) as [[]|] eqn:P; auto. destruct (others _ s a); auto. apply (hinv_phase s a _ _ I P); simpl; auto.
  - destruct (phase_of s a) as [[]|] eqn:P; auto. apply (hinv_phase s a _ _ I P); simpl; auto.
  - destruct (phase_of s a) as [[]|] eqn:P; auto.
    destruct r as [r|]; cbn [option_map]; [destruct (dec k (read s r))|]; apply (hinv_phase s a _ _ I P); simpl; auto.
  - destruct (phase_of s a) as [[]|] eqn:P; auto. apply (hinv_move s _ a (Resv payload k g)); auto.
    + intros b q. rewrite phase_setp, !phase_link, P. destruct (Nat.eqb_spec b a) as [->|N]; [intros [= <-]|]; auto.
    + intros b q x g' N Pb K. rewrite setp_paths, link_paths. destruct (Nat.eqb_spec x k) as [->|]; auto.
      destruct (key_alone s a _ k g LI P eq_refl b q g' N Pb K).
    + simpl. rewrite setp_paths, link_paths, Nat.eqb_refl. reflexivity.
  - destruct (phase_of s a) as [[]|] eqn:P; auto. cbv zeta.
    eapply (hinv_move s _ a); eauto.
    + intros b q. rewrite phase_setp, !phase_inodes, !phase_mkdir, P. destruct (Nat.eqb_spec b a) as [->|N]; [intros [= <-]|]; auto.
    + intros. rewrite setp_paths. cbn [paths set_inodes]. rewrite (proj1 (proj2 (mkdir_eq s (shard k)))). auto.
    + simpl. rewrite setp_paths. cbn [paths set_inodes]. rewrite (proj1 (proj2 (mkdir_eq s (shard k)))). apply (I _ _ P).
  - destruct (phase_of s a) as [[]|] eqn:P; auto. destruct (nth_error (inodes s) i) as [nd|]; auto.
    eapply (hinv_move s _ a); eauto.
    + intros b q. rewrite phase_setp, !phase_inodes, P. destruct (Nat.eqb_spec b a) as [->|N]; [intros [= <-]|]; auto.
    + intros. rewrite setp_paths. auto.
    + simpl. rewrite setp_paths. apply (I _ _ P).
  - destruct (phase_of s a) as [[]|] eqn:P; auto. destruct (nth_error (inodes s) i) as [nd|]; auto. destruct (_ <=? _); auto.
    eapply (hinv_move s _ a); eauto.
    + intros b q. rewrite phase_setp, !phase_inodes, P. destruct (Nat.eqb_spec b a) as [->|N]; [intros [= <-]|]; auto.
    + intros. rewrite setp_paths. auto.
    + simpl. rewrite setp_paths. apply (I _ _ P).
  - destruct (phase_of s a) as [[]|] eqn:P; auto. destruct (nth_error (inodes s) i) as [nd|]; auto.
    apply (hinv_move s _ a (Ren payload k g p)); auto.
    + intros b q. rewrite phase_setp, !phase_link, !phase_inodes, P. destruct (Nat.eqb_spec b a) as [->|N]; [intros [= <-]|]; auto.
    + intros b q x g' N Pb K. rewrite setp_paths, link_paths. destruct (Nat.eqb_spec x k) as [->|]; auto.
      destruct (key_alone s a _ k g LI P eq_refl b q g' N Pb K).
    + exact Logic.I.
  - destruct (phase_of s a) as [[]|] eqn:P; auto. apply (hinv_move s _ a (Rel payload k g p)); auto.
    + intros b q. rewrite phase_setp. unfold phase_of in *. cbn [actors]. rewrite P.
      destruct (Nat.eqb_spec b a) as [->|Nb]; [intros [= <-]|]; auto.
    + intros. rewrite setp_paths. cbn [paths]. destruct (_ =? _); auto.
    + exact Logic.I.
  - destruct (phase_of s a) as [[]|] eqn:P; auto. apply (hinv_phase s a _ _ I P); simpl; auto.
  - destruct (phase_of s a) as [q|] eqn:P; auto.
    assert (Q : hinv (setp s a (Idle payload))) by (apply (hinv_phase s a _ _ I P); simpl; auto). destruct q; exact Q || exact I.
  - destruct (phase_of s a) as [[]|] eqn:P; auto. apply (hinv_phase s a _ _ I P); simpl; auto.
  - destruct (phase_of s a) as [[]|] eqn:P; auto. destruct (others _ s a); auto. apply (hinv_phase s a _ _ I P); simpl; auto.
  - destruct (phase_of s a) as [[]|] eqn:P; auto. destruct (others _ s a); auto. apply (hinv_phase s a _ _ I P); simpl; auto.
  - destruct (phase_of s a) as [q|] eqn:P; auto. destruct (holds_excl q) eqn:X; auto.
    pose proof (excl_alone s a q LI P X) as AL. apply (hinv_move s _ a q); auto.
    + intros b r Pb. rewrite phase_link in Pb. destruct (Nat.eq_dec b a) as [->|]; auto. left. split; auto. congruence.
    + intros b r x g Nb Pb K. destruct (AL b r x g Nb Pb K).
    + destruct q; try discriminate; exact Logic.I.
  - destruct (phase_of s a) as [[]|] eqn:P; auto.
    pose proof (excl_alone s a _ LI P eq_refl) as AL. apply (hinv_move s _ a (HaveX payload)); auto.
    + intros b r Pb. destruct (Nat.eq_dec b a) as [->|]; auto. left. split; auto. unfold phase_of in *. cbn [actors] in Pb. congruence.
    + intros b r x g Nb Pb K. destruct (AL b r x g Nb Pb K).
    + exact Logic.I.
  - destruct (phase_of s a) as [[]|] eqn:P; auto.
  - intros a p H. apply phase_kill in H. destruct H as [->|H]; [exact Logic.I|]. apply (I _ _ H).
  - intros a p H. unfold phase_of in H. cbn [actors] in H. unfold kill in H. rewrite nth_error_map in H.
    destruct (nth_error (actors s) a); [|discriminate]. injection H as <-. exact Logic.I.
Qed.
Lemma hinv_run h : hinv (run (init payload files dirs) h).
Proof.
  induction h using rev_ind.
  - intros a p H. unfold phase_of in H. destruct a; discriminate.
  - pose proof (linv_run h) as L. unfold Disk_Model.run in *. rewrite fold_left_app. apply hinv_step; auto.
Qed.
End D.
