(** C18, C55, C56: publication of persistent products.
    [h] is any interleaving of any number of threads in any number of processes, with processes
    dying and power failures at any point; [files] is any initial content of the cache directory. *)
From Coq Require Import List Arith Bool Lia.
From Verif Require Import Lib Disk_Model Disk_Proofs.
Import ListNotations.

Section P.
Variable payload : Type.
Variable enc : payload -> bytes.
Variable dec : nat -> bytes -> option payload.
Variable shard : nat -> nat.
Variable files : nat -> option bytes.
Variable dirs : nat -> bool.
Notation after := (fun h => run payload enc dec shard (init payload files dirs) h).
Notation phase_of := (phase_of payload).

(** A publisher that has written and fsynced the complete bytes for [p] and now renames them to [k]. *)
Definition completes (h : list (op payload)) (k : nat) (p : payload) : Prop :=
  exists h1 a h2 g i, h = h1 ++ ORename payload a :: h2 /\ phase_of (after h1) a = Some (Full payload k g i p).

(** Whenever a product file is there, its bytes are the complete encoding of a product somebody
    finished publishing under this key, or the bytes that were there at the start: never a torn file. *)
Theorem C18_file_is_complete : forall h k b, file payload (after h) k = Some b ->
  files k = Some b \/ exists p, completes h k p /\ b = enc p.
Proof. intros h k b F. apply (file_origin payload enc dec shard files dirs h k b F). Qed.

(** ... and so is what a lookup returns, although it opens and reads the file without a lock. *)
Theorem C18_hit_is_complete : forall h a k p, phase_of (after h) a = Some (Hit payload k p) ->
  exists b, dec k b = Some p /\ (files k = Some b \/ exists q, completes h k q /\ b = enc q).
Proof. intros h a k p F. apply (hit_origin payload enc dec shard files dirs h a k p F). Qed.

(** Owning the right to publish [k]. *)
Definition owns (p : phase payload) (k : nat) : Prop :=
  match p with
  | Resv _ k' _ | Tmp _ k' _ _ _ _ | Full _ k' _ _ _ | Ren _ k' _ _ | Rel _ k' _ _ => k' = k
  | _ => False
  end.

Lemma owns_lock p k : owns p k -> exists g, key_lock payload p = Some (k, g) /\ holds_shared payload p = true.
Proof. destruct p; simpl; intros H; try tauto; subst; eauto. Qed.

Theorem C55_one_reservation : forall h a b pa pb k,
  phase_of (after h) a = Some pa -> phase_of (after h) b = Some pb -> owns pa k -> owns pb k -> a = b.
Proof.
  intros h a b pa pb k Pa Pb A B. destruct (Nat.eq_dec a b) as [E|N]; auto. exfalso.
  destruct (owns_lock _ _ A) as (g & KA & _), (owns_lock _ _ B) as (g' & KB & _).
  apply (key_alone payload _ a pa k g (linv_run payload enc dec shard files dirs h) Pa KA b pb g'); auto.
Qed.

(** No eviction, invalidation or clearing runs while anyone owns a reservation. *)
Theorem C55_no_maintenance_while_reserved : forall h a b pa pb k,
  phase_of (after h) a = Some pa -> phase_of (after h) b = Some pb -> owns pa k ->
  holds_excl payload pb = false.
Proof.
  intros h a b pa pb k Pa Pb A. destruct (owns_lock _ _ A) as (g & KA & SA).
  destruct (holds_excl payload pb) eqn:X; auto.
  destruct (Nat.eq_dec a b) as [<-|N].
  - assert (pa = pb) by congruence. subst. destruct pb; simpl in *; try discriminate; tauto.
  - destruct (l_excl _ _ (linv_run payload enc dec shard files dirs h) b a pb pa) as [Q _]; auto. congruence.
Qed.

(** A reservation means the product is absent, and it stays absent until its owner publishes:
    no publication ever overwrites another one. *)
Theorem C55_reserved_is_absent : forall h a k g, 
  phase_of (after h) a = Some (Resv payload k g) \/
  (exists i p w, phase_of (after h) a = Some (Tmp payload k g i p w)) \/
  (exists i p, phase_of (after h) a = Some (Full payload k g i p)) ->
  file payload (after h) k = None.
Proof.
  intros h a k g H. pose proof (hinv_run payload enc dec shard files dirs h) as I. unfold hinv in I. unfold file.
  destruct H as [P|[(i & p & w & P)|(i & p & P)]]; pose proof (I _ _ P) as Q; simpl in Q; rewrite Q; reflexivity.
Qed.

(** If every holder of the key lock dies, the next waiter gets it. *)
Theorem C55_death_releases : forall h a k g q,
  phase_of (after h) a = Some (WantK payload k g) ->
  (exists x, nth_error (actors payload (after h)) a = Some x /\ pid payload x <> q) ->
  (forall b x, nth_error (actors payload (after h)) b = Some x -> holds_key payload k g (ph payload x) = true -> pid payload x = q) ->
  phase_of (after (h ++ [OKill payload q; OKey payload a])) a = Some (Have payload k g).
Proof.
  intros h a k g q P (x & X & NX) D. cbv beta in *. unfold run in *. rewrite fold_left_app. cbn [fold_left].
  set (s := fold_left _ h _) in *.
  set (s1 := step payload enc dec shard s (OKill payload q)).
  assert (A1 : forall b, nth_error (actors payload s1) b = option_map (fun x => if pid payload x =? q then mkA payload (pid payload x) (Dead payload) else x) (nth_error (actors payload s) b)).
  { intros b. unfold s1. cbn [step actors]. unfold kill. apply nth_error_map. }
  assert (P1 : phase_of s1 a = Some (WantK payload k g)).
  { unfold Disk_Model.phase_of in *. rewrite A1, X. simpl. destruct (Nat.eqb_spec (pid payload x) q); [congruence|]. rewrite X in P. exact P. }
  cbn [step]. rewrite P1. destruct (others payload (holds_key payload k g) s1 a) eqn:O.
  - exfalso. apply others_true in O. destruct O as (b & p & N & Pb & H). unfold Disk_Model.phase_of in Pb. rewrite A1 in Pb.
    destruct (nth_error (actors payload s) b) as [y|] eqn:Y; [|discriminate]. simpl in Pb.
    destruct (Nat.eqb_spec (pid payload y) q) as [E|E]; injection Pb as <-.
    + discriminate.
    + apply E. apply (D b y); auto.
  - rewrite phase_setp, Nat.eqb_refl, P1. reflexivity.
Qed.

(** Durability.  When the publisher has fsynced the directory (the moment before publish returns),
    a power failure keeps the product, provided the directory itself was already durable. *)
Theorem C56_published_survives_partial : forall h a k g p pick lose junk,
  phase_of (after h) a = Some (Rel payload k g p) ->
  dir_safe payload (after h) (shard k) = true ->
  file payload (after (h ++ [OPower payload pick lose junk])) k = Some (enc p).
Proof.
  intros h a k g p pick lose junk P S. cbv beta in *. unfold run in *. rewrite fold_left_app. simpl fold_left.
  apply (rel_survives payload enc dec shard files dirs h a k g p pick lose junk P). right. exact S.
Qed.
End P.

(** *** Concrete runs *)
Definition nenc (p : nat) : bytes := [7; p].
Definition ndec (k : nat) (b : bytes) : option nat := match b with [7; p] => Some p | _ => None end.
Notation go files dirs := (run nat nenc ndec (fun _ => 0) (init nat files dirs)).

(** publish payload p under key k by the (fresh) actor a *)
Definition publish (a k p : nat) : list (op nat) :=
  [OLookup nat a k; ORead nat a; OShared nat a; OOpenKey nat a; OKey nat a; OOpen2 nat a; ORead2 nat a;
   OCreate nat a p; OWrite nat a 1; OWrite nat a 1; OFsync nat a; ORename nat a; ODirSync nat a].

(** The directory that create_dir_all has just made is not fsynced in its parent, so the first
    product of a directory can vanish although publish reported success. *)
Theorem C56_published_survives_refuted :
  exists h a k g p, phase_of nat (go (fun _ => None) (fun _ => false) h) a = Some (Rel nat k g p) /\
  file nat (go (fun _ => None) (fun _ => false) (h ++ [OUnlock nat a])) k = Some (nenc p) /\
  file nat (go (fun _ => None) (fun _ => false) (h ++ [OUnlock nat a; OPower nat (fun _ => 0) (fun _ => true) (fun _ => [])])) k = None.
Proof.
  exists (OSpawn nat 1 :: publish 0 3 5), 0, 3, 0, 5. repeat match goal with |- _ /\ _ => split end; vm_compute; reflexivity.
Qed.

Example ex_publish_survives :
  phase_of nat (go (fun _ => None) (fun _ => true) (OSpawn nat 1 :: publish 0 3 5)) 0 = Some (Rel nat 3 0 5) /\
  dir_safe nat (go (fun _ => None) (fun _ => true) (OSpawn nat 1 :: publish 0 3 5)) 0 = true.
Proof. split; vm_compute; reflexivity. Qed.
(** a crash in the middle of writing leaves nothing; the next process publishes and is read *)
Example ex_crash_in_the_middle :
  let h := OSpawn nat 1 :: OSpawn nat 2 :: firstn 9 (publish 0 3 5) ++ [OKill nat 1] ++ publish 1 3 6
           ++ [OUnlock nat 1; OSpawn nat 3; OLookup nat 2 3; ORead nat 2] in
  file nat (go (fun _ => None) (fun _ => true) h) 3 = Some [7; 6] /\
  phase_of nat (go (fun _ => None) (fun _ => true) h) 2 = Some (Hit nat 3 6).
Proof. split; vm_compute; reflexivity. Qed.
(** a corrupt file is replaced; another process wants the same key meanwhile and waits *)
Example ex_corrupt_and_wait :
  let f := fun k => if k =? 3 then Some [9] else None in
  let h := [OSpawn nat 1; OSpawn nat 2; OLookup nat 0 3; OLookup nat 1 3; ORead nat 0; ORead nat 1; OShared nat 0; OShared nat 1;
            OOpenKey nat 0; OOpenKey nat 1; OKey nat 0; OKey nat 1; OOpen2 nat 0; ORead2 nat 0; ORemove nat 0] in
  phase_of nat (go f (fun _ => true) h) 0 = Some (Resv nat 3 0) /\
  phase_of nat (go f (fun _ => true) h) 1 = Some (WantK nat 3 0).
Proof. split; vm_compute; reflexivity. Qed.

Print Assumptions C18_file_is_complete.
Print Assumptions C18_hit_is_complete.
Print Assumptions C55_one_reservation.
Print Assumptions C55_no_maintenance_while_reserved.
Print Assumptions C55_reserved_is_absent.
Print Assumptions C55_death_releases.
Print Assumptions C56_published_survives_partial.
Print Assumptions C56_published_survives_refuted.
