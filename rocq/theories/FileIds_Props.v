(** C46: file identities. *)
From Coq Require Import List Arith NArith Lia Bool.
From Verif Require Import FileIds_Model FileIds_Spec FileIds_Proofs.
Import ListNotations.

(** C46: after any history of registrations, registering a path answers the id every later lookup of
    that file answers; two paths have one id exactly when they spell the same file; the path of an id
    spells the registered file. *)
Theorem C46_stable : forall h m p i m' h' m'' q, run new h = Some m -> get_or_insert m p = Some (i, m') -> run m' h' = Some m'' ->
  same_file p q -> get m'' q = Some i /\ (forall m3 j, get_or_insert m'' q = Some (j, m3) -> j = i /\ m3 = m'').
Proof.
  intros h m p i m' h' m'' q R1 G R2 SF. destruct (sound_run _ _ _ _ sound_new R1) as (A & _).
  destruct (sound_step _ _ _ _ _ A G) as (B & C & _). destruct (sound_run _ _ _ _ B R2) as (D & E).
  apply same_file_iff in SF. assert (get m'' q = Some i) as Hg.
  { unfold get. rewrite (find_path_ext m'' _ p) by (rewrite components_normalize; auto). apply E, C. }
  split; auto. intros m3 j. unfold get_or_insert. unfold get in Hg. rewrite Hg. intros H. injection H as <- <-. auto.
Qed.
Print Assumptions C46_stable.

Theorem C46_unique : forall h m p q i j, run new h = Some m -> get m p = Some i -> get m q = Some j -> (i = j <-> same_file p q).
Proof.
  intros h m p q i j R. destruct (sound_run _ _ _ _ sound_new R) as ((S1 & S2 & S3 & S4 & S5) & _). unfold get.
  rewrite (find_path_ext m _ p), (find_path_ext m (normalize q) q) by apply components_normalize. intros A B. rewrite same_file_iff. split.
  - intros <-. destruct (S1 _ _ A) as (a & P1 & E1), (S1 _ _ B) as (b & P2 & E2). congruence.
  - intros E. rewrite (find_path_ext m p q E) in A. congruence.
Qed.
Print Assumptions C46_unique.

Theorem C46_inverse : forall h m i p, run new h = Some m -> (get m p = Some i <-> exists q, path m i = Some q /\ same_file p q).
Proof.
  intros h m i p R. destruct (sound_run _ _ _ _ sound_new R) as ((S1 & S2 & S3 & S4 & S5) & _). unfold get.
  rewrite (find_path_ext m _ p) by apply components_normalize. split.
  - intros H. destruct (S1 _ _ H) as (q & P & E). exists q. rewrite same_file_iff. auto.
  - intros (q & P & E). apply same_file_iff in E. rewrite (find_path_ext m p q E). auto.
Qed.
Print Assumptions C46_inverse.

(** Exactly the registered files have an id. *)
Theorem C46_registered : forall h m p, run new h = Some m -> ((exists i, get m p = Some i) <-> exists q, In q h /\ same_file q p).
Proof.
  intros h m p R. destruct (sound_run _ _ _ _ sound_new R) as ((S1 & S2 & S3 & S4 & S5) & _). unfold get.
  rewrite (find_path_ext m _ p) by apply components_normalize. cbn [app] in S4. rewrite S4.
  split; intros (q & H & E); exists q; (split; [exact H|]); now apply same_file_iff.
Qed.
Print Assumptions C46_registered.

(** It panics only when there are 2^32 - 1 files already. *)
Theorem C46_no_panic : forall h m p, run new h = Some m -> (N.of_nat (len m) < 4294967295)%N -> get_or_insert m p <> None.
Proof.
  intros h m p R L. destruct (sound_run _ _ _ _ sound_new R) as ((_ & _ & _ & _ & S5) & _). unfold get_or_insert.
  destruct (find_path m (normalize p)); [easy|]. unfold len in L. rewrite S5. destruct (N.leb_spec (N.of_nat (length (by_path m)) + 1) 4294967295); [easy|lia].
Qed.
Print Assumptions C46_no_panic.

(** ** Witness: [a/b], [a//./b/], [/a/b]. *)
Definition ab := [97; 47; 98]%N.
Definition ab2 := [97; 47; 47; 46; 47; 98; 47]%N.
Definition abs := [47; 97; 47; 98]%N.
Example C46_spelling : same_file ab ab2 /\ ~ same_file ab abs.
Proof. split; [|intros H]; [apply same_file_iff; reflexivity|]. apply same_file_iff in H. discriminate. Qed.
Example C46_history : exists m, run new [ab; abs; ab2] = Some m /\ get m ab2 = Some 0%N /\ get m abs = Some 1%N /\ len m = 2 /\
  path m 0 = Some ab.
Proof. eexists. split; [vm_compute; reflexivity|]. repeat split. Qed.
