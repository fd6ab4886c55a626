(** Export fingerprints: the theorems. *)
From Coq Require Import String Ascii List Arith NArith Bool Lia Permutation.
From Verif Require Import Sort_Lib Fingerprint_Model Fingerprint_Spec Fingerprint_Proofs Text_Lib Snapshots_Props.
Import ListNotations.
Open Scope list_scope.

(** Two facts with the same bytes say the same, up to what the encoders leave out; the bytes of one fact are
    never the beginning of those of another. *)
Theorem C44_encoding : forall f g r s, fits (stream_of f ++ r) -> stream_of f ++ r = stream_of g ++ s -> covered f = covered g /\ r = s.
Proof. exact stream_reads. Qed.

(** Changing one byte of what is hashed changes both halves of the hash. *)
Theorem C44_one_byte : forall before a b after, (a < 256)%N -> (b < 256)%N -> Forall (fun c => (c < 256)%N) after -> a <> b ->
  fst (export_hash (before ++ a :: after)) <> fst (export_hash (before ++ b :: after)) /\
  snd (export_hash (before ++ a :: after)) <> snd (export_hash (before ++ b :: after)).
Proof. intros. split; now apply lane_change. Qed.

(** The two halves are two hashes, not one hash twice: they differ on every input. *)
Theorem C44_two_halves : forall s, Forall (fun c => (c < 256)%N) s -> fst (export_hash s) <> snd (export_hash s).
Proof. intros s F E. apply (lane_inj s F) in E; [discriminate|reflexivity|reflexivity]. Qed.

(** Every byte written is a byte. *)
Lemma le_bytes k n : Forall (fun c => (c < 256)%N) (le k n).
Proof. revert n. induction k; intros n; cbn [le]; constructor; auto. apply N.mod_lt. discriminate. Qed.

(** Moving facts about, reordering them, or changing what is not exported leaves the fingerprint alone: the
    change is classified as one of bodies only. *)
Theorem C44_body_only : forall X Y (f g : file_facts X Y), Permutation (map unplaced (exports f)) (map unplaced (exports g)) ->
  fingerprint f = fingerprint g /\ classify (Some (fingerprint f)) (fingerprint g) = BodyOnly.
Proof.
  intros X Y f g P. assert (fingerprint f = fingerprint g) as E.
  { unfold fingerprint. f_equal. unfold final_stream. f_equal. apply sort_same. apply Permutation_map.
    assert (forall h : file_facts X Y, export_streams h = map stream_of (map unplaced (exports h))) as Q.
    { intros h. rewrite streams_exports, !map_map. apply map_ext. intros a. rewrite <- stream_covered. destruct a; reflexivity. }
    rewrite !Q. now apply Permutation_map. }
  split; auto. rewrite E. unfold classify. destruct (fingerprint g). cbn [fst snd]. now rewrite !N.eqb_refl.
Qed.

(** Only a collision of the hash can hide a change of the exports that the encoders cover. *)
Theorem C44_change_partial : forall X Y (f g : file_facts X Y), writable f -> tells_apart f g ->
  (classify (Some (fingerprint f)) (fingerprint g) = BodyOnly <-> Permutation (map covered (exports f)) (map covered (exports g))) /\
  (classify (Some (fingerprint f)) (fingerprint g) = ExportsChanged <-> ~ Permutation (map covered (exports f)) (map covered (exports g))).
Proof.
  intros X Y f g [W1 W2] [T1 T2].
  assert (fingerprint f = fingerprint g <-> Permutation (map covered (exports f)) (map covered (exports g))) as M.
  { split; intros H.
    - apply T2 in H. assert (forall h : file_facts X Y, Forall (fun p => fst p < 2 ^ 64 /\ snd p < 2 ^ 64)%N (map export_hash (export_streams h))) as B.
      { intros h. apply Forall_forall. intros p I. apply in_map_iff in I. destruct I as (s & <- & _). apply export_below. }
      apply final_inj in H; auto. apply perm_unmap in H; [|exact T1]. rewrite !streams_exports in H. pose proof H as HS. apply perm_unmap in H; auto.
      intros x y I J E. rewrite streams_exports in W1. rewrite Forall_forall in W1.
      assert (forall z, In z (map covered (exports f) ++ map covered (exports g)) -> covered z = z) as C.
      { intros z Z. rewrite <- map_app in Z. apply in_map_iff in Z. destruct Z as (z' & <- & _). destruct z'; reflexivity. }
      rewrite <- (C x I), <- (C y J).
      assert (fits (stream_of x)) as F.
      { apply in_app_or in I. destruct I as [I|I]; [apply W1, in_map, I|].
        assert (In (stream_of x) (map stream_of (map covered (exports f)))) as K
          by (eapply Permutation_in; [apply Permutation_sym; exact HS|apply in_map, I]).
        apply W1, K. }
      destruct (stream_reads x y [] []) as [Q _]; rewrite ?app_nil_r; auto.
    - unfold fingerprint. f_equal. unfold final_stream. f_equal. apply sort_same. apply Permutation_map. rewrite !streams_exports. now apply Permutation_map. }
  assert (classify (Some (fingerprint f)) (fingerprint g) = BodyOnly <-> fingerprint f = fingerprint g) as K.
  { unfold classify. destruct (fingerprint f) as [h l], (fingerprint g) as [h' l']. cbn [fst snd].
    destruct (N.eqb_spec h h'), (N.eqb_spec l l'); cbn [andb]; split; congruence. }
  assert (classify (Some (fingerprint f)) (fingerprint g) = ExportsChanged <-> fingerprint f <> fingerprint g) as K'.
  { unfold classify. destruct (fingerprint f) as [h l], (fingerprint g) as [h' l']. cbn [fst snd].
    destruct (N.eqb_spec h h'), (N.eqb_spec l l'); cbn [andb]; split; congruence. }
  rewrite K, K', M. split; reflexivity.
Qed.


(** ** What a hash cannot do *)
Definition letter (c : N) : Fingerprint_Model.u8 := byte_of (if (c =? 97)%N then "a" else "b")%char.
Definition class_named (w : text) : file_facts unit unit :=
  FileFacts [Symbol (Namespace [byte_of "K"%char :: map letter w] Instance) SClass nowhere nowhere] [] [] [] [] [] [] [] [] [] tt.

Lemma letters_inj w : forall v, Forall (fun c => c = 97 \/ c = 98)%N w -> Forall (fun c => c = 97 \/ c = 98)%N v -> map letter w = map letter v -> w = v.
Proof.
  induction w as [|a w IH]; intros [|b v] W V E; cbn [map] in E; try discriminate; auto. inversion W as [|? ? A W']. inversion V as [|? ? B V']. subst.
  assert (letter a = letter b) as E1 by congruence. assert (map letter w = map letter v) as E2 by congruence. f_equal; [|auto].
  apply (f_equal value) in E1. destruct A as [->| ->], B as [->| ->]; auto; cbn in E1; discriminate.
Qed.

(** Collisions exist (the fingerprint has 128 bits): two files declaring different classes with one
    fingerprint, so that replacing one by the other is classified as a change of bodies only. *)
Theorem C44_collision_refuted : exists f g : file_facts unit unit,
  ~ Permutation (map covered (exports f)) (map covered (exports g)) /\ classify (Some (fingerprint f)) (fingerprint g) = BodyOnly.
Proof.
  assert (forall f : file_facts unit unit, fst (fingerprint f) < 2 ^ 64 /\ snd (fingerprint f) < 2 ^ 64)%N as B by (intros f; apply export_below).
  destruct (pigeon (fun w => fst (fingerprint (class_named w)) * 2 ^ 64 + snd (fingerprint (class_named w)))%N (2 ^ 128) 129) as (w & v & W & V & NE & E).
  - intros t. destruct (B (class_named t)) as [H L]. change (2 ^ 128)%N with (2 ^ 64 * 2 ^ 64)%N. revert H L. generalize (2 ^ 64)%N. intros. nia.
  - reflexivity.
  - exists (class_named w), (class_named v). apply words_spec in W, V. split.
    + intros P. cbn in P. apply Permutation_length_1 in P. injection P as P. apply NE, letters_inj; tauto.
    + destruct (B (class_named w)) as [_ L1], (B (class_named v)) as [_ L2]. unfold classify. destruct (fingerprint (class_named w)) as [h l], (fingerprint (class_named v)) as [h' l'].
      cbn [fst snd] in *. assert (h = h' /\ l = l') as [-> ->].
      { revert E L1 L2. assert (0 < 2 ^ 64)%N by reflexivity. revert H. generalize (2 ^ 64)%N. intros m M E L1 L2. assert (h = h') by nia. subst. split; auto. lia. }
      now rewrite !N.eqb_refl.
Qed.

(** ** What the encoders leave out *)
Definition name (s : string) : str := str_of s.
Definition foo : fqn := Method [name "M"] (name "foo").
Definition by_name (complete : bool) : method :=
  MethodFact foo (Namespace [name "M"] Singleton) nowhere nowhere [] [] complete None Public Available None None [] None None.
Definition declaring (complete : bool) : file_facts unit unit := FileFacts [] [by_name complete] [] [] [] [] [] [] [] [] tt.

(** A method whose parameter list becomes known (to be empty) goes unnoticed, without any collision of the
    hash, although callers with arguments are wrong from then on. *)
Theorem C44_shape_refuted :
  ~ Permutation (map unplaced (exports (declaring false))) (map unplaced (exports (declaring true))) /\
  tells_apart (declaring false) (declaring true) /\ classify (Some (fingerprint (declaring false))) (fingerprint (declaring true)) = BodyOnly.
Proof.
  split; [|split].
  - intros P. apply Permutation_length_1 in P. discriminate.
  - split; [|reflexivity]. intros a b [<-|[<-|[]]] [<-|[<-|[]]] _; reflexivity.
  - unfold classify. replace (fingerprint (declaring true)) with (fingerprint (declaring false)) by reflexivity.
    destruct (fingerprint (declaring false)). cbn [fst snd]. now rewrite !N.eqb_refl.
Qed.

(** A method that returns one constant and is made to return another goes unnoticed in the same way. *)
Definition returning (c : string) : file_facts unit unit :=
  FileFacts [] [] [] [] [] [] [] [Equation foo Bottom [] [([name c], false, Namespace [name "M"] Instance)]] [] [] tt.
Theorem C44_constants_refuted :
  ~ Permutation (map unplaced (exports (returning "A"))) (map unplaced (exports (returning "B"))) /\
  tells_apart (returning "A") (returning "B") /\ classify (Some (fingerprint (returning "A"))) (fingerprint (returning "B")) = BodyOnly.
Proof.
  split; [|split].
  - intros P. apply Permutation_length_1 in P. discriminate.
  - split; [|reflexivity]. intros a b [<-|[<-|[]]] [<-|[<-|[]]] _; reflexivity.
  - unfold classify. replace (fingerprint (returning "B")) with (fingerprint (returning "A")) by reflexivity.
    destruct (fingerprint (returning "A")). cbn [fst snd]. now rewrite !N.eqb_refl.
Qed.

(** The types of constants given by equations are not covered at all. *)
Theorem C44_equations_refuted : forall X Y (f : file_facts X Y) (l : list X) (y : Y),
  fingerprint (FileFacts (symbols f) (methods f) (overrides f) (types f) (graph_nodes f) (graph_edges f) (unresolved_edges f) (equations f) (bodies f) l y) = fingerprint f.
Proof. reflexivity. Qed.

(** ** A file and an edit of it *)
Definition before_edit : file_facts unit unit :=
  FileFacts [Symbol (Namespace [name "M"] Instance) SModule nowhere nowhere; Symbol (LocalVariable (name "x")) SLocal nowhere nowhere]
    [by_name true] [] [TypeFact (OfReturn foo) (TUnion [TClass (Namespace [name "String"] Instance); TUnknown]) nowhere PInferred] [] [] [] [] [] [] tt.
Definition after_edit : file_facts unit unit :=
  FileFacts [Symbol (Namespace [name "M"] Instance) SModule nowhere nowhere]
    [by_name true] [] [TypeFact (OfReturn foo) (TUnion [TClass (Namespace [name "Symbol"] Instance); TUnknown]) nowhere PInferred] [] [] [] [] [] [] tt.

Ltac differ E := revert E; match goal with |- ?b = true -> False => assert (b = false) as -> by (vm_compute; reflexivity); discriminate end.
Example C44_example : writable before_edit /\ tells_apart before_edit after_edit /\
  classify (Some (fingerprint before_edit)) (fingerprint after_edit) = ExportsChanged.
Proof.
  split; [|split].
  - split; [repeat constructor|reflexivity].
  - assert (forall x y : N * N, x = y -> (fst x =? fst y)%N && (snd x =? snd y)%N = true) as D by (intros x y ->; now rewrite !N.eqb_refl).
    split.
    + intros a b A B E. cbn [export_streams app] in A, B. apply D in E.
      repeat (destruct A as [<-|A]; [repeat (destruct B as [<-|B]; [first [reflexivity|exfalso; differ E]|]); destruct B|]). destruct A.
    + cbv zeta. intros E. exfalso. apply D in E. differ E.
  - vm_compute. reflexivity.
Qed.

Print Assumptions C44_encoding.
Print Assumptions C44_one_byte.
Print Assumptions C44_two_halves.
Print Assumptions C44_body_only.
Print Assumptions C44_change_partial.
Print Assumptions C44_collision_refuted.
Print Assumptions C44_shape_refuted.
Print Assumptions C44_constants_refuted.
Print Assumptions C44_equations_refuted.
