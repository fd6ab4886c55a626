(** C111: which archives are read, and which classes are found in them. *)
From Coq Require Import NArith List Arith Bool Lia Permutation Sorted.
From Verif Require Zip_Props.
From Verif Require Import Sort_Lib Zip_Model Archive_Model Archive_Spec Archive_Proofs.
Import ListNotations.

(** ** The manifest. *)
Section Manifest.
Variable white : nat -> bool.
Hypothesis letters : forall c, In (lower c) true_text -> white c = false.
Lemma trim_start_eq s : exists x, s = x ++ trim_start white s /\ Forall (fun c => white c = true) x.
Proof.
  induction s as [|c s (x & E & F)]; cbn; [exists []; auto|]. destruct (white c) eqn:W; [|exists []; auto].
  exists (c :: x). cbn. split; [now f_equal|now constructor].
Qed.
Lemma trim_start_app x w : Forall (fun c => white c = true) x -> (forall c r, w = c :: r -> white c = false) -> trim_start white (x ++ w) = w.
Proof.
  intros F H. induction F as [|c x W F IH]; cbn; [|now rewrite W]. destruct w as [|c w]; [reflexivity|]. cbn. now rewrite (H c w eq_refl).
Qed.
Lemma trim_eq s : exists x y, s = x ++ trim white s ++ y /\ Forall (fun c => white c = true) (x ++ y).
Proof.
  unfold trim. destruct (trim_start_eq s) as (x & E & F). destruct (trim_start_eq (rev (trim_start white s))) as (y & E2 & F2).
  exists x, (rev y). split.
  - rewrite E at 1. f_equal. apply (f_equal (@rev nat)) in E2. rewrite rev_involutive, rev_app_distr in E2. exact E2.
  - apply Forall_app. split; [exact F|]. now apply Forall_rev.
Qed.
Lemma true_ends w : same_letters w true_text -> (forall c r, w = c :: r -> white c = false) /\ (forall c r, rev w = c :: r -> white c = false).
Proof.
  intros H. assert (A : forall c, In c w -> white c = false).
  { intros c I. apply letters. change true_text with (map lower true_text). rewrite <- H. now apply in_map. }
  split; intros c r E; apply A; [rewrite E; now left|]. apply in_rev. rewrite E. now left.
Qed.
Lemma trim_app x w y : Forall (fun c => white c = true) (x ++ y) -> same_letters w true_text -> trim white (x ++ w ++ y) = w.
Proof.
  intros F T. apply Forall_app in F as [F1 F2]. destruct (true_ends w T) as [A B].
  assert (NE : w <> []) by (intros ->; discriminate).
  unfold trim. rewrite trim_start_app; [|exact F1|].
  - rewrite rev_app_distr, trim_start_app; [apply rev_involutive|now apply Forall_rev|exact B].
  - intros c r E. destruct w as [|c' w]; [contradiction|]. cbn in E. injection E as <- _. now apply (A c' w).
Qed.
Lemma says_iff decode m : says_multi white decode m = true <-> exists s, decode m = Some s /\ says white s.
Proof.
  unfold says_multi. destruct (decode m) as [s|]; [|split; [discriminate|intros (s & [=] & _)]].
  rewrite existsb_exists. unfold says. split.
  - intros (l & I & H). exists s. split; [reflexivity|]. unfold line_says in H. destruct (split_once colon l) as [[n v]|] eqn:E; [|discriminate].
    apply andb_true_iff in H as [H1 H2]. apply once_iff in E as [E N1]. apply split_in in I. exists l, n, v. split; [exact I|]. split; [exact E|]. split; [exact N1|].
    split; [now apply case_iff|]. destruct (trim_eq v) as (x & y & E2 & F). exists x, (trim white v), y. split; [exact E2|]. split; [exact F|]. now apply case_iff.
  - intros (s' & [= <-] & l & n & v & I & E & N1 & H1 & x & w & y & E2 & F & H2). exists l. split; [now apply split_in|].
    unfold line_says. rewrite (proj2 (once_iff colon l n v) (conj E N1)). apply andb_true_iff. split; [now apply case_iff|].
    rewrite E2, trim_app by assumption. now apply case_iff.
Qed.
End Manifest.

Section Archive.
Variable white : nat -> bool.
Variable decode : list N -> option text.
Variable lim : limits.
Variable class : Type.
Variable parse_class : list N -> option class.
Variable class_name : class -> text.
Variable reader : list N -> option (list item).
Hypothesis letters : forall c, In (lower c) true_text -> white c = false.
Notation parse_archive := (parse_archive white decode lim class parse_class class_name reader).
Notation fit := (fit white decode lim class parse_class class_name reader).
Notation multi := (multi white decode).

Lemma ordered_in {A} (l : list (text * A)) x : In x (ordered l) <-> In x l.
Proof. apply sort_in. Qed.
Lemma ordered_of {A} (l : list (text * A)) x : In x (ordered l) -> In x l.
Proof. apply sort_in. Qed.
Lemma to_ordered {A} (l : list (text * A)) x : In x l -> In x (ordered l).
Proof. apply sort_in. Qed.
Lemma ordered_sorted {A} (l : list (text * A)) : StronglySorted (fun x y => lexb (fst x) (fst y) = true) (ordered l).
Proof. apply (sort_sorted (key_leb fst) (key_total fst) (key_trans fst)). Qed.
Lemma ordered_perm {A} (l : list (text * A)) : Permutation l (ordered l).
Proof. apply sort_perm. Qed.
Lemma ordered_nodup {A} (l : list (text * A)) : NoDup (map fst l) -> NoDup (map fst (ordered l)).
Proof. intros H. eapply Permutation_NoDup; [|exact H]. apply Permutation_map, ordered_perm. Qed.
Lemma pair_unique {A B} (l : list (A * B)) x u v : NoDup (map fst l) -> In (x, u) l -> In (x, v) l -> u = v.
Proof.
  intros D. induction l as [|[a b] l IH]; [intros []|]. cbn in D. inversion D as [|? ? D1 D2]; subst.
  intros [X|X] [Y|Y]; [congruence| | |eauto]; exfalso; apply D1; apply in_map_iff; [exists (x, v)|exists (x, u)]; split; auto; cbn; congruence.
Qed.
Lemma find_first (p : text * list N -> bool) l x : StronglySorted (fun x y => lexb (fst x) (fst y) = true) l ->
  find p l = Some x -> In x l /\ p x = true /\ forall y, In y l -> p y = true -> lexb (fst x) (fst y) = true.
Proof.
  induction l as [|a l IH]; cbn; [discriminate|]. intros S1 H. inversion S1 as [|? ? S2 F]; subst. destruct (p a) eqn:E.
  - injection H as <-. split; [auto|]. split; [exact E|]. intros y [<-|I] P; [apply lexb_same|]. rewrite Forall_forall in F. now apply F.
  - destruct (IH S2 H) as (A & B & C). split; [auto|]. split; [exact B|]. intros y [<-|I] P; [congruence|auto].
Qed.
Lemma multi_iff k es : NoDup (map fst es) -> is_multi white decode k (ordered es) = true <-> multi k es.
Proof.
  intros D. unfold is_multi, Archive_Spec.multi. destruct k; [|split; [discriminate|intros [[=] _]]].
  destruct (find (fun e => ignore_case (fst e) manifest_name) (ordered es)) as [[n m]|] eqn:F.
  - destruct (find_first _ _ _ (ordered_sorted es) F) as (I & P & U). rewrite ordered_in in I. cbn [fst] in *. apply case_iff in P.
    rewrite (says_iff white letters). split.
    + intros (s & E & H). split; [reflexivity|]. exists n, m, s. split; [exact I|]. split; [exact P|]. split; [|auto].
      intros n' c' I' P'. apply (U (n', c')); [now apply ordered_in|now apply case_iff].
    + intros (_ & n' & c' & s & I' & P' & U' & E & H). assert (n' = n).
      { apply lexb_antisym; [exact (U' n m I P)|]. apply (U (n', c')); [now apply ordered_in|now apply case_iff]. }
      subst n'. rewrite (pair_unique _ _ _ _ D I I'). exists s. auto.
  - split; [discriminate|]. intros (_ & n' & c' & s & I' & P' & _). apply (find_none _ _ F (n', c')) in I' || (apply (proj2 (ordered_in es _)) in I'; pose proof (find_none _ _ F _ I') as K; cbn [fst] in K; apply case_iff in P'; congruence).
Qed.
Lemma offers_iff k (m : bool) (M : Prop) f n l r : (m = true <-> M) -> offers k (m = true) f n l r <-> offers k M f n l r.
Proof.
  intros E. split; intros H; inversion H; subst; [apply of_module|apply of_base|apply of_release|apply of_module|apply of_base|apply of_release]; auto; now apply E.
Qed.
Lemma contents_iff i e : read lim i e <-> contents lim i e.
Proof.
  unfold read, contents. split; intros (A & B & H); (split; [exact A|]); (split; [exact B|]).
  - destruct H as (d & E & T & L). unfold taken in T. destruct (N.ltb_spec (max_entry lim) (N.of_nat (length d))) as [G|G].
    + exists d, (skipn (N.to_nat (max_entry lim)) d). split; [exact E|]. rewrite T in *. split; [now rewrite firstn_skipn|]. split; [exact L|].
      right. rewrite firstn_length. lia.
    + exists d, []. rewrite T in *. rewrite app_nil_r. auto.
  - destruct H as (d & rest & E & T & L & R). exists d. split; [exact E|]. split; [|exact L]. unfold taken.
    assert (SZ : N.of_nat (length d) = (N.of_nat (length (snd e)) + N.of_nat (length rest))%N) by (rewrite T, app_length; lia).
    destruct (N.ltb_spec (max_entry lim) (N.of_nat (length d))) as [G|G].
    + destruct R as [->|R]; [cbn in SZ; lia|]. rewrite <- R, Nat2N.id, T, firstn_app, firstn_all, Nat.sub_diag. cbn. now rewrite app_nil_r.
    + destruct rest as [|c rest]; [now rewrite T, app_nil_r|]. destruct R as [|R]; [discriminate|]. cbn [length] in SZ. lia.
Qed.
Lemma names_kept kept es : Forall2 (contents lim) kept es -> map fst es = map i_name kept.
Proof. intros F. induction F as [|i e k es H F IH]; cbn; [reflexivity|]. f_equal; [apply H|exact IH]. Qed.
Lemma nodup_filter (p : item -> bool) l : NoDup (map i_name l) -> NoDup (map i_name (filter p l)).
Proof.
  induction l as [|i l IH]; cbn; intros D; [constructor|]. inversion D as [|? ? D1 D2]; subst. destruct (p i); cbn; [|auto].
  constructor; [|auto]. intros I. apply D1. apply in_map_iff in I as (j & <- & J). apply filter_In in J as [J _]. now apply in_map.
Qed.
Lemma kept_is k items kept : (exists p, kept = filter p items /\ forall i, p i = true <-> wanted k (i_name i)) <->
  kept = filter (fun i => metadata k (i_name i)) items.
Proof.
  split.
  - intros (p & -> & H). apply filter_ext. intros i. apply eq_true_iff_eq. now rewrite H, metadata_iff.
  - intros ->. exists (fun i => metadata k (i_name i)). split; [reflexivity|]. intros i. apply metadata_iff.
Qed.
Definition found_in (x : chosen) (y : found class) : Prop :=
  let '(l, (r, n, c)) := x in
  entry_name _ y = n /\ release _ y = r /\ parse_class c = Some (the_class _ y) /\ l = class_name (the_class _ y) ++ dot_class.
Lemma read_iff s fs : read_classes class parse_class class_name s = inl fs <-> Forall2 found_in s fs.
Proof.
  revert fs. induction s as [|[l [[r n] c]] s IH]; intros fs; cbn [read_classes].
  - split; [intros [= <-]; constructor|intros F; inversion F; reflexivity].
  - destruct (parse_class c) as [f|] eqn:P.
    2: { split; [discriminate|]. intros F. inversion F as [|? y ? ? X]; subst. cbn in X. destruct X as (_ & _ & H9 & _). congruence. }
    destruct (strip_suffix dot_class l) as [x|] eqn:E.
    2: { split; [discriminate|]. intros F. inversion F as [|? y ? ? X]; subst. cbn in X. destruct X as (_ & _ & _ & H9). subst l. rewrite (proj2 (suffix_iff dot_class _ _) eq_refl) in E. discriminate. }
    apply suffix_iff in E as ->. destruct (text_eqb (class_name f) x) eqn:T.
    + apply text_eqb_iff in T as <-. split.
      * destruct (read_classes _ _ _ s) as [gs|] eqn:G; [|discriminate]. intros [= <-]. constructor; [cbn; auto|now apply IH].
      * intros F. inversion F as [|? y ? gs H F']; subst. apply IH in F'. rewrite F'. destruct y as [a b d]. cbn in H. destruct H as (-> & -> & H & _). rewrite P in H. now injection H as <-.
    + split; [discriminate|]. intros F. inversion F as [|? y ? ? X]; subst. cbn in X. destruct X as (_ & _ & H9 & Q). rewrite P in H9. injection H9 as H9. rewrite <- H9 in Q. apply app_inv_tail in Q. apply text_eqb_no in T. congruence.
Qed.
Lemma panics s e : read_classes class parse_class class_name s = inr e -> Forall (fun x => a_class (fst x)) s -> e <> Panic.
Proof.
  revert e. induction s as [|[l [[r n] c]] s IH]; intros e; cbn [read_classes]; [discriminate|]. intros H F. inversion F as [|? ? F1 F2]; subst.
  destruct (parse_class c); [|congruence]. destruct F1 as [x F1]. cbn [fst] in F1. apply suffix_iff in F1. rewrite F1 in H.
  destruct (text_eqb _ _); [|congruence]. destruct (read_classes _ _ _ s) eqn:G; [discriminate|]. injection H as <-. now apply IH.
Qed.
Lemma unwrap_iff k b z : unwrap k b = Some z <-> k = Jar /\ b = z \/ k = Jmod /\ b = [74; 77; 1; 0]%N ++ z.
Proof.
  unfold unwrap. destruct k.
  - split; [intros [= <-]; auto|intros [[_ ->]|[[=] _]]; reflexivity].
  - split.
    + destruct (same (firstn 4 b) [74; 77; 1; 0]%N) eqn:E; [|discriminate]. intros [= <-]. right. split; [reflexivity|].
      apply Zip_Props.same_iff in E. rewrite <- E. symmetry. apply firstn_skipn.
    + intros [[[=] _]|[_ ->]]. reflexivity.
Qed.

(** The parts of a run that gets to the classes. *)
Lemma run_iff k f b fs : parse_archive k f b = inl fs <->
  exists z items es s, (N.of_nat (length b) <= max_archive lim)%N /\ unwrap k b = Some z /\ validate z (max_entries lim) = inl (length items) /\
    reader z = Some items /\ collect lim k items [] 0 = inl es /\
    select k (is_multi white decode k (ordered es)) f (ordered es) [] = inl s /\ length s <= max_classes lim /\ Forall2 found_in (ordered s) fs.
Proof.
  unfold Archive_Model.parse_archive. split.
  - destruct (N.ltb_spec (max_archive lim) (N.of_nat (length b))) as [|G]; [discriminate|].
    destruct (unwrap k b) as [z|]; [|discriminate]. destruct (validate z (max_entries lim)) as [n|[]] eqn:V; try discriminate.
    destruct (reader z) as [items|] eqn:R; [|discriminate]. destruct (Nat.eqb_spec (length items) n) as [<-|]; [|discriminate]. cbn [negb].
    destruct (collect lim k items [] 0) as [es|] eqn:C; [|discriminate]. cbv zeta. destruct (select _ _ _ _ _) as [s|] eqn:S1; [|discriminate].
    destruct (Nat.ltb_spec (max_classes lim) (length s)) as [|M]; [discriminate|]. intros H. apply read_iff in H.
    exists z, items, es, s. auto 10.
  - intros (z & items & es & s & G & U & V & R & C & S1 & M & F).
    destruct (N.ltb_spec (max_archive lim) (N.of_nat (length b))) as [|_]; [lia|]. rewrite U, V, R, Nat.eqb_refl. cbn [negb]. rewrite C. cbv zeta. rewrite S1.
    destruct (Nat.ltb_spec (max_classes lim) (length s)) as [|_]; [lia|]. now apply read_iff.
Qed.
(** What the selection holds, in the words of the specification. *)
Lemma selected k f es s : NoDup (map fst es) -> select k (is_multi white decode k (ordered es)) f (ordered es) [] = inl s ->
  NoDup (map fst s) /\
  (forall l, In l (map fst s) <-> exists n r, In n (map fst es) /\ offers k (multi k es) f n l r) /\
  forall l r n c, In (l, (r, n, c)) s <-> In (n, c) es /\ best k (multi k es) f (map fst es) n l r.
Proof.
  intros D H. set (m := is_multi white decode k (ordered es)) in *. pose proof (multi_iff k es D) as MI. fold m in MI.
  destruct (select_inv k m f (ordered es) [] [] s (ordered_sorted es) (ordered_nodup es D) (inv_nil k m f) H) as (ND & A & B). cbn [app] in *.
  assert (OI : forall n l r, candidate k m f n = inl (Some (l, r)) <-> offers k (multi k es) f n l r).
  { intros n l r. rewrite candidate_iff. now apply offers_iff. }
  split; [exact ND|]. split.
  - intros l. split.
    + intros I. apply in_map_iff in I as ([l' [[r n] c]] & <- & I). apply B in I as (I & C & _). exists n, r. split.
      * apply ordered_of in I. apply in_map_iff. exists (n, c). auto.
      * now apply OI.
    + intros (n & r & I & O). apply in_map_iff in I as ([n' c] & <- & I). apply (A n' c l r); [now apply ordered_in|now apply OI].
  - intros l r n c. rewrite B, ordered_in, OI. unfold best. split; intros (I & O).
    + destruct O as (O & U). split; [exact I|]. split; [apply in_map_iff; exists (n, c); auto|]. split; [exact O|].
      intros n' r' I' O'. apply in_map_iff in I' as ([n2 c'] & <- & I'). apply (U n2 c' r'); [now apply ordered_in|now apply OI].
    + destruct O as (_ & O & U). split; [exact I|]. split; [exact O|]. intros n' c' r' I' O'. apply (U n' r'); [|now apply OI].
      apply ordered_of in I'. apply in_map_iff. exists (n', c'). auto.
Qed.
Lemma forall2_weaken {A B} (P Q : A -> B -> Prop) l r : (forall x y, P x y -> Q x y) -> Forall2 P l r -> Forall2 Q l r.
Proof. intros H F. induction F; constructor; auto. Qed.
Lemma collected k items es : collect lim k items [] 0 = inl es <->
  Forall (fun i => safe (i_name i)) items /\ NoDup (map i_name items) /\
  exists kept, kept = filter (fun i => metadata k (i_name i)) items /\ Forall2 (contents lim) kept es /\ (total (map i_size kept) <= max_total lim)%N.
Proof.
  rewrite collect_iff by apply N.le_0_l. split.
  - intros (A & B & _ & C & T). split; [exact A|]. split; [exact B|]. eexists. split; [reflexivity|]. split; [|lia].
    eapply forall2_weaken; [|exact C]. intros i e H. now apply contents_iff.
  - intros (A & B & kept & -> & C & T). split; [exact A|]. split; [exact B|]. split; [intros n _ []|]. split; [|lia].
    eapply forall2_weaken; [|exact C]. intros i e H. now apply contents_iff.
Qed.
Lemma es_nodup k items kept es : NoDup (map i_name items) -> kept = filter (fun i => metadata k (i_name i)) items -> Forall2 (contents lim) kept es -> NoDup (map fst es).
Proof. intros D -> F. rewrite (names_kept _ _ F). now apply nodup_filter. Qed.
Lemma forall2_ex {A B} (R : A -> B -> Prop) l : (forall x, In x l -> exists y, R x y) -> exists r, Forall2 R l r.
Proof.
  induction l as [|x l IH]; intros H; [exists []; constructor|]. destruct (H x (or_introl eq_refl)) as [y Y]. destruct IH as [r F]; [auto using in_cons|]. exists (y :: r). now constructor.
Qed.
Lemma forall2_in {A B} (R : A -> B -> Prop) l r : Forall2 R l r -> (forall x, In x l -> exists y, In y r /\ R x y) /\ (forall y, In y r -> exists x, In x l /\ R x y).
Proof.
  intros F. induction F as [|x y l r H F [I1 I2]]; [split; intros ? []|]. split.
  - intros z [<-|Z]; [exists y; cbn; auto|]. destruct (I1 z Z) as (w & ? & ?). exists w. cbn. auto.
  - intros z [<-|Z]; [exists x; cbn; auto|]. destruct (I2 z Z) as (w & ? & ?). exists w. cbn. auto.
Qed.

(** C111: an archive is read exactly if it is fit: within the limits, of the right kind, with a sound table
    of contents that the ZIP reader agrees with, only names that stay inside and occur once, entries as
    large as they claim, directories for releases well named, and every class where its name says. *)
Theorem C111_fit k feature b : (exists fs, parse_archive k feature b = inl fs) <-> exists z items kept es, fit k feature b z items kept es.
Proof.
  split.
  - intros [fs H]. apply run_iff in H as (z & items & es & s & G & U & V & R & C & S1 & M & F).
    apply collected in C as (SF & ND & kept & K & F2 & T). pose proof (es_nodup k items kept es ND K F2) as DE.
    destruct (selected k feature es s DE S1) as (DS & KS & IS). destruct (forall2_in _ _ _ F) as [Q1 Q2].
    exists z, items, kept, es. constructor; auto.
    + now apply unwrap_iff.
    + apply kept_is. exact K.
    + intros i I. assert (W : exists s', select k (is_multi white decode k (ordered es)) feature (ordered es) [] = inl s') by eauto.
      apply select_ok in W. rewrite Forall_forall in W. destruct (forall2_in _ _ _ F2) as [W1 _]. destruct (W1 i I) as (e & E1 & E2).
      destruct E2 as [<- _]. apply W. now apply ordered_in.
    + intros ls DL HL. apply Nat.le_trans with (length (map fst s)); [|rewrite map_length; exact M]. apply NoDup_incl_length; [exact DL|]. intros l I. apply KS. auto.
    + intros n l r c BE I. assert (J : In (l, (r, n, c)) s) by (apply IS; auto). apply to_ordered in J. destruct (Q1 _ J) as (y & _ & _ & _ & P & E). eauto.
  - intros (z & items & kept & es & X). destruct X as [G O V R SF ND K F2 T REL CNT CLS]. apply kept_is in K.
    pose proof (es_nodup k items kept es ND K F2) as DE.
    assert (W : exists s', select k (is_multi white decode k (ordered es)) feature (ordered es) [] = inl s').
    { apply select_ok. apply Forall_forall. intros e E. apply ordered_of in E. destruct (forall2_in _ _ _ F2) as [_ W2].
      destruct (W2 e E) as (i & I & [-> _]). now apply REL. }
    destruct W as [s S1]. destruct (selected k feature es s DE S1) as (DS & KS & IS).
    destruct (forall2_ex found_in (ordered s)) as [fs F].
    { intros [l [[r n] c]] I. apply ordered_of in I. apply IS in I as [I BE]. destruct (CLS n l r c BE I) as (f & P & E). exists (mkFound _ n r f). cbn. auto. }
    exists fs. apply run_iff. exists z, items, es, s. split; [exact G|]. split; [now apply unwrap_iff|]. split; [exact V|]. split; [exact R|].
    split; [apply collected; split; [exact SF|]; split; [exact ND|]; exists kept; auto|]. split; [exact S1|]. split; [|exact F].
    replace (length s) with (length (map fst s)) by apply map_length. apply CNT; [exact DS|]. intros l I. now apply KS.
Qed.
(** For every class file that an entry offers there is one class, taken from the best entry, and no others;
    they come in the order of their names. *)
Definition file_of (x : found class) : text := class_name (the_class _ x) ++ dot_class.
Theorem C111_selected k feature b fs : parse_archive k feature b = inl fs ->
  exists z items kept es, fit k feature b z items kept es /\
    (forall n r f, In (mkFound _ n r f) fs <->
       exists l c, best k (multi k es) feature (map fst es) n l r /\ In (n, c) es /\ parse_class c = Some f /\ l = class_name f ++ dot_class) /\
    (forall n l r, In n (map fst es) -> offers k (multi k es) feature n l r -> In l (map file_of fs)) /\
    StronglySorted (fun x y => lexb (file_of x) (file_of y) = true) fs /\ NoDup (map file_of fs) /\
    length fs <= max_classes lim.
Proof.
  intros H. pose proof (proj1 (C111_fit k feature b) (ex_intro _ fs H)) as (z & items & kept & es & X).
  apply run_iff in H as (z' & items' & es' & s & G & U & V & R & C & S1 & M & F).
  exists z, items, kept, es. split; [exact X|]. destruct X as [G' O V' R' SF ND K F2 T REL CNT CLS]. apply kept_is in K.
  apply unwrap_iff in O. rewrite O in U. injection U as <-. rewrite R' in R. injection R as <-.
  assert (es = es').
  { assert (C' : collect lim k items [] 0 = inl es) by (apply collected; split; [exact SF|]; split; [exact ND|]; exists kept; auto). congruence. }
  subst es'. pose proof (es_nodup k items kept es ND K F2) as DE. destruct (selected k feature es s DE S1) as (DS & KS & IS).
  destruct (forall2_in _ _ _ F) as [Q1 Q2].
  assert (FO : map file_of fs = map fst (ordered s)).
  { clear - F. induction F as [|[l [[r n] c]] y s' fs (_ & _ & _ & E) F IH]; cbn; [reflexivity|]. rewrite IH. f_equal. symmetry. exact E. }
  split; [|split; [|split; [|split]]].
  - intros n r f. split.
    + intros I. destruct (Q2 _ I) as ([l [[r' n'] c]] & J & E1 & E2 & E3 & E4). cbn in E1, E2, E3, E4. subst n' r'. apply ordered_of in J. apply IS in J as [J1 J2].
      exists l, c. auto.
    + intros (l & c & BE & I & P & E). assert (J : In (l, (r, n, c)) s) by (apply IS; auto). apply to_ordered in J.
      destruct (Q1 _ J) as ([n' r' f'] & J' & E1 & E2 & E3 & E4). cbn in E1, E2, E3. subst n' r'. rewrite P in E3. injection E3 as <-. exact J'.
  - intros n l r I O'. rewrite FO. assert (J : In l (map fst s)) by (apply KS; eauto). apply in_map_iff in J as (x & <- & J). apply in_map_iff. exists x. split; [reflexivity|]. now apply ordered_in.
  - pose proof (ordered_sorted s) as SS. clear - F SS. induction F as [|x y s' fs H F IH]; [constructor|]. inversion SS as [|? ? SS1 SS2]; subst. constructor; [now apply IH|].
    apply Forall_forall. intros w W. destruct (forall2_in _ _ _ F) as [_ Q]. destruct (Q w W) as (v & V1 & V2). rewrite Forall_forall in SS2. specialize (SS2 v V1).
    destruct x as [l [[r n] c]], v as [l' [[r' n'] c']]. cbn in *. destruct H as (_ & _ & _ & ->). destruct V2 as (_ & _ & _ & ->). exact SS2.
  - rewrite FO. now apply ordered_nodup.
  - rewrite <- (map_length file_of fs), FO, map_length. unfold ordered. now rewrite sort_length.
Qed.
(** Nothing makes it panic. *)
Theorem C111_no_panic k feature b : parse_archive k feature b <> inr Panic.
Proof.
  unfold Archive_Model.parse_archive. destruct (_ <? _)%N; [discriminate|]. destruct (unwrap k b) as [z|]; [|discriminate].
  destruct (validate z _) as [n|[]]; try discriminate. destruct (reader z) as [items|]; [|discriminate]. destruct (negb _); [discriminate|].
  destruct (collect lim k items [] 0) as [es|e] eqn:C.
  2: { intros [= ->]. assert (Q : forall l seen tot, collect lim k l seen tot <> inr Panic).
    { clear. induction l as [|i l IH]; intros seen tot; cbn; [discriminate|]. destruct (bad_name _); [discriminate|]. destruct (existsb _ _); [discriminate|].
      destruct (metadata _ _); cbn [negb]; [|apply IH]. destruct (_ <? _)%N; [discriminate|]. destruct (_ <? _)%N; [discriminate|]. destruct (i_data i); [|discriminate].
      destruct (negb _); [discriminate|]. specialize (IH (i_name i :: seen) (tot + i_size i)%N). destruct (collect _ _ _ _ _); [discriminate|]. congruence. }
    exact (Q _ _ _ C). }
  cbv zeta. apply collected in C as (SF & ND & kept & K & F2 & T). pose proof (es_nodup k items kept es ND K F2) as DE.
  destruct (select _ _ _ _ _) as [s|e] eqn:S1.
  2: { intros [= ->]. assert (Q : forall m l s, select k m feature l s <> inr Panic).
    { clear. intros m. induction l as [|[n c] l IH]; intros s; cbn; [discriminate|]. destruct (candidate k m feature n) as [[[x y]|]|e] eqn:E; [apply IH|apply IH|].
      intros [= ->]. unfold candidate in E. destruct k.
      - destruct (strip_prefix _ _); [|destruct (_ || _); discriminate]. destruct (split_once _ _) as [[? ?]|]; [|discriminate]. destruct (parse_u16 _); [|discriminate].
        destruct (_ || _); [discriminate|]. destruct (_ || _); discriminate.
      - destruct (strip_prefix _ _); discriminate. }
    exact (Q _ _ _ S1). }
  destruct (_ <? _); [discriminate|]. destruct (read_classes _ _ _ _) as [|e] eqn:R; [discriminate|]. intros [= ->].
  apply (panics _ _ R); [|reflexivity]. apply Forall_forall. intros [l [[r0 n0] c0]] I. apply ordered_of in I. destruct (selected k feature es s DE S1) as (_ & _ & IS).
  apply IS in I as (_ & _ & O & _). cbn. inversion O; subst; assumption.
Qed.
End Archive.
Print Assumptions C111_fit.
Print Assumptions C111_selected.
Print Assumptions C111_no_panic.

(** ** Cases.  A class file is its name, one letter, and anything after it; manifests are plain text. *)
Definition white (c : nat) : bool := existsb (Nat.eqb c) [9; 10; 13; 32].
Definition decode (c : list N) : option text := Some (map N.to_nat c).
Definition class := (text * nat)%type.
Definition parse_class (c : list N) : option class := match c with x :: _ => Some ([N.to_nat x], length c) | [] => None end.
Definition lim : limits := mkLimits 10000 50 100 500 10.
Definition item_of (n : text) (c : list N) : item := mkItem n (N.of_nat (length c)) (Some c).
(** The file that holds the given entries, and a reader that finds them in it. *)
Definition jar (items : list item) : list N :=
  flat_map Zip_Spec.header_bytes (map (fun i => Zip_Spec.mkHeader (repeat 0%N 24) (repeat 0%N 12) (map N.of_nat (i_name i)) [] []) items) ++
  Zip_Spec.end_record (N.of_nat (length items)) (repeat 0%N 4) 0 [].
Definition run (feature : N) (items : list item) := parse_archive white decode lim class parse_class fst (fun _ => Some items) Jar feature (jar items).
Definition text_of (s : String.string) : list N := map N.of_nat (t s).
Import String.
Open Scope string_scope.
Definition lines (l : list text) : list N := map N.of_nat (flat_map (fun x => x ++ [newline])%list l).
Definition base := item_of (t "A.class") [65; 1]%N.
Definition nine := item_of (t "META-INF/versions/9/A.class") [65; 1; 1]%N.
Definition eleven := item_of (t "META-INF/versions/11/A.class") [65; 1; 1; 1]%N.
Definition manifest := item_of (t "META-INF/MANIFEST.MF") (lines [t "Manifest-Version: 1.0"; t "multi-release:  True"]).
Definition plain := item_of (t "META-INF/MANIFEST.MF") (lines [t "Manifest-Version: 1.0"]).
Definition other := item_of (t "B.class") [66]%N.
Lemma white_letters : forall c, In (lower c) true_text -> white c = false.
Proof.
  intros c H. unfold white. apply not_true_iff_false. intros K. cbn [existsb] in K. rewrite !orb_true_iff, !Nat.eqb_eq in K.
  decompose [or] K; try discriminate; subst c; cbv in H; decompose [or] H; try contradiction; discriminate.
Qed.
Example by_release : run 10 [other; eleven; nine; base; manifest] =
  inl [mkFound _ (t "META-INF/versions/9/A.class") (Some 9%N) ([65], 3); mkFound _ (t "B.class") None ([66], 1)].
Proof. vm_compute. reflexivity. Qed.
Example without_release : run 10 [nine; base; plain] = inl [mkFound _ (t "A.class") None ([65], 2)].
Proof. vm_compute. reflexivity. Qed.
Example fits : exists z items kept es, fit white decode lim class parse_class fst (fun _ => Some [other; eleven; nine; base; manifest]) Jar 10
  (jar [other; eleven; nine; base; manifest]) z items kept es.
Proof. apply (C111_fit _ _ _ _ _ _ _ white_letters). eexists. exact by_release. Qed.
Example traversing : run 10 [base; item_of (t "x/../B.class") [66]%N] = inr Traversing.
Proof. vm_compute. reflexivity. Qed.

(** C111, refuted: Java takes no notice of directories for releases before 9, nor of any in a JAR that does
    not have them according to its manifest; here one entry in such a directory loses the whole archive. *)
Theorem C111_old_release_refuted : exists items extra,
  (exists fs, run 17 items = inl fs /\ fs <> []) /\ i_name extra = t "META-INF/versions/8/A.class" /\ run 17 (items ++ [extra])%list = inr BadRelease.
Proof.
  exists [base; plain], (item_of (t "META-INF/versions/8/A.class") [65; 1; 1]%N).
  split; [eexists; split; [vm_compute; reflexivity|discriminate]|]. split; [reflexivity|vm_compute; reflexivity].
Qed.
(** C111, refuted: the attribute counts only in the main section of the manifest, before the first empty
    line; here it counts anywhere. *)
Theorem C111_section_refuted : exists main rest m,
  m = item_of (t "META-INF/MANIFEST.MF") (lines (main ++ [[]] ++ rest)%list) /\
  main = [t "Manifest-Version: 1.0"] /\ rest = [t "Name: org/x/"; t "Multi-Release: true"] /\
  run 17 [base; nine; item_of (t "META-INF/MANIFEST.MF") (lines main)] = inl [mkFound _ (t "A.class") None ([65], 2)] /\
  run 17 [base; nine; m] = inl [mkFound _ (t "META-INF/versions/9/A.class") (Some 9%N) ([65], 3)].
Proof.
  exists [t "Manifest-Version: 1.0"], [t "Name: org/x/"; t "Multi-Release: true"]. eexists. split; [reflexivity|]. split; [reflexivity|]. split; [reflexivity|].
  split; vm_compute; reflexivity.
Qed.
(** C111, refuted: one class file that is not where its name says, as in the JARs of Spring Boot, loses all
    the other classes of the archive. *)
Theorem C111_misplaced_refuted : exists items extra,
  (exists fs, run 17 items = inl fs /\ List.length fs = 2) /\ i_name extra = t "BOOT-INF/classes/C.class" /\ run 17 (items ++ [extra])%list = inr Misplaced.
Proof.
  exists [base; other], (item_of (t "BOOT-INF/classes/C.class") [67]%N).
  split; [eexists; split; [vm_compute; reflexivity|reflexivity]|]. split; [reflexivity|vm_compute; reflexivity].
Qed.
(** C111, refuted: an entry that claims as many bytes as are read at most but has more is cut short, while
    any other wrong claim is found out. *)
Theorem C111_cut_refuted : exists d f,
  run 17 [mkItem (t "A.class") (max_entry lim) (Some d)] = inl [mkFound _ (t "A.class") None f] /\
  (max_entry lim < N.of_nat (List.length d))%N /\ parse_class d <> Some f /\
  run 17 [mkItem (t "A.class") (max_entry lim - 1) (Some d)] = inr Broken.
Proof.
  exists (repeat 65%N 101). eexists. split; [vm_compute; reflexivity|]. split; [reflexivity|]. split; [discriminate|vm_compute; reflexivity].
Qed.
Print Assumptions C111_old_release_refuted.
Print Assumptions C111_section_refuted.
Print Assumptions C111_misplaced_refuted.
Print Assumptions C111_cut_refuted.
