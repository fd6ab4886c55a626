(** Proofs about the parts of class files that contain attributes: parsers that also count. *)
From Coq Require Import String List Arith NArith ZArith Bool Lia.
From Verif Require Import Text_Lib Descriptor_Model Descriptor_Spec Descriptor_Props Classfile_Model Classfile_Spec Classfile_Proofs Classfile_Text Classfile_Values.
Import ListNotations.
Local Open Scope N_scope.
Local Open Scope list_scope.

Section Counts.
Variable L : limits.
(** [p] splits off what [R] describes, adding to the attributes seen, which stay within the limit. *)
Definition decides {A} (p : parser A) (R : A -> N -> list N -> Prop) : Prop :=
  forall seen b a seen' r, octets b -> seen <= max_attributes L ->
    (p seen b = Some (a, seen', r) <-> exists n x, R a n x /\ b = x ++ r /\ seen' = seen + n /\ seen' <= max_attributes L).
Lemma decides_ext {A} (p : parser A) P Q : decides p P -> (forall a n x, octets x -> (P a n x <-> Q a n x)) -> decides p Q.
Proof.
  intros H E seen b a seen' r O Le. rewrite (H seen b a seen' r O Le). split; intros (n & x & X & B & SE); exists n, x; (split; [|auto]); apply E; auto; rewrite B in O; apply octets_app in O; tauto.
Qed.
Lemma decides_eq {A} (p q : parser A) R : (forall s b, p s b = q s b) -> decides q R -> decides p R.
Proof. intros E H s b a s' r O Le. rewrite E. apply H; assumption. Qed.
Lemma decides_pure {A} (p : parser A) P : (forall n, pure n p P) -> decides p (fun a n x => n = 0 /\ P a x).
Proof.
  intros H seen b a seen' r O Le. rewrite (H (length b) seen b a seen' r O (le_n _)). split.
  - intros (-> & x & X & B). exists 0, x. rewrite N.add_0_r. auto.
  - intros (n & x & (-> & X) & B & -> & _). rewrite N.add_0_r. eauto.
Qed.
Lemma decides_bind {A B} (p : parser A) (q : A -> parser B) P Q : decides p P -> (forall a n x, P a n x -> octets x -> decides (q a) (Q a)) ->
  decides (bind p q) (fun c n x => exists a n1 n2 y z, P a n1 y /\ Q a c n2 z /\ n = n1 + n2 /\ x = y ++ z).
Proof.
  intros H K seen b c seen' r O Le. unfold bind. split.
  - destruct (p seen b) as [[[a s1] b1]|] eqn:E; [|discriminate]. intros E2. apply (H seen b a s1 b1 O Le) in E. destruct E as (n1 & y & Y & -> & -> & L1).
    apply octets_app in O. destruct O as [Oy Ob]. apply (K a n1 y Y Oy (seen + n1) b1 c seen' r Ob L1) in E2. destruct E2 as (n2 & z & Z & -> & -> & L2).
    exists (n1 + n2), (y ++ z). rewrite app_assoc, N.add_assoc. split; [exists a, n1, n2, y, z; auto|auto].
  - intros (n & x & (a & n1 & n2 & y & z & Y & Z & -> & ->) & -> & -> & L2). rewrite <- app_assoc in O |- *. pose proof O as O'. apply octets_app in O. destruct O as [Oy Ob].
    assert (E : p seen (y ++ z ++ r) = Some (a, seen + n1, z ++ r)) by (apply (H seen _ a (seen + n1) (z ++ r) O' Le); exists n1, y; repeat split; auto; lia).
    rewrite E. apply (K a n1 y Y Oy (seen + n1) (z ++ r) c _ r Ob ltac:(lia)). exists n2, z. rewrite N.add_assoc in *. auto.
Qed.
Lemma decides_then {A B} (p : parser A) (q : A -> parser B) P Q : (forall n, pure n p P) -> (forall a x, P a x -> octets x -> decides (q a) (Q a)) ->
  decides (bind p q) (fun c n x => exists a y z, P a y /\ Q a c n z /\ x = y ++ z).
Proof.
  intros H K. eapply decides_ext; [apply decides_bind; [apply decides_pure, H|intros a n x [_ X] O; exact (K a x X O)]|]. intros c n x _. split.
  - intros (a & n1 & n2 & y & z & (-> & Y) & Z & -> & ->). exists a, y, z. auto.
  - intros (a & y & z & Y & Z & ->). exists a, 0, n, y, z. auto.
Qed.
Lemma decides_ret {A} (a : A) : decides (ret a) (fun c n x => c = a /\ n = 0 /\ x = []).
Proof. eapply decides_ext; [apply decides_pure; intros n; apply pure_ret|]. intros c n x _. tauto. Qed.
Lemma decides_fail {A} : decides (@fail A) (fun _ _ _ => False).
Proof. eapply decides_ext; [apply decides_pure; intros n; apply pure_fail|]. intros c n x _. tauto. Qed.
Lemma decides_map {A B} (p : parser A) (f : A -> B) P : decides p P -> decides (bind p (fun a => ret (f a))) (fun c n x => exists a, P a n x /\ c = f a).
Proof.
  intros H. eapply decides_ext; [apply decides_bind; [exact H|intros; apply decides_ret]|]. intros c n x _. split.
  - intros (a & n1 & n2 & y & z & Y & (-> & -> & ->) & -> & ->). rewrite app_nil_r, N.add_0_r. eauto.
  - intros (a & Y & ->). exists a, n, 0, x, []. rewrite app_nil_r, N.add_0_r. auto.
Qed.
Lemma decides_within {A} (body : list N) (p : parser A) P : octets body -> decides p P -> decides (within body p) (fun a n x => x = [] /\ P a n body).
Proof.
  intros O H seen b a seen' r _ Le. unfold within. split.
  - destruct (p seen body) as [[[c s] r']|] eqn:E; [|discriminate]. destruct r' as [|z r']; [|discriminate]. intros E2. injection E2 as <- <- <-.
    apply (H seen body c s [] O Le) in E. destruct E as (n & x & X & B & -> & L1). rewrite app_nil_r in B. subst x. exists n, []. auto.
  - intros (n & x & (-> & X) & -> & -> & L1). assert (E : p seen body = Some (a, seen + n, [])) by (apply (H seen body a (seen + n) [] O Le); exists n, body; rewrite app_nil_r; auto).
    rewrite E. reflexivity.
Qed.
Lemma decides_times {A} (p : parser A) P : decides p P ->
  forall k, decides (times k p) (fun l n x => exists m, length m = k /\ l = List.map fst m /\ n = total m /\ sequence (fun v => P (fst v) (snd v)) m x).
Proof.
  intros H. induction k as [|k IH]; cbn [times].
  - eapply decides_ext; [apply decides_ret|]. intros l n x _. split; [intros (-> & -> & ->); exists []; repeat split; constructor|]. intros (m & E & -> & -> & S). destruct m; [|discriminate E]. inversion S. auto.
  - eapply decides_ext; [apply decides_bind; [exact H|intros a n x _ _; exact (decides_map _ (cons a) _ IH)]|]. intros l n x _. split.
    + intros (a & n1 & n2 & y & z & Y & (l' & (m & E & -> & -> & S) & ->) & -> & ->). exists ((a, n1) :: m). cbn. repeat split; [congruence|]. constructor; auto.
    + intros (m & E & -> & -> & S). destruct m as [|[a n1] m]; [discriminate E|]. inversion S as [|? ? y z Y Z]; subst. exists a, n1, (total m), y, z. split; [exact Y|]. split; [|auto]. exists (List.map fst m). split; [|reflexivity]. exists m. auto.
Qed.
Lemma decides_table {A} max (p : parser A) P : decides p P ->
  decides (bind (bounded max) (fun k => times (N.to_nat k) p)) (fun l n x => exists m, table max (fun v => P (fst v) (snd v)) m x /\ l = List.map fst m /\ n = total m).
Proof.
  intros H. eapply decides_ext; [apply decides_then; [intros; apply pure_bounded|intros k x _ _; apply decides_times, H]|]. intros l n x _. unfold table, len. split.
  - intros (k & y & z & (B & T & ->) & (m & E & -> & -> & S) & ->). exists m. split; [|auto]. exists z. replace (N.of_nat (length m)) with k by lia. auto.
  - intros (m & (y & B & T & -> & S) & -> & ->). exists (N.of_nat (length m)), (be2 (N.of_nat (length m))), y. split; [split; [exact B|split; [exact T|reflexivity]]|]. split; [|reflexivity]. exists m. rewrite Nat2N.id. auto.
Qed.
Lemma decides_count : decides (attribute_count L) (fun k n x => n = k /\ two k x).
Proof.
  intros seen b a seen' r O Le. unfold attribute_count, bind. split.
  - destruct (u2 seen b) as [[[k s1] b1]|] eqn:E; [|discriminate]. destruct (N.leb_spec (s1 + k) (max_attributes L)) as [G|G]; [|discriminate]. intros E2. injection E2 as <- <- <-.
    apply (pure_u2 (length b) seen b k s1 b1 O (le_n _)) in E. destruct E as (-> & x & T & ->). exists k, x. auto.
  - intros (n & x & (-> & T) & -> & -> & G). assert (E : u2 seen (x ++ r) = Some (a, seen, r)) by (apply (pure_u2 _ seen _ a seen r O (le_n _)); split; [reflexivity|]; exists x; auto).
    rewrite E. apply N.leb_le in G. rewrite G. reflexivity.
Qed.

(** ** Attribute loops *)
Variable cp : list entry.
Section Loop.
Context {S : Type}.
Variables (handle : text -> list N -> S -> parser S) (H : text -> list N -> S -> S -> N -> Prop).
Inductive folds : list (text * list N) -> S -> S -> N -> Prop :=
| folds_nil st : folds [] st st 0
| folds_cons a l st st' st'' n m : H (fst a) (snd a) st st' n -> folds l st' st'' m -> folds (a :: l) st st'' (n + m).
Lemma folds_snoc l a st st'' n : folds (l ++ [a]) st st'' n <-> exists st' n1 n2, folds l st st' n1 /\ H (fst a) (snd a) st' st'' n2 /\ n = n1 + n2.
Proof.
  split.
  - revert st n. induction l as [|b l IH]; intros st n F; cbn [app] in F.
    + inversion F as [|? ? ? ? ? n1 m A F']; subst. inversion F'; subst. exists st, 0, n1. split; [constructor|]. split; [exact A|lia].
    + inversion F as [|? ? ? st' ? n1 m A F']; subst. destruct (IH st' m F') as (s2 & k1 & k2 & F2 & A2 & ->). exists s2, (n1 + k1), k2. split; [econstructor; eauto|]. split; [exact A2|lia].
  - intros (st' & n1 & n2 & F & A & ->). induction F as [st|b l st s1 s2 k m B F IH].
    + rewrite N.add_comm. cbn. apply folds_cons with (st' := st''); [exact A|constructor].
    + cbn. rewrite <- N.add_assoc. econstructor; eauto.
Qed.
Lemma pure_attribute_bytes n : pure n (attribute_bytes L) (fun b x => len b <= max_attribute_bytes L /\ exists z, four (len b) z /\ x = z ++ b).
Proof.
  unfold attribute_bytes. eapply pure_ext; [pb; pb; apply pure_take|]. intros b x _. split.
  - intros (k & z & w & F & (G & -> & E) & ->). apply N.leb_le in G. rewrite E. eauto.
  - intros (G & z & F & ->). exists (len b), z, b. apply N.leb_le in G. auto.
Qed.
Hypothesis handles : forall name body st, octets body -> decides (handle name body st) (fun st' n x => x = [] /\ H name body st st' n).
Lemma decides_attributes : forall k st, decides (attributes L cp k handle st) (fun st' n x => exists l, length l = k /\ sequence (attribute L cp) l x /\ folds l st st' n).
Proof.
  induction k as [|k IH]; intros st; cbn [attributes].
  - eapply decides_ext; [apply decides_ret|]. intros st' n x _. split.
    + intros (-> & -> & ->). exists []. repeat split; constructor.
    + intros (l & E & S' & F). destruct l; [|discriminate E]. inversion S'; subst. inversion F; subst. auto.
  - eapply decides_ext.
    { apply decides_then; [intros n; apply pure_u2|intros i x _ _]. apply decides_then; [intros n; apply pure_lift|intros name y _ _].
      apply decides_then; [intros n; apply pure_attribute_bytes|intros body z Z O]. apply decides_bind; [apply handles; destruct Z as (_ & w & _ & ->); apply octets_app in O; tauto|intros st' n w _ _; apply IH]. }
    intros st' n x _. split.
    + intros (i & y & z & T & (name & y2 & z2 & (E & ->) & (body & y3 & z3 & (G & w & F4 & ->) & (s1 & n1 & n2 & y4 & z4 & (-> & A) & (l & LL & SQ & F) & -> & ->) & ->) & ->) & ->).
      apply utf8_iff in E. exists ((name, body) :: l). split; [cbn; congruence|]. split; [|econstructor; eauto]. cbn [app]. rewrite app_assoc. constructor; [|exact SQ]. exists y, w. cbn [fst snd]. split; [exists i; auto|]. auto.
    + intros (l & E & SQ & F). destruct l as [|[name body] l]; [discriminate E|]. inversion SQ as [|? ? w z (y & v & (i & I & T) & G & F4 & ->) SQ']; subst. inversion F as [|? ? ? s1 ? n1 m A F']; subst. cbn [fst snd] in *.
      exists i, y, (v ++ body ++ z). rewrite <- !app_assoc. split; [exact T|]. split; [|reflexivity]. exists name, [], (v ++ body ++ z). split; [split; [apply utf8_iff, I|reflexivity]|]. split; [|reflexivity].
      exists body, (v ++ body), z. split; [split; [exact G|eauto]|]. split; [|rewrite app_assoc; reflexivity]. exists s1, n1, m, [], z. split; [auto|]. split; [|auto]. exists l. auto.
Qed.
Lemma decides_attribute_table st : decides (bind (attribute_count L) (fun k => attributes L cp (N.to_nat k) handle st))
  (fun st' n x => exists l m, attribute_table L cp l x /\ folds l st st' m /\ n = len l + m).
Proof.
  eapply decides_ext; [apply decides_bind; [apply decides_count|intros; apply decides_attributes]|]. intros st' n x _. unfold attribute_table, table, len. split.
  - intros (k & n1 & m & y & z & (-> & T & ->) & (l & LL & SQ & F) & -> & ->). exists l, m. replace (N.of_nat (length l)) with k by lia. split; [|auto]. exists z. repeat split; auto. lia.
  - intros (l & m & (y & _ & T & -> & SQ) & F & ->). exists (N.of_nat (length l)), (N.of_nat (length l)), m, (be2 (N.of_nat (length l))), y. split; [split; [reflexivity|split; [exact T|reflexivity]]|]. split; [|auto].
    exists l. rewrite Nat2N.id. auto.
Qed.
End Loop.

(** ** Lists of attributes *)
Lemma same_iff a b : same a b = true <-> a = b.
Proof. unfold same. destruct (list_eq_dec N.eq_dec a b); split; congruence. Qed.
Lemma same_refl a : same a a = true. Proof. apply same_iff. reflexivity. Qed.
Definition absent (nm : text) (l : list (text * list N)) : Prop := contents [nm] l = [].
Lemma contents_snoc names l a : contents names (l ++ [a]) = contents names l ++ (if existsb (same (fst a)) names then [snd a] else []).
Proof. unfold contents. rewrite filter_app, map_app. cbn [filter]. destruct (existsb (same (fst a)) names); reflexivity. Qed.
Lemma single_other {A} nm l a (P : A -> list N -> Prop) d v : same (fst a) (chars nm) = false -> (single nm (l ++ [a]) P d v <-> single nm l P d v).
Proof. intros E. unfold single. rewrite contents_snoc. cbn [existsb]. rewrite E. cbn [orb]. rewrite app_nil_r. reflexivity. Qed.
Lemma single_same {A} nm l a (P : A -> list N -> Prop) d v : same (fst a) (chars nm) = true -> (single nm (l ++ [a]) P d v <-> absent (chars nm) l /\ P v (snd a)).
Proof.
  intros E. unfold single, absent. rewrite contents_snoc. cbn [existsb]. rewrite E. cbn [orb]. destruct (contents [chars nm] l) as [|b [|c r]]; cbn [app].
  - tauto.
  - split; [intros []|intros [K _]; discriminate K].
  - split; [intros []|intros [K _]; discriminate K].
Qed.
Lemma single_absent {A} nm l (P : A -> list N -> Prop) d v : absent (chars nm) l -> (single nm l P d v <-> v = d).
Proof. intros E. unfold single. rewrite E. reflexivity. Qed.
Lemma repeated_snoc {A} names l a (P : list A -> list N -> Prop) v : repeated names (l ++ [a]) P v <->
  if existsb (same (fst a)) (List.map chars names) then exists v1 v2, repeated names l P v1 /\ P v2 (snd a) /\ v = v1 ++ v2 else repeated names l P v.
Proof.
  unfold repeated. rewrite contents_snoc. destruct (existsb (same (fst a)) (List.map chars names)); [|rewrite app_nil_r; reflexivity]. split.
  - intros (vs & F & ->). apply Forall2_app_inv_r in F. destruct F as (vs1 & vs2 & F1 & F2 & ->). inversion F2 as [|v2 ? ? ? H2 F3]; subst. inversion F3; subst.
    exists (concat vs1), v2. split; [eauto|]. split; [exact H2|]. rewrite concat_app. cbn. rewrite app_nil_r. reflexivity.
  - intros (v1 & v2 & (vs & F & ->) & H2 & ->). exists (vs ++ [v2]). split; [apply Forall2_app; auto|]. rewrite concat_app. cbn. rewrite app_nil_r. reflexivity.
Qed.
(** Names already seen, latest first. *)
Definition marks (names : list text) (l : list (text * list N)) : list text := rev (List.map fst (filter (fun a => existsb (same (fst a)) names) l)).
Lemma marks_snoc names l a : marks names (l ++ [a]) = if existsb (same (fst a)) names then fst a :: marks names l else marks names l.
Proof. unfold marks. rewrite filter_app, map_app, rev_app_distr. cbn [filter]. destruct (existsb (same (fst a)) names); reflexivity. Qed.
Lemma marks_absent names l nm : In nm names -> (existsb (same nm) (marks names l) = false <-> absent nm l).
Proof.
  intros I. unfold absent. induction l as [|a l IH] using rev_ind; [split; reflexivity|]. rewrite marks_snoc, contents_snoc. cbn [existsb]. rewrite orb_false_r. destruct (same (fst a) nm) eqn:E.
  - apply same_iff in E. assert (M : existsb (same (fst a)) names = true) by (apply existsb_exists; exists nm; split; [exact I|apply same_iff; exact E]). rewrite M. cbn [existsb]. rewrite E, same_refl. cbn [orb].
    split; [discriminate|]. intros K. destruct (contents [nm] l); discriminate K.
  - rewrite app_nil_r, <- IH. destruct (existsb (same (fst a)) names); [|reflexivity]. cbn [existsb]. assert (E2 : same nm (fst a) = false).
    { destruct (same nm (fst a)) eqn:E2; [|reflexivity]. apply same_iff in E2. subst nm. rewrite same_refl in E. discriminate E. }
    rewrite E2. reflexivity.
Qed.
(** The shape of most handlers. *)
Lemma decides_unique {A St} names name (p : parser A) (F : A -> list text -> St) P : decides p (fun v n x => x = [] /\ P v n) ->
  decides (bind (require_unique names name) (fun u => bind p (fun v => ret (F v u)))) (fun st n x => x = [] /\ existsb (same name) names = false /\ exists v, P v n /\ st = F v (name :: names)).
Proof.
  intros HP. unfold require_unique. destruct (existsb (same name) names).
  - eapply decides_ext; [exact decides_fail|]. intros st n x _. split; [intros []|intros (_ & E & _); discriminate E].
  - eapply decides_eq; [intros s b; reflexivity|]. change (fun s b => bind (ret (name :: names)) (fun u => bind p (fun v => ret (F v u))) s b) with (bind p (fun v => ret (F v (name :: names)))).
    eapply decides_ext; [exact (decides_map p (fun v => F v (name :: names)) _ HP)|]. intros st n x _. split.
    + intros (v & (-> & V) & ->). eauto.
    + intros (-> & _ & v & V & ->). eauto.
Qed.
Lemma decides_plain {A St} (p : parser A) (F : A -> St) P : decides p (fun v n x => x = [] /\ P v n) ->
  decides (bind p (fun v => ret (F v))) (fun st n x => x = [] /\ exists v, P v n /\ st = F v).
Proof.
  intros HP. eapply decides_ext; [exact (decides_map p F _ HP)|]. intros st n x _. split; [intros (v & (-> & V) & ->); eauto|intros (-> & v & V & ->); eauto].
Qed.
Lemma decides_body {A} (p : parser A) P : (forall n, pure n p (fun v x => x = [] /\ P v)) -> decides p (fun v n x => x = [] /\ (n = 0 /\ P v)).
Proof. intros H. eapply decides_ext; [apply decides_pure; exact H|]. intros v n x _. tauto. Qed.
Lemma decides_skip {St} (st : St) : decides (ret st) (fun st' n x => x = [] /\ (n = 0 /\ st' = st)).
Proof. eapply decides_ext; [apply decides_ret|]. intros; tauto. Qed.
End Counts.
