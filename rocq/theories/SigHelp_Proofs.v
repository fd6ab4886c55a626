(** Signature help: the highlighted parameter and the argument under the cursor. *)
From Coq Require Import List Arith NArith Bool Lia.
From Verif Require Import Calls_Model Calls_Spec SigHelp_Model SigHelp_Spec.
Import ListNotations.

(** *** The list of positional parameters *)
Definition pos_from (k : nat) (l : list kind) : list (nat * kind) :=
  filter (fun x => is_positional (snd x)) (combine (seq k (length l)) l).
Lemma pos_app : forall a k b, pos_from k (a ++ b) = pos_from k a ++ pos_from (k + length a) b.
Proof.
  induction a as [|x a IH]; intros k b; unfold pos_from in *; cbn; [now rewrite Nat.add_0_r|].
  specialize (IH (S k) b). cbn in IH. replace (k + S (length a)) with (S k + length a) by lia.
  destruct (is_positional x); cbn; now rewrite IH.
Qed.
Lemma pos_all : forall l k, forallb is_positional l = true -> pos_from k l = combine (seq k (length l)) l.
Proof.
  induction l as [|x l IH]; intros k A; unfold pos_from in *; cbn; auto. cbn in A. apply andb_prop in A as [A B].
  rewrite A. now rewrite IH.
Qed.
Lemma pos_none : forall l k, existsb is_positional l = false -> pos_from k l = [].
Proof.
  induction l as [|x l IH]; intros k A; unfold pos_from in *; cbn; auto. cbn in A. apply orb_false_elim in A as [A B].
  rewrite A. auto.
Qed.
Lemma nth_combine : forall (l : list kind) k i x, nth_error l i = Some x -> nth_error (combine (seq k (length l)) l) i = Some (k + i, x).
Proof.
  induction l as [|y l IH]; intros k [|i] x E; try discriminate; cbn in *.
  - injection E as ->. now rewrite Nat.add_0_r.
  - rewrite (IH (S k) i x E). f_equal. f_equal. lia.
Qed.
Lemma combine_length_seq : forall (l : list kind) k, length (combine (seq k (length l)) l) = length l.
Proof. intros. rewrite combine_length, seq_length. lia. Qed.
Lemma find_combine : forall a x b k, existsb takes_rest a = false -> takes_rest x = true ->
  find (fun y => takes_rest (snd y)) (combine (seq k (length (a ++ x :: b))) (a ++ x :: b)) = Some (k + length a, x).
Proof.
  induction a as [|y a IH]; intros x b k A B; cbn in *.
  - rewrite B. now rewrite Nat.add_0_r.
  - apply orb_false_elim in A as [-> A]. rewrite (IH x b (S k) A B). f_equal. f_equal. lia.
Qed.

(** All positional parameters stand before all others. *)
Section Shape.
Variables (X Y : list param).
Hypothesis HX : forallb is_positional (map snd X) = true.
Hypothesis HY : existsb is_positional (map snd Y) = false.
Lemma shape_pos : positionals (map snd (X ++ Y)) = combine (seq 0 (length X)) (map snd X).
Proof.
  change (positionals (map snd (X ++ Y))) with (pos_from 0 (map snd (X ++ Y))).
  rewrite map_app, pos_app, (pos_none _ _ HY), app_nil_r, pos_all, map_length; auto.
Qed.
Lemma shape_before i : i < length X -> active_positional (map snd (X ++ Y)) i = i.
Proof.
  intro L. unfold active_positional. rewrite shape_pos.
  destruct (nth_error (map snd X) i) as [x|] eqn:E.
  - assert (Q : length X = length (map snd X)) by (symmetry; apply map_length). rewrite Q, (nth_combine _ 0 i x E). reflexivity.
  - apply nth_error_None in E. rewrite map_length in E. destruct (Nat.lt_irrefl i). eapply Nat.lt_le_trans; [exact L|exact E].
Qed.
Lemma shape_rest i A x B : X = A ++ x :: B -> existsb takes_rest (map snd A) = false -> takes_rest (snd x) = true ->
  length X <= i -> active_positional (map snd (X ++ Y)) i = length A.
Proof.
  intros E0 NA Tx L. unfold active_positional. rewrite shape_pos.
  assert (Q : length X = length (map snd X)) by (symmetry; apply map_length). rewrite Q.
  destruct (nth_error (combine _ _) i) as [[]|] eqn:E.
  - exfalso. assert (Lt : i < length (combine (seq 0 (length (map snd X))) (map snd X))) by (apply nth_error_Some; congruence).
    rewrite combine_length_seq, <- Q in Lt. destruct (Nat.lt_irrefl i). eapply Nat.lt_le_trans; [exact Lt|exact L].
  - rewrite E0, map_app. cbn [map]. rewrite find_combine; auto. cbn. apply map_length.
Qed.
End Shape.

(** *** The parameters of a method in that form *)
Definition req (l : list positional) : list param := flat_map positional_param l.
Definition opt (p : parameters) : list param := map (fun n => (n, KOptional)) (optionals p).
Definition rst (p : parameters) : list param :=
  match rest p, key_rest p with
  | Some (NamedRest n), _ => [(n, KRest)]
  | Some AnonymousRest, _ => [([], KAnonymousRest)]
  | Some ForwardingRest, _ | None, Some ForwardingKeyRest => [([], KForwarding)]
  | None, _ => []
  end.
Definition front (p : parameters) : list param := req (requireds p) ++ opt p ++ rst p ++ req (posts p).

Lemma req_positional : forall l, forallb is_positional (map snd (req l)) = true.
Proof. induction l as [|[n|] l IH]; auto. Qed.
Lemma req_norest : forall l, existsb takes_rest (map snd (req l)) = false.
Proof. induction l as [|[n|] l IH]; auto. Qed.
Lemma opt_positional : forall p, forallb is_positional (map snd (opt p)) = true.
Proof. intro p. unfold opt. induction (optionals p); auto. Qed.
Lemma opt_norest : forall p, existsb takes_rest (map snd (opt p)) = false.
Proof. intro p. unfold opt. induction (optionals p); auto. Qed.
Lemma rst_positional : forall p, forallb is_positional (map snd (rst p)) = true.
Proof. intro p. unfold rst. destruct (rest p) as [[]|]; auto. destruct (key_rest p) as [[]|]; auto. Qed.
Lemma front_positional : forall p, forallb is_positional (map snd (front p)) = true.
Proof.
  intro p. unfold front. rewrite !map_app, !forallb_app, req_positional, opt_positional, rst_positional, req_positional. reflexivity.
Qed.
Lemma req_length : forall l, Forall (fun x => x <> Destructured) l -> length (req l) = length l.
Proof. induction l as [|[n|] l IH]; intro A; inversion A; subst; cbn; auto. congruence. Qed.
Lemma req_nth : forall l i x, Forall (fun x => x <> Destructured) l -> nth_error l i = Some x ->
  exists n, x = Plain n /\ nth_error (req l) i = Some (n, KRequired).
Proof.
  induction l as [|y l IH]; intros [|i] x A E; try discriminate; inversion A; subst; cbn in E.
  - injection E as <-. destruct y as [n|]; [|congruence]. exists n. auto.
  - destruct y as [n|]; [|congruence]. cbn. now apply IH.
Qed.
Lemma extract_front : forall p, grammatical p ->
  exists Y, extract p = front p ++ Y /\ existsb is_positional (map snd Y) = false.
Proof.
  intros p [G1 G2].
  assert (KB : forall l, existsb is_positional (map snd (map (fun k => match k with RequiredKey n => (n, KRequiredKeyword) | OptionalKey n => (n, KOptionalKeyword) end) l)) = false)
    by (induction l as [|[n|n] l IH]; auto).
  assert (BB : existsb is_positional (map snd match block p with Some (Some n) => [(n, KBlock)] | _ => [] end) = false)
    by (destruct (block p) as [[]|]; reflexivity).
  unfold extract, front, rst. fold (req (requireds p)). fold (req (posts p)). fold (opt p).
  destruct (rest p) as [r|] eqn:R; [destruct r; [| |congruence]|];
    (destruct (key_rest p) as [k|] eqn:Kr; [destruct k|]); try (destruct (G2 eq_refl) as [? _]; discriminate).
  all: try (eexists; split;
    [repeat rewrite <- app_assoc; cbn [app]; reflexivity|
     rewrite map_app, existsb_app, KB; destruct (block p) as [[]|]; reflexivity]).
  destruct (G2 eq_refl) as [_ [Ps Ks]]. rewrite Ps, Ks.
  eexists. split; [cbn; repeat rewrite <- app_assoc; cbn; reflexivity|exact BB].
Qed.
Lemma front_rest : forall p, takes_any_number p -> grammatical p -> exists x, rst p = [x] /\ takes_rest (snd x) = true.
Proof.
  intros p T [G1 G2]. unfold rst. destruct (rest p) as [[]|] eqn:R; try (eexists; split; reflexivity).
  destruct T as [T|T]; [congruence|]. rewrite T. eexists. split; reflexivity.
Qed.
Lemma rst_receives : forall p n i x, rst p = [x] ->
  length (requireds p) + length (optionals p) <= i -> before_posts p n i -> receives p n i x.
Proof.
  intros p n i x E L B. unfold rst in E.
  destruct (rest p) as [[]|] eqn:R; try injection E as <-.
  - now apply by_rest.
  - now apply by_anonymous_rest.
  - apply by_forwarding; auto.
  - destruct (key_rest p) as [[]|] eqn:Kr; try discriminate. injection E as <-. apply by_forwarding; auto.
Qed.
Lemma rst_length : forall p, length (rst p) <= 1.
Proof. intro p. unfold rst. destruct (rest p) as [[]|]; cbn; try lia. destruct (key_rest p) as [[]|]; cbn; lia. Qed.

(** What is highlighted for argument number [i]. *)
Section Position.
Variable p : parameters.
Hypothesis Pl : plain p.
Hypothesis Gr : grammatical p.
Let Lr := length (requireds p).
Let Lo := length (optionals p).
Let Lp := length (posts p).
Lemma plains : Forall (fun x => x <> Destructured) (requireds p) /\ Forall (fun x => x <> Destructured) (posts p).
Proof. apply Forall_app. exact Pl. Qed.
Lemma front_length : length (front p) = Lr + Lo + length (rst p) + Lp.
Proof.
  destruct plains as [A B]. unfold front, Lr, Lo, Lp. rewrite !app_length, (req_length _ A), (req_length _ B). unfold opt.
  rewrite map_length. lia.
Qed.
Definition shown_at (i : nat) : option param := nth_error (extract p) (active_parameter (extract p) i None).

Lemma shown_front i : i < length (front p) -> shown_at i = nth_error (front p) i.
Proof.
  intro L. destruct (extract_front p Gr) as [Y [E N]]. unfold shown_at, active_parameter. rewrite E.
  rewrite (shape_before (front p) Y (front_positional p) N i L). now apply nth_error_app1.
Qed.
Lemma shown_required i x : nth_error (requireds p) i = Some x -> exists n, x = Plain n /\ shown_at i = Some (n, KRequired).
Proof.
  intro E. destruct plains as [A B]. destruct (req_nth _ _ _ A E) as [n [-> F]]. exists n. split; auto.
  assert (L : i < length (req (requireds p))) by (apply nth_error_Some; congruence).
  rewrite shown_front; [unfold front; now rewrite nth_error_app1|].
  unfold front. rewrite app_length. lia.
Qed.
Lemma shown_optional j x : nth_error (optionals p) j = Some x -> shown_at (Lr + j) = Some (x, KOptional).
Proof.
  intro E. destruct plains as [A B]. assert (L : j < Lo) by (apply nth_error_Some; congruence).
  rewrite shown_front by (rewrite front_length; lia). unfold front.
  rewrite nth_error_app2; rewrite (req_length _ A); fold Lr; [|lia]. replace (Lr + j - Lr) with j by lia.
  rewrite nth_error_app1; [|unfold opt; rewrite map_length; exact L]. unfold opt. exact (map_nth_error (fun n => (n, KOptional)) _ _ E).
Qed.
Lemma shown_rest i x : rst p = [x] -> i = Lr + Lo \/ Lr + Lo + Lp < i -> shown_at i = Some x.
Proof.
  intros E C. destruct plains as [A B].
  assert (K : nth_error (front p) (Lr + Lo) = Some x).
  { unfold front. rewrite nth_error_app2; rewrite (req_length _ A); fold Lr; [|lia]. replace (Lr + Lo - Lr) with Lo by lia.
    assert (Ol : length (opt p) = Lo) by (unfold opt; apply map_length).
    rewrite nth_error_app2 by lia. rewrite Ol, Nat.sub_diag, E. reflexivity. }
  destruct C as [->|C].
  - rewrite shown_front; auto. rewrite front_length, E. cbn. lia.
  - destruct (extract_front p Gr) as [Y [Ee N]]. unfold shown_at, active_parameter. rewrite Ee.
    assert (Fs : front p = (req (requireds p) ++ opt p) ++ x :: req (posts p)).
    { unfold front. rewrite E, <- app_assoc. reflexivity. }
    assert (Rx : takes_rest (snd x) = true).
    { unfold rst in E. destruct (rest p) as [[]|]; try (injection E as <-; reflexivity).
      destruct (key_rest p) as [[]|]; try discriminate. injection E as <-. reflexivity. }
    rewrite (shape_rest (front p) Y (front_positional p) N i _ x _ Fs).
    + assert (Al : length (req (requireds p) ++ opt p) = Lr + Lo) by (rewrite app_length, (req_length _ A); unfold opt; now rewrite map_length).
      rewrite Al, nth_error_app1; [exact K|]. rewrite front_length, E. cbn. lia.
    + now rewrite map_app, existsb_app, req_norest, opt_norest.
    + exact Rx.
    + rewrite front_length, E. cbn. lia.
Qed.
Lemma shown_post j x : nth_error (posts p) j = Some x ->
  exists n, x = Plain n /\ shown_at (Lr + Lo + length (rst p) + j) = Some (n, KRequired).
Proof.
  intro E. destruct plains as [A B]. destruct (req_nth _ _ _ B E) as [n [-> F]]. exists n. split; auto.
  assert (L : j < Lp) by (apply nth_error_Some; congruence).
  rewrite shown_front by (rewrite front_length; lia). unfold front.
  assert (Ol : length (opt p) = Lo) by (unfold opt; apply map_length).
  rewrite nth_error_app2; rewrite (req_length _ A); fold Lr; [|lia].
  rewrite nth_error_app2 by lia. rewrite nth_error_app2 by lia.
  now replace (Lr + Lo + length (rst p) + j - Lr - length (opt p) - length (rst p)) with j by lia.
Qed.

Lemma takes_least n : takes_count p n -> Lr + Lp <= n.
Proof. intros [A _]. exact A. Qed.
Lemma no_rest : rst p = [] -> ~ takes_any_number p.
Proof.
  intros E [T|T]; unfold rst in E.
  - destruct (rest p) as [[]|]; try discriminate. congruence.
  - rewrite T in E. destruct (rest p) as [[]|]; discriminate.
Qed.
Lemma some_rest x : rst p = [x] -> takes_any_number p.
Proof.
  unfold rst, takes_any_number. destruct (rest p) as [r|]; [left; discriminate|].
  destruct (key_rest p) as [[]|]; try discriminate. auto.
Qed.

(** Some legal call gives the argument to the highlighted parameter. *)
Lemma shown_possible i : may_have p i ->
  exists n q, i < n /\ takes_count p n /\ shown_at i = Some q /\ receives p n i q.
Proof.
  intro M.
  assert (Ct : forall n, Lr + Lp <= n -> n <= Lr + Lo + Lp -> takes_count p n).
  { intros n A B. split; [exact A|]. right. unfold most, least. unfold Lr, Lo, Lp in *. lia. }
  destruct (lt_dec i Lr) as [L|L].
  { destruct (nth_error (requireds p) i) as [x|] eqn:E; [|apply nth_error_None in E; unfold Lr in L; lia].
    destruct (shown_required i x E) as [n [-> F]]. exists (Lr + Lp), (n, KRequired).
    repeat split; auto; try lia; try (now apply by_required). unfold most, least. right. lia. }
  destruct (lt_dec i (Lr + Lo)) as [L2|L2].
  { destruct (nth_error (optionals p) (i - Lr)) as [x|] eqn:E; [|apply nth_error_None in E; unfold Lo in L2; lia].
    exists (i + 1 + Lp), (x, KOptional). split; [lia|]. split; [apply Ct; lia|]. split.
    - replace i with (Lr + (i - Lr)) at 1 by lia. now apply shown_optional.
    - apply by_optional; auto; [unfold Lr in L; lia|unfold before_posts; fold Lp; lia]. }
  destruct (rst p) as [|x [|y l]] eqn:R; [| |pose proof (rst_length p) as Q; rewrite R in Q; cbn in Q; lia].
  - destruct M as [M|M]; [|destruct (no_rest R M)]. unfold most, least in M. fold Lr Lo Lp in M.
    destruct (nth_error (posts p) (i - Lr - Lo)) as [z|] eqn:E; [|apply nth_error_None in E; unfold Lp in M; lia].
    destruct (shown_post _ _ E) as [n [-> F]]. rewrite R in F. cbn in F.
    exists (Lr + Lo + Lp), (n, KRequired). split; [lia|]. split; [apply Ct; lia|]. split.
    + replace i with (Lr + Lo + 0 + (i - Lr - Lo)) by lia. exact F.
    + eapply by_post; [exact E|]. fold Lp. lia.
  - assert (Any : forall n, Lr + Lp <= n -> takes_count p n).
    { intros n A. split; [exact A|]. left. eapply some_rest; eauto. }
    destruct (Nat.eq_dec i (Lr + Lo)) as [->|N].
    { exists (Lr + Lo + 1 + Lp), x. split; [lia|]. split; [apply Any; lia|]. split; [apply shown_rest; auto|].
      apply rst_receives; auto. unfold before_posts. fold Lp. lia. }
    destruct (le_lt_dec i (Lr + Lo + Lp)) as [L3|L3].
    + destruct (nth_error (posts p) (i - Lr - Lo - 1)) as [z|] eqn:E; [|apply nth_error_None in E; fold Lp in E; lia].
      destruct (shown_post _ _ E) as [n [-> F]]. rewrite R in F. cbn in F.
      exists (Lr + Lo + 1 + Lp), (n, KRequired). split; [lia|]. split; [apply Any; lia|]. split.
      * replace i with (Lr + Lo + 1 + (i - Lr - Lo - 1)) by lia. exact F.
      * eapply by_post; [exact E|]. fold Lp. lia.
    + exists (i + 1 + Lp), x. split; [lia|]. split; [apply Any; lia|]. split; [apply shown_rest; auto|].
      apply rst_receives; auto; [fold Lr Lo; lia|unfold before_posts; fold Lp; lia].
Qed.

(** In the call as it stands. *)
Lemma shown_exact n i : takes_count p n -> i < n ->
  posts p = [] \/ i < Lr \/ (~ takes_any_number p /\ n = most p) ->
  exists q, shown_at i = Some q /\ receives p n i q.
Proof.
  intros T L C.
  destruct (lt_dec i Lr) as [L1|L1].
  { destruct (nth_error (requireds p) i) as [x|] eqn:E; [|apply nth_error_None in E; unfold Lr in L1; lia].
    destruct (shown_required i x E) as [m [-> F]]. exists (m, KRequired). split; auto. now apply by_required. }
  destruct C as [C|[C|[C1 C2]]]; [|lia|].
  - assert (Lp0 : Lp = 0) by (unfold Lp; now rewrite C).
    destruct (lt_dec i (Lr + Lo)) as [L2|L2].
    { destruct (nth_error (optionals p) (i - Lr)) as [x|] eqn:E; [|apply nth_error_None in E; unfold Lo in L2; lia].
      exists (x, KOptional). split; [replace i with (Lr + (i - Lr)) by lia; now apply shown_optional|].
      apply by_optional; auto; [unfold Lr in L1; lia|unfold before_posts; fold Lp; lia]. }
    destruct T as [T1 [T2|T2]].
    + destruct (front_rest p T2 Gr) as [x [R _]]. exists x. split; [apply shown_rest; auto; lia|].
      apply rst_receives; auto; [fold Lr Lo; lia|unfold before_posts; fold Lp; lia].
    + unfold most, least in T2. fold Lr Lo Lp in T2. lia.
  - assert (R : rst p = []).
    { destruct (rst p) as [|x [|y l]] eqn:R; auto; [destruct (C1 (some_rest x R))|pose proof (rst_length p) as Q; rewrite R in Q; cbn in Q; lia]. }
    unfold most, least in C2. fold Lr Lo Lp in C2.
    destruct (lt_dec i (Lr + Lo)) as [L2|L2].
    { destruct (nth_error (optionals p) (i - Lr)) as [x|] eqn:E; [|apply nth_error_None in E; unfold Lo in L2; lia].
      exists (x, KOptional). split; [replace i with (Lr + (i - Lr)) by lia; now apply shown_optional|].
      apply by_optional; auto; [unfold Lr in L1; lia|unfold before_posts; fold Lp; lia]. }
    destruct (nth_error (posts p) (i - Lr - Lo)) as [z|] eqn:E; [|apply nth_error_None in E; fold Lp in E; lia].
    destruct (shown_post _ _ E) as [m [-> F]]. rewrite R in F. cbn in F.
    exists (m, KRequired). split; [replace i with (Lr + Lo + 0 + (i - Lr - Lo)) by lia; exact F|].
    eapply by_post; [exact E|]. fold Lp. lia.
Qed.
End Position.

(** No argument has two receivers. *)
Lemma receives_unique p n i q q' : takes_count p n -> grammatical p -> receives p n i q -> receives p n i q' -> q = q'.
Proof.
  intros [T _] [G1 G2] A B. unfold least in T.
  assert (Lt : forall (A : Type) (l : list A) j x, nth_error l j = Some x -> j < length l) by (intros; apply nth_error_Some; congruence).
  destruct A as [x E|x La Pa E|x La Pa E|La Pa E|La Pa E|j x E F];
  destruct B as [y E'|y Lb Pb E'|y Lb Pb E'|Lb Pb E'|Lb Pb E'|k y E' F']; try reflexivity; try congruence;
    try (pose proof (Lt _ _ _ _ E)); try (pose proof (Lt _ _ _ _ E')); unfold before_posts in *; try lia.
  all: try (exfalso; destruct E as [X|X]; [congruence|]; destruct (G2 X) as [? _]; congruence).
  all: try (exfalso; destruct E' as [X|X]; [congruence|]; destruct (G2 X) as [? _]; congruence).
  assert (j = k) by lia. subst. congruence.
Qed.

(** *** Keywords *)
Lemma name_eqb_eq a b : name_eqb a b = true <-> a = b.
Proof. unfold name_eqb. destruct (list_eq_dec N.eq_dec a b); split; congruence. Qed.
Lemma position_some : forall (A : Type) f (l : list A), existsb f l = true ->
  exists n x, position f l = Some n /\ nth_error l n = Some x /\ f x = true.
Proof.
  intros A f. induction l as [|x l IH]; intro E; [discriminate|]. cbn in *. destruct (f x) eqn:F.
  - exists 0, x. auto.
  - destruct (IH E) as [n [y [P [Q R]]]]. exists (S n), y. rewrite P. auto.
Qed.
Lemma position_none : forall (A : Type) f (l : list A), existsb f l = false -> position f l = None.
Proof.
  intros A f. induction l as [|x l IH]; intro E; auto. cbn in *. apply orb_false_elim in E as [-> E]. now rewrite IH.
Qed.
Definition is_key (k : name) (x : param) : bool := name_eqb (fst x) k && is_keyword (snd x).

Lemma extract_in p x : In x (extract p) <->
  In x (req (requireds p)) \/ In x (opt p) \/
  In x match rest p with Some (NamedRest n) => [(n, KRest)] | Some AnonymousRest => [([], KAnonymousRest)] | Some ForwardingRest => [([], KForwarding)] | None => [] end \/
  In x (req (posts p)) \/
  (exists k, In k (keywords p) /\ x = match k with RequiredKey n => (n, KRequiredKeyword) | OptionalKey n => (n, KOptionalKeyword) end) \/
  In x match key_rest p with
  | Some (NamedKeyRest n) => [(n, KKeywordRest)] | Some AnonymousKeyRest => [([], KAnonymousKeywordRest)]
  | Some ForwardingKeyRest => [([], KForwarding)] | Some NoKeywords | None => []
  end \/
  In x match block p with Some (Some n) => [(n, KBlock)] | _ => [] end.
Proof.
  unfold extract. fold (req (requireds p)). fold (req (posts p)). fold (opt p). rewrite !in_app_iff.
  assert (M : In x (map (fun k => match k with RequiredKey n => (n, KRequiredKeyword) | OptionalKey n => (n, KOptionalKeyword) end) (keywords p)) <->
    exists k, In k (keywords p) /\ x = match k with RequiredKey n => (n, KRequiredKeyword) | OptionalKey n => (n, KOptionalKeyword) end).
  { rewrite in_map_iff. split; intros [k [A B]]; exists k; auto. }
  rewrite M. tauto.
Qed.
Lemma req_kind l x : In x (req l) -> snd x = KRequired.
Proof. unfold req. rewrite in_flat_map. intros [[n|] [_ B]]; [destruct B as [<-|[]]; reflexivity|destruct B]. Qed.
Lemma opt_kind p x : In x (opt p) -> snd x = KOptional.
Proof. unfold opt. rewrite in_map_iff. intros [n [<- _]]. reflexivity. Qed.
Lemma extract_keyword p x : In x (extract p) -> is_keyword (snd x) = true ->
  (snd x = KRequiredKeyword /\ In (RequiredKey (fst x)) (keywords p)) \/ (snd x = KOptionalKeyword /\ In (OptionalKey (fst x)) (keywords p)).
Proof.
  intros A K. apply extract_in in A. destruct A as [A|[A|[A|[A|[A|[A|A]]]]]].
  - rewrite (req_kind _ _ A) in K. discriminate.
  - rewrite (opt_kind _ _ A) in K. discriminate.
  - destruct (rest p) as [[]|]; destruct A as [<-|[]] || destruct A; discriminate.
  - rewrite (req_kind _ _ A) in K. discriminate.
  - destruct A as [[n|n] [I ->]]; cbn; auto.
  - destruct (key_rest p) as [[]|]; destruct A as [<-|[]] || destruct A; discriminate.
  - destruct (block p) as [[]|]; destruct A as [<-|[]] || destruct A; discriminate.
Qed.
Lemma extract_key_rest p x : In x (extract p) -> is_key_rest (snd x) = true -> key_rest p = Some (NamedKeyRest (fst x)) /\ snd x = KKeywordRest.
Proof.
  intros A K. apply extract_in in A. destruct A as [A|[A|[A|[A|[A|[A|A]]]]]].
  - rewrite (req_kind _ _ A) in K. discriminate.
  - rewrite (opt_kind _ _ A) in K. discriminate.
  - destruct (rest p) as [[]|]; destruct A as [<-|[]] || destruct A; discriminate.
  - rewrite (req_kind _ _ A) in K. discriminate.
  - destruct A as [[n|n] [I ->]]; discriminate.
  - destruct (key_rest p) as [[]|]; destruct A as [<-|[]] || destruct A; try discriminate. auto.
  - destruct (block p) as [[]|]; destruct A as [<-|[]] || destruct A; discriminate.
Qed.

Lemma declared_in p k : In k (declared_names p) <-> In (RequiredKey k) (keywords p) \/ In (OptionalKey k) (keywords p).
Proof.
  unfold declared_names. rewrite in_map_iff. split.
  - intros [[n|n] [<- I]]; auto.
  - intros [I|I]; [exists (RequiredKey k)|exists (OptionalKey k)]; auto.
Qed.
Lemma keyed_exists p k : existsb (is_key k) (extract p) = true <-> In k (declared_names p).
Proof.
  rewrite existsb_exists, declared_in. split.
  - intros [x [I E]]. apply andb_prop in E as [E K]. apply name_eqb_eq in E. subst.
    destruct (extract_keyword p x I K) as [[_ J]|[_ J]]; auto.
  - intros J. assert (X : exists q, In q (extract p) /\ fst q = k /\ is_keyword (snd q) = true).
    { destruct J as [J|J]; [exists (k, KRequiredKeyword)|exists (k, KOptionalKeyword)]; (split; [apply extract_in; do 4 right; left|auto]).
      - exists (RequiredKey k). auto.
      - exists (OptionalKey k). auto. }
    destruct X as [q [A [B C]]]. exists q. split; auto. unfold is_key. rewrite C, andb_true_r. now apply name_eqb_eq.
Qed.

Lemma shown_key p k i : In k (declared_names p) \/ (exists x, key_rest p = Some (NamedKeyRest x)) ->
  exists q, nth_error (extract p) (active_parameter (extract p) i (Some k)) = Some q /\ receives_key p k q.
Proof.
  intro C. unfold active_parameter. fold (is_key k).
  change (position (fun x : name * kind => name_eqb (fst x) k && is_keyword (snd x)) (extract p)) with (position (is_key k) (extract p)).
  destruct (existsb (is_key k) (extract p)) eqn:E.
  - destruct (position_some _ _ _ E) as [n [x [P [Nx F]]]]. rewrite P. exists x. split; auto.
    apply andb_prop in F as [F K]. apply name_eqb_eq in F.
    destruct (extract_keyword p x (nth_error_In _ _ Nx) K) as [[A B]|[A B]]; destruct x as [a b]; cbn in *; subst.
    + now apply by_required_key.
    + now apply by_optional_key.
  - rewrite (position_none _ _ _ E). assert (Nd : ~ In k (declared_names p)) by (rewrite <- keyed_exists; congruence).
    destruct C as [C|[x Kr]]; [contradiction|].
    assert (Ex : existsb (fun q : name * kind => is_key_rest (snd q)) (extract p) = true).
    { apply existsb_exists. exists (x, KKeywordRest). split; auto. apply extract_in. rewrite Kr. do 5 right. left. left. reflexivity. }
    destruct (position_some _ _ _ Ex) as [n [y [P [Nx F]]]]. rewrite P. exists y. split; auto.
    destruct (extract_key_rest p y (nth_error_In _ _ Nx) F) as [A B]. destruct y as [a b]; cbn in *. subst.
    now apply by_key_rest.
Qed.

(** A keyword hash given to a method without keywords is one more positional argument. *)
Lemma no_keywords_index p k i : ~ takes_keywords p ->
  active_parameter (extract p) i (Some k) = active_parameter (extract p) i None.
Proof.
  intro N. unfold active_parameter.
  change (position (fun x : name * kind => name_eqb (fst x) k && is_keyword (snd x)) (extract p)) with (position (is_key k) (extract p)).
  rewrite position_none.
  - rewrite position_none; auto. destruct (existsb (fun q : name * kind => is_key_rest (snd q)) (extract p)) eqn:E; auto. apply existsb_exists in E as [x [I F]].
    destruct (extract_key_rest p x I F) as [K _]. destruct N. right. right. left. eauto.
  - destruct (existsb (is_key k) (extract p)) eqn:E; auto. apply keyed_exists in E. destruct N. left. intro K.
    unfold declared_names in E. rewrite K in E. destruct E.
Qed.

(** *** The argument under the cursor *)
Lemma first_none : forall cursor l i, (forall a, In a l -> snd (where_ a) < cursor) -> first_reaching cursor l i = None.
Proof.
  intros cursor. induction l as [|a l IH]; intros i A; auto. cbn. destruct (Nat.leb_spec cursor (snd (where_ a))).
  - specialize (A a (or_introl eq_refl)). lia.
  - apply IH. intros b I. apply A. now right.
Qed.
Lemma index_comma : forall comma cursor l seps, l <> [] -> separated comma l seps -> close l seps -> no_other_comma comma cursor l seps ->
  (forall s, In s seps -> s < cursor \/ cursor <= s) ->
  forall i,
  match first_reaching cursor l i with
  | Some j => j
  | None => if comma_between comma (snd (where_ (last l (Arg (0, 0) None false)))) cursor then i + length l else i + length l - 1
  end = i + commas_before cursor seps.
Proof.
  intros comma cursor. induction l as [|a l IH]; intros seps Nl Sp Cl No Dc i; [congruence|].
  destruct l as [|b l].
  - cbn [last length]. destruct seps as [|s [|]]; cbn in Sp; [| |destruct Sp].
    + cbn [first_reaching commas_before filter length]. destruct (Nat.leb_spec cursor (snd (where_ a))); [lia|].
      destruct (comma_between comma (snd (where_ a)) cursor) eqn:E; [|lia].
      unfold comma_between in E. apply existsb_exists in E as [x [I C]]. apply in_seq in I.
      destruct (No a x eq_refl ltac:(lia) C).
    + cbn in Cl. destruct Cl as [Cl _]. destruct Sp as [Sa Sc]. cbn [first_reaching]. destruct (Nat.leb_spec cursor (snd (where_ a))).
      * assert (Q : s <? cursor = false) by (apply Nat.ltb_ge; lia). unfold commas_before. cbn [filter]. rewrite Q. cbn [length]. lia.
      * assert (Q : s <? cursor = true) by (apply Nat.ltb_lt; lia). unfold commas_before. cbn [filter]. rewrite Q. cbn [length].
        assert (E : comma_between comma (snd (where_ a)) cursor = true).
        { unfold comma_between. apply existsb_exists. exists s. split; auto. apply in_seq. lia. }
        rewrite E. lia.
  - destruct seps as [|s ss]; [destruct Sp|]. destruct Sp as [Sa [Sb [Sc Sr]]]. destruct Cl as [Cs Cl].
    cbn [first_reaching]. destruct (Nat.leb_spec cursor (snd (where_ a))) as [L|L].
    + assert (Z : commas_before cursor (s :: ss) = 0); [|lia]. unfold commas_before.
      assert (Big : forall l0 b0 ss0, separated comma (b0 :: l0) ss0 -> cursor <= fst (where_ b0) -> filter (fun x => x <? cursor) ss0 = []).
      { induction l0 as [|c l0 IHl]; intros b0 ss0 Q Lb.
        - destruct ss0 as [|x [|]]; cbn in Q; auto; [|destruct Q]. cbn [filter].
          assert (R : x <? cursor = false) by (apply Nat.ltb_ge; lia). now rewrite R.
        - destruct ss0 as [|x ss0]; auto. destruct Q as [Q1 [Q2 [Q3 Q4]]]. cbn [filter].
          assert (R : x <? cursor = false) by (apply Nat.ltb_ge; lia). rewrite R. eapply IHl; eauto. lia. }
      cbn [filter]. assert (R : s <? cursor = false) by (apply Nat.ltb_ge; lia). rewrite R.
      rewrite (Big l b ss Sr); auto. lia.
    + assert (R : s <? cursor = true) by (apply Nat.ltb_lt; lia).
      specialize (IH ss ltac:(discriminate) Sr Cl). assert (No' : no_other_comma comma cursor (b :: l) ss).
      { intros c x E I C. assert (E' : nth_error (a :: b :: l) (length (a :: b :: l) - 1) = Some c).
        { cbn in *. rewrite Nat.sub_0_r in *. exact E. }
        destruct (No c x E' I C) as [X|X]; auto. exfalso.
        assert (K : forall l0 b0 ss0 c0, separated comma (b0 :: l0) ss0 -> nth_error (b0 :: l0) (length l0) = Some c0 -> fst (where_ b0) <= snd (where_ c0)).
        { induction l0 as [|d l0 IHl]; intros b0 ss0 c0 Q En.
          - cbn in En. injection En as <-. destruct ss0 as [|? [|]]; cbn in Q; try lia; try destruct Q.
          - destruct ss0 as [|y ss0]; [destruct Q|]. destruct Q as [Q1 [Q2 [Q3 Q4]]]. cbn in En.
            specialize (IHl d ss0 c0 Q4 En). lia. }
        cbn in E. rewrite Nat.sub_0_r in E. pose proof (K l b ss c Sr E). lia. }
      specialize (IH No' (fun x I => Dc x (or_intror I)) (S i)).
      unfold commas_before in *. cbn [filter]. rewrite R. cbn [length].
      replace (last (a :: b :: l) (Arg (0, 0) None false)) with (last (b :: l) (Arg (0, 0) None false)) by reflexivity.
      etransitivity; [|rewrite Nat.add_succ_r; exact IH]. cbn [length].
      replace (i + S (S (length l))) with (S i + S (length l)) by lia. reflexivity.
Qed.
Lemma rev_last : forall (A : Type) (l : list A) d x r, rev l = x :: r -> last l d = x.
Proof.
  intros A l d x r E. apply (f_equal (@rev A)) in E. rewrite rev_involutive in E. subst. cbn. apply last_last.
Qed.
Lemma active_index_commas comma cursor l seps :
  separated comma l seps -> close l seps -> no_other_comma comma cursor l seps ->
  active_index comma cursor l = commas_before cursor seps.
Proof.
  intros Sp Cl No. unfold active_index. destruct (rev l) as [|x r] eqn:R.
  - apply (f_equal (@rev arg)) in R. rewrite rev_involutive in R. subst. destruct seps; [reflexivity|destruct Sp].
  - rewrite <- (rev_last _ l (Arg (0, 0) None false) x r R).
    rewrite <- (Nat.add_0_l (commas_before cursor seps)).
    apply (index_comma comma cursor l seps); auto; [intros ->; discriminate|]. intros s _. lia.
Qed.

Lemma keyword_touched cursor : forall l k, touches cursor l (Some k) ->
  (forall k', touches cursor l k' -> k' = Some k) -> active_keyword cursor l = Some k.
Proof.
  assert (Pa : forall es, match pair_at cursor es with
     | Some k => exists s, In (KeyPair s k) es /\ fst s <= cursor <= snd s
     | None => forall s k, In (KeyPair s k) es -> ~ fst s <= cursor <= snd s end).
  { induction es as [|[s k|] es IH]; cbn [pair_at].
    - intros s k [].
    - destruct ((cursor <? fst s) || (snd s <? cursor)) eqn:E.
      + destruct (pair_at cursor es) as [k0|].
        * destruct IH as [s0 [I0 L0]]. exists s0. split; auto. now right.
        * intros s0 k0 [Q|Q]; [injection Q as <- <-|eauto]. apply orb_prop in E as [E|E]; apply Nat.ltb_lt in E; lia.
      + apply orb_false_elim in E as [E1 E2]. apply Nat.ltb_ge in E1. apply Nat.ltb_ge in E2. exists s. split; [now left|lia].
    - destruct (pair_at cursor es) as [k0|].
      + destruct IH as [s0 [I0 L0]]. exists s0. split; auto. now right.
      + intros s0 k0 [Q|Q]; [discriminate|eauto]. }
  induction l as [|a l IH]; intros k [s [Is Ls]] U; [destruct Is|]. cbn [active_keyword].
  assert (Cons : forall k', touches cursor l k' -> touches cursor (a :: l) k').
  { intros k' [s' [I' L']]. exists s'. split; auto. apply in_or_app. now right. }
  destruct (hash a) as [es|] eqn:Ha.
  - specialize (Pa es). destruct (pair_at cursor es) as [k'|].
    + apply U. destruct Pa as [s' [I' L']]. exists s'. split; auto. apply in_or_app. left. now rewrite Ha.
    + apply IH; auto. apply in_app_or in Is as [Is|Is]; [rewrite Ha in Is; destruct (Pa _ _ Is Ls)|]. exists s. auto.
  - apply IH; auto. apply in_app_or in Is as [Is|Is]; [rewrite Ha in Is; destruct Is|]. exists s. auto.
Qed.
Lemma keyword_untouched cursor : forall l, (forall k, ~ touches cursor l k) -> active_keyword cursor l = None.
Proof.
  assert (Pa : forall es, (forall s k, In (KeyPair s k) es -> ~ fst s <= cursor <= snd s) -> pair_at cursor es = None).
  { induction es as [|[s k|] es IH]; intro A; cbn [pair_at]; auto.
    - destruct ((cursor <? fst s) || (snd s <? cursor)) eqn:E; [apply IH; intros s0 k0 Q; apply (A s0 k0); now right|].
      apply orb_false_elim in E as [E1 E2]. apply Nat.ltb_ge in E1. apply Nat.ltb_ge in E2.
      destruct (A s k (or_introl eq_refl)). lia.
    - apply IH. intros s0 k0 Q. apply (A s0 k0). now right. }
  induction l as [|a l IH]; intros U; auto. cbn [active_keyword].
  assert (Il : active_keyword cursor l = None).
  { apply IH. intros k [s [Is Ls]]. apply (U k). exists s. split; auto. apply in_or_app. now right. }
  destruct (hash a) as [es|] eqn:Ha; auto. rewrite Pa; auto. intros s k Is Ls. apply (U k). exists s. split; auto.
  apply in_or_app. left. now rewrite Ha.
Qed.
