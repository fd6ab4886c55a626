(** Argument diagnostics: proofs. *)
From Coq Require Import List Arith NArith Bool Lia Permutation.
From Verif Require Import Sort_Lib Calls_Model Calls_Spec.
Import ListNotations.

Lemma name_eqb_iff a b : name_eqb a b = true <-> a = b.
Proof. unfold name_eqb. destruct (list_eq_dec N.eq_dec a b); split; congruence. Qed.

Lemma listed_iff n l : existsb (name_eqb n) l = true <-> In n l.
Proof.
  rewrite existsb_exists. split; [intros (x & X & E); apply name_eqb_iff in E; now subst|].
  intros X. exists n. split; auto. now apply name_eqb_iff.
Qed.

(** ** What is collected of the arguments *)
Definition is_positional (a : argument) : bool := match a with Positional _ => true | _ => false end.
Definition opens_positional (a : argument) : bool := match a with Splat | ForwardingArguments => true | _ => false end.
Definition is_pair (e : element) : bool := match e with Pair _ => true | DoubleSplat => false end.
Definition has_pair (a : argument) : bool := match a with Keywords es => existsb is_pair es | _ => false end.
Definition opens_keywords (a : argument) : bool := match a with Keywords es => negb (forallb is_pair es) | ForwardingArguments => true | _ => false end.
Definition element_names (e : element) : list name := match e with Pair (SymbolKey _ (Some w)) => [w] | _ => [] end.
Definition written_names (a : argument) : list name := match a with Keywords es => flat_map element_names es | _ => [] end.

Lemma elements_fold es : forall s, fold_left add_element es s =
  Signature (positional_count s) (positional_splat s) (nonempty_keyword_hash s || existsb is_pair es) (trailing_may_be_hash s)
    (keyword_args s ++ flat_map element_names es) (keyword_splat s || negb (forallb is_pair es)).
Proof.
  induction es as [|e es IH]; intros s; cbn [fold_left existsb forallb flat_map].
  - destruct s; cbn. now rewrite !orb_false_r, app_nil_r.
  - rewrite IH. destruct e as [[v [w|]|]|]; cbn; rewrite ?orb_true_r, ?app_nil_r, <- ?app_assoc; cbn; auto.
Qed.

Definition last_or (d : bool) (l : list argument) : bool := match last_positional l with Some h => h | None => d end.

Lemma arguments_fold l : forall s, fold_left add_argument l s =
  Signature (positional_count s + length (filter is_positional l)) (positional_splat s || existsb opens_positional l)
    (nonempty_keyword_hash s || existsb has_pair l) (last_or (trailing_may_be_hash s) l)
    (keyword_args s ++ flat_map written_names l) (keyword_splat s || existsb opens_keywords l).
Proof.
  induction l as [|a l IH]; intros s; cbn [fold_left existsb flat_map filter].
  - destruct s; cbn. now rewrite !orb_false_r, app_nil_r, Nat.add_0_r.
  - rewrite IH. destruct a as [h| |es| |]; cbn [add_argument is_positional opens_positional has_pair opens_keywords written_names app length];
      rewrite ?elements_fold; cbn [positional_count positional_splat nonempty_keyword_hash trailing_may_be_hash keyword_args keyword_splat];
      unfold last_or; cbn [last_positional]; rewrite ?orb_true_r, ?orb_false_r, ?orb_true_l, ?orb_false_l, ?orb_assoc, <- ?app_assoc; f_equal; try lia.
    destruct (last_positional l); auto.
Qed.

Lemma collect_spec skip l : let r := skipn skip l in collect skip l =
  Signature (length (filter is_positional r)) (existsb opens_positional r) (existsb has_pair r) (last_or false r) (flat_map written_names r)
    (existsb opens_keywords r).
Proof. cbn zeta. unfold collect. rewrite arguments_fold. reflexivity. Qed.

Lemma last_counts l h : last_positional l = Some h -> 0 < length (filter is_positional l).
Proof. induction l as [|[?| |?| |] l IH]; cbn; try discriminate; auto. intros _. lia. Qed.

(** ** What is passed *)
Lemma passes_least l n ks : passes l n ks -> length (filter is_positional l) <= n.
Proof. induction 1; cbn; lia. Qed.

Lemma passes_exactly l n ks : passes l n ks -> existsb opens_positional l = false -> n = length (filter is_positional l).
Proof. induction 1; cbn; intros O; try discriminate; auto. Qed.

Lemma element_key es ks k : element_passes es ks -> In (Pair k) es -> In (key_of k) ks.
Proof. induction 1; cbn; intros I; [easy| |]; [destruct I as [E|I]; [injection E as ->; auto|auto]|]. destruct I as [E|I]; [discriminate|]. apply in_or_app. auto. Qed.

Lemma passes_key l n ks es k : passes l n ks -> In (Keywords es) l -> In (Pair k) es -> In (key_of k) ks.
Proof.
  induction 1; cbn; intros I J; [easy|..]; (destruct I as [E|I]; [try discriminate|]); auto; try (apply in_or_app; auto; fail).
  injection E as ->. apply in_or_app. left. eapply element_key; eauto.
Qed.

Lemma element_only es ks x : element_passes es ks -> forallb is_pair es = true -> In x ks -> exists k, In (Pair k) es /\ x = key_of k.
Proof.
  induction 1; cbn; intros F I; try easy.
  destruct I as [<-|I]; [eauto|]. destruct (IHelement_passes F I) as (j & J & ->). eauto.
Qed.

Lemma passes_only l n ks x : passes l n ks -> existsb opens_positional l = false -> existsb opens_keywords l = false -> In x ks ->
  exists es k, In (Keywords es) l /\ In (Pair k) es /\ x = key_of k.
Proof.
  induction 1; cbn; intros O P I; try easy.
  - destruct IHpasses as (es & k & A & B & C); auto. exists es, k. auto.
  - apply orb_false_iff in P. destruct P as [P Q]. apply negb_false_iff in P. apply in_app_or in I. destruct I as [I|I].
    + destruct (element_only _ _ _ H P I) as (k & A & ->). exists es, k. auto.
    + destruct IHpasses as (es' & k & A & B & C); auto. exists es', k. auto.
  - destruct IHpasses as (es & k & A & B & C); auto. exists es, k. auto.
Qed.

Lemma written_in l w : In w (flat_map written_names l) <-> exists es v, In (Keywords es) l /\ In (Pair (SymbolKey v (Some w))) es.
Proof.
  rewrite in_flat_map. split.
  - intros ([?| |es| |] & A & B); try easy. cbn in B. apply in_flat_map in B. destruct B as ([[v [w'|]|]|] & B & C); try easy.
    destruct C as [->|[]]. eauto.
  - intros (es & v & A & B). exists (Keywords es). split; auto. cbn. apply in_flat_map. eexists. split; [exact B|]. cbn. auto.
Qed.

Lemma pair_in l : existsb has_pair l = true <-> exists es k, In (Keywords es) l /\ In (Pair k) es.
Proof.
  rewrite existsb_exists. split.
  - intros ([?| |es| |] & A & B); try easy. cbn in B. apply existsb_exists in B. destruct B as ([k|] & B & C); try easy. eauto.
  - intros (es & k & A & B). exists (Keywords es). split; auto. cbn. apply existsb_exists. exists (Pair k). auto.
Qed.

(** ** What is recorded of the parameters *)
Definition plain_count (l : list positional) : nat := length (flat_map positional_param l).
Definition optional_names (p : parameters) : list name := flat_map (fun k => match k with RequiredKey _ => [] | OptionalKey n => [n] end) (keywords p).
Definition any_number (p : parameters) : bool :=
  match rest p with Some _ => true | None => match key_rest p with Some ForwardingKeyRest => true | _ => false end end.
Definition any_keyword (p : parameters) : bool :=
  match rest p with Some ForwardingRest => true | _ => false end || match key_rest p with Some NoKeywords | None => false | Some _ => true end.

Lemma fold_positional l : forall a, fold_left add_param (flat_map positional_param l) a =
  Arity (required a + plain_count l) (optional a) (has_rest a) (required_keywords a) (optional_keywords a) (has_kwrest a).
Proof.
  unfold plain_count. induction l as [|[n|] l IH]; intros a; cbn [flat_map positional_param app fold_left length].
  - destruct a; cbn. now rewrite Nat.add_0_r.
  - rewrite IH. cbn. f_equal. lia.
  - apply IH.
Qed.
Lemma fold_optionals l : forall a, fold_left add_param (map (fun n => (n, KOptional)) l) a =
  Arity (required a) (optional a + length l) (has_rest a) (required_keywords a) (optional_keywords a) (has_kwrest a).
Proof.
  induction l as [|n l IH]; intros a; cbn [map fold_left length].
  - destruct a; cbn. now rewrite Nat.add_0_r.
  - rewrite IH. cbn. f_equal. lia.
Qed.
Lemma fold_keywords l : forall a,
  fold_left add_param (map (fun k => match k with RequiredKey n => (n, KRequiredKeyword) | OptionalKey n => (n, KOptionalKeyword) end) l) a =
  Arity (required a) (optional a) (has_rest a)
    (required_keywords a ++ flat_map (fun k => match k with RequiredKey n => [n] | OptionalKey _ => [] end) l)
    (optional_keywords a ++ flat_map (fun k => match k with RequiredKey _ => [] | OptionalKey n => [n] end) l) (has_kwrest a).
Proof.
  induction l as [|[n|n] l IH]; intros a; cbn [map fold_left flat_map].
  - destruct a; cbn. now rewrite !app_nil_r.
  - rewrite IH. cbn. now rewrite <- app_assoc.
  - rewrite IH. cbn. now rewrite <- app_assoc.
Qed.

Lemma from_params_spec p : from_params (extract p) =
  Arity (plain_count (requireds p) + plain_count (posts p)) (length (optionals p)) (any_number p) (required_names p) (optional_names p) (any_keyword p).
Proof.
  unfold from_params, extract. rewrite !fold_left_app, fold_positional, fold_optionals.
  unfold any_number, any_keyword, required_names, optional_names.
  destruct (rest p) as [[]|], (key_rest p) as [[]|], (block p) as [[]|]; cbn [fold_left add_param];
    rewrite fold_positional, fold_keywords; cbn; reflexivity.
Qed.

Lemma plain_count_le l : plain_count l <= length l.
Proof. unfold plain_count. induction l as [|[n|] l IH]; cbn; lia. Qed.
Lemma plain_count_eq l : Forall (fun x => x <> Destructured) l -> plain_count l = length l.
Proof. unfold plain_count. induction 1 as [|[n|] l P F IH]; cbn; congruence. Qed.

Lemma any_number_iff p : any_number p = true <-> takes_any_number p.
Proof.
  unfold any_number, takes_any_number. destruct (rest p); [split; auto; left; discriminate|].
  destruct (key_rest p) as [[]|]; split; intros H; auto; try discriminate; destruct H; congruence.
Qed.
Lemma any_keyword_iff p : any_keyword p = true <-> takes_any_keyword p.
Proof.
  unfold any_keyword, takes_any_keyword. split.
  - destruct (rest p) as [[]|]; auto; destruct (key_rest p) as [[]|]; cbn; intros H; try discriminate; eauto 6.
  - intros [->|[[n ->]|[->| ->]]]; rewrite ?orb_true_r; reflexivity.
Qed.
Lemma declared_iff p n : In n (declared_names p) <-> In n (required_names p ++ optional_names p).
Proof.
  unfold declared_names, required_names, optional_names. rewrite in_app_iff. induction (keywords p) as [|[m|m] l IH]; cbn; [tauto| |]; rewrite IH; tauto.
Qed.
Lemma no_keywords_iff p : required_names p = [] /\ optional_names p = [] <-> keywords p = [].
Proof.
  unfold required_names, optional_names. destruct (keywords p) as [|[n|n] l]; cbn; split; auto; try discriminate; intros [H J]; discriminate.
Qed.
Lemma declares_iff p : declares_keywords (from_params (extract p)) = true <-> takes_keywords p.
Proof.
  rewrite from_params_spec. unfold declares_keywords, takes_keywords. cbn [has_kwrest required_keywords optional_keywords].
  rewrite <- any_keyword_iff. pose proof (no_keywords_iff p) as K. rewrite !orb_true_iff, !negb_true_iff.
  destruct (any_keyword p); [tauto|]. destruct (required_names p) eqn:R, (optional_names p) eqn:O.
  - split; [intros [[?|?]|?]; discriminate|]. intros [?|?]; [|discriminate]. exfalso. tauto.
  - split; auto. intros _. left. intros E. apply K in E. destruct E. discriminate.
  - split; auto. intros _. left. intros E. apply K in E. destruct E. discriminate.
  - split; auto. intros _. left. intros E. apply K in E. destruct E. discriminate.
Qed.
