From Coq Require Import List Arith Bool ZArith Lia.
From Verif Require Import Names_Model Names_Props Yard_Model Yard_Spec.
Import ListNotations.

(** * Induction *)
Lemma rtype_ind_strong (P : rtype -> Prop) :
  (forall p, P (RClass p)) -> (forall l, Forall P l -> P (RArray l)) ->
  (forall k v, Forall P k -> Forall P v -> P (RHash k v)) -> (forall l, Forall P l -> P (RUnion l)) -> P RUnknown ->
  forall t, P t.
Proof.
  intros HC HA HH HU HN. fix self 1. intros [p|l|k v|l|].
  - apply HC.
  - apply HA. induction l; constructor; [apply self|assumption].
  - apply HH; [induction k|induction v]; constructor; try apply self; assumption.
  - apply HU. induction l; constructor; [apply self|assumption].
  - exact HN.
Qed.
Lemma written_ind_strong (P : written -> Prop) :
  (forall w, In w [WNil; WVoid; WTrue; WFalse; WBoolean] -> P w) -> (forall p, P (WName p)) ->
  (forall l, Forall P l -> P (WArray l)) -> (forall k v, P k -> P v -> P (WPair k v)) ->
  (forall k v, Forall P k -> Forall P v -> P (WMap k v)) -> forall w, P w.
Proof.
  intros HW HN HA HP HM. fix self 1. intros [| | | | |p|l|k v|k v]; try (apply HW; cbn; tauto).
  - apply HN.
  - apply HA. induction l; constructor; [apply self|assumption].
  - apply HP; apply self.
  - apply HM; [induction k|induction v]; constructor; try apply self; assumption.
Qed.

(** * Equality *)
Fixpoint all_eqb (l k : list rtype) : bool :=
  match l, k with [], [] => true | x :: l', y :: k' => rtype_eqb x y && all_eqb l' k' | _, _ => false end.
Lemma all_eqb_spec l : Forall (fun a => forall b, rtype_eqb a b = true <-> a = b) l -> forall k, all_eqb l k = true <-> l = k.
Proof.
  induction l as [|x l IH]; intros F k; destruct k as [|y k]; cbn; try (split; congruence).
  inversion F; subst. rewrite andb_true_iff, H1, (IH H2). split; [intros [-> ->]; reflexivity|intros E; injection E as -> ->; now split].
Qed.
Lemma rtype_eqb_spec a : forall b, rtype_eqb a b = true <-> a = b.
Proof.
  induction a as [p|l IH|k v IHk IHv|l IH|] using rtype_ind_strong; intros b; destruct b as [q|l'|k' v'|l'|]; try (cbn; split; congruence).
  - cbn. destruct (list_eq_dec (list_eq_dec Nat.eq_dec) p q); split; congruence.
  - change (all_eqb l l' = true <-> RArray l = RArray l'). rewrite (all_eqb_spec l IH). split; congruence.
  - change (all_eqb k k' && all_eqb v v' = true <-> RHash k v = RHash k' v').
    rewrite andb_true_iff, (all_eqb_spec k IHk), (all_eqb_spec v IHv). split; [intros [-> ->]; reflexivity|intros E; injection E as -> ->; now split].
  - change (all_eqb l l' = true <-> RUnion l = RUnion l'). rewrite (all_eqb_spec l IH). split; congruence.
Qed.
Lemma existsb_rtype t l : existsb (rtype_eqb t) l = true <-> In t l.
Proof.
  rewrite existsb_exists. split; [intros (x & Hx & E); apply rtype_eqb_spec in E as ->; exact Hx|].
  intros H. exists t. split; [exact H|now apply rtype_eqb_spec].
Qed.

(** * Trimming *)
Definition tight (t : text) : Prop := t <> [] /\ space (hd 0 t) = false /\ space (last t 0) = false.
Lemma trim_start_spaces a t : forallb space a = true -> trim_start (a ++ t) = trim_start t.
Proof. induction a as [|c a IH]; cbn; [reflexivity|]. destruct (space c); [exact IH|discriminate]. Qed.
Lemma trim_start_tight t r : t <> [] -> space (hd 0 t) = false -> trim_start (t ++ r) = t ++ r.
Proof. destruct t as [|c t]; [congruence|]. cbn. intros _ ->. reflexivity. Qed.
Lemma forallb_rev {A} (f : A -> bool) l : forallb f (rev l) = forallb f l.
Proof. induction l as [|a l IH]; [reflexivity|]. cbn. rewrite forallb_app, IH. cbn. rewrite andb_true_r. apply andb_comm. Qed.
Lemma rev_hd (t : text) : hd 0 (rev t) = last t 0.
Proof.
  induction t as [|c t IH] using rev_ind; [reflexivity|]. rewrite rev_app_distr, last_last. reflexivity.
Qed.
Lemma trim_pad a t b : forallb space a = true -> forallb space b = true -> tight t -> trim (a ++ t ++ b) = t.
Proof.
  intros Ha Hb (H0 & H1 & H2). unfold trim. rewrite (trim_start_spaces a _ Ha), (trim_start_tight t b H0 H1), rev_app_distr.
  rewrite trim_start_spaces by (now rewrite forallb_rev).
  rewrite <- (app_nil_r (rev t)). rewrite trim_start_tight.
  - now rewrite app_nil_r, rev_involutive.
  - intros E. apply (f_equal (@rev nat)) in E. rewrite rev_involutive in E. exact (H0 E).
  - now rewrite rev_hd.
Qed.
Lemma trim_tight t : tight t -> trim t = t.
Proof. intros H. rewrite <- (app_nil_r t) at 1. exact (trim_pad [] t [] eq_refl eq_refl H). Qed.
Lemma trim_left a t : forallb space a = true -> tight t -> trim (a ++ t) = t.
Proof. intros Ha H. rewrite <- (app_nil_r t) at 1. exact (trim_pad a t [] Ha eq_refl H). Qed.
Lemma trim_right t b : forallb space b = true -> tight t -> trim (t ++ b) = t.
Proof. intros Hb H. exact (trim_pad [] t b eq_refl Hb H). Qed.
Lemma last_in (t : text) : t <> [] -> In (last t 0) t.
Proof. intros H. rewrite (app_removelast_last 0 H) at 2. apply in_or_app. right. now left. Qed.
Lemma tight_all t : t <> [] -> (forall c, In c t -> space c = false) -> tight t.
Proof. intros H A. split; [exact H|]. split; apply A; [destruct t; [congruence|now left]|now apply last_in]. Qed.
Lemma tight_ends a t b : space a = false -> space b = false -> tight (a :: t ++ [b]).
Proof.
  intros Ha Hb. split; [discriminate|]. split; [exact Ha|]. change (a :: t ++ [b]) with ((a :: t) ++ [b]). now rewrite last_last.
Qed.
Lemma trim_start_length t : length (trim_start t) <= length t.
Proof. induction t as [|c t IH]; cbn; [lia|]. destruct (space c); cbn; lia. Qed.
Lemma trim_length t : length (trim t) <= length t.
Proof.
  unfold trim. rewrite rev_length. pose proof (trim_start_length (rev (trim_start t))). rewrite rev_length in H.
  pose proof (trim_start_length t). lia.
Qed.

(** * Characters *)
Section Text.
  Variable u : unicode.
  Hypothesis sep : separate u.

  Definition odd (c : nat) : Prop := space c = true \/ In c [60; 62; 123; 125; 44; 61].
  Lemma part_chars p c : constant u p = Some p -> In c p -> ~ odd c.
  Proof.
    intros Hp Hc Ho. destruct (proj2 sep c Ho) as [A B]. destruct (constant_chars u p Hp c Hc) as [X|X]; congruence.
  Qed.
  Lemma join_chars parts c : spelled u parts -> In c (join parts) -> ~ odd c.
  Proof.
    induction parts as [|p r IH]; intros S H; [contradiction|].
    assert (Hp : constant u p = Some p) by (apply S; now left).
    assert (Sr : spelled u r) by (intros q Hq; apply S; now right).
    cbn [join] in H. destruct r as [|q r].
    - exact (part_chars p c Hp H).
    - apply in_app_or in H as [H|[<-|[<-|H]]]; [exact (part_chars p c Hp H)| | |exact (IH Sr H)];
        intros [X|X]; cbn in X; intuition discriminate.
  Qed.
  Lemma join_not_nil parts : parts <> [] -> spelled u parts -> join parts <> [].
  Proof. intros N S E. apply N. exact (join_nil u parts S E). Qed.

  Lemma in_commas c l : In c (commas l) -> c = 44 \/ c = 32 \/ exists t, In t l /\ In c t.
  Proof.
    induction l as [|t l IH]; [intros []|]. cbn [commas]. destruct l as [|t' l].
    - intros H. right. right. exists t. split; [now left|exact H].
    - intros H. apply in_app_or in H as [H|[<-|[<-|H]]]; [|auto|auto|].
      + right. right. exists t. split; [now left|exact H].
      + destruct (IH H) as [->|[->|(x & Hx & Hc)]]; auto. right. right. exists x. split; [now right|exact Hc].
  Qed.
  Lemma commas_length t l : In t l -> length t <= length (commas l).
  Proof.
    induction l as [|x l IH]; [intros []|]. cbn [commas]. intros [->|H].
    - destruct l; [lia|]. rewrite app_length. lia.
    - specialize (IH H). destruct l; [contradiction|]. rewrite app_length. cbn [length]. lia.
  Qed.

  Lemma angled_name_inv p : angled u (WName p) -> p <> [] /\ spelled u p /\ ~ reserved p.
  Proof. intros A. inversion A; subst; [cbn in H; intuition discriminate|auto]. Qed.
  Lemma angled_array_inv l : angled u (WArray l) -> l <> [] /\ Forall (angled u) l.
  Proof. intros A. inversion A; subst; [cbn in H; intuition discriminate|auto]. Qed.
  Lemma angled_pair_inv k v : angled u (WPair k v) -> angled u k /\ angled u v.
  Proof. intros A. inversion A; subst; [cbn in H; intuition discriminate|auto]. Qed.

  (** No equals sign in a type without braces. *)
  Lemma angled_no_equals w : angled u w -> ~ In 61 (write w).
  Proof.
    induction w as [w Hw|p|l IH|k v IHk IHv|k v _ _] using written_ind_strong; intros A.
    - cbn in Hw. destruct Hw as [<-|[<-|[<-|[<-|[<-|[]]]]]]; cbn; intuition discriminate.
    - apply angled_name_inv in A as (_ & H2 & _). intros X. apply (join_chars p 61 H2 X). right. cbn. tauto.
    - apply angled_array_inv in A as (_ & H1). cbn [write]. intros X.
      apply in_app_or in X as [X|[X|X]]; [cbn in X; intuition discriminate|discriminate|].
      apply in_app_or in X as [X|X]; [|cbn in X; intuition discriminate].
      apply in_commas in X as [X|[X|(t & Ht & Hc)]]; try discriminate. apply in_map_iff in Ht as (w & <- & Hw).
      exact (proj1 (Forall_forall _ _) IH w Hw (proj1 (Forall_forall _ _) H1 w Hw) Hc).
    - apply angled_pair_inv in A as (H1 & H2). cbn [write]. intros X.
      apply in_app_or in X as [X|[X|X]]; [cbn in X; intuition discriminate|discriminate|].
      apply in_app_or in X as [X|X]; [|cbn in X; intuition discriminate].
      apply in_commas in X as [X|[X|(t & [<-|[<-|[]]] & Hc)]]; try discriminate; [exact (IHk H1 Hc)|exact (IHv H2 Hc)].
    - inversion A; subst. cbn in H. intuition discriminate.
  Qed.
  Lemma commas_no_equals l : Forall (angled u) l -> ~ In 61 (commas (map write l)).
  Proof.
    intros F X. apply in_commas in X as [X|[X|(t & Ht & Hc)]]; try discriminate. apply in_map_iff in Ht as (w & <- & Hw).
    exact (angled_no_equals w (proj1 (Forall_forall _ _) F w Hw) Hc).
  Qed.

  Lemma plainly_tight w : plainly u w -> tight (write w).
  Proof.
    intros H. destruct H as [w H|ks vs _ _ _ _].
    - destruct H as [w Hw|parts N S _|l _ _|k v _ _].
      + cbn in Hw. destruct Hw as [<-|[<-|[<-|[<-|[<-|[]]]]]]; repeat split; try discriminate; reflexivity.
      + apply tight_all; [exact (join_not_nil parts N S)|]. intros c Hc. destruct (space c) eqn:E; [|reflexivity].
        exfalso. apply (join_chars parts c S Hc). now left.
      + cbn [write]. apply (tight_ends 65 ([114; 114; 97; 121] ++ 60 :: commas (map write l)) 62); reflexivity.
      + cbn [write]. apply (tight_ends 72 ([97; 115; 104] ++ 60 :: commas [write k; write v]) 62); reflexivity.
    - cbn [write]. apply (tight_ends 72 ([97; 115; 104] ++ 123 :: (commas (map write ks) ++ [32; 61; 62; 32] ++ commas (map write vs))) 125); reflexivity.
  Qed.
  Lemma angled_tight w : angled u w -> tight (write w).
  Proof. intros H. apply plainly_tight. now constructor. Qed.
  Lemma tight_app a m b : tight a -> tight b -> tight (a ++ m ++ b).
  Proof.
    intros (A0 & A1 & _) (B0 & _ & B2). split; [destruct a; [congruence|discriminate]|]. split.
    - destruct a; [congruence|exact A1].
    - rewrite app_assoc. destruct (exists_last B0) as (b' & z & ->). rewrite app_assoc, last_last in *. exact B2.
  Qed.
  Lemma commas_tight l : l <> [] -> Forall (angled u) l -> tight (commas (map write l)).
  Proof.
    induction l as [|w l IH]; [congruence|]. intros _ F. inversion F; subst. cbn [map commas].
    destruct l as [|w' l]; cbn [map]; [now apply angled_tight|].
    apply (tight_app (write w) [44; 32]); [now apply angled_tight|]. apply IH; [discriminate|assumption].
  Qed.

  (** * The two ways of taking lists apart *)
  Definition quiet (c : nat) : Prop := ~ In c [60; 62; 123; 125; 44].
  Lemma quiet_false c : quiet c -> (c =? 60) = false /\ (c =? 62) = false /\ (c =? 123) = false /\ (c =? 125) = false /\ (c =? 44) = false.
  Proof. intros H. rewrite !Nat.eqb_neq. repeat split; intros ->; apply H; cbn; tauto. Qed.
  Lemma split_quiet t : (forall c, In c t -> quiet c) -> forall d cur parts,
    fold_left split_step t (d, cur, parts) = (d, cur ++ t, parts).
  Proof.
    induction t as [|c t IH]; intros Q d cur parts; [now rewrite app_nil_r|]. cbn [fold_left].
    destruct (quiet_false c (Q c (or_introl eq_refl))) as (A & B & C & D & E).
    unfold split_step at 2. rewrite A, B, C, D, E. cbn [orb andb]. rewrite IH by (intros x Hx; apply Q; now right).
    now rewrite <- app_assoc.
  Qed.
  Lemma list_quiet t : (forall c, In c t -> quiet c) -> forall a b cur parts,
    fold_left list_step t (a, b, cur, parts) = (a, b, cur ++ t, parts).
  Proof.
    induction t as [|c t IH]; intros Q a b cur parts; [now rewrite app_nil_r|]. cbn [fold_left].
    destruct (quiet_false c (Q c (or_introl eq_refl))) as (A & B & C & D & E).
    unfold list_step at 2. rewrite A, B, C, D, E. cbn [andb]. rewrite IH by (intros x Hx; apply Q; now right).
    now rewrite <- app_assoc.
  Qed.
  Lemma quiet_list t : forallb (fun c => negb (existsb (Nat.eqb c) [60; 62; 123; 125; 44])) t = true -> forall c, In c t -> quiet c.
  Proof.
    intros H c Hc X. rewrite forallb_forall in H. specialize (H c Hc). apply negb_true_iff in H.
    assert (existsb (Nat.eqb c) [60; 62; 123; 125; 44] = true) by (apply existsb_exists; exists c; split; [exact X|apply Nat.eqb_refl]).
    congruence.
  Qed.
  Lemma name_quiet parts : spelled u parts -> forall c, In c (join parts) -> quiet c.
  Proof. intros S c Hc X. apply (join_chars parts c S Hc). right. cbn in X |- *. tauto. Qed.

  Definition keeps_split (t : text) : Prop := forall d cur parts, (0 <= d)%Z ->
    fold_left split_step t (d, cur, parts) = (d, cur ++ t, parts).
  Definition keeps_list (t : text) : Prop := forall a b cur parts,
    fold_left list_step t (a, b, cur, parts) = (a, b, cur ++ t, parts).
  Lemma inner_split l : Forall keeps_split l -> forall d cur parts, (1 <= d)%Z ->
    fold_left split_step (commas l) (d, cur, parts) = (d, cur ++ commas l, parts).
  Proof.
    induction l as [|t l IH]; intros F d cur parts Hd; [now rewrite app_nil_r|]. inversion F; subst. cbn [commas].
    destruct l as [|t' l]; [apply H1; lia|].
    rewrite fold_left_app, (H1 d cur parts) by lia. cbn [fold_left].
    unfold split_step at 3. cbn [Nat.eqb orb andb]. replace (d =? 0)%Z with false by (symmetry; apply Z.eqb_neq; lia).
    unfold split_step at 2. cbn [Nat.eqb orb andb].
    rewrite (IH H2) by exact Hd. now rewrite <- !app_assoc.
  Qed.
  Lemma inner_list l : Forall keeps_list l -> forall a b cur parts, (a =? 0) && (b =? 0) = false ->
    fold_left list_step (commas l) (a, b, cur, parts) = (a, b, cur ++ commas l, parts).
  Proof.
    induction l as [|t l IH]; intros F a b cur parts Hd; [now rewrite app_nil_r|]. inversion F; subst. cbn [commas].
    destruct l as [|t' l]; [apply H1|].
    rewrite fold_left_app, (H1 a b cur parts). cbn [fold_left].
    assert (E1 : list_step (a, b, cur ++ t, parts) 44 = (a, b, (cur ++ t) ++ [44], parts)).
    { unfold list_step. cbn [Nat.eqb andb]. now rewrite Hd. }
    rewrite E1. assert (E2 : list_step (a, b, (cur ++ t) ++ [44], parts) 32 = (a, b, ((cur ++ t) ++ [44]) ++ [32], parts)) by reflexivity.
    rewrite E2, (IH H2) by exact Hd. now rewrite <- !app_assoc.
  Qed.
  Lemma generic_split name l : (forall c, In c name -> quiet c) -> Forall keeps_split l ->
    keeps_split (name ++ 60 :: commas l ++ [62]).
  Proof.
    intros Q F d cur parts Hd. rewrite fold_left_app, (split_quiet name Q). cbn [fold_left].
    change (split_step (d, cur ++ name, parts) 60) with ((d + 1)%Z, (cur ++ name) ++ [60], parts).
    rewrite fold_left_app, (inner_split l F) by lia. cbn [fold_left].
    unfold split_step. cbn [Nat.eqb orb]. rewrite Z.add_simpl_r. now rewrite <- !app_assoc.
  Qed.
  Lemma generic_list name l : (forall c, In c name -> quiet c) -> Forall keeps_list l ->
    keeps_list (name ++ 60 :: commas l ++ [62]).
  Proof.
    intros Q F a b cur parts. rewrite fold_left_app, (list_quiet name Q). cbn [fold_left].
    change (list_step (a, b, cur ++ name, parts) 60) with (S a, b, (cur ++ name) ++ [60], parts).
    rewrite fold_left_app, (inner_list l F) by reflexivity. cbn [fold_left].
    change (list_step (S a, b, ((cur ++ name) ++ [60]) ++ commas l, parts) 62) with
      (a, b, (((cur ++ name) ++ [60]) ++ commas l) ++ [62], parts). now rewrite <- !app_assoc.
  Qed.
  Lemma angled_keeps w : angled u w -> keeps_split (write w) /\ keeps_list (write w).
  Proof.
    induction w as [w Hw|p|l IH|k v IHk IHv|k v _ _] using written_ind_strong; intros A.
    - split; [intros d cur parts _; apply split_quiet|intros a b cur parts; apply list_quiet];
        apply quiet_list; cbn in Hw; destruct Hw as [<-|[<-|[<-|[<-|[<-|[]]]]]]; reflexivity.
    - apply angled_name_inv in A as (_ & H2 & _).
      split; [intros d cur parts _; apply split_quiet|intros a b cur parts; apply list_quiet]; now apply name_quiet.
    - apply angled_array_inv in A as (_ & H1). cbn [write].
      assert (F : Forall (fun w => keeps_split (write w) /\ keeps_list (write w)) l).
      { apply Forall_forall. intros w Hw. apply (proj1 (Forall_forall _ _) IH w Hw). exact (proj1 (Forall_forall _ _) H1 w Hw). }
      split; [apply generic_split|apply generic_list]; try (apply quiet_list; reflexivity);
        apply Forall_map; apply (Forall_impl _ (fun w (H : _ /\ _) => proj1 H) F) || apply (Forall_impl _ (fun w (H : _ /\ _) => proj2 H) F).
    - apply angled_pair_inv in A as (H1 & H2). destruct (IHk H1) as [K1 K2]. destruct (IHv H2) as [V1 V2].
      cbn [write]. split; [apply generic_split|apply generic_list]; try (apply quiet_list; reflexivity); repeat constructor; assumption.
    - inversion A; subst. cbn in H. intuition discriminate.
  Qed.
  Lemma angled_keeps_split l : Forall (angled u) l -> Forall keeps_split (map write l).
  Proof. intros F. apply Forall_map. apply (Forall_impl _ (fun w H => proj1 (angled_keeps w H)) F). Qed.
  Lemma angled_keeps_list l : Forall (angled u) l -> Forall keeps_list (map write l).
  Proof. intros F. apply Forall_map. apply (Forall_impl _ (fun w H => proj2 (angled_keeps w H)) F). Qed.

  Lemma split_commas l : Forall (angled u) l -> split_hash_types (commas (map write l)) = map write l.
  Proof.
    assert (G : forall l w cur parts, angled u w -> Forall (angled u) l -> forallb space cur = true ->
      (let '(_, c, p) := fold_left split_step (commas (map write (w :: l))) (0%Z, cur, parts) in last_part c p) = parts ++ map write (w :: l)).
    { clear l. induction l as [|w' l IH]; intros w cur parts Hw F Hc.
      - cbn [map commas]. rewrite (proj1 (angled_keeps w Hw)) by lia. unfold last_part.
        rewrite (trim_left cur (write w) Hc (angled_tight w Hw)). destruct (write w) eqn:E; [|reflexivity].
        destruct (angled_tight w Hw) as [N _]. congruence.
      - inversion F; subst. cbn [map commas]. rewrite fold_left_app, (proj1 (angled_keeps w Hw)) by lia.
        cbn [fold_left]. unfold split_step at 3. cbn [Nat.eqb orb andb Z.eqb].
        unfold split_step at 2. cbn [Nat.eqb orb andb app].
        rewrite (trim_left cur (write w) Hc (angled_tight w Hw)).
        specialize (IH w' [32] (parts ++ [write w]) H1 H2 eq_refl). etransitivity; [exact IH|]. now rewrite <- app_assoc. }
    intros F. destruct l as [|w l]; [reflexivity|]. inversion F; subst. exact (G l w [] [] H1 H2 eq_refl).
  Qed.
  Lemma map_keeps ks vs : Forall (angled u) ks -> Forall (angled u) vs -> forall cur parts,
    fold_left list_step (write (WMap ks vs)) (0, 0, cur, parts) = (0, 0, cur ++ write (WMap ks vs), parts).
  Proof.
    intros Fk Fv cur parts. cbn [write].
    rewrite fold_left_app, (list_quiet w_Hash) by (apply quiet_list; reflexivity). cbn [fold_left].
    change (list_step (0, 0, cur ++ w_Hash, parts) 123) with (0, 1, (cur ++ w_Hash) ++ [123], parts).
    rewrite !fold_left_app, (inner_list (map write ks) (angled_keeps_list ks Fk)) by reflexivity.
    assert (arrow : forall c p, fold_left list_step [32; 61; 62; 32] (0, 1, c, p) = (0, 1, c ++ [32; 61; 62; 32], p)).
    { intros c p. cbn. now rewrite <- !app_assoc. }
    rewrite arrow, (inner_list (map write vs) (angled_keeps_list vs Fv)) by reflexivity.
    cbn. rewrite <- !app_assoc. reflexivity.
  Qed.
  Lemma plainly_keeps w : plainly u w -> forall cur parts,
    fold_left list_step (write w) (0, 0, cur, parts) = (0, 0, cur ++ write w, parts).
  Proof.
    intros H cur parts. destruct H as [w H|ks vs _ _ Fk Fv]; [apply (proj2 (angled_keeps w H))|now apply map_keeps].
  Qed.
  Lemma list_commas l : Forall (plainly u) l -> parse_type_list (commas (map write l)) = map write l.
  Proof.
    assert (P : forall w cur parts, plainly u w -> forallb space cur = true -> push_part (cur ++ write w) parts = parts ++ [write w]).
    { intros w cur parts Hw Hc. unfold push_part. rewrite (trim_left cur (write w) Hc (plainly_tight w Hw)).
      destruct (write w) eqn:E; [|reflexivity]. destruct (plainly_tight w Hw) as [N _]. congruence. }
    assert (G : forall l w cur parts, plainly u w -> Forall (plainly u) l -> forallb space cur = true ->
      (let '(_, _, c, p) := fold_left list_step (commas (map write (w :: l))) (0, 0, cur, parts) in push_part c p) = parts ++ map write (w :: l)).
    { clear l. induction l as [|w' l IH]; intros w cur parts Hw F Hc.
      - cbn [map commas]. rewrite (plainly_keeps w Hw). now apply P.
      - inversion F; subst. cbn [map commas]. rewrite fold_left_app, (plainly_keeps w Hw).
        cbn [fold_left]. unfold list_step at 3. cbn [Nat.eqb negb andb].
        unfold list_step at 2. cbn [Nat.eqb negb andb app].
        rewrite (P w cur parts Hw Hc).
        specialize (IH w' [32] (parts ++ [write w]) H1 H2 eq_refl). etransitivity; [exact IH|]. now rewrite <- app_assoc. }
    intros F. destruct l as [|w l]; [reflexivity|]. inversion F; subst. exact (G l w [] [] H1 H2 eq_refl).
  Qed.
End Text.
