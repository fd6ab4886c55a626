(** C100 The version of Ruby is the one the project names. *)
From Coq Require Import List Arith Bool Lia.
From Verif Require Import Names_Model Yard_Model Yard_Proofs YardDoc_Model YardDoc_Spec YardDoc_Proofs Version_Model Version_Spec.
Import ListNotations.

(** ** Numbers *)
Definition step (a c : nat) : nat := a * 10 + (c - 48).
Lemma fold_ge l : forall a, a <= fold_left step l a.
Proof. induction l as [|c l IH]; intros a; cbn [fold_left]; [lia|]. specialize (IH (step a c)). unfold step in *. lia. Qed.
Lemma value_spec t : forall a n, value a t = Some n <-> (a <= 255 -> n <= 255) /\ (t <> [] -> n <= 255) /\ Forall (fun c => 48 <= c <= 57) t /\ n = fold_left step t a.
Proof.
  induction t as [|c t IH]; intros a n; cbn [value fold_left].
  - split; [intros [= <-]; repeat split; auto; congruence|intros (_ & _ & _ & ->); reflexivity].
  - unfold digit. fold (step a c). destruct ((48 <=? c) && (c <=? 57) && (step a c <=? 255)) eqn:E.
    + apply andb_true_iff in E as [E1 E2]. apply andb_true_iff in E1 as [E0 E1]. apply Nat.leb_le in E0, E1, E2. rewrite IH. split.
      * intros (A & _ & F & N). split; [auto|]. split; [auto|]. split; [constructor; auto|exact N].
      * intros (_ & A & F & N). assert (L : n <= 255) by (apply A; discriminate). inversion F as [|? ? _ F']. split; [auto|]. split; [auto|]. split; [exact F'|exact N].
    + split; [discriminate|]. intros (_ & A & F & N). inversion F; subst. specialize (A ltac:(discriminate)).
      pose proof (fold_ge t (step a c)). exfalso. apply andb_false_iff in E as [E|E]; [apply andb_false_iff in E as [E|E]|]; apply Nat.leb_gt in E; lia.
Qed.
Lemma parse_u8_spec t n : parse_u8 t = Some n <-> writes t n.
Proof.
  unfold parse_u8, writes. destruct t as [|c t].
  - split; [discriminate|]. intros (ds & [<-|H] & N & _); [congruence|discriminate].
  - destruct (Nat.eqb_spec c 43) as [->|Nc].
    + destruct t as [|d t].
      * split; [discriminate|]. intros (ds & [<-|H] & N & F & _); [inversion F; lia|]. injection H as <-. congruence.
      * rewrite value_spec. split.
        -- intros (_ & A & F & E). exists (d :: t). repeat split; auto; try discriminate. apply A. discriminate.
        -- intros (ds & [<-|H] & N & F & E & L); [inversion F; lia|]. injection H as <-. repeat split; auto.
    + rewrite value_spec. split.
      * intros (_ & A & F & E). exists (c :: t). repeat split; auto; try discriminate. apply A. discriminate.
      * intros (ds & [<-|H] & N & F & E & L); [repeat split; auto|congruence].
Qed.
Lemma writes_no_dot t n : writes t n -> ~ In 46 t.
Proof.
  intros (ds & H & _ & F & _). rewrite Forall_forall in F. destruct H as [->| ->]; intros X.
  - specialize (F _ X). lia.
  - destruct X as [X|X]; [discriminate|]. specialize (F _ X). lia.
Qed.
Lemma split_dot_none t : ~ In 46 t -> forall cur, split_dot cur t = [cur ++ t].
Proof.
  induction t as [|c t IH]; intros N cur; cbn [split_dot]; [now rewrite app_nil_r|].
  rewrite (proj2 (Nat.eqb_neq c 46)) by (intros ->; apply N; now left). rewrite IH by (intros X; apply N; now right). now rewrite <- app_assoc.
Qed.
Lemma split_dot_app x t : ~ In 46 x -> forall cur, split_dot cur (x ++ 46 :: t) = (cur ++ x) :: split_dot [] t.
Proof.
  induction x as [|c x IH]; intros N cur; cbn [app split_dot]; [rewrite app_nil_r; reflexivity|].
  rewrite (proj2 (Nat.eqb_neq c 46)) by (intros ->; apply N; now left). rewrite IH by (intros X; apply N; now right). now rewrite <- app_assoc.
Qed.
Lemma dot_dec (t : text) : ~ In 46 t \/ exists x r, t = x ++ 46 :: r /\ ~ In 46 x.
Proof.
  induction t as [|c t [IH|(x & r & -> & N)]]; [left; intros []| |].
  - destruct (Nat.eq_dec c 46) as [->|Nc]; [right; exists [], t; split; [reflexivity|intros []]|left; intros [X|X]; auto].
  - right. destruct (Nat.eq_dec c 46) as [->|Nc]; [exists [], (x ++ 46 :: r); split; [reflexivity|intros []]|].
    exists (c :: x), r. split; [reflexivity|]. intros [X|X]; auto.
Qed.
Lemma parse_spec t a b : parse t = Some (a, b) <-> numbered t a b.
Proof.
  unfold parse, numbered. split.
  - destruct (dot_dec t) as [N|(x & r & -> & N)]; [rewrite split_dot_none by exact N; discriminate|].
    rewrite split_dot_app by exact N. cbn [app].
    assert (G : exists y q, split_dot [] r = y :: q /\ (r = y \/ exists s, r = y ++ 46 :: s)).
    { destruct (dot_dec r) as [M|(y & s & -> & M)]; [exists r, []; rewrite split_dot_none by exact M; auto|].
      exists y, (split_dot [] s). rewrite split_dot_app by exact M. eauto. }
    destruct G as (y & q & -> & H). destruct (parse_u8 x) eqn:X; [|discriminate]. destruct (parse_u8 y) eqn:Y; [|discriminate].
    intros [= <- <-]. apply parse_u8_spec in X, Y. destruct H as [->|(s & ->)]; [exists x, y, []; auto|exists x, y, s; auto].
  - intros (x & y & r & X & Y & H). pose proof (writes_no_dot _ _ X) as Nx. pose proof (writes_no_dot _ _ Y) as Ny.
    apply parse_u8_spec in X, Y. destruct H as [->| ->]; rewrite split_dot_app by exact Nx; cbn [app].
    + rewrite split_dot_none by exact Ny. cbn [app]. now rewrite X, Y.
    + rewrite split_dot_app by exact Ny. cbn [app]. now rewrite X, Y.
Qed.
(** A version is read from a text exactly if it begins with two numbers up to 255 and a dot between them. *)
Theorem C100_numbers t a b : parse t = Some (a, b) <-> numbered t a b.
Proof. exact (parse_spec t a b). Qed.
Print Assumptions C100_numbers.

(** ** Names *)
Lemma map_jruby_spec c d a b : map_jruby c d = Some (a, b) <-> In (c, d, (a, b)) jruby_table.
Proof.
  unfold map_jruby. split.
  - destruct (find _ jruby_table) as [[[x y] z]|] eqn:F; [|discriminate]. cbn. intros [= ->]. apply find_some in F as [F E].
    cbn in E. apply andb_true_iff in E as [E1 E2]. apply Nat.eqb_eq in E1, E2. now subst.
  - cbn. intros H. repeat (destruct H as [H|H]; [injection H as <- <- <- <-; reflexivity|]). destruct H.
Qed.
Lemma map_truffle_spec c d a b : map_truffle c d = Some (a, b) <-> In (c, (a, b)) truffle_table.
Proof.
  unfold map_truffle. split.
  - destruct (find _ truffle_table) as [[x z]|] eqn:F; [|discriminate]. cbn. intros [= ->]. apply find_some in F as [F E].
    cbn in E. apply Nat.eqb_eq in E. now subst.
  - cbn. intros H. repeat (destruct H as [H|H]; [injection H as <- <- <-; reflexivity|]). destruct H.
Qed.
Lemma strip_prefix_spec p t r : strip_prefix p t = Some r <-> t = p ++ r.
Proof.
  split; [|intros ->; apply strip_prefix_app]. revert t. induction p as [|c p IH]; intros t H; cbn in H; [now injection H|].
  destruct t as [|d t]; [discriminate|]. destruct (Nat.eqb_spec c d) as [->|]; [|discriminate]. cbn. now rewrite (IH t H).
Qed.
Lemma numbered_head t a b : numbered t a b -> 43 <= hd 0 t <= 57 /\ t <> [].
Proof.
  intros (x & y & r & (ds & Hx & N & F & _) & _ & H). assert (X : 43 <= hd 0 x <= 57 /\ x <> []).
  { destruct ds as [|c ds]; [congruence|]. inversion F; subst. destruct Hx as [->| ->]; cbn; split; try discriminate; lia. }
  destruct X as [X Nx]. destruct x as [|c x]; [congruence|]. destruct H as [->| ->]; cbn in *; split; auto; discriminate.
Qed.
Lemma as_version_spec i o v : as_version i o = Some v <-> exists a b, o = Some (a, b) /\ v = mkVersion a b i.
Proof. unfold as_version. destruct o as [[a b]|]; split; [intros [= <-]; eauto|intros (x & y & [= -> ->] & ->); reflexivity|discriminate|intros (x & y & H & _); discriminate]. Qed.
Lemma from_full_spec t v : from_full t = Some v <-> names t v.
Proof.
  unfold from_full. split.
  - destruct (strip_prefix (v_jruby ++ [45]) t) as [r|] eqn:J.
    { apply strip_prefix_spec in J as ->. intros H. apply as_version_spec in H as (a & b & H & ->). unfold mapped in H.
      destruct (parse r) as [[c d]|] eqn:P; [|discriminate]. apply parse_spec in P. apply map_jruby_spec in H. rewrite <- app_assoc. econstructor; eassumption. }
    destruct (strip_prefix (v_truffleruby ++ [45]) t) as [r|] eqn:T.
    { apply strip_prefix_spec in T as ->. intros H. apply as_version_spec in H as (a & b & H & ->). unfold mapped in H.
      destruct (parse r) as [[c d]|] eqn:P; [|discriminate]. apply parse_spec in P. apply map_truffle_spec in H. rewrite <- app_assoc. econstructor; eassumption. }
    intros H. apply as_version_spec in H as (a & b & H & ->). destruct (strip_prefix (v_ruby ++ [45]) t) as [r|] eqn:R.
    + apply strip_prefix_spec in R as ->. apply parse_spec in H. rewrite <- app_assoc. now constructor.
    + apply parse_spec in H. now constructor.
  - intros H. destruct H as [t a b H|t a b H|t c d a b H I0|t c d a b H I0].
    + pose proof (numbered_head _ _ _ H) as [Hh Hn]. assert (G : forall p, 57 < hd 0 p -> p <> [] -> strip_prefix p t = None).
      { intros p Hp Np. destruct p as [|x p]; [congruence|]. destruct t as [|y t]; [congruence|]. cbn in *. destruct (Nat.eqb_spec x y); [lia|reflexivity]. }
      rewrite !G by (try discriminate; cbn; lia). apply parse_spec in H. now rewrite H.
    + replace (strip_prefix (v_jruby ++ [45]) (v_ruby ++ 45 :: t)) with (@None text) by reflexivity.
      replace (strip_prefix (v_truffleruby ++ [45]) (v_ruby ++ 45 :: t)) with (@None text) by reflexivity.
      replace (v_ruby ++ 45 :: t) with ((v_ruby ++ [45]) ++ t) by (rewrite <- app_assoc; reflexivity). rewrite strip_prefix_app. apply parse_spec in H. now rewrite H.
    + replace (v_jruby ++ 45 :: t) with ((v_jruby ++ [45]) ++ t) by (rewrite <- app_assoc; reflexivity). rewrite strip_prefix_app.
      apply parse_spec in H. rewrite H. cbn [mapped]. apply map_jruby_spec in I0. now rewrite I0.
    + replace (strip_prefix (v_jruby ++ [45]) (v_truffleruby ++ 45 :: t)) with (@None text) by reflexivity.
      replace (v_truffleruby ++ 45 :: t) with ((v_truffleruby ++ [45]) ++ t) by (rewrite <- app_assoc; reflexivity). rewrite strip_prefix_app.
      apply parse_spec in H. rewrite H. cbn [mapped]. apply (map_truffle_spec c d) in I0. now rewrite I0.
Qed.
(** A name is read exactly as it is meant: for JRuby and TruffleRuby as the Ruby they are compatible with. *)
Theorem C100_names t v : from_full t = Some v <-> names t v.
Proof. exact (from_full_spec t v). Qed.
Print Assumptions C100_names.
(** The stubs added for a JRuby are those of its own series; there are none for 1.7. *)
Theorem C100_overlay c d v t : numbered t c d -> from_full (v_jruby ++ 45 :: t) = Some v ->
  ((c, d) <> (1, 7) -> overlay (major v) (minor v) = Some (c, d)) /\ ((c, d) = (1, 7) -> overlay (major v) (minor v) = None).
Proof.
  intros N H. unfold from_full in H. replace (v_jruby ++ 45 :: t) with ((v_jruby ++ [45]) ++ t) in H by (rewrite <- app_assoc; reflexivity).
  rewrite strip_prefix_app in H. apply parse_spec in N. rewrite N in H. cbn [mapped] in H. apply as_version_spec in H as (a & b & H & ->).
  apply map_jruby_spec in H. cbn [major minor]. cbn in H. destruct H as [H|H]; [injection H as <- <- <- <-; split; [congruence|reflexivity]|].
  repeat (destruct H as [H|H]; [injection H as <- <- <- <-; split; [reflexivity|discriminate]|]). destruct H.
Qed.
Print Assumptions C100_overlay.

(** ** What commands print *)
Lemma words_space c t : space c = true -> words_from [] (c :: t) = words_from [] t.
Proof. intros S0. cbn [words_from]. now rewrite S0. Qed.
Lemma words_word w t : forallb (fun c => negb (space c)) w = true -> (t = [] \/ space (hd 0 t) = true) ->
  forall cur, cur ++ w <> [] -> words_from cur (w ++ t) = (cur ++ w) :: words t.
Proof.
  intros F H. induction w as [|c w IH]; intros cur N; cbn [app].
  - rewrite app_nil_r in *. destruct t as [|c t]; cbn [words_from].
    + destruct cur; [congruence|reflexivity].
    + destruct H as [H|H]; [discriminate|]. cbn in H. unfold words. cbn [words_from]. rewrite H. destruct cur; [congruence|reflexivity].
  - cbn [forallb] in F. apply andb_true_iff in F as [F1 F2]. cbn [words_from]. apply negb_true_iff in F1. rewrite F1, (IH F2); [now rewrite <- app_assoc|].
    destruct cur; discriminate.
Qed.
Lemma words_cons w t : a_word w -> (t = [] \/ space (hd 0 t) = true) -> words (w ++ t) = w :: words t.
Proof. intros [N F] H. exact (words_word w t F H [] N). Qed.
(** ruby X.Y.Z ... is that version of MRI. *)
Theorem C100_mri_output w rest a b : contains v_jruby (v_ruby ++ 32 :: w ++ rest) = false -> contains v_truffleruby (v_ruby ++ 32 :: w ++ rest) = false ->
  a_word w -> (rest = [] \/ space (hd 0 rest) = true) -> numbered w a b ->
  from_output (v_ruby ++ 32 :: w ++ rest) = Some (mkVersion a b Mri).
Proof.
  intros J T W R N. unfold from_output. rewrite J, T. rewrite (words_cons v_ruby (32 :: w ++ rest)); [|split; [discriminate|reflexivity]|now right].
  unfold words at 1. rewrite words_space by reflexivity. fold (words (w ++ rest)). rewrite words_cons by assumption. cbn [first_some].
  replace (parse v_ruby) with (@None (nat * nat)) by reflexivity. apply parse_spec in N. now rewrite N.
Qed.
Print Assumptions C100_mri_output.
Lemma after_skip p c q t : hd 0 p = c -> p <> [] -> ~ In c q -> after p (q ++ p ++ t) = Some t.
Proof.
  intros H N Hq. induction q as [|d q IH]; cbn [app].
  - assert (E : strip_prefix p (p ++ t) = Some t) by apply strip_prefix_app. destruct (p ++ t) eqn:Q; cbn [after]; now rewrite E.
  - cbn [after]. assert (E : strip_prefix p (d :: q ++ p ++ t) = None).
    { destruct p as [|x p]; [congruence|]. cbn in H. subst x. cbn [strip_prefix]. destruct (Nat.eqb_spec c d) as [->|]; [exfalso; apply Hq; now left|reflexivity]. }
    rewrite E. apply IH. intros X. apply Hq. now right.
Qed.
(** jruby E (X.Y.Z) ... is the JRuby for that version. *)
Theorem C100_jruby_output e v rest a b : ~ In 40 e -> ~ In 41 v -> numbered v a b ->
  from_output (v_jruby ++ e ++ 40 :: v ++ 41 :: rest) = Some (mkVersion a b JRuby).
Proof.
  intros He Hv N. unfold from_output. replace (contains v_jruby (v_jruby ++ e ++ 40 :: v ++ 41 :: rest)) with true by reflexivity.
  change (e ++ 40 :: v ++ 41 :: rest) with (e ++ [40] ++ (v ++ 41 :: rest)). rewrite app_assoc.
  rewrite (after_skip [40] 40 (v_jruby ++ e)); [|reflexivity|discriminate|].
  2:{ intros X. apply in_app_or in X as [X|X]; [cbn in X; intuition discriminate|exact (He X)]. }
  rewrite span_app; [|apply forallb_forall; intros c Hc; apply negb_true_iff, Nat.eqb_neq; intros ->; exact (Hv Hc)|now right].
  apply parse_spec in N. now rewrite N.
Qed.
Print Assumptions C100_jruby_output.
Lemma after_step p c t : strip_prefix p (c :: t) = None -> after p (c :: t) = after p t.
Proof. intros H. cbn [after]. now rewrite H. Qed.
(** truffleruby E, like ruby X.Y.Z ... is the TruffleRuby for that version. *)
Theorem C100_truffle_output e w rest a b : let out := v_truffleruby ++ e ++ v_like ++ w ++ rest in
  ~ In 108 e -> contains v_jruby out = false -> a_word w -> (rest = [] \/ space (hd 0 rest) = true) -> numbered w a b ->
  from_output out = Some (mkVersion a b TruffleRuby).
Proof.
  intros out He J W R N. unfold from_output. rewrite J. replace (contains v_truffleruby out) with true by reflexivity.
  assert (A : after v_like out = Some (w ++ rest)).
  { unfold out. change (v_truffleruby ++ e ++ v_like ++ w ++ rest) with ([116; 114; 117; 102; 102; 108; 101] ++ (v_ruby ++ e) ++ v_like ++ w ++ rest).
    cbn [app]. do 7 (rewrite after_step by reflexivity).
    exact (after_skip v_like 108 (v_ruby ++ e) (w ++ rest) eq_refl ltac:(discriminate) ltac:(intros Q; apply in_app_or in Q as [Q|Q]; [cbn in Q; intuition discriminate|exact (He Q)])). }
  rewrite A, words_cons by assumption. cbn [first_some]. apply parse_spec in N. now rewrite N.
Qed.
Print Assumptions C100_truffle_output.

(** ** Where the version is looked for *)
Lemma names_tight t v : names t v -> forallb (fun c => negb (space c)) t = true -> tight t.
Proof.
  intros H F. assert (N : t <> []).
  { destruct H as [t a b H|t a b H|t c d a b H I0|t c d a b H I0]; try discriminate. exact (proj2 (numbered_head _ _ _ H)). }
  apply tight_all; [exact N|]. rewrite forallb_forall in F. intros c Hc. specialize (F c Hc). now apply negb_true_iff in F.
Qed.
(** A version named in .ruby-version is the one, whatever else there is. *)
Theorem C100_version_file s a t b v : ruby_version_file s = Some (a ++ t ++ b) -> blank a = true -> blank b = true -> a_word t -> names t v ->
  detect s = Some v.
Proof.
  intros E A B [_ W] N. unfold detect. cbn [first_some]. rewrite E. cbn [try]. rewrite (trim_pad a t b A B (names_tight t v N W)).
  apply from_full_spec in N. now rewrite N.
Qed.
Print Assumptions C100_version_file.
Lemma trim_quotes_spec q t r : forallb quote q = true -> forallb quote r = true -> t <> [] -> quote (hd 0 t) = false -> quote (last t 0) = false -> trim_quotes (q ++ t ++ r) = t.
Proof.
  intros Q R N H L. unfold trim_quotes. rewrite span_app; [|exact Q|right; destruct t; [congruence|exact H]]. cbn [snd].
  rewrite rev_app_distr, span_app; [cbn [snd]; apply rev_involutive|now rewrite forallb_rev|right; rewrite rev_hd; exact L].
Qed.
Lemma quote_not_name t v : names t v -> forallb (fun c => negb (quote c)) t = true -> quote (hd 0 t) = false /\ quote (last t 0) = false /\ t <> [].
Proof.
  intros H F. assert (N : t <> []).
  { destruct H as [t a b H|t a b H|t c d a b H I0|t c d a b H I0]; try discriminate. exact (proj2 (numbered_head _ _ _ H)). }
  rewrite forallb_forall in F. repeat split; [| |exact N]; apply negb_true_iff, F; [destruct t; [congruence|now left]|now apply last_in].
Qed.
(** Else a Gemfile that names one in quotes on a line of its own, the first that says ruby, gives it. *)
Theorem C100_gemfile s l1 l2 a q t b v content : gemfile s = Some content -> lines content = l1 ++ (a ++ v_ruby ++ 32 :: q ++ t ++ q ++ b) :: l2 ->
  try (fun t => from_full (trim t)) (ruby_version_file s) = None ->
  (forall l, In l l1 -> strip_prefix (v_ruby ++ [32]) (trim l) = None) ->
  blank a = true -> blank b = true -> q = [34] \/ q = [39] -> a_word t -> forallb (fun c => negb (quote c)) t = true -> names t v ->
  detect s = Some v.
Proof.
  intros E L V F A B Q [Nt W] Qt N. unfold detect. cbn [first_some]. rewrite V, E. cbn [try].
  assert (G : from_gemfile content = Some v).
  { unfold from_gemfile. rewrite L. clear L E. induction l1 as [|l l1 IH]; cbn [app first_some].
    - assert (Y : gemfile_line (a ++ v_ruby ++ 32 :: q ++ t ++ q ++ b) = Some v).
      { unfold gemfile_line. replace (a ++ v_ruby ++ 32 :: q ++ t ++ q ++ b) with (a ++ (v_ruby ++ 32 :: q ++ t ++ q) ++ b) by (rewrite <- !app_assoc; cbn [app]; rewrite <- !app_assoc; reflexivity).
        rewrite trim_pad; [|exact A|exact B|].
        2:{ split; [discriminate|]. split; [reflexivity|]. destruct Q as [-> | ->];
            [change (v_ruby ++ 32 :: [34] ++ t ++ [34]) with ((v_ruby ++ [32; 34]) ++ t ++ [34])|change (v_ruby ++ 32 :: [39] ++ t ++ [39]) with ((v_ruby ++ [32; 39]) ++ t ++ [39])];
            rewrite app_assoc, last_last; reflexivity. }
        change (v_ruby ++ 32 :: q ++ t ++ q) with ((v_ruby ++ [32]) ++ q ++ t ++ q). rewrite strip_prefix_app.
        change ((v_ruby ++ [32]) ++ q ++ t ++ q) with (v_ruby ++ (32 :: q ++ t ++ q)).
        rewrite (words_cons v_ruby); [|split; [discriminate|reflexivity]|now right]. unfold words at 1. rewrite words_space by reflexivity. fold (words (q ++ t ++ q)).
        assert (Wq : words (q ++ t ++ q) = [q ++ t ++ q]).
        { rewrite <- (app_nil_r (q ++ t ++ q)) at 1. rewrite words_cons; [reflexivity| |now left].
          split; [destruct Q as [-> | ->]; discriminate|]. rewrite !forallb_app, W. destruct Q as [-> | ->]; reflexivity. }
        rewrite Wq. cbn [nth_error]. destruct (quote_not_name t v N Qt) as (H1 & H2 & H3).
        rewrite trim_quotes_spec; [apply from_full_spec; exact N| | | | |]; try assumption; destruct Q as [-> | ->]; reflexivity. }
      now rewrite Y.
    - unfold gemfile_line at 1. rewrite (F l) by now left. apply IH. intros x Hx. apply F. now right. }
  now rewrite G.
Qed.
Print Assumptions C100_gemfile.

(** Else the version rbenv is set to, by its file or its command, before any of rvm; and the command ruby is asked when
    nothing names a version. *)
Theorem C100_rbenv s a t b v : (rbenv_file s = Some (a ++ t ++ b) \/ (rbenv_file s = None /\ exists rest, rbenv_command s = Some (t ++ rest) /\ (rest = [] \/ space (hd 0 rest) = true))) ->
  try (fun t => from_full (trim t)) (ruby_version_file s) = None -> try from_gemfile (gemfile s) = None ->
  blank a = true -> blank b = true -> a_word t -> names t v -> detect s = Some v.
Proof.
  intros E V G A B [Nt W] N. unfold detect. cbn [first_some]. rewrite V, G. pose proof N as N'. apply from_full_spec in N'.
  destruct E as [-> |(-> & rest & -> & R)]; cbn [try].
  - rewrite (trim_pad a t b A B (names_tight t v N W)). now rewrite N'.
  - unfold first_word. rewrite words_cons by (try split; auto). now rewrite N'.
Qed.
Print Assumptions C100_rbenv.
Theorem C100_system s out v : ruby_command s = Some out -> from_output out = Some v ->
  ruby_version_file s = None -> gemfile s = None -> rbenv_file s = None -> rbenv_command s = None -> rvmrc s = None -> rvm_command s = None ->
  detect s = Some v.
Proof.
  intros E O A1 A2 A3 A4 A5 A6. unfold detect. cbn [first_some]. rewrite A1, A2, A3, A4, A5, A6, E. cbn [try]. unfold from_system. now rewrite O.
Qed.
Print Assumptions C100_system.
(** ** Corners *)
(** The line ruby "~> V", which the code means to read, says nothing, whatever V. *)
Theorem C100_pessimistic_refuted v : gemfile_line (v_ruby ++ [32; 34; 126; 62; 32] ++ v ++ [34]) = None.
Proof.
  unfold gemfile_line. rewrite trim_tight.
  2:{ split; [discriminate|]. split; [reflexivity|]. rewrite !app_assoc, last_last. reflexivity. }
  change (v_ruby ++ [32; 34; 126; 62; 32] ++ v ++ [34]) with ((v_ruby ++ [32]) ++ [34; 126; 62] ++ 32 :: v ++ [34]). rewrite strip_prefix_app.
  change ((v_ruby ++ [32]) ++ [34; 126; 62] ++ 32 :: v ++ [34]) with (v_ruby ++ 32 :: ([34; 126; 62] ++ 32 :: v ++ [34])).
  rewrite (words_cons v_ruby); [|split; [discriminate|reflexivity]|now right]. unfold words at 1. rewrite words_space by reflexivity.
  fold (words ([34; 126; 62] ++ 32 :: v ++ [34])). rewrite words_cons; [|split; [discriminate|reflexivity]|now right]. reflexivity.
Qed.
Print Assumptions C100_pessimistic_refuted.
(** With more after the version, as an engine, two numbers are not enough, since the comma stays, and the engine is not
    seen: the lines ruby '3.1', engine: 'jruby' and ruby '3.1.4', engine: 'jruby'. *)
Definition engine_option : text := [39; 44; 32; 101; 110; 103; 105; 110; 101; 58; 32; 39] ++ v_jruby ++ [39].
Theorem C100_engine_refuted : gemfile_line (v_ruby ++ [32; 39; 51; 46; 49] ++ engine_option) = None /\
  gemfile_line (v_ruby ++ [32; 39; 51; 46; 49; 46; 52] ++ engine_option) = Some (mkVersion 3 1 Mri).
Proof. split; reflexivity. Qed.
Print Assumptions C100_engine_refuted.
(** A .rvmrc that uses jruby-X.Y is read as MRI X.Y, and rvm current is not read at all then. *)
Theorem C100_rvm_refuted t a b u : numbered t a b -> a_word t -> contains (v_ruby ++ [45]) t = false -> ~ In 114 u ->
  rvmrc_line (u ++ v_jruby ++ 45 :: t) = Some (mkVersion a b Mri) /\ from_rvm_current (v_jruby ++ 45 :: t) = None.
Proof.
  intros N [Nt W] C U. split; [|reflexivity]. unfold rvmrc_line.
  replace (u ++ v_jruby ++ 45 :: t) with ((u ++ [106]) ++ (v_ruby ++ [45]) ++ t) by (rewrite <- !app_assoc; reflexivity).
  rewrite (after_skip (v_ruby ++ [45]) 114 (u ++ [106]) t eq_refl ltac:(discriminate)).
  2:{ intros X. apply in_app_or in X as [X|[X|[]]]; [exact (U X)|discriminate]. }
  assert (B : forall q, contains (v_ruby ++ [45]) q = false -> before_next (v_ruby ++ [45]) q = q).
  { clear. intros q. induction q as [|c q IH]; intros H; [reflexivity|]. cbn [before_next].
    unfold contains in H. cbn [after] in H. destruct (strip_prefix (v_ruby ++ [45]) (c :: q)) eqn:E; [discriminate|].
    rewrite IH; [reflexivity|]. exact H. }
  rewrite (B t C). rewrite <- (app_nil_r t) at 1. rewrite words_cons by (try split; auto). apply from_full_spec. now constructor.
Qed.
Print Assumptions C100_rvm_refuted.
(** The names of builds in development, X.Y-dev, are not read. *)
Theorem C100_dev_refuted x y : ~ In 46 x -> ~ In 46 y -> parse (x ++ 46 :: y ++ [45; 100; 101; 118]) = None.
Proof.
  intros Nx Ny. destruct (parse _) as [[a b]|] eqn:P; [|reflexivity]. exfalso. unfold parse in P. rewrite split_dot_app in P by exact Nx.
  rewrite split_dot_none in P by (intros X; apply in_app_or in X as [X|X]; [exact (Ny X)|cbn in X; intuition discriminate]). cbn [app] in P.
  destruct (parse_u8 x); [|discriminate]. destruct (parse_u8 (y ++ [45; 100; 101; 118])) eqn:Y; [|discriminate].
  apply parse_u8_spec in Y as (ds & H & _ & F & _). rewrite Forall_forall in F.
  assert (I0 : In 118 ds) by (assert (Q : In 118 (y ++ [45; 100; 101; 118])) by (apply in_or_app; right; cbn; auto); destruct H as [H|H]; rewrite H in Q; [exact Q|destruct Q as [Q|Q]; [discriminate|exact Q]]).
  specialize (F _ I0). lia.
Qed.
Print Assumptions C100_dev_refuted.

(** ** Cases *)
Example C100_case : from_full (v_jruby ++ [45; 57; 46; 50; 46; 50; 49]) = Some (mkVersion 2 5 JRuby) /\ from_full [51; 46; 50] = Some (mkVersion 3 2 Mri) /\
  from_full [51] = None /\ from_full [51; 46; 50; 53; 54] = None /\
  from_output (v_ruby ++ [32; 51; 46; 48; 46; 48; 112; 48; 32; 40]) = Some (mkVersion 3 0 Mri) /\
  from_output (v_jruby ++ [32; 57; 46; 52; 32; 40; 51; 46; 49; 46; 52; 41]) = Some (mkVersion 3 1 JRuby) /\
  from_output (v_truffleruby ++ [32; 50; 51; 44; 32] ++ v_like ++ [51; 46; 50; 46; 50; 44]) = Some (mkVersion 3 2 TruffleRuby) /\
  from_gemfile ([103; 10] ++ v_ruby ++ [32; 34; 51; 46; 51; 34; 10]) = Some (mkVersion 3 3 Mri).
Proof. repeat split; reflexivity. Qed.
Example C100_numbered_case : numbered [51; 46; 49; 46; 52] 3 1.
Proof.
  exists [51], [49], [52]. split; [exists [51]|split; [exists [49]|now right]]; repeat split; auto; try discriminate; try lia; repeat constructor; lia.
Qed.
