(** C97: types written in YARD comments. *)
From Coq Require Import List Arith Bool ZArith Lia.
From Verif Require Import Names_Model Names_Props Yard_Model Yard_Spec Yard_Proofs.
Import ListNotations.

Lemma strip_prefix_app p r : strip_prefix p (p ++ r) = Some r.
Proof. induction p as [|a p IH]; [reflexivity|]. cbn. now rewrite Nat.eqb_refl. Qed.
Lemma strip_prefix_some p : forall t r, strip_prefix p t = Some r -> t = p ++ r.
Proof.
  induction p as [|a p IH]; intros t r H; [now injection H as ->|]. destruct t as [|b t]; [discriminate|]. cbn in H.
  destruct (a =? b) eqn:E; [|discriminate]. apply Nat.eqb_eq in E as ->. cbn. f_equal. now apply IH.
Qed.
Lemma strip_last_app c t : strip_last c (t ++ [c]) = Some t.
Proof. unfold strip_last. rewrite rev_app_distr. cbn. now rewrite Nat.eqb_refl, rev_involutive. Qed.
Lemma strip_last_some c t r : strip_last c t = Some r -> t = r ++ [c].
Proof.
  unfold strip_last. destruct (rev t) as [|d s] eqn:E; [discriminate|]. destruct (d =? c) eqn:F; [|discriminate].
  apply Nat.eqb_eq in F as ->. intros H. injection H as <-. apply (f_equal (@rev nat)) in E. now rewrite rev_involutive in E.
Qed.
Lemma generic_app name inner : extract_generic (name ++ 60 :: inner ++ [62]) name = Some inner.
Proof.
  unfold extract_generic. change (name ++ 60 :: inner ++ [62]) with (name ++ [60] ++ inner ++ [62]).
  rewrite app_assoc, strip_prefix_app. apply strip_last_app.
Qed.
Lemma generic_none t name : ~ In 60 t -> extract_generic t name = None.
Proof.
  intros H. unfold extract_generic. destruct (strip_prefix _ t) as [r|] eqn:E; [|reflexivity].
  apply strip_prefix_some in E. exfalso. apply H. rewrite E. apply in_or_app. left. apply in_or_app. right. now left.
Qed.
Lemma brace_none t : ~ In 123 t -> extract_hash_brace t = None.
Proof.
  intros H. unfold extract_hash_brace. destruct (strip_prefix _ t) as [r|] eqn:E; [|reflexivity].
  apply strip_prefix_some in E. exfalso. apply H. rewrite E. apply in_or_app. left. cbn. tauto.
Qed.
Lemma text_eqb_spec a b : text_eqb a b = true <-> a = b.
Proof. unfold text_eqb. destruct (list_eq_dec Nat.eq_dec a b); split; congruence. Qed.
Lemma split_arrow_plain t : ~ In 61 t -> forall p, split_arrow p t = [p ++ t].
Proof.
  induction t as [|a t IH]; intros H p; [cbn; now rewrite app_nil_r|].
  assert (Ea : a =? 61 = false) by (apply Nat.eqb_neq; intros ->; apply H; now left).
  destruct t as [|b t]; [reflexivity|].
  change (split_arrow p (a :: b :: t)) with (if (a =? 61) && (b =? 62) then p :: split_arrow [] t else split_arrow (p ++ [a]) (b :: t)).
  rewrite Ea. cbn [andb]. rewrite IH by (intros X; apply H; now right). now rewrite <- app_assoc.
Qed.
Lemma split_arrow_at q t : ~ In 61 q -> forall p, split_arrow p (q ++ 61 :: 62 :: t) = (p ++ q) :: split_arrow [] t.
Proof.
  induction q as [|a q IH]; intros H p; [cbn; now rewrite app_nil_r|].
  assert (Ea : a =? 61 = false) by (apply Nat.eqb_neq; intros ->; apply H; now left).
  specialize (IH (fun X => H (or_intror X)) (p ++ [a])).
  cbn [app]. destruct (q ++ 61 :: 62 :: t) as [|b s] eqn:E; [now apply app_eq_nil in E|].
  change (split_arrow p (a :: b :: s)) with (if (a =? 61) && (b =? 62) then p :: split_arrow [] s else split_arrow (p ++ [a]) (b :: s)).
  rewrite Ea. cbn [andb]. rewrite IH. now rewrite <- app_assoc.
Qed.
Lemma split_arrow_length t : forall p q, In q (split_arrow p t) -> length q <= length p + length t.
Proof.
  assert (G : forall n t, length t <= n -> forall p q, In q (split_arrow p t) -> length q <= length p + length t).
  { induction n as [|n IH]; intros [|a s] L p q H; cbn in L; try lia.
    - destruct H as [<-|[]]. cbn. lia.
    - destruct H as [<-|[]]. cbn. lia.
    - destruct s as [|b s].
      + destruct H as [<-|[]]. rewrite app_length. cbn. lia.
      + change (split_arrow p (a :: b :: s)) with (if (a =? 61) && (b =? 62) then p :: split_arrow [] s else split_arrow (p ++ [a]) (b :: s)) in H.
        destruct ((a =? 61) && (b =? 62)).
        * destruct H as [<-|H]; [cbn; lia|]. apply IH in H; [cbn in *; lia|cbn in *; lia].
        * apply IH in H; [rewrite app_length in H; cbn in *; lia|cbn in *; lia]. }
  intros p q. exact (G (length t) t (le_n _) p q).
Qed.
Lemma split_length inner q : In q (split_hash_types inner) -> length q <= length inner.
Proof.
  assert (G : forall t d cur parts n, length cur + length t <= n -> (forall p, In p parts -> length p <= n) ->
    forall q, In q (let '(_, c, p) := fold_left split_step t (d, cur, parts) in last_part c p) -> length q <= n).
  { clear. induction t as [|c t IH]; intros d cur parts n Hc Hp q H.
    - cbn in H. unfold last_part in H. destruct (trim cur) as [|x r] eqn:E; [now apply Hp|].
      apply in_app_or in H as [H|[<-|[]]]; [now apply Hp|]. rewrite <- E. pose proof (trim_length cur). cbn in Hc. lia.
    - cbn [fold_left] in H. unfold split_step at 2 in H. cbn [length] in Hc.
      destruct ((c =? 60) || (c =? 123)); [apply (IH _ _ _ n) in H; try assumption; rewrite app_length; cbn; lia|].
      destruct ((c =? 62) || (c =? 125)); [apply (IH _ _ _ n) in H; try assumption; rewrite app_length; cbn; lia|].
      destruct ((c =? 44) && (d =? 0)%Z).
      + apply (IH _ _ _ n) in H; [exact H|cbn; lia|]. intros p Hi. apply in_app_or in Hi as [Hi|[<-|[]]]; [now apply Hp|].
        pose proof (trim_length cur). lia.
      + apply (IH _ _ _ n) in H; try assumption; rewrite app_length; cbn; lia. }
  intros H. refine (G inner 0%Z [] [] (length inner) _ _ q H); [cbn; lia|intros p []].
Qed.
Lemma extract_generic_length t name inner : extract_generic t name = Some inner -> length inner + 2 <= length t.
Proof.
  unfold extract_generic. destruct (strip_prefix _ t) as [r|] eqn:E; [|discriminate]. intros H.
  apply strip_prefix_some in E. apply strip_last_some in H. subst. rewrite !app_length. cbn. lia.
Qed.
Lemma extract_brace_length t inner : extract_hash_brace t = Some inner -> length inner + 2 <= length t.
Proof.
  unfold extract_hash_brace. destruct (strip_prefix _ t) as [r|] eqn:E; [|discriminate]. intros H.
  apply strip_prefix_some in E. apply strip_last_some in H. subst. rewrite !app_length. cbn. lia.
Qed.

(** The bound on the nesting that the model needs is never reached. *)
Theorem C97_nesting_unbounded u t : forall f g, length t < f -> length t < g -> convert_at u f t = convert_at u g t.
Proof.
  remember (length t) as n eqn:En. revert t En. induction n as [n IH] using lt_wf_ind. intros t -> f g Hf Hg.
  destruct f as [|f]; [lia|]. destruct g as [|g]; [lia|]. cbn [convert_at].
  pose proof (trim_length t) as HT. set (s := trim t) in *. clearbody s.
  assert (HL : forall inner, length inner + 2 <= length t -> map (convert_at u f) (split_hash_types inner) = map (convert_at u g) (split_hash_types inner)).
  { intros inner Hi. apply map_ext_in. intros q Hq. apply split_length in Hq. apply (IH (length q)); lia. }
  destruct (eq_ignore_case s w_nil); [reflexivity|]. destruct (eq_ignore_case s w_void); [reflexivity|].
  destruct (eq_ignore_case s w_true); [reflexivity|]. destruct (eq_ignore_case s w_false); [reflexivity|].
  destruct (eq_ignore_case s w_boolean || eq_ignore_case s w_bool); [reflexivity|].
  destruct (extract_generic s w_Array) as [inner|] eqn:E1.
  { apply extract_generic_length in E1. now rewrite HL by lia. }
  destruct (extract_generic s w_Hash) as [inner|] eqn:E2.
  { apply extract_generic_length in E2. destruct (split_hash_types inner) as [|k [|v r]] eqn:ES; try reflexivity.
    assert (length k <= length inner) by (apply split_length; rewrite ES; now left).
    assert (length v <= length inner) by (apply split_length; rewrite ES; right; now left).
    rewrite !HL by lia. reflexivity. }
  destruct (extract_hash_brace s) as [inner|] eqn:E3; [|reflexivity].
  apply extract_brace_length in E3. destruct (split_arrow [] inner) as [|k [|v [|x r]]] eqn:ES; try reflexivity.
  assert (length k <= length inner) by (apply (split_arrow_length inner []); rewrite ES; now left).
  assert (length v <= length inner) by (apply (split_arrow_length inner []); rewrite ES; right; now left).
  pose proof (trim_length k). pose proof (trim_length v). rewrite !HL by lia. reflexivity.
Qed.
Print Assumptions C97_nesting_unbounded.

(** ** One type *)
Lemma name_not_word parts word : parts <> [] -> ~ In 58 word -> eq_ignore_case (join parts) word = true -> exists p, parts = [p] /\ map small p = word.
Proof.
  intros N H E. apply text_eqb_spec in E. destruct parts as [|p [|q r]]; [congruence|now exists p|].
  exfalso. apply H. rewrite <- E. cbn [join]. rewrite map_app. apply in_or_app. right. now left.
Qed.
Lemma type_name_all u parts : separate u -> spelled u parts -> type_name u parts = Some parts.
Proof.
  intros S. induction parts as [|p r IH]; intros H; [reflexivity|]. cbn [type_name].
  assert (Hp : constant u p = Some p) by (apply H; now left).
  assert (Tp : tight p).
  { apply tight_all; [exact (constant_not_nil u p Hp)|]. intros c Hc. destruct (space c) eqn:E; [|reflexivity].
    exfalso. apply (part_chars u S p c Hp Hc). now left. }
  rewrite (trim_tight p Tp), IH by (intros q Hq; apply H; now right). destruct p; [discriminate|]. now rewrite Hp.
Qed.
Lemma parse_fqn_join u parts : separate u -> spelled u parts -> parts <> [] -> parse_fqn u (join parts) = Some parts.
Proof.
  intros S H N. unfold parse_fqn. rewrite (split_join u parts (proj1 S) H N), (type_name_all u parts S H). now destruct parts.
Qed.
Lemma join_word u parts word : separate u -> spelled u parts -> parts <> [] -> ~ In colon word -> (join parts = word <-> parts = [word]).
Proof.
  intros S H N C. split; [|intros ->; reflexivity]. intros E.
  rewrite <- (split_join u parts (proj1 S) H N), E. apply (split_piece word C []).
Qed.
Lemma standard_name u parts : separate u -> spelled u parts -> parts <> [] -> standard u (join parts) = meaning (WName parts).
Proof.
  intros S H N. unfold standard. rewrite (parse_fqn_join u parts S H N).
  assert (W : forall word, ~ In colon word -> text_eqb (join parts) word = if list_eq_dec (list_eq_dec Nat.eq_dec) parts [word] then true else false).
  { intros word C. destruct (list_eq_dec (list_eq_dec Nat.eq_dec) parts [word]) as [E|E].
    - apply text_eqb_spec. now apply (join_word u).
    - destruct (text_eqb (join parts) word) eqn:T; [|reflexivity]. apply text_eqb_spec in T. apply (join_word u) in T; try assumption. congruence. }
  rewrite !W by (cbn; intuition discriminate). clear W. cbn [meaning]. unfold text in *.
  repeat match goal with |- context [list_eq_dec ?d ?a ?b] => destruct (list_eq_dec d a b); cbn [orb] end;
    try reflexivity; exfalso; solve [congruence | subst; discriminate].
Qed.
Lemma convert_list u f l : separate u -> Forall (angled u) l ->
  Forall (fun w => forall f, length (write w) < f -> convert_at u f (write w) = meaning w) l ->
  length (commas (map write l)) < f -> map (convert_at u f) (split_hash_types (commas (map write l))) = map meaning l.
Proof.
  intros S A F HL. rewrite (split_commas u S l A), map_map. apply map_ext_in. intros w Hw.
  apply (proj1 (Forall_forall _ _) F w Hw). pose proof (commas_length (write w) (map write l) (in_map write l w Hw)). lia.
Qed.
Lemma not_word_first c t w r : (small c =? w) = false -> eq_ignore_case (c :: t) (w :: r) = false.
Proof.
  intros H. unfold eq_ignore_case, text_eqb. destruct (list_eq_dec _ _ _) as [E|]; [|reflexivity].
  cbn [map] in E. injection E as E _. apply Nat.eqb_neq in H. congruence.
Qed.
Lemma convert_angled u w : separate u -> angled u w -> forall f, length (write w) < f -> convert_at u f (write w) = meaning w.
Proof.
  intros S. induction w as [w Hw|p|l IH|k v IHk IHv|k v _ _] using written_ind_strong; intros A f Hf;
    (destruct f as [|f]; [lia|]); pose proof (trim_tight _ (angled_tight u S _ A)) as HT.
  - cbn in Hw. destruct Hw as [<-|[<-|[<-|[<-|[<-|[]]]]]]; reflexivity.
  - cbn [convert_at]. rewrite HT. apply angled_name_inv in A as (N & H & R). cbn [write].
    assert (W : forall word, In word [w_nil; w_void; w_true; w_false; w_boolean; w_bool] -> eq_ignore_case (join p) word = false).
    { intros word Hw. destruct (eq_ignore_case (join p) word) eqn:E; [|reflexivity]. exfalso. apply R.
      apply name_not_word in E as (q & -> & Eq); [|exact N|].
      - exists q. split; [reflexivity|]. now rewrite Eq.
      - cbn in Hw. destruct Hw as [<-|[<-|[<-|[<-|[<-|[<-|[]]]]]]]; cbn; intuition discriminate. }
    rewrite !W by (cbn; tauto). cbn [orb].
    assert (C : forall c, In c [60; 62; 123; 125; 44; 61] -> ~ In c (join p)).
    { intros c Hc X. apply (join_chars u S p c H X). now right. }
    rewrite !generic_none, brace_none by (apply C; cbn; tauto). exact (standard_name u p S H N).
  - cbn [convert_at]. rewrite HT. apply angled_array_inv in A as (N & F). cbn [write] in *.
    cbn [w_Array app]. unfold w_nil, w_void, w_true, w_false, w_boolean, w_bool.
    rewrite !not_word_first by reflexivity. cbn [orb].
    change (65 :: 114 :: 114 :: 97 :: 121 :: 60 :: commas (map write l) ++ [62]) with (w_Array ++ 60 :: commas (map write l) ++ [62]).
    rewrite generic_app. rewrite (convert_list u f l S F).
    + cbn [meaning]. destruct l; [congruence|reflexivity].
    + apply Forall_forall. intros w Hw. apply (proj1 (Forall_forall _ _) IH w Hw). exact (proj1 (Forall_forall _ _) F w Hw).
    + rewrite app_length in Hf. cbn [length] in Hf. rewrite app_length in Hf. cbn in Hf. lia.
  - cbn [convert_at]. rewrite HT. apply angled_pair_inv in A as (Ak & Av). cbn [write] in *.
    assert (LK : length (write k) < f /\ length (write v) < f).
    { rewrite app_length in Hf. cbn [length] in Hf. rewrite app_length in Hf.
      pose proof (commas_length (write k) [write k; write v] (or_introl eq_refl)).
      pose proof (commas_length (write v) [write k; write v] (or_intror (or_introl eq_refl))). cbn [length] in *. lia. }
    destruct LK as [Lk Lv].
    cbn [w_Hash app]. unfold w_nil, w_void, w_true, w_false, w_boolean, w_bool.
    rewrite !not_word_first by reflexivity. cbn [orb].
    change (72 :: 97 :: 115 :: 104 :: 60 :: commas [write k; write v] ++ [62]) with (w_Hash ++ 60 :: commas [write k; write v] ++ [62]).
    change (extract_generic (w_Hash ++ 60 :: commas [write k; write v] ++ [62]) w_Array) with (@None text).
    rewrite generic_app.
    change (commas [write k; write v]) with (commas (map write [k; v])).
    rewrite (split_commas u S [k; v]) by (constructor; [exact Ak|constructor; [exact Av|constructor]]). cbn [map].
    assert (one : forall x, angled u x -> length (write x) < f -> (forall f, length (write x) < f -> convert_at u f (write x) = meaning x) ->
      map (convert_at u f) (split_hash_types (write x)) = [meaning x]).
    { intros x Ax Lx Hx. apply (convert_list u f [x] S); [constructor; [exact Ax|constructor]| |exact Lx].
      constructor; [exact Hx|constructor]. }
    rewrite (one k Ak Lk (IHk Ak)), (one v Av Lv (IHv Av)). reflexivity.
  - inversion A; subst. cbn in H. intuition discriminate.
Qed.

(** Every type written without braces, or with braces at the outside only, is read as what it means. Missing: braces
    inside of brackets or braces, which are refuted below; names that differ from a word only in their capitals. *)
Theorem C97_type_partial u w : separate u -> plainly u w -> convert u (write w) = meaning w.
Proof.
  intros S H. unfold convert. destruct H as [w A|ks vs Nk Nv Fk Fv]; [apply convert_angled; auto|].
  pose proof (trim_tight _ (plainly_tight u S _ (plainly_map u ks vs Nk Nv Fk Fv))) as HT.
  set (f := length (write (WMap ks vs))) in *.
  assert (Lk : length (commas (map write ks)) < f /\ length (commas (map write vs)) < f).
  { subst f. cbn [write]. rewrite app_length. cbn [length]. rewrite !app_length. cbn [length]. lia. }
  clearbody f. destruct Lk as [Lk Lv]. cbn [convert_at]. rewrite HT. cbn [write].
  cbn [w_Hash app]. unfold w_nil, w_void, w_true, w_false, w_boolean, w_bool.
  rewrite !not_word_first by reflexivity. cbn [orb].
  set (inner := commas (map write ks) ++ 32 :: 61 :: 62 :: 32 :: commas (map write vs)).
  change (72 :: 97 :: 115 :: 104 :: 123 :: inner ++ [125]) with ((w_Hash ++ [123]) ++ inner ++ [125]).
  change (extract_generic ((w_Hash ++ [123]) ++ inner ++ [125]) w_Array) with (@None text).
  change (extract_generic ((w_Hash ++ [123]) ++ inner ++ [125]) w_Hash) with (@None text).
  unfold extract_hash_brace. rewrite strip_prefix_app, strip_last_app. subst inner.
  change (commas (map write ks) ++ 32 :: 61 :: 62 :: 32 :: commas (map write vs)) with
    (commas (map write ks) ++ [32] ++ 61 :: 62 :: 32 :: commas (map write vs)).
  rewrite app_assoc, split_arrow_at.
  2: { intros X. apply in_app_or in X as [X|X]; [exact (commas_no_equals u S ks Fk X)|cbn in X; intuition discriminate]. }
  rewrite split_arrow_plain.
  2: { intros [X|X]; [discriminate|exact (commas_no_equals u S vs Fv X)]. }
  cbn [app]. rewrite (trim_right (commas (map write ks)) [32] eq_refl (commas_tight u S ks Nk Fk)).
  change (32 :: commas (map write vs)) with ([32] ++ commas (map write vs)).
  rewrite (trim_left [32] (commas (map write vs)) eq_refl (commas_tight u S vs Nv Fv)).
  assert (F : forall l, Forall (angled u) l -> Forall (fun w => forall f, length (write w) < f -> convert_at u f (write w) = meaning w) l).
  { intros l A. apply (Forall_impl _ (fun w H => convert_angled u w S H) A). }
  rewrite (convert_list u f ks S Fk (F ks Fk) Lk), (convert_list u f vs S Fv (F vs Fv) Lv). reflexivity.
Qed.
Print Assumptions C97_type_partial.

(** ** Lists of types *)
(** The list between the square brackets of a tag is taken apart into the types written in it. *)
(** Case is ignored for the letters A to Z, and nothing else is. *)
Theorem C97_ignore_case t word : eq_ignore_case t word = true <->
  Forall2 (fun c w => (65 <= c <= 90 /\ w = c + 32) \/ (~ 65 <= c <= 90 /\ w = c)) t word.
Proof.
  assert (Q : eq_ignore_case t word = true <-> map small t = word) by (unfold eq_ignore_case, text_eqb; destruct (list_eq_dec _ _ _); split; congruence). rewrite Q. clear Q. split.
  - intros <-. induction t as [|c t IH]; [constructor|]. cbn [map]. constructor; [|exact IH]. unfold small.
    destruct (Nat.leb_spec 65 c), (Nat.leb_spec c 90); cbn [andb]; [left|right|right|right]; lia.
  - induction 1 as [|c w t word H F IH]; [reflexivity|]. cbn [map]. rewrite IH. f_equal. unfold small.
    destruct (Nat.leb_spec 65 c), (Nat.leb_spec c 90); cbn [andb]; lia.
Qed.
Print Assumptions C97_ignore_case.
(** A type without a name in it, nothing but colons, is unknown. *)
Theorem C97_nameless u n : convert u (concat (repeat [58; 58] n)) = RUnknown.
Proof.
  destruct n as [|n]; [reflexivity|]. unfold convert. set (f := length _). clearbody f. cbn [convert_at].
  assert (T : trim (concat (repeat [58; 58] (S n))) = concat (repeat [58; 58] (S n))).
  { apply trim_tight. cbn [repeat concat app]. split; [discriminate|]. split; [reflexivity|].
    assert (last (58 :: 58 :: concat (repeat [58; 58] n)) 0 = 58) as ->; [|reflexivity].
    clear. induction n as [|n IH]; [reflexivity|]. cbn [repeat concat app]. exact IH. }
  rewrite T. cbn [repeat concat app].
  assert (E : standard u (58 :: 58 :: concat (repeat [58; 58] n)) = RUnknown).
  { unfold standard. cbn [text_eqb]. change (text_eqb (58 :: 58 :: concat (repeat [58; 58] n)) w_Fixnum) with false.
    change (text_eqb (58 :: 58 :: concat (repeat [58; 58] n)) w_Bignum) with false. change (text_eqb (58 :: 58 :: concat (repeat [58; 58] n)) w_Object) with false.
    change (text_eqb (58 :: 58 :: concat (repeat [58; 58] n)) w_BasicObject) with false. cbn [orb].
    assert (parse_fqn u (58 :: 58 :: concat (repeat [58; 58] n)) = None) as ->; [|reflexivity].
    unfold parse_fqn. assert (G : forall m, type_name u (split [] (concat (repeat [58; 58] m))) = Some []).
    { induction m as [|m IH]; [reflexivity|]. exact IH. }
    pose proof (G (S n)) as Gn. change (concat (repeat [58; 58] (S n))) with (58 :: 58 :: concat (repeat [58; 58] n)) in Gn. now rewrite Gn. }
  exact E.
Qed.
Print Assumptions C97_nameless.
Theorem C97_list_partial u l : separate u -> Forall (plainly u) l -> parse_type_list (commas (map write l)) = map write l.
Proof. intros S F. exact (list_commas u S l F). Qed.
Print Assumptions C97_list_partial.

Lemma dedup_spec l : forall seen, NoDup seen -> NoDup (dedup seen l) /\ forall m, In m (dedup seen l) <-> In m seen \/ In m l.
Proof.
  induction l as [|t l IH]; intros seen ND; cbn [dedup]; [split; [exact ND|cbn; tauto]|].
  destruct (existsb (rtype_eqb t) seen) eqn:E.
  - apply existsb_rtype in E. destruct (IH seen ND) as [A B]. split; [exact A|]. intros m. rewrite B. cbn.
    split; [tauto|]. intros [H|[<-|H]]; tauto.
  - assert (N : ~ In t seen) by (intros H; apply existsb_rtype in H; congruence).
    destruct (IH (seen ++ [t])) as [A B].
    { apply NoDup_rev in ND. rewrite <- (rev_involutive (seen ++ [t])). apply NoDup_rev. rewrite rev_app_distr. cbn.
      constructor; [rewrite <- in_rev; exact N|exact ND]. }
    split; [exact A|]. intros m. rewrite B, in_app_iff. cbn. tauto.
Qed.
(** What any text is read as is a union only when it is the Boolean one. *)
Lemma convert_union u f t l : convert_at u f t = RUnion l -> l = [RClass [w_FalseClass]; RClass [w_TrueClass]].
Proof.
  destruct f as [|f]; [discriminate|]. cbn [convert_at]. set (s := trim t). clearbody s.
  destruct (eq_ignore_case s w_nil); [discriminate|]. destruct (eq_ignore_case s w_void); [discriminate|].
  destruct (eq_ignore_case s w_true); [discriminate|]. destruct (eq_ignore_case s w_false); [discriminate|].
  destruct (eq_ignore_case s w_boolean || eq_ignore_case s w_bool); [intros H; now injection H as <-|].
  destruct (extract_generic s w_Array); [discriminate|].
  destruct (extract_generic s w_Hash) as [i|]; [destruct (split_hash_types i) as [|k [|v r]]; discriminate|].
  destruct (extract_hash_brace s) as [i|]; [destruct (split_arrow [] i) as [|k [|v [|x r]]]; discriminate|].
  unfold standard. destruct (_ || _); [discriminate|]. destruct (_ || _); [discriminate|]. destruct (parse_fqn u s); discriminate.
Qed.
Lemma convert_alternatives u t m : In m (alternatives (convert u t)) -> convert u t = m \/ (m <> RUnknown /\ forall l, m <> RUnion l).
Proof.
  destruct (convert u t) eqn:E; cbn; try (intros [<-|[]]; now left). apply convert_union in E. subst.
  intros [<-|[<-|[]]]; right; split; discriminate.
Qed.

(** Whatever texts stand in a tag, their type is the union of what each is read as. *)
Theorem C97_union u types : types <> [] -> union_of (map (convert u) types) (convert_multiple u types).
Proof.
  intros N. unfold union_of. destruct types as [|t1 [|t2 r]]; [congruence| |].
  - cbn [convert_multiple map]. destruct (convert u t1) as [p|l|k v|l|] eqn:E; [| | | |left; split; [now left|reflexivity]]; right;
      (split; [intros [H|[]]; discriminate|]); cbn [alternatives].
    1-3: split; [repeat constructor; intros []|]; (split; [|discriminate]); intros m; split;
      [intros [<-|[]]; eexists; split; [now left|now left]|intros (x & [<-|[]] & H); exact H].
    apply convert_union in E as ->. split; [repeat constructor; cbn; intuition discriminate|]. split.
    + intros m. split; [intros H; eexists; split; [now left|exact H]|intros (x & [<-|[]] & H); exact H].
    + intros members H. injection H as <-. cbn. lia.
  - set (ts := t1 :: t2 :: r).
    assert (EC : convert_multiple u ts = let seen := dedup [] (flat_map (fun t => flatten (convert u t)) ts) in
      if existsb (rtype_eqb RUnknown) seen then RUnknown else match seen with [t] => t | _ => RUnion seen end) by reflexivity.
    rewrite EC. clear EC. cbv zeta.
    destruct (dedup_spec (flat_map (fun t => flatten (convert u t)) ts) [] (NoDup_nil _)) as [ND HI].
    assert (HM : forall m, In m (dedup [] (flat_map (fun t => flatten (convert u t)) ts)) <->
                           exists x, In x (map (convert u) ts) /\ In m (alternatives x)).
    { intros m. rewrite HI, in_flat_map. split.
      - intros [[]|(t & Ht & H)]. exists (convert u t). split; [now apply in_map|exact H].
      - intros (x & Hx & H). apply in_map_iff in Hx as (t & <- & Ht). right. exists t. now split. }
    set (seen := dedup [] (flat_map (fun t => flatten (convert u t)) ts)) in *. clearbody seen. clear HI.
    assert (HU : In RUnknown seen <-> In RUnknown (map (convert u) ts)).
    { rewrite HM. split.
      - intros (x & Hx & H). apply in_map_iff in Hx as (t & <- & Ht). apply convert_alternatives in H as [H|[H _]]; [|congruence].
        rewrite <- H. now apply in_map.
      - intros H. exists RUnknown. split; [exact H|now left]. }
    destruct (existsb (rtype_eqb RUnknown) seen) eqn:E.
    + left. apply existsb_rtype in E. split; [now apply HU|reflexivity].
    + right. split; [intros H; apply HU in H; apply existsb_rtype in H; congruence|].
      assert (NU : forall m l, In m seen -> m <> RUnion l).
      { intros m l Hm ->. apply HM in Hm as (x & Hx & H). apply in_map_iff in Hx as (t & <- & Ht).
        pose proof H as H'. apply convert_alternatives in H as [H|[_ H]]; [|now apply (H l)].
        rewrite H in H'. apply convert_union in H as ->. cbn in H'. intuition discriminate. }
      assert (HA : alternatives (match seen with [t] => t | _ => RUnion seen end) = seen).
      { destruct seen as [|m [|m' s]]; [reflexivity| |reflexivity]. cbn.
        destruct m as [| | |l|]; try reflexivity. exfalso. now apply (NU (RUnion l) l); [left|]. }
      rewrite HA. split; [exact ND|]. split; [exact HM|].
      intros members H. destruct seen as [|m [|m' s]].
      * exfalso. assert (X : exists m, In m (alternatives (convert u t1))).
        { destruct (convert u t1) as [| | |l|] eqn:F; try (eexists; now left). apply convert_union in F as ->. eexists. now left. }
        destruct X as [m Hm]. apply (proj2 (HM m)). exists (convert u t1). split; [now left|exact Hm].
      * exfalso. now apply (NU m members); [left|].
      * injection H as <-. cbn. lia.
Qed.
Print Assumptions C97_union.

(** A tag with such types: its type is the union of their meanings. *)
Theorem C97_tag_partial u l : separate u -> Forall (plainly u) l -> l <> [] ->
  union_of (map meaning l) (convert_multiple u (parse_type_list (commas (map write l)))).
Proof.
  intros S F N. rewrite (C97_list_partial u l S F).
  replace (map meaning l) with (map (convert u) (map write l)).
  - apply C97_union. destruct l; [congruence|discriminate].
  - rewrite map_map. apply map_ext_in. intros w Hw. apply C97_type_partial; [exact S|]. exact (proj1 (Forall_forall _ _) F w Hw).
Qed.
Print Assumptions C97_tag_partial.

(** ** Where it is not so *)
Definition n_Symbol : text := [83; 121; 109; 98; 111; 108].
Definition n_String : text := [83; 116; 114; 105; 110; 103].
Definition sym := WName [n_Symbol].
Definition str := WName [n_String].
Lemma ascii_separate : separate ascii_table.
Proof.
  split; [exact ascii_plain|]. intros c [H|H].
  - unfold space in H. assert (C : c <= 32). { apply orb_true_iff in H as [H|H]; [apply andb_true_iff in H as [_ H]; apply Nat.leb_le in H; lia|apply Nat.eqb_eq in H; lia]. }
    do 33 (destruct c as [|c]; [split; reflexivity|]). lia.
  - cbn in H. destruct H as [<-|[<-|[<-|[<-|[<-|[<-|[]]]]]]]; split; reflexivity.
Qed.
(** Hash{Symbol => Hash{Symbol => String}} is read as a hash of anything: the arrows of both are counted. *)
Theorem C97_nested_map_refuted : convert ascii_table (write (WMap [sym] [WMap [sym] [str]])) = RHash [RUnknown] [RUnknown].
Proof. reflexivity. Qed.
Print Assumptions C97_nested_map_refuted.
(** Array<Hash{Symbol => String}, String> is read as an array of anything: the arrow closes a bracket. *)
Theorem C97_map_in_array_refuted : convert ascii_table (write (WArray [WMap [sym] [str]; str])) = RArray [RUnknown].
Proof. reflexivity. Qed.
Print Assumptions C97_map_in_array_refuted.
(** In a tag the same type falls apart at its comma. *)
Theorem C97_map_in_list_refuted : length (parse_type_list (write (WArray [WMap [sym] [str]; str]))) = 2 /\
  convert_multiple ascii_table (parse_type_list (write (WArray [WMap [sym] [str]; str]))) = RUnknown.
Proof. split; reflexivity. Qed.
Print Assumptions C97_map_in_list_refuted.
(** A class called Void is taken for nil, one called Bool for true or false. *)
Theorem C97_capitals_refuted : exists void bool,
  spelled ascii_table [void] /\ convert ascii_table (join [void]) = RClass [w_NilClass] /\
  spelled ascii_table [bool] /\ convert ascii_table (join [bool]) = r_boolean.
Proof.
  exists [86; 111; 105; 100], [66; 111; 111; 108].
  split; [intros p [<-|[]]; reflexivity|]. split; [reflexivity|]. split; [intros p [<-|[]]; reflexivity|reflexivity].
Qed.
Print Assumptions C97_capitals_refuted.
(** The order of the types in a tag shows: the same two types give different unions, which compare as different. *)
Theorem C97_order_refuted :
  convert_multiple ascii_table (parse_type_list (commas (map write [str; WNil]))) <>
  convert_multiple ascii_table (parse_type_list (commas (map write [WNil; str]))).
Proof. vm_compute. discriminate. Qed.
Print Assumptions C97_order_refuted.

(** Whatever the signature says, so it says something, one of the two ways to write it is reported to differ. *)
Theorem C97_mismatch_refuted rbs : rbs <> RUnknown ->
  mismatch (convert_multiple ascii_table (parse_type_list (commas (map write [str; WNil])))) rbs = true \/
  mismatch (convert_multiple ascii_table (parse_type_list (commas (map write [WNil; str])))) rbs = true.
Proof.
  intros N. unfold mismatch. pose proof C97_order_refuted as O.
  set (a := convert_multiple ascii_table (parse_type_list (commas (map write [str; WNil])))) in *.
  set (b := convert_multiple ascii_table (parse_type_list (commas (map write [WNil; str])))) in *. clearbody a b.
  assert (U : rtype_eqb rbs RUnknown = false) by (apply not_true_iff_false; intros H; apply rtype_eqb_spec in H; congruence).
  rewrite U. cbn [negb andb]. destruct (rtype_eqb a rbs) eqn:A; [|now left]. right. apply negb_true_iff, not_true_iff_false.
  intros B. apply rtype_eqb_spec in A, B. congruence.
Qed.
Print Assumptions C97_mismatch_refuted.

(** ** A case *)
(** [Array<Hash<Symbol, A::String>, Boolean>, Hash{Symbol, nil => String}, nil, true]. *)
Definition case_types : list written :=
  [WArray [WPair sym (WName [[65]; n_String]); WBoolean]; WMap [sym; WNil] [str]; WNil; WTrue].
Example C97_case :
  separate ascii_table /\ Forall (plainly ascii_table) case_types /\
  convert_multiple ascii_table (parse_type_list (commas (map write case_types))) =
    RUnion [RArray [RHash [RClass [n_Symbol]] [RClass [[65]; n_String]]; r_boolean];
            RHash [RClass [n_Symbol]; RClass [w_NilClass]] [RClass [n_String]]; RClass [w_NilClass]; RClass [w_TrueClass]].
Proof.
  split; [exact ascii_separate|].
  assert (name : forall parts, parts <> [] -> spelled ascii_table parts -> ~ reserved parts -> angled ascii_table (WName parts)) by (intros; now constructor).
  assert (HS : angled ascii_table sym).
  { apply name; [discriminate|intros p [<-|[]]; reflexivity|]. intros (p & E & H). injection E as <-. cbn in H. intuition discriminate. }
  assert (HT : angled ascii_table str).
  { apply name; [discriminate|intros p [<-|[]]; reflexivity|]. intros (p & E & H). injection E as <-. cbn in H. intuition discriminate. }
  assert (HA : angled ascii_table (WName [[65]; n_String])).
  { apply name; [discriminate|intros p [<-|[<-|[]]]; reflexivity|]. intros (p & E & H). discriminate. }
  assert (HW : forall w, In w [WNil; WVoid; WTrue; WFalse; WBoolean] -> angled ascii_table w) by (intros; now constructor).
  split; [|reflexivity].
  constructor; [apply plainly_angled; apply angled_array; [discriminate|]; constructor; [now apply angled_pair|constructor; [apply HW; cbn; tauto|constructor]]|].
  constructor; [apply plainly_map; try discriminate; [constructor; [exact HS|constructor; [apply HW; cbn; tauto|constructor]]|constructor; [exact HT|constructor]]|].
  constructor; [apply plainly_angled; apply HW; cbn; tauto|]. constructor; [apply plainly_angled; apply HW; cbn; tauto|constructor].
Qed.
