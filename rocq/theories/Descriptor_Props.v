(** C47: JVM descriptors. *)
From Coq Require Import List Arith NArith Lia Bool.
From Verif Require Import Text_Lib Descriptor_Model Descriptor_Spec.
Import ListNotations.

Lemma object_name_some l n t : object_name l = Some (n, t) <-> l = n ++ SEMI :: t /\ ~ In SEMI n.
Proof.
  revert n t. induction l as [|c l IH]; intros n t; cbn [object_name].
  - split; [discriminate|]. intros [E _]. now destruct n.
  - destruct (N.eqb_spec c SEMI) as [->|NE].
    + split.
      * intros E. injection E as <- <-. split; auto.
      * intros [E NI]. destruct n as [|x n]; cbn in E; [congruence|]. injection E as <- E. exfalso. apply NI. now left.
    + destruct (object_name l) as [[n' t']|] eqn:O.
      * destruct (proj1 (IH n' t') eq_refl) as [-> NI]. split.
        -- intros E. injection E as <- <-. split; auto. intros [H|H]; auto.
        -- intros [E NI']. destruct n as [|x n]; cbn in E; [congruence|]. injection E as <- E.
           assert (Some (n', t') = Some (n, t)) as X; [|congruence]. apply IH. split; auto. intros H. apply NI'. now right.
      * split; [discriminate|]. intros [E NI]. destruct n as [|x n]; cbn in E; [congruence|]. injection E as <- E.
        assert (None = Some (n, t)) as X; [|discriminate]. apply IH. split; auto. intros H. apply NI. now right.
Qed.

Lemma parse_sound : forall l v t r, parse_type l v = Some (t, r) ->
  exists d, l = d ++ r /\ (field any_name t d \/ (v = true /\ t = Void /\ d = [86%N])).
Proof.
  assert (forall t c r, primitive t c -> exists d, c :: r = d ++ r /\ field any_name t d) as P
    by (intros t c r H; exists [c]; split; auto; now constructor).
  induction l as [|c l IH]; intros v t r E; [discriminate|]. cbn [parse_type] in E.
  repeat match type of E with (if (c =? ?k)%N then Some (?ty, l) else _) = _ =>
    destruct (N.eqb_spec c k) as [->|_];
      [injection E as <- <-; exists [k]; split; [reflexivity|]; left; apply field_primitive; unfold primitive; cbn; tauto|] end.
  destruct (N.eqb_spec c 86) as [->|_].
  { destruct v; [|discriminate]. injection E as <- <-. exists [86%N]. auto. }
  destruct (N.eqb_spec c 76) as [->|_].
  { destruct (object_name l) as [[[|x n] s]|] eqn:O; try discriminate. injection E as <- <-. apply object_name_some in O. destruct O as [-> NI].
    exists (76%N :: (x :: n) ++ [SEMI]). split; [cbn; now rewrite <- app_assoc|]. left. constructor. split; [discriminate|exact NI]. }
  destruct (N.eqb_spec c 91) as [->|_]; [|discriminate].
  destruct (parse_type l false) as [[e s]|] eqn:Q; [|discriminate]. injection E as <- <-.
  destruct (IH _ _ _ Q) as (d & -> & [H|(H & _)]); [|discriminate]. exists (91%N :: d). split; auto. left. now constructor.
Qed.

Lemma parse_complete t d : field any_name t d -> forall v r, parse_type (d ++ r) v = Some (t, r).
Proof.
  intros H. induction H as [t c H|n [N1 N2]|t d H IH]; intros v r.
  - unfold primitive in H. cbn [In] in H. repeat (destruct H as [H|H]; [injection H as <- <-; reflexivity|]). destruct H.
  - cbn [app]. cbn [parse_type N.eqb]. rewrite <- app_assoc.
    rewrite (proj2 (object_name_some (n ++ [SEMI] ++ r) n r)) by auto. now destruct n.
  - cbn [app]. cbn [parse_type N.eqb]. now rewrite IH.
Qed.

(** C47, fields: parsing succeeds exactly on the descriptors of the grammar with any non-empty object
    names, and answers the described type. *)
Theorem C47_field : forall d t, parse_field_descriptor d = Some t <-> field any_name t d.
Proof.
  intros d t. unfold parse_field_descriptor. split.
  - destruct (parse_type d false) as [[t' [|]]|] eqn:E; try discriminate. intros X. injection X as ->.
    destruct (parse_sound _ _ _ _ E) as (d' & -> & [H|(H & _)]); [|discriminate]. now rewrite app_nil_r.
  - intros H. pose proof (parse_complete _ _ H false []) as E. rewrite app_nil_r in E. now rewrite E.
Qed.
Print Assumptions C47_field.

Lemma field_nonempty n t d : field n t d -> 1 <= length d.
Proof. intros H. destruct H; cbn; lia. Qed.
Lemma field_not_close n t d r : field n t d -> exists c k, d ++ r = c :: k /\ (c =? CLOSE)%N = false.
Proof.
  intros H. destruct H as [t c H| |]; cbn; do 2 eexists; (split; [reflexivity|]); try reflexivity.
  unfold primitive in H. cbn [In] in H. repeat (destruct H as [H|H]; [injection H as <- <-; reflexivity|]). destruct H.
Qed.

Lemma parameters_sound fuel : forall l acc ps r, parse_parameters fuel l acc = Some (ps, r) ->
  exists ts d, ps = acc ++ ts /\ l = d ++ CLOSE :: r /\ fields any_name ts d.
Proof.
  induction fuel as [|n IH]; intros l acc ps r E; [discriminate|]. cbn [parse_parameters] in E.
  destruct l as [|c l]; [discriminate|]. destruct (N.eqb_spec c CLOSE) as [->|_].
  - injection E as <- <-. exists [], []. rewrite app_nil_r. repeat split. constructor.
  - destruct (parse_type (c :: l) false) as [[t r']|] eqn:P; [|discriminate]. destruct (parse_sound _ _ _ _ P) as (d & -> & [H|(H & _)]); [|discriminate].
    destruct (IH _ _ _ _ E) as (ts & ds & -> & -> & F). exists (t :: ts), (d ++ ds). rewrite <- !app_assoc. repeat split. now constructor.
Qed.
Lemma parameters_complete ts d : fields any_name ts d -> forall fuel acc r, length d < fuel ->
  parse_parameters fuel (d ++ CLOSE :: r) acc = Some (acc ++ ts, r).
Proof.
  intros H. induction H as [|t ts d ds H1 H2 IH]; intros fuel acc r L; (destruct fuel as [|fuel]; [lia|]).
  - cbn. now rewrite app_nil_r.
  - rewrite <- app_assoc. cbn [parse_parameters]. pose proof (parse_complete _ _ H1 false (ds ++ CLOSE :: r)) as P.
    destruct (field_not_close _ _ _ (ds ++ CLOSE :: r) H1) as (c & k & E & NC). rewrite E in *. rewrite NC, P.
    rewrite app_length in L. pose proof (field_nonempty _ _ _ H1). rewrite IH by lia. now rewrite <- app_assoc.
Qed.

(** C47, methods. *)
Theorem C47_method : forall d m, parse_method_descriptor d = Some m <-> describes any_name m d.
Proof.
  intros d m. unfold parse_method_descriptor. split.
  - destruct d as [|c d]; [discriminate|]. destruct (N.eqb_spec c OPEN) as [->|]; [|discriminate].
    destruct (parse_parameters (S (length d)) d []) as [[ps r]|] eqn:P; [|discriminate].
    destruct (parse_type r true) as [[t [|]]|] eqn:T; try discriminate. intros E. injection E as <-.
    destruct (parameters_sound _ _ _ _ _ P) as (ts & e & -> & -> & F). destruct (parse_sound _ _ _ _ T) as (k & -> & H). rewrite app_nil_r.
    constructor; auto. destruct H as [H|(_ & -> & ->)]; constructor; auto.
  - intros H. destruct H as [ps t d e F R]. cbn [N.eqb OPEN]. change (OPEN =? OPEN)%N with true. cbn iota.
    rewrite (parameters_complete ps d F) by (auto; rewrite app_length; cbn; lia). cbn [app].
    destruct R as [|t e R]; [reflexivity|]. pose proof (parse_complete _ _ R true []) as E. rewrite app_nil_r in E. now rewrite E.
Qed.
Print Assumptions C47_method.

Lemma class_name_any n : class_name n -> any_name n.
Proof.
  assert (forall s, unqualified s -> any_name s) as U.
  { intros s [A B]. split; auto. intros H. apply (B _ H). cbn. auto. }
  intros H. induction H as [s H|s r H1 H2 [IH1 IH2]]; auto. split; [now destruct s|]. intros H. apply in_app_or in H.
  destruct H as [H|[H|H]]; [now apply (U s)|discriminate|auto].
Qed.
Lemma field_weaken (p q : list N -> Prop) t d : (forall n, p n -> q n) -> field p t d -> field q t d.
Proof. intros H F. induction F; constructor; auto. Qed.

(** Every descriptor of the specification is accepted with the types it describes. *)
Theorem C47_accepts_jvm : (forall d t, field class_name t d -> parse_field_descriptor d = Some t) /\
  forall d m, describes class_name m d -> parse_method_descriptor d = Some m.
Proof.
  split.
  - intros d t H. apply C47_field. eapply field_weaken; [apply class_name_any|exact H].
  - intros d m H. apply C47_method. destruct H as [ps t d e F R]. constructor.
    + clear R. induction F; constructor; auto. eapply field_weaken; [apply class_name_any|eassumption].
    + destruct R; constructor. eapply field_weaken; [apply class_name_any|eassumption].
Qed.
Print Assumptions C47_accepts_jvm.

Lemma field_print n t d : field n t d -> print t = d.
Proof.
  intros H. induction H as [t c H| |]; cbn; auto; [|now rewrite IHfield].
  unfold primitive in H. cbn [In] in H. repeat (destruct H as [H|H]; [injection H as <- <-; reflexivity|]). destruct H.
Qed.
(** Printing inverts parsing: two descriptors never mean the same. *)
Theorem C47_round_trip : forall d m, parse_method_descriptor d = Some m -> print_method m = d /\ parse_method_descriptor (print_method m) = Some m.
Proof.
  intros d m P. assert (print_method m = d) as E; [|now rewrite E]. apply C47_method in P. destruct P as [ps t d e F R]. unfold print_method. cbn.
  f_equal. assert (flat_map print ps = d) as ->.
  { clear R. induction F as [|t' ts d ds H F IH]; cbn; auto. now rewrite IH, (field_print _ _ _ H). }
  destruct R as [|t e R]; [reflexivity|]. now rewrite (field_print _ _ _ R).
Qed.
Print Assumptions C47_round_trip.

(** Object names of a descriptor that is text are text: the slice of the code is on boundaries. *)
Lemma ascii_cut t : forall A x B, bytes t = A ++ x :: B -> (x < 128)%N -> exists t1 t2, t = t1 ++ x :: t2 /\ A = bytes t1 /\ B = bytes t2.
Proof.
  induction t as [|c t IH]; intros A x B E Hx; [now destruct A|]. change (bytes (c :: t)) with (enc c ++ bytes t) in E.
  destruct (N.ltb_spec c 128) as [L|L].
  - rewrite (enc_ascii c L) in E. destruct A as [|a A]; cbn in E.
    + injection E as <- <-. exists [], t. auto.
    + injection E as <- E. destruct (IH _ _ _ E Hx) as (t1 & t2 & -> & -> & ->). exists (c :: t1), t2. split; auto. split; auto.
      change (bytes (c :: t1)) with (enc c ++ bytes t1). now rewrite (enc_ascii c L).
  - assert (forall l, (forall y, In y l -> (128 <= y)%N) -> forall A, l ++ bytes t = A ++ x :: B -> exists A', A = l ++ A' /\ bytes t = A' ++ x :: B) as CUT.
    { clear - Hx. induction l as [|y l IHl]; intros HL A E; [exists A; auto|]. destruct A as [|a A]; cbn in E; injection E as -> E.
      - specialize (HL x (or_introl eq_refl)). lia.
      - destruct (IHl (fun z Hz => HL z (or_intror Hz)) A E) as (A' & -> & E'). exists A'. auto. }
    destruct (CUT (enc c) (enc_wide c L) A E) as (A' & -> & E'). destruct (IH _ _ _ E' Hx) as (t1 & t2 & -> & -> & ->).
    exists (c :: t1), t2. auto.
Qed.
Lemma field_text n t d : field n t d -> forall A B s, bytes s = A ++ d ++ B -> forall x, In x (names t) -> exists s', x = bytes s'.
Proof.
  intros H. induction H as [t c H|nm H|t d H IH]; intros A B s E x Hx.
  - unfold primitive in H. cbn [In] in H. repeat (destruct H as [H|H]; [injection H as <- <-; destruct Hx|]). destruct H.
  - destruct Hx as [<-|[]]. cbn [app] in E. destruct (ascii_cut _ _ _ _ E) as (s1 & s2 & _ & _ & E2); [reflexivity|].
    rewrite <- app_assoc in E2. cbn [app] in E2. symmetry in E2. destruct (ascii_cut _ _ _ _ E2) as (s3 & s4 & _ & -> & _); [reflexivity|]. eauto.
  - apply (IH (A ++ [91%N]) B s); auto. rewrite <- app_assoc. exact E.
Qed.
Theorem C47_names_are_text : forall s m, parse_method_descriptor (bytes s) = Some m ->
  forall t n, In t (returns m :: parameters m) -> In n (names t) -> exists s', n = bytes s'.
Proof.
  intros s m P. apply C47_method in P. remember (bytes s) as d eqn:E. destruct P as [ps r d e F R]. cbn [returns parameters].
  intros t n [<-|Ht] Hn.
  - destruct R as [|r e R]; [destruct Hn|]. apply (field_text _ _ _ R (OPEN :: d ++ [CLOSE]) [] s); auto.
    rewrite <- E. rewrite app_nil_r. cbn. now rewrite <- app_assoc.
  - clear R. assert (exists A B, bytes s = A ++ d ++ B) as (A & B & EB) by (exists [OPEN], (CLOSE :: e); now rewrite <- E).
    clear E. revert A B EB. induction F as [|t' ts d ds H F IH]; [destruct Ht|]. intros A B EB. rewrite <- app_assoc in EB.
    destruct Ht as [<-|Ht].
    + eapply field_text; eauto.
    + eapply (IH Ht (A ++ d) B). now rewrite <- app_assoc.
Qed.
Print Assumptions C47_names_are_text.

(** Refuted: descriptors that are none are accepted: [L\[;] names a class with a bracket. *)
Theorem C47_exact_refuted : exists d t, parse_field_descriptor d = Some t /\ forall t', ~ field class_name t' d.
Proof.
  exists [76; 91; 59]%N, (Object [91%N]). split; [reflexivity|]. intros t' H. remember [76; 91; 59]%N as d eqn:E. destruct H as [t c HP|n HN|t d F]; [discriminate| |discriminate].
  - injection E as E. assert (n = [91%N]) as ->. { destruct n as [|a [|b [|c n]]]; cbn in *; try discriminate; congruence. }
    assert (forall l, class_name l -> ~ In 91%N l) as NB.
    { intros l C. induction C as [s U|s r U C IH]; [intros Hi; apply (proj2 U _ Hi); cbn; auto|]. intros Hi. apply in_app_or in Hi.
      destruct Hi as [Hi|[Hi|Hi]]; [apply (proj2 U _ Hi); cbn; auto|discriminate|auto]. }
    apply (NB _ HN). now left.
Qed.
Print Assumptions C47_exact_refuted.

(** ** Witness: [(Ljava/A;I\[J)V]. *)
Definition sample : list N := [40; 76; 106; 47; 65; 59; 73; 91; 74; 41; 86]%N.
Example C47_sample : parse_method_descriptor sample = Some (mkMethod [Object [106; 47; 65]%N; Int; Array Long] Void) /\
  describes class_name (mkMethod [Object [106; 47; 65]%N; Int; Array Long] Void) sample.
Proof.
  split; [reflexivity|].
  change sample with (OPEN :: ((76%N :: [106; 47; 65]%N ++ [SEMI]) ++ [73%N] ++ (91%N :: [74%N]) ++ []) ++ CLOSE :: [86%N]).
  assert (forall x, In x [106; 65]%N -> unqualified [x]) as U.
  { intros x Hx. split; [discriminate|]. intros c [<-|[]]. destruct Hx as [<-|[<-|[]]]; cbn [In]; intros Hi;
      repeat (destruct Hi as [Hi|Hi]; [discriminate|]); exact Hi. }
  constructor; [|constructor].
  apply fields_more; [constructor; apply (nested [106%N] [65%N]); [apply U|constructor; apply U]; cbn; auto|].
  apply fields_more; [constructor; unfold primitive; cbn; auto 10|].
  apply fields_more; [do 2 constructor; unfold primitive; cbn; auto 10|]. constructor.
Qed.
