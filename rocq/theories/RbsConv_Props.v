(** C116: the types of RBS files. *)
From Coq Require Import List Arith Bool Lia Permutation.
From Verif Require Import Types_Model Types_Spec Types_Order Types_Union Types_Shape Types_Total RbsConv_Model RbsConv_Spec.
Import ListNotations.

Lemma den_one named x v : ors (map (den named) [x]) v <-> den named x v.
Proof.
  unfold ors. cbn. split.
  - intros (P & [<-|[]] & H). exact H.
  - intros H. exists (den named x). auto.
Qed.

Lemma optional_complete named x v : den named x v \/ den named nil_class v -> den named (optional x) v.
Proof.
  intros H.
  assert (A : forall y, den named y v \/ den named nil_class v ->
    den named (if eqb y nil_class then y
               else if ltb y nil_class then TUnion [y; nil_class] else TUnion [nil_class; y]) v).
  { intros y K. destruct (eqb y nil_class) eqn:E.
    - apply eqb_eq in E. subst y. tauto.
    - destruct (ltb y nil_class); apply den_union; destruct K as [K|K];
        [exists y | exists nil_class | exists y | exists nil_class]; cbn [In]; auto. }
  destruct x; try (apply A, H); [|exact Logic.I]. apply union_complete. destruct H as [H|H].
  - apply den_union in H. destruct H as (y & I1 & D). exists y. split; [apply in_or_app; now left | exact D].
  - exists nil_class. split; [apply in_or_app; right; now left | exact H].
Qed.

Lemma optional_sound named x v : optional x <> TUnknown -> den named (optional x) v ->
  den named x v \/ den named nil_class v.
Proof.
  intros N H.
  assert (A : forall y, den named (if eqb y nil_class then y
               else if ltb y nil_class then TUnion [y; nil_class] else TUnion [nil_class; y]) v ->
    den named y v \/ den named nil_class v).
  { intros y K. destruct (eqb y nil_class); [now left|].
    destruct (ltb y nil_class); apply den_union in K; destruct K as (z & [<-|[<-|[]]] & K); auto. }
  destruct x; try (apply A, H); [|now elim N].
  cbn [optional] in *. apply union_sound in H; [|exact N]. destruct H as (y & I1 & D).
  apply in_app_or in I1. destruct I1 as [I1|[<-|[]]]; [|now right]. left. apply den_union. now exists y.
Qed.

Section Sound.
Variable constant : nat -> bool.
Variable named : meaning.
Variable int : nat -> val.
Variable interface : nat -> val -> Prop.
Variables self instance class_of : val -> Prop.
(** The name of an interface, which begins with an underscore, is not that of a constant;
    integers are Integers. *)
Hypothesis no_constant : forall n v, constant n = true -> ~ interface n v.
Hypothesis integers : forall n, of_class named integer_text (int n).

Notation R := (rden named int interface self instance class_of).
Notation D := (den named).

Lemma class_sound n v : of_class named n v -> D (class_type constant n) v.
Proof.
  intros H. unfold class_type. destruct (existsb (Nat.eqb n) core_names); [exact H|].
  destruct (constant n); [exact H | exact Logic.I].
Qed.

Lemma record_sound (fs : list (nat * rbs * bool)) (c : rbs -> ty) env v :
  (forall k a o, In (k, a, o) fs -> forall v, R env a v -> D (c a) v) ->
  R env (RRecord fs) v -> D (record_type (map (fun f => match f with (k, a, o) => (k, c a, o) end) fs)) v.
Proof.
  intros H (es & -> & A & B & C). unfold record_type.
  set (gs := map _ (map _ fs)).
  destruct (try_new gs None true false) as [s|e] eqn:T; [|exact Logic.I].
  apply try_new_inl in T. destruct T as (_ & -> & _).
  assert (M : forall k x r, In (k, x, r) (fsort gs) <->
    exists j a o, In (j, a, o) fs /\ k = LSym j /\ x = c a /\ r = negb o).
  { intros k x r. assert (P := fsort_perm gs). split.
    - intros I1. apply (Permutation_in _ (Permutation_sym P)) in I1. unfold gs in I1.
      apply in_map_iff in I1. destruct I1 as ([[j y] o] & E & I1). cbn in E. injection E as <- <- <-.
      apply in_map_iff in I1. destruct I1 as ([[j' a] o'] & E & I1). injection E as <- <- <-.
      now exists j', a, o'.
    - intros (j & a & o & I1 & -> & -> & ->). apply (Permutation_in _ P). unfold gs.
      apply in_map_iff. exists (j, c a, o). split; [reflexivity|]. apply in_map_iff.
      now exists (j, a, o). }
  cbn [den]. exists es. split; [reflexivity|]. split; [|split].
  - intros k K. apply in_map_iff in K. destruct K as ([k' r] & E & K). cbn in E. subst k'.
    apply filter_In in K. destruct K as [K F]. cbn in F. subst r. apply in_map_iff in K.
    destruct K as ([[k' x] r] & E & K). injection E as -> ->. apply M in K.
    destruct K as (j & a & o & I1 & -> & -> & E). destruct o; [discriminate|].
    cbn [litval]. apply A. apply in_map_iff. now exists (j, a, false).
  - intros x y I1 k P K E. apply in_map_iff in K. destruct K as ([[k' z] r] & F & K).
    injection F as -> <-. apply M in K. destruct K as (j & a & o & I2 & -> & -> & ->).
    apply (H j a o I2). cbn [litval] in E. apply (C x y I1 j (R env a)); [|exact E].
    apply in_map_iff. now exists (j, a, o).
  - intros x y I1 N. exfalso. apply N. destruct (B x y I1) as (k & K & ->).
    apply in_map_iff in K. destruct K as ([[j a] o] & <- & K). apply in_map_iff.
    exists (LSym j, c a, negb o). split; [reflexivity|]. apply M. now exists j, a, o.
Qed.

(** Without substitutions: sound for what mentions no parameter. *)
Lemma conv_sound env r : sound_part env r -> unmentioned env r ->
  forall v, R env r v -> D (conv constant r) v.
Proof.
  induction 1 as [n | n args E H IH | l H IH | l | a H IH | l H IH U | fs H IH | l a | n | n | l | r H];
    intros M v V.
  - inversion M as [n' F| | | | | | | | | | |r' F]; subst; [|cbn in F; intuition discriminate].
    cbn in *. apply class_sound. destruct (absolute n); [exact V|]. now rewrite F in V.
  - inversion M as [|n' args' F G| | | | | | | | | |r' F]; subst; [|cbn in F; intuition discriminate].
    assert (Q : (if absolute n then None else env (plain n)) = None)
      by (destruct (absolute n); auto).
    cbn [rden] in V. rewrite Q in V. cbn [conv].
    assert (W : if plain n =? array_text then
        exists vs, v = VArr vs /\ match args with [a] => forall x, In x vs -> R env a x | _ => True end
      else if plain n =? hash_text then
        exists es, v = VHash es /\ match args with
          | [k; w] => forall x y, In (x, y) es -> R env k x /\ R env w y | _ => True end
      else of_class named (plain n) v) by (destruct args; exact V).
    clear V. destruct (plain n =? array_text).
    { destruct W as (vs & -> & W). exists vs. split; [reflexivity|]. intros x I1. apply den_one.
      destruct args as [|a [|b args]]; try exact Logic.I.
      apply IH; [now left | apply G; now left | now apply W]. }
    destruct (plain n =? hash_text).
    { destruct W as (es & -> & W).
      destruct args as [|a [|b [|c args]]];
        try (exists es; split; [reflexivity|]; intros x y _; split; apply den_one; exact Logic.I).
      exists es. split; [reflexivity|]. intros x y I1. destruct (W x y I1) as [W1 W2].
      split; apply den_one; apply IH; cbn [In]; auto; apply G; cbn [In]; auto. }
    now apply class_sound.
  - inversion M as [| |l' F| | | | | | | | |r' F]; subst; [|cbn in F; intuition discriminate].
    cbn [conv]. apply union_complete. destruct V as (P & I1 & V). apply in_map_iff in I1.
    destruct I1 as (a & <- & I1). exists (conv constant a). split; [now apply in_map|]. now apply IH; auto.
  - exact Logic.I.
  - inversion M as [| | | |a' F| | | | | | |r' F]; subst; [|cbn in F; intuition discriminate].
    cbn [conv]. apply optional_complete. destruct V as [V|V]; [left; now apply IH | now right].
  - cbn [conv]. destruct V as (vs & -> & V). exists vs. split; [reflexivity|]. intros x I1.
    assert (K : described_by_some named (map (conv constant) l) x).
    { clear M. revert V I1 IH U. generalize vs as ws. clear. induction l as [|a l IHl]; intros ws V I1 IH U.
      - inversion V; subst. destruct I1.
      - cbn in V. inversion V as [|P y Q ws' V1 V2]; subst. destruct I1 as [<-|I1].
        + exists (conv constant a). split; [now left|]. apply IH; [now left | apply U; now left | exact V1].
        + destruct (IHl ws' V2 I1) as (z & Z1 & Z2).
          * intros b B. apply IH. now right.
          * intros b B. apply U. now right.
          * exists z. split; [now right | exact Z2]. }
    apply canonical_members_complete in K. destruct K as (z & Z1 & Z2).
    exists (D z). split; [now apply in_map | exact Z2].
  - inversion M as [| | | | | |fs' F| | | | |r' F]; subst; [|cbn in F; intuition discriminate].
    cbn [conv]. apply record_sound with env; [|exact V]. intros k a o I1. apply (IH k a o I1), (F k a o I1).
  - cbn [conv]. cbn in V. destruct (constant proc_text); [exact V | exact Logic.I].
  - exact Logic.I.
  - cbn [conv]. cbn in V. destruct (constant n) eqn:C; [|exact Logic.I]. now apply no_constant in V.
  - destruct l; cbn in *; try exact V. rewrite V. apply integers.
  - cbn in H. repeat (destruct H as [<-|H]; [try exact Logic.I; try exact V|]).
    + cbn [conv]. apply den_union. destruct V as [V|V].
      * exists (TClass (const_name true_text)). split; [right; now left | exact V].
      * exists (TClass (const_name false_text)). split; [now left | exact V].
    + destruct H.
Qed.

Lemma nothing_mentioned r : sound_part nothing_bound r -> unmentioned nothing_bound r.
Proof.
  induction 1; constructor; auto. cbn in *. intuition auto.
Qed.

(** Outside any type parameters every value of the RBS type is one of the type inferred. *)
Theorem C116_sound_partial r v : sound_part nothing_bound r ->
  R nothing_bound r v -> D (conv constant r) v.
Proof. intros S1. apply conv_sound; [exact S1 | now apply nothing_mentioned]. Qed.

(** With types for the parameters: so is every value of the RBS type, when the types have
    the values the parameters stand for. *)
Theorem C116_substituted_partial env s r : fits named env s -> sound_part env r ->
  forall v, R env r v -> D (conv_with constant s r) v.
Proof.
  intros FT. induction 1 as [n | n args E H IH | l H IH | l | a H IH | l H IH U | fs H IH | l a | n | n | l | r H];
    intros v V.
  - cbn in *. specialize (FT (plain n)). destruct (absolute n); [now apply class_sound|].
    destruct (env (plain n)) as [P|], (get s (plain n)) as [x|]; try contradiction.
    + now apply FT.
    + now apply class_sound.
  - assert (W : (if plain n =? array_text then
        exists vs, v = VArr vs /\ match args with [a] => forall x, In x vs -> R env a x | _ => True end
      else if plain n =? hash_text then
        exists es, v = VHash es /\ match args with
          | [k; w] => forall x y, In (x, y) es -> R env k x /\ R env w y | _ => True end
      else of_class named (plain n) v) ->
      D (if plain n =? array_text then
            TArray [match args with [a] => conv_with constant s a | _ => TUnknown end]
          else if plain n =? hash_text then
            match args with
            | [k; w] => THash [conv_with constant s k] [conv_with constant s w]
            | _ => THash [TUnknown] [TUnknown]
            end
          else class_type constant (plain n)) v).
    { intros W. destruct (plain n =? array_text).
      { destruct W as (vs & -> & W). exists vs. split; [reflexivity|]. intros x I1. apply den_one.
        destruct args as [|a [|b args]]; try exact Logic.I.
        apply IH; [now left | now apply W]. }
      destruct (plain n =? hash_text).
      { destruct W as (es & -> & W).
        destruct args as [|a [|b [|c args]]];
          try (exists es; split; [reflexivity|]; intros x y _; split; apply den_one; exact Logic.I).
        exists es. split; [reflexivity|]. intros x y I1. destruct (W x y I1) as [W1 W2].
        split; apply den_one; apply IH; cbn [In]; auto. }
      now apply class_sound. }
    cbn [conv_with]. destruct args as [|a args].
    + specialize (FT (plain n)). cbn [rden] in V.
      destruct (absolute n) eqn:AB.
      * rewrite (E eq_refl) in FT. destruct (get s (plain n)) as [x|]; [contradiction|]. now apply W.
      * destruct (env (plain n)) as [P|], (get s (plain n)) as [x|]; try contradiction.
        -- now apply FT.
        -- now apply W.
    + apply W. exact V.
  - cbn [conv_with]. apply union_complete. destruct V as (P & I1 & V). apply in_map_iff in I1.
    destruct I1 as (a & <- & I1). exists (conv_with constant s a). split; [now apply in_map|]. now apply IH.
  - exact Logic.I.
  - cbn [conv_with]. apply optional_complete. destruct V as [V|V]; [left; now apply IH | now right].
  - cbn [conv_with]. apply conv_sound with env; [now constructor | now constructor | exact V].
  - cbn [conv_with]. apply record_sound with env; [|exact V]. intros k a o I1. apply (IH k a o I1).
  - cbn [conv_with]. apply conv_sound with env; [constructor | constructor | exact V].
  - cbn in *. specialize (FT n). destruct (env n) as [P|], (get s n) as [x|]; try contradiction.
    + now apply FT.
    + exact Logic.I.
  - cbn [conv_with]. apply conv_sound with env; [constructor | constructor | exact V].
  - cbn [conv_with]. apply conv_sound with env; [constructor | constructor | exact V].
  - assert (E : conv_with constant s r = conv constant r).
    { cbn in H. repeat (destruct H as [<-|H]; [reflexivity|]). destruct H. }
    rewrite E. apply conv_sound with env; [now constructor | | exact V].
    constructor. cbn in *. intuition auto.
Qed.

(** ** Exactness *)
Lemma known_core n : In n known_classes -> In n core_names.
Proof. cbn. tauto. Qed.
(** Proven, and an alternative of it is neither a shape nor a union. *)
Definition simple (x : ty) : Prop :=
  contains_unknown x = false /\ forall y, In y (members x) -> is_shape y = false /\ is_union y = false.

Lemma flatten_members l x : In x (flatten l) <-> exists y, In y l /\ In x (members y).
Proof.
  rewrite in_flatten. split; intros (y & I1 & K); exists y; (split; [exact I1|]);
    destruct y; cbn in *; intuition auto.
Qed.

Lemma members_some x : simple x -> members x <> [] \/ x = TUnion [].
Proof. intros _. destruct x as [| | | | | | | |[|y l]|]; cbn; auto; left; discriminate. Qed.

Lemma union_simple l : l <> [] -> (forall x, In x l -> simple x /\ members x <> []) ->
  simple (union l) /\ members (union l) <> [].
Proof.
  intros N H.
  assert (A : forall z, In z (flatten l) -> is_shape z = false /\ is_union z = false).
  { intros z Z. apply flatten_members in Z. destruct Z as (y & Y1 & Y2). now apply (H y Y1). }
  assert (F : flatten l <> []).
  { destruct l as [|x l]; [now elim N|]. destruct (H x) as [_ M]; [now left|].
    destruct (members x) as [|y m] eqn:E; [now elim M|]. intros Z.
    assert (K : In y (flatten (x :: l))).
    { apply flatten_members. exists x. split; [now left|]. rewrite E. now left. }
    rewrite Z in K. destruct K. }
  assert (U : contains_unknown (union l) = false).
  { apply union_proven; [| exact F | intros x X; now apply H].
    intros [|k ks] _ K; [cbn; lia|]. destruct (K k) as [S1 S2]; [now left|].
    destruct (A k S2) as [S3 _]. congruence. }
  destruct (union_cases l) as [ | | | x X C | w X C L B]; try discriminate U.
  - assert (I1 : In x (flatten l)) by (apply in_canon; rewrite C; now left).
    destruct (A x I1) as [A1 A2].
    assert (M : members x = [x]) by (destruct x; cbn in *; congruence). unfold simple. rewrite M.
    split; [|discriminate]. split; [exact U|]. intros y [<-|[]]. auto.
  - split.
    + split; [exact U|]. cbn [members]. intros y Y. apply A. apply in_canon. now rewrite C.
    + cbn [members]. destruct w; [cbn in L; lia | discriminate].
Qed.

Lemma optional_simple x : simple x -> members x <> [] -> simple (optional x) /\ members (optional x) <> [].
Proof.
  intros [U M] N.
  assert (Z : simple nil_class) by (split; [reflexivity | intros y [<-|[]]; auto]).
  assert (K : is_union x = false -> is_shape x = false -> x <> TUnknown ->
    simple (if eqb x nil_class then x else if ltb x nil_class then TUnion [x; nil_class] else TUnion [nil_class; x])
    /\ members (if eqb x nil_class then x else if ltb x nil_class then TUnion [x; nil_class] else TUnion [nil_class; x]) <> []).
  { intros A B C. destruct (eqb x nil_class); [repeat split; auto; now apply M|].
    assert (T : contains_unknown (TUnion [x; nil_class]) = false) by (cbn; now rewrite U).
    assert (T' : contains_unknown (TUnion [nil_class; x]) = false) by (cbn; now rewrite U).
    destruct (ltb x nil_class).
    - split; [split|discriminate]; [exact T|]. intros y [<-|[<-|[]]]; auto.
    - split; [split|discriminate]; [exact T'|]. intros y [<-|[<-|[]]]; auto. }
  destruct x as [f|f|f|f|l|l|k w|fs rest ex fr d|l|]; try (apply K; [reflexivity | reflexivity | discriminate]).
  - destruct (M (TShape fs rest ex fr d)) as [X _]; [now left | discriminate X].
  - cbn [optional]. apply union_simple.
    + destruct l; discriminate.
    + cbn [members] in M. intros y Y. apply in_app_or in Y. destruct Y as [Y|[<-|[]]]; [|split; [exact Z | discriminate]].
      destruct (M y Y) as [Y1 Y2].
      assert (E : members y = [y]) by (destruct y; cbn in *; congruence).
      split; [|rewrite E; discriminate]. split.
      * cbn in U. apply (proj1 (existsb_false contains_unknown l) U y Y).
      * rewrite E. intros z [<-|[]]. auto.
  - discriminate U.
Qed.

Lemma kept_simple r : kept constant r -> simple (conv constant r) /\ members (conv constant r) <> [].
Proof.
  assert (A : forall x, is_union x = false -> is_shape x = false -> contains_unknown x = false ->
    simple x /\ members x <> []).
  { intros x X Y Z. assert (E : members x = [x]) by (destruct x; cbn in *; congruence).
    unfold simple. rewrite E. split; [|discriminate]. split; [exact Z|]. intros y [<-|[]]. auto. }
  induction 1 as [n H | n a E H IH | n a b E H1 IH1 H2 IH2 | l N H IH | a H IH | l H | | ].
  - cbn [conv]. unfold class_type. destruct (existsb (Nat.eqb (plain n)) core_names) eqn:C.
    + now apply A.
    + destruct H as [H|H].
      * exfalso. assert (X : existsb (Nat.eqb (plain n)) core_names = true)
          by (apply existsb_exists; exists (plain n); split; [now apply known_core | apply Nat.eqb_refl]).
        rewrite X in C. discriminate.
      * rewrite H. now apply A.
  - cbn [conv]. rewrite E. apply A; [reflexivity | reflexivity |]. cbn. destruct IH as [[U _] _]. now rewrite U.
  - cbn [conv]. rewrite E. apply A; [reflexivity | reflexivity |]. cbn.
    destruct IH1 as [[U1 _] _], IH2 as [[U2 _] _]. now rewrite U1, U2.
  - cbn [conv]. apply union_simple; [destruct l; [now elim N | discriminate]|].
    intros x X. apply in_map_iff in X. destruct X as (a & <- & X). now apply IH.
  - cbn [conv]. now apply optional_simple.
  - destruct l; try (now apply A).
  - now apply A.
  - cbn [conv]. split; [|discriminate]. split; [reflexivity|]. intros y [<-|[<-|[]]]; auto.
Qed.

(** Nothing is lost of types made of known classes, arrays, hashes, unions, optionals,
    booleans and literals: the type inferred has no unknown part and exactly the values of
    the RBS type. *)
Theorem C116_exact r : kept constant r ->
  contains_unknown (conv constant r) = false /\
  forall v, D (conv constant r) v <-> R nothing_bound r v.
Proof.
  intros K. split; [apply kept_simple, K|].
  assert (G : forall x, contains_unknown x = false -> x <> TUnknown) by (intros x X ->; discriminate X).
  induction K as [n H | n a E H IH | n a b E H1 IH1 H2 IH2 | l N H IH | a H IH | l H | | ]; intros v.
  - cbn. unfold class_type.
    assert (X : (if absolute n then None else nothing_bound (plain n)) = None) by now destruct (absolute n).
    rewrite X. destruct (existsb (Nat.eqb (plain n)) core_names) eqn:C; [reflexivity|].
    destruct H as [H|H]; [|rewrite H; reflexivity].
    exfalso. assert (Y : existsb (Nat.eqb (plain n)) core_names = true)
      by (apply existsb_exists; exists (plain n); split; [now apply known_core | apply Nat.eqb_refl]).
    rewrite Y in C. discriminate.
  - cbn [conv rden]. rewrite E. cbn [Nat.eqb array_text]. split.
    + intros (vs & -> & W). exists vs. split; [reflexivity|]. intros x X. apply IH, den_one. now apply W.
    + intros (vs & -> & W). exists vs. split; [reflexivity|]. intros x X. apply den_one, IH. now apply W.
  - cbn [conv rden]. rewrite E. cbn [Nat.eqb array_text hash_text]. split.
    + intros (es & -> & W). exists es. split; [reflexivity|]. intros x y X. destruct (W x y X) as [W1 W2].
      split; [apply IH1, den_one, W1 | apply IH2, den_one, W2].
    + intros (es & -> & W). exists es. split; [reflexivity|]. intros x y X. destruct (W x y X) as [W1 W2].
      split; apply den_one; [apply IH1, W1 | apply IH2, W2].
  - assert (S1 := kept_simple _ (K_union _ _ N H)). cbn [conv] in *. split.
    + intros V. apply union_sound in V; [|apply G, S1]. destruct V as (x & X & V).
      apply in_map_iff in X. destruct X as (a & <- & X). exists (R nothing_bound a).
      split; [now apply in_map | now apply IH].
    + intros (P & I1 & V). apply union_complete. apply in_map_iff in I1. destruct I1 as (a & <- & I1).
      exists (conv constant a). split; [now apply in_map | now apply IH].
  - assert (S1 := kept_simple _ (K_optional _ _ H)). cbn [conv] in *. split.
    + intros V. apply optional_sound in V; [|apply G, S1]. destruct V as [V|V]; [left; now apply IH | now right].
    + intros [V|V]; apply optional_complete; [left; now apply IH | now right].
  - destruct l; cbn; try reflexivity. now elim (H n).
  - reflexivity.
  - cbn [conv rden]. unfold boolean. rewrite den_union. split.
    + intros (x & [<-|[<-|[]]] & V); [now right | now left].
    + intros [V|V]; [exists (TClass (const_name true_text)) | exists (TClass (const_name false_text))];
        cbn [In]; auto.
Qed.

(** Methods: the value is one of the type given if the method has one overload.
    [env] says what the parameters of the class stand for in the receiver. *)
Theorem C116_method_partial env params args r x v :
  method_return constant params args [r] = Some x ->
  fits named env (build_map params args) -> sound_part env r -> R env r v -> D x v.
Proof.
  unfold method_return. cbn [return_type hd_error]. intros E F S1 V.
  destruct (build_map params args) as [|e s] eqn:B.
  - injection E as <-. apply conv_sound with env; [exact S1 | | exact V].
    assert (Z : forall n, env n = None).
    { intros n. specialize (F n). cbn in F. destruct (env n); [contradiction | reflexivity]. }
    clear - S1 Z. induction S1; constructor; auto. cbn in *. intuition auto.
  - injection E as <-. now apply C116_substituted_partial with env.
Qed.
End Sound.
Print Assumptions C116_sound_partial.
Print Assumptions C116_substituted_partial.
Print Assumptions C116_exact.
Print Assumptions C116_method_partial.

(** ** What is not true *)
(** A method declared to return void may return anything; it is taken to return nil. *)
Theorem C116_void_refuted constant named int interface self instance class_of v :
  ~ of_class named nil_text v ->
  rden named int interface self instance class_of nothing_bound RVoid v /\
  ~ den named (conv constant RVoid) v.
Proof. intros H. split; [exact Logic.I | exact H]. Qed.
Print Assumptions C116_void_refuted.

(** The type parameters [K] and [V] of a class, the first two, with types for both. *)
Definition K_text := 31. Definition V_text := 32. Definition U_text := 33.
Definition bare (n : nat) : rbs := RClass {| absolute := false; plain := n |}.
Definition array_of (a : rbs) : rbs := RGeneric {| absolute := false; plain := array_text |} [a].
Definition all_constants (n : nat) : bool := true.

(** In a tuple the parameters are not replaced: of [-> [K, V]] with K Integer and V String the
    result is said to hold instances of classes called K and V. *)
Theorem C116_tuple_refuted named int interface self instance class_of i s (env : scope) :
  env K_text = Some (of_class named integer_text) -> env V_text = Some (of_class named string_text) ->
  of_class named integer_text i -> of_class named string_text s ->
  ~ of_class named K_text i -> ~ of_class named V_text i ->
  exists x, method_return all_constants [K_text; V_text] [integer; TClass (const_name string_text)]
      [RTuple [bare K_text; bare V_text]] = Some x /\
    rden named int interface self instance class_of env (RTuple [bare K_text; bare V_text]) (VArr [i; s]) /\
    ~ den named x (VArr [i; s]).
Proof.
  intros EK EV HI HS NK NV. eexists. split; [reflexivity|]. split.
  - exists [i; s]. split; [reflexivity|]. cbn. rewrite EK, EV. auto.
  - intros (vs & E & D). injection E as <-. specialize (D i (or_introl eq_refl)).
    destruct D as (P & I1 & D). cbn in I1. destruct I1 as [<-|[<-|[]]]; [now apply NK | now apply NV].
Qed.
Print Assumptions C116_tuple_refuted.

(** A type parameter of the method itself, as U in [map: [U] { (Elem) -> U } -> Array[U]],
    is taken for a class of that name. *)
Theorem C116_own_parameter_refuted named int interface self instance class_of v (env : scope) :
  (forall u, env U_text = Some u -> u v) -> env U_text <> None -> ~ of_class named U_text v ->
  exists x, method_return all_constants [K_text] [integer] [array_of (bare U_text)] = Some x /\
    contains_unknown x = false /\
    rden named int interface self instance class_of env (array_of (bare U_text)) (VArr [v]) /\
    ~ den named x (VArr [v]).
Proof.
  intros H N NU. eexists. split; [reflexivity|]. split; [reflexivity|]. split.
  - exists [v]. split; [reflexivity|]. intros x [<-|[]]. cbn.
    destruct (env U_text) as [u|] eqn:E; [now apply H | now elim N].
  - intros (vs & E & D). injection E as <-. specialize (D v (or_introl eq_refl)).
    apply den_one in D. now apply NU.
Qed.
Print Assumptions C116_own_parameter_refuted.

(** So is a parameter of the class for which no type is given. *)
Theorem C116_unbound_refuted named int interface self instance class_of v (env : scope) :
  (forall u, env V_text = Some u -> u v) -> env V_text <> None -> ~ of_class named V_text v ->
  exists x, method_return all_constants [K_text; V_text] [integer] [bare V_text] = Some x /\
    contains_unknown x = false /\
    rden named int interface self instance class_of env (bare V_text) v /\
    ~ den named x v.
Proof.
  intros H N NU. eexists. split; [reflexivity|]. split; [reflexivity|]. split.
  - cbn. destruct (env V_text) as [u|] eqn:E; [now apply H | now elim N].
  - exact NU.
Qed.
Print Assumptions C116_unbound_refuted.

(** Of a method with several overloads the first alone counts. *)
Theorem C116_overload_refuted constant named int interface self instance class_of v :
  of_class named string_text v -> ~ of_class named integer_text v ->
  exists x, method_return constant [] [] [bare integer_text; bare string_text] = Some x /\
    contains_unknown x = false /\
    rden named int interface self instance class_of nothing_bound (bare string_text) v /\
    ~ den named x v.
Proof.
  intros H N. eexists. split; [reflexivity|]. split; [reflexivity|]. split; [exact H | exact N].
Qed.
Print Assumptions C116_overload_refuted.

(** ** Cases that meet the hypotheses *)
(** The objects 0, 1 and 2 are nil, true and false, the others integers. *)
Definition little : meaning := fun k f v =>
  k = InstanceOfClass /\
  f = const_name match v with
                 | VObj 0 => nil_text | VObj 1 => true_text | VObj 2 => false_text | VObj _ => integer_text
                 | VSym _ => symbol_text | VStr _ => string_text
                 | VArr _ => array_text | VHash _ => hash_text
                 end.
Definition little_int (n : nat) : val := VObj (3 + n).
Definition only_core (n : nat) : bool := n <? 20.
Definition none (v : val) : Prop := False.
Notation LR := (rden little little_int (fun _ => none) none none none).

(** [Hash[Symbol, Array[Integer?] | bool]]: its type in full, and a value of it. *)
Definition settings : rbs :=
  RGeneric {| absolute := true; plain := hash_text |}
    [bare symbol_text; RUnion [array_of (ROptional (bare integer_text)); RBool]].
Definition settings_value : val :=
  VHash [(VSym 5, VArr [little_int 4; VObj 0]); (VSym 6, VObj 2)].
Lemma bare_core n : In n known_classes -> kept only_core (bare n).
Proof. intros H. apply K_class. now left. Qed.
Example settings_kept : kept only_core settings.
Proof.
  apply K_hash; [reflexivity | apply bare_core; cbn; tauto |]. apply K_union; [discriminate|].
  intros a [<-|[<-|[]]]; [|constructor]. apply K_array; [reflexivity|]. apply K_optional, bare_core. cbn; tauto.
Qed.
Example settings_exact :
  conv only_core settings =
    THash [symbol] [TUnion [TClass (const_name false_text); TClass (const_name true_text);
                            TArray [TUnion [nil_class; integer]]]]
  /\ LR nothing_bound settings settings_value /\ den little (conv only_core settings) settings_value.
Proof.
  assert (V : LR nothing_bound settings settings_value).
  { exists [(VSym 5, VArr [little_int 4; VObj 0]); (VSym 6, VObj 2)]. split; [reflexivity|].
    intros x y [E|[E|[]]]; injection E as <- <-; (split; [split; reflexivity|]).
    - exists (LR nothing_bound (array_of (ROptional (bare integer_text)))). split; [now left|].
      exists [little_int 4; VObj 0]. split; [reflexivity|].
      intros x [<-|[<-|[]]]; [left | right]; split; reflexivity.
    - exists (LR nothing_bound RBool). split; [right; now left|]. right. split; reflexivity. }
  split; [vm_compute; reflexivity | split; [exact V|]].
  apply (C116_exact only_core little little_int (fun _ => none) none none none settings settings_kept), V.
Qed.

(** [first: -> (Elem | { head: Elem, ?rest: Array[Elem] })] in a class of one parameter, Elem
    being String. *)
Definition first_result : rbs :=
  RUnion [bare K_text; RRecord [(40, bare K_text, false); (41, array_of (bare K_text), true)]].
Definition strings_env : scope := fun n => if n =? K_text then Some (of_class little string_text) else None.
Example first_type : exists x,
  method_return only_core [K_text] [string] [first_result] = Some x /\
  fits little strings_env (build_map [K_text] [string]) /\
  sound_part strings_env first_result /\
  LR strings_env first_result (VHash [(VSym 40, VStr 9)]) /\
  contains_unknown x = false /\
  den little x (VStr 1) /\ den little x (VHash [(VSym 40, VStr 9)]) /\ ~ den little x (VObj 0).
Proof.
  assert (F : fits little strings_env (build_map [K_text] [string])).
  { intros n. unfold strings_env, build_map, get. cbn [combine rev app find fst]. rewrite (Nat.eqb_sym K_text n).
    destruct (n =? K_text); cbn; auto. }
  assert (S1 : sound_part strings_env first_result).
  { constructor. intros a [<-|[<-|[]]]; constructor. intros k a o [E|[E|[]]]; injection E as <- <- <-; constructor.
    - discriminate.
    - intros a [<-|[]]. constructor. }
  assert (V1 : LR strings_env first_result (VStr 1)).
  { exists (LR strings_env (bare K_text)). split; [now left|]. split; reflexivity. }
  assert (V2 : LR strings_env first_result (VHash [(VSym 40, VStr 9)])).
  { eexists. split; [right; left; reflexivity|]. exists [(VSym 40, VStr 9)]. split; [reflexivity|].
    split; [|split].
    - intros k [E|[E|[]]]; [|discriminate]. injection E as <-. exists (VStr 9). now left.
    - intros x y [E|[]]. injection E as <- <-. exists 40. split; [now left | reflexivity].
    - intros x y [E|[]] k P [E'|[E'|[]]] E''; injection E as <- <-; injection E' as <- <-; [|discriminate].
      split; reflexivity. }
  assert (A : forall v, LR strings_env first_result v ->
    forall x, method_return only_core [K_text] [string] [first_result] = Some x -> den little x v).
  { intros v V x E. apply (C116_method_partial only_core little little_int (fun _ => none) none none none)
      with (env := strings_env) (params := [K_text]) (args := [string]) (r := first_result); auto.
    intros n. split; reflexivity. }
  eexists. split; [reflexivity|]. split; [exact F|]. split; [exact S1|]. split; [exact V2|].
  split; [vm_compute; reflexivity|]. split; [now apply A|]. split; [now apply A|].
  intros D. vm_compute in D. destruct D as (P & I1 & D).
  repeat (destruct I1 as [<-|I1]; [cbn in D; destruct D as [D1 D2]; try discriminate; firstorder discriminate|]). destruct I1.
Qed.

(** Of the refutations: each has its case. *)
Example void_case : ~ of_class little nil_text (VStr 1).
Proof. intros [_ E]. discriminate. Qed.
Example tuple_case : exists env i s,
  env K_text = Some (of_class little integer_text) /\ env V_text = Some (of_class little string_text) /\
  of_class little integer_text i /\ of_class little string_text s /\
  ~ of_class little K_text i /\ ~ of_class little V_text i.
Proof.
  exists (fun n => if n =? K_text then Some (of_class little integer_text) else Some (of_class little string_text)),
    (little_int 4), (VStr 1).
  repeat split; intros [_ E]; discriminate.
Qed.
Example own_parameter_case : exists (env : scope) v,
  (forall u, env U_text = Some u -> u v) /\ env U_text <> None /\ ~ of_class little U_text v.
Proof.
  exists (fun _ => Some (of_class little string_text)), (VStr 1).
  split; [intros u E; injection E as <-; split; reflexivity|]. split; [discriminate|]. intros [_ E]. discriminate.
Qed.
Example overload_case : of_class little string_text (VStr 1) /\ ~ of_class little integer_text (VStr 1).
Proof. split; [split; reflexivity | intros [_ E]; discriminate]. Qed.
