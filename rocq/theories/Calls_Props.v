(** C70: a warning about the arguments of a call means that Ruby would refuse them. *)
From Coq Require Import List Arith NArith Bool Lia Permutation Sorted.
From Verif Require Import Sort_Lib Calls_Model Calls_Spec Calls_Proofs.
Import ListNotations.

(** Checking a call never panics. *)
Theorem C70_no_panic : forall p skip args, check_call p skip args <> None.
Proof.
  intros p skip args. unfold check_call, diagnostics, wrong_arity. rewrite collect_spec. set (r := skipn skip args).
  set (a := from_params (extract p)). destruct (declares_keywords a && _) eqn:E; [|discriminate].
  destruct (positional_count _ =? 0) eqn:Z; [|destruct (arity_mismatch _ _) as [|]; [destruct (arity_mismatch _ _)|]; discriminate].
  exfalso. apply andb_true_iff in E. destruct E as [_ E]. unfold last_or in E. cbn in E. destruct (last_positional r) as [h|] eqn:L; [|discriminate].
  apply last_counts in L. apply Nat.eqb_eq in Z. cbn in Z. destruct (negb (declares_keywords a) && existsb has_pair r); lia.
Qed.

(** The three kinds of warning, one by one. *)
Lemma arity_of s a : arity_mismatch s a =
  if (negb (positional_splat s) && (positional_count s <? required a)) || (negb (has_rest a) && (required a + optional a <? positional_count s))
  then Some (required a, if has_rest a then None else Some (required a + optional a), positional_count s) else None.
Proof. unfold arity_mismatch. destruct (positional_splat s), (has_rest a); cbn; rewrite ?orb_false_r; auto. Qed.

Lemma wrong_arity_direct s a m : wrong_arity s a = Some (Some m) -> arity_mismatch (effective s a) a = Some m.
Proof.
  unfold wrong_arity. destruct (declares_keywords a && _); [|congruence]. destruct (_ =? 0); [discriminate|].
  destruct (arity_mismatch (effective s a) a); [destruct (arity_mismatch _ _)|]; congruence.
Qed.

Lemma arity_sound p skip args m n ks : plain p -> wrong_arity (collect skip args) (from_params (extract p)) = Some (Some m) ->
  passes (skipn skip args) n ks -> ~ accepts p n ks.
Proof.
  intros P W E A. apply wrong_arity_direct in W. rewrite arity_of in W. destruct (_ || _) eqn:B in W; [clear W|discriminate].
  pose proof (declares_iff p) as D. unfold effective in B. rewrite collect_spec in B. cbn in B.
  set (dk := declares_keywords (from_params (extract p))) in *.
  rewrite from_params_spec in B. cbn in B. unfold plain in P. apply Forall_app in P. destruct P as [P1 P2].
  apply plain_count_eq in P1, P2. rewrite P1, P2 in B. set (r := skipn skip args) in *.
  assert (takes_count p (if negb dk && match ks with [] => false | _ => true end then S n else n)) as C.
  { destruct A as [A B' _ _|A K B'|A K K' B'].
    - apply D in A. rewrite A. exact B'.
    - rewrite K, andb_false_r. exact B'.
    - destruct dk; [exfalso; apply A, D; auto|]. destruct ks; [congruence|]. exact B'. }
  pose proof (passes_least _ _ _ E) as G. pose proof (passes_exactly _ _ _ E) as X.
  assert (existsb has_pair r = true -> ks <> []) as Q.
  { intros H. apply pair_in in H. destruct H as (es & k & H & J). pose proof (passes_key _ _ _ _ _ E H J) as I. intros ->. easy. }
  destruct C as [C1 C2]. unfold most, least in *. apply orb_true_iff in B. destruct B as [B|B]; apply andb_true_iff in B; destruct B as [B1 B2].
  - apply negb_true_iff, orb_false_iff in B1. destruct B1 as [O K]. specialize (X O). apply Nat.ltb_lt in B2.
    destruct dk; cbn in *; [lia|]. destruct (existsb has_pair r) eqn:H; [destruct ks; [now apply Q|lia]|].
    destruct ks as [|x ks]; [lia|]. exfalso. destruct (passes_only _ _ _ x E O K) as (es & k & I & J & _); [left; auto|].
    assert (existsb has_pair r = true) by (apply pair_in; eauto). congruence.
  - apply negb_true_iff in B1. assert (~ takes_any_number p) as NA by (rewrite <- any_number_iff; congruence).
    apply Nat.ltb_lt in B2. destruct C2 as [C2|C2]; [easy|].
    destruct dk; cbn in *; [lia|]. destruct (existsb has_pair r) eqn:H; [destruct ks; [now apply Q|lia]|]. destruct ks; lia.
Qed.

Lemma unknown_sound p skip args k n ks : Forall spelled_out args -> In k (unknown_keywords (collect skip args) (from_params (extract p))) ->
  passes (skipn skip args) n ks -> ~ In k (declared_names p) /\ In (Sym k) ks /\ ~ accepts p n ks.
Proof.
  intros SP U E. unfold unknown_keywords in U. destruct (_ && _ && _) eqn:B in U; [|easy].
  rewrite !andb_true_iff in B. destruct B as [[B1 B2] _]. apply declares_iff in B1. apply negb_true_iff in B2.
  rewrite collect_spec in U. rewrite from_params_spec in U, B2. cbn in U, B2.
  assert (~ takes_any_keyword p) as NK by (rewrite <- any_keyword_iff; congruence).
  apply filter_In in U. destruct U as [U N]. apply negb_true_iff in N.
  assert (~ In k (declared_names p)) as ND. { rewrite declared_iff. intros H. apply listed_iff in H. congruence. }
  apply written_in in U. destruct U as (es & v & I & J). assert (v = k) as ->.
  { rewrite Forall_forall in SP. assert (In (Keywords es) args) as I' by (rewrite <- (firstn_skipn skip args); apply in_or_app; auto).
    specialize (SP _ I' _ J). cbn in SP. congruence. }
  pose proof (passes_key _ _ _ _ _ E I J) as KS. cbn in KS. split; [auto|]. split; [auto|].
  intros [A _ _ F|A|A]; try tauto. destruct F as [F|F]; [easy|]. destruct (F _ KS) as (k' & Q & R). injection R as <-. easy.
Qed.

Lemma missing_sound p skip args n ks : Forall spelled_out args -> missing_keywords (collect skip args) (from_params (extract p)) <> [] ->
  passes (skipn skip args) n ks ->
  (forall k, In k (missing_keywords (collect skip args) (from_params (extract p))) <-> In k (required_names p) /\ ~ In (Sym k) ks) /\ ~ accepts p n ks.
Proof.
  intros SP NE E. assert (forall k, In k (missing_keywords (collect skip args) (from_params (extract p))) <-> In k (required_names p) /\ ~ In (Sym k) ks) as Q.
  { unfold missing_keywords in *. destruct (_ && _ && _ && _) eqn:B in NE; [|easy]. rewrite B. rewrite !andb_true_iff, !negb_true_iff in B.
    destruct B as [[[_ B1] B2] _]. rewrite collect_spec in *. rewrite from_params_spec. cbn in *. intros k. rewrite sort_in, filter_In, negb_true_iff.
    assert (existsb (name_eqb k) (flat_map written_names (skipn skip args)) = true <-> In (Sym k) ks) as R; [|].
    { rewrite listed_iff, written_in. split.
      - intros (es & v & I & J). assert (v = k) as ->.
        { rewrite Forall_forall in SP. assert (In (Keywords es) args) as I' by (rewrite <- (firstn_skipn skip args); apply in_or_app; auto).
          specialize (SP _ I' _ J). cbn in SP. congruence. }
        exact (passes_key _ _ _ _ _ E I J).
      - intros I. destruct (passes_only _ _ _ _ E B2 B1 I) as (es & [v w|] & A & A' & A''); [|discriminate]. injection A'' as <-.
        rewrite Forall_forall in SP. assert (In (Keywords es) args) as I' by (rewrite <- (firstn_skipn skip args); apply in_or_app; auto).
        specialize (SP _ I' _ A'). cbn in SP. subst w. eauto. }
    destruct (existsb (name_eqb k) _); split; intros [X Y]; split; auto; try discriminate.
    - exfalso. apply Y, R. reflexivity.
    - intros Z. apply R in Z. discriminate. }
  split; auto. destruct (missing_keywords _ _) as [|k l]; [easy|]. destruct (proj1 (Q k)) as [A B]; [left; auto|].
  intros [C _ F _|C|C]; [apply B, F, A| |]; apply C; left; intros K; apply no_keywords_iff in K; destruct K as [K _]; rewrite K in A; easy.
Qed.

(** Partial: methods with destructured parameters and keys whose spelling is not the symbol they denote are
    excluded, and refuted below. *)
Theorem C70_sound_partial : forall p skip args ds, plain p -> Forall spelled_out args -> check_call p skip args = Some ds -> ds <> [] ->
  forall n ks, passes (skipn skip args) n ks -> ~ accepts p n ks.
Proof.
  intros p skip args ds P SP E NE n ks R. unfold check_call, diagnostics in E. destruct (wrong_arity _ _) as [[m|]|] eqn:W; [|clear W|discriminate].
  - eapply arity_sound; eauto.
  - injection E as E. destruct (unknown_keywords _ _) as [|k l] eqn:U.
    + cbn in E. assert (missing_keywords (collect skip args) (from_params (extract p)) <> []) as M by (intros M; rewrite M in E; congruence).
      apply (missing_sound _ _ _ _ _ SP M R).
    + apply (unknown_sound p skip args k n ks); auto. rewrite U. left. reflexivity.
Qed.

(** What the warnings say. *)
Lemma name_total a : forall b, name_leb a b = true \/ name_leb b a = true.
Proof.
  induction a as [|x a IH]; intros [|y b]; cbn; auto. destruct (N.lt_trichotomy x y) as [H|[->|H]].
  - left. apply N.ltb_lt in H. rewrite H. reflexivity.
  - rewrite N.eqb_refl. cbn. rewrite !orb_true_iff. destruct (IH b); auto.
  - right. apply N.ltb_lt in H. rewrite H. reflexivity.
Qed.
Lemma name_trans a : forall b c, name_leb a b = true -> name_leb b c = true -> name_leb a c = true.
Proof.
  induction a as [|x a IH]; intros [|y b] [|z c]; cbn; auto; try discriminate.
  rewrite !orb_true_iff, !andb_true_iff, !N.ltb_lt, !N.eqb_eq. intros [H|[-> H]] [J|[-> J]]; [left; lia|auto|auto|]. right. split; auto. eauto.
Qed.

Theorem C70_arity_reported : forall p skip args ds min max n, plain p -> check_call p skip args = Some ds -> In (WrongArity min max n) ds ->
  min = least p /\ match max with Some m => ~ takes_any_number p /\ m = most p | None => takes_any_number p end /\
  (forall n' ks, passes (skipn skip args) n' ks -> Forall in_sight args ->
    (ks = [] \/ takes_keywords p) /\ n = n' \/ (ks <> [] /\ ~ takes_keywords p) /\ n = S n').
Proof.
  intros p skip args ds min max n P E I. unfold check_call, diagnostics in E. destruct (wrong_arity _ _) as [m|] eqn:W; [|discriminate].
  injection E as <-. apply in_app_or in I. destruct I as [I|I].
  2: { apply in_app_or in I. destruct I as [I|I]; [apply in_map_iff in I; destruct I as (? & ? & ?); discriminate|].
       destruct (missing_keywords _ _); [easy|]. destruct I as [I|[]]. discriminate. }
  destruct m as [[[min' max'] n0]|]; [|easy]. destruct I as [I|[]]. injection I as -> -> ->.
  apply wrong_arity_direct in W. rewrite arity_of in W. destruct (_ || _) in W; [|discriminate].
  pose proof (declares_iff p) as D. unfold effective in W. rewrite collect_spec in W. cbn in W.
  set (dk := declares_keywords (from_params (extract p))) in *. rewrite from_params_spec in W. cbn in W.
  unfold plain in P. apply Forall_app in P. destruct P as [P1 P2]. apply plain_count_eq in P1, P2. rewrite P1, P2 in W.
  injection W as W1 W2 W3. split; [now subst|]. split.
  { pose proof (any_number_iff p) as AN. destruct (any_number p); subst max; [now apply AN|]. split; auto. intros H. apply AN in H. discriminate. }
  intros n' ks R IS. set (r := skipn skip args) in *.
  assert (Forall in_sight r) as IR. { rewrite <- (firstn_skipn skip args) in IS. apply Forall_app in IS. apply IS. }
  assert (existsb opens_positional r = false) as O.
  { clear - IR. induction IR as [|[?| |?| |] l H F IH]; cbn in *; auto; easy. }
  assert (existsb opens_keywords r = false) as K.
  { clear - IR. induction IR as [|[?| |es| |] l H F IH]; cbn in *; auto; try easy. rewrite IH, orb_false_r. apply negb_false_iff, forallb_forall.
    intros e I. destruct (H e I) as (v & w & ->). reflexivity. }
  pose proof (passes_exactly _ _ _ R O) as X. destruct dk; cbn in W3.
  - left. split; [right; now apply D|]. congruence.
  - assert (~ takes_keywords p) as NT by (rewrite <- D; discriminate). destruct (existsb has_pair r) eqn:H.
    + right. apply pair_in in H. destruct H as (es & k & A & B). pose proof (passes_key _ _ _ _ _ R A B) as C. split; [split; auto; intros ->; easy|lia].
    + left. split; [|congruence]. left. destruct ks as [|x ks]; auto. destruct (passes_only _ _ _ x R O K) as (es & k & A & B & _); [left; auto|].
      assert (existsb has_pair r = true) by (apply pair_in; eauto). congruence.
Qed.

Theorem C70_keywords_reported : forall p skip args ds, Forall spelled_out args -> check_call p skip args = Some ds ->
  (forall k, In (UnknownKeyword k) ds -> forall n ks, passes (skipn skip args) n ks -> ~ In k (declared_names p) /\ In (Sym k) ks) /\
  (forall l, In (MissingKeywords l) ds -> StronglySorted (fun a b => name_leb a b = true) l /\
    forall n ks, passes (skipn skip args) n ks -> forall k, In k l <-> In k (required_names p) /\ ~ In (Sym k) ks).
Proof.
  intros p skip args ds SP E. unfold check_call, diagnostics in E. destruct (wrong_arity _ _) as [m|] eqn:W; [|discriminate].
  injection E as <-. split.
  - intros k I n ks R. assert (In k (unknown_keywords (collect skip args) (from_params (extract p)))) as U.
    { apply in_app_or in I. destruct I as [I|I]; [destruct m as [[[? ?] ?]|]; [destruct I as [I|[]]; discriminate|easy]|].
      apply in_app_or in I. destruct I as [I|I]; [apply in_map_iff in I; destruct I as (? & Q & ?); injection Q as ->; auto|].
      destruct (missing_keywords _ _); [easy|]. destruct I as [I|[]]. discriminate. }
    destruct (unknown_sound _ _ _ _ _ _ SP U R) as (A & B & _). auto.
  - intros l I. assert (l = missing_keywords (collect skip args) (from_params (extract p)) /\ l <> []) as [-> NE].
    { apply in_app_or in I. destruct I as [I|I]; [destruct m as [[[? ?] ?]|]; [destruct I as [I|[]]; discriminate|easy]|].
      apply in_app_or in I. destruct I as [I|I]; [apply in_map_iff in I; destruct I as (? & Q & ?); discriminate|].
      destruct (missing_keywords _ _); [easy|]. destruct I as [I|[]]. injection I as <-. split; auto. discriminate. }
    split; [|intros n ks R; apply (missing_sound _ _ _ _ _ SP NE R)].
    unfold missing_keywords. destruct (_ && _ && _ && _); [|constructor]. apply sort_sorted; [exact (fun a b => name_total a b)|exact (fun a b c => name_trans a b c)].
Qed.

(** Conversely, silence about a call with all its arguments in sight means that Ruby takes them.  Partial: with
    [**nil], or when the method takes keywords and the last positional argument might be a Hash (which Ruby 2
    would turn into keywords), the code stays silent. *)
Theorem C70_complete_partial : forall p skip args, plain p -> key_rest p <> Some NoKeywords -> Forall in_sight args -> Forall spelled_out args ->
  (takes_keywords p -> last_positional (skipn skip args) <> Some true) -> check_call p skip args = Some [] ->
  forall n ks, passes (skipn skip args) n ks -> accepts p n ks.
Proof.
  intros p skip args P NN IS SP LP E n ks R. unfold check_call, diagnostics in E. destruct (wrong_arity _ _) as [[[[? ?] ?]|]|] eqn:W; try discriminate.
  injection E as E. apply app_eq_nil in E. destruct E as [U M]. apply map_eq_nil in U.
  assert (missing_keywords (collect skip args) (from_params (extract p)) = []) as M' by (destruct (missing_keywords _ _); congruence). clear M.
  pose proof (declares_iff p) as D. set (r := skipn skip args) in *.
  assert (Forall in_sight r /\ Forall spelled_out r) as [IR SR].
  { rewrite <- (firstn_skipn skip args) in IS, SP. apply Forall_app in IS, SP. split; [apply IS|apply SP]. }
  assert (existsb opens_positional r = false) as O.
  { clear - IR. induction IR as [|[?| |?| |] l H F IH]; cbn in *; auto; easy. }
  assert (existsb opens_keywords r = false) as K.
  { clear - IR. induction IR as [|[?| |es| |] l H F IH]; cbn in *; auto; try easy. rewrite IH, orb_false_r. apply negb_false_iff, forallb_forall.
    intros e I. destruct (H e I) as (v & w & ->). reflexivity. }
  assert (forall x, In x ks -> exists k, x = Sym k /\ In k (flat_map written_names r)) as KS.
  { intros x I. destruct (passes_only _ _ _ _ R O K I) as (es & k & A & B & ->). rewrite Forall_forall in IR, SR.
    destruct (IR _ A _ B) as (v & w & Q). injection Q as ->. specialize (SR _ A _ B). cbn in SR. subst w. exists v. split; auto. apply written_in. eauto. }
  assert (forall k, In k (flat_map written_names r) -> In (Sym k) ks) as KS'.
  { intros k I. apply written_in in I. destruct I as (es & v & A & B). pose proof (passes_key _ _ _ _ _ R A B) as C. rewrite Forall_forall in SR.
    specialize (SR _ A _ B). cbn in SR. injection SR as <-. exact C. }
  pose proof (passes_exactly _ _ _ R O) as X.
  assert (forall c, arity_mismatch (with_count (collect skip args) c false) (from_params (extract p)) = None -> takes_count p c) as TC.
  { intros c Q. rewrite arity_of in Q. rewrite from_params_spec in Q. cbn in Q.
    unfold plain in P. apply Forall_app in P. destruct P as [P1 P2]. apply plain_count_eq in P1, P2. rewrite P1, P2 in Q.
    destruct (_ || _) eqn:B in Q; [discriminate|]. apply orb_false_iff in B. destruct B as [B1 B2]. apply Nat.ltb_ge in B1.
    unfold takes_count, least, most. split; auto. pose proof (any_number_iff p) as AN. destruct (any_number p); [left; now apply AN|].
    cbn in B2. apply Nat.ltb_ge in B2. right. exact B2. }
  unfold wrong_arity, effective in W. cbn [trailing_may_be_hash with_count] in W. 
  assert (positional_count (collect skip args) = n) as CN by (rewrite collect_spec; cbn; fold r; congruence).
  assert (positional_splat (collect skip args) = false) as PS by (rewrite collect_spec; exact O).
  assert (keyword_splat (collect skip args) = false) as KW by (rewrite collect_spec; exact K).
  rewrite CN, PS, KW in W. destruct (declares_keywords (from_params (extract p))) eqn:DK.
  - assert (takes_keywords p) as T by now apply D.
    assert (trailing_may_be_hash (collect skip args) = false) as TR.
    { rewrite collect_spec. cbn. fold r. unfold last_or. specialize (LP T). destruct (last_positional r) as [[]|]; congruence. }
    rewrite TR in W. cbn in W. injection W as W. apply TC in W. apply with_keywords; auto.
    + intros k I. unfold missing_keywords in M'. rewrite KW, PS, TR in M'. rewrite from_params_spec in M'. rewrite collect_spec in M'. cbn in M'.
      apply KS'. destruct (required_names p) as [|q l] eqn:RN; [easy|]. cbn [andb negb] in M'. apply listed_iff.
      destruct (existsb (name_eqb k) (flat_map written_names r)) eqn:Q; auto. exfalso.
      assert (In k []) as Z; [|easy]. rewrite <- M'. apply sort_in, filter_In. split; auto. fold r. now rewrite Q.
    + unfold unknown_keywords in U. rewrite DK, KW in U. rewrite from_params_spec in U. rewrite collect_spec in U. cbn in U. fold r in U.
      pose proof (any_keyword_iff p) as AK. destruct (any_keyword p); [left; now apply AK|]. right. cbn in U. intros x I. destruct (KS x I) as (k & -> & J).
      exists k. split; auto. apply declared_iff, listed_iff. destruct (existsb (name_eqb k) _) eqn:Q; auto. exfalso. assert (In k []) as Z; [|easy].
      rewrite <- U. apply filter_In. split; auto. now rewrite Q.
  - cbn in W. injection W as W. apply TC in W.
    assert (~ takes_keywords p) as T by (rewrite <- D; discriminate). destruct (nonempty_keyword_hash (collect skip args)) eqn:H; rewrite collect_spec in H; cbn in H; fold r in H.
    + apply as_a_hash; auto; [|now rewrite Nat.add_1_r in W]. apply pair_in in H. destruct H as (es & k & A & B).
      pose proof (passes_key _ _ _ _ _ R A B) as C. intros ->. easy.
    + apply without_keywords; auto. destruct ks as [|x ks]; auto. destruct (passes_only _ _ _ x R O K) as (es & k & A & B & _); [left; auto|].
      assert (existsb has_pair r = true) by (apply pair_in; eauto). congruence.
Qed.

(** [def f((a, b), c) end; f([1, 2], 3)] is fine and is reported. *)
Theorem C70_destructuring_refuted : exists p args ds n ks, check_call p 0 args = Some ds /\ ds <> [] /\ Forall spelled_out args /\
  passes args n ks /\ accepts p n ks.
Proof.
  exists (Parameters [Destructured; Plain [99%N]] [] None [] [] None None), [Positional false; Positional false], [WrongArity 1 (Some 1) 2], 2, [].
  split; [vm_compute; reflexivity|]. split; [discriminate|]. split; [repeat constructor|]. split; [repeat constructor|].
  assert (forall p, keywords p = [] -> key_rest p = None -> rest p = None -> ~ takes_keywords p) as Q.
  { intros p A B C [H|[H|[[m H]|[H|H]]]]; congruence. }
  apply without_keywords; [now apply Q|reflexivity|]. split; [cbn; auto|right; cbn; auto].
Qed.

(** [def f(foo:) end; f("fo\u006f": 1)] is fine and is reported. *)
Theorem C70_spelling_refuted : exists p args ds n ks, check_call p 0 args = Some ds /\ ds <> [] /\ plain p /\ passes args n ks /\ accepts p n ks.
Proof.
  set (foo := [102; 111; 111]%N). set (w := [102; 111; 92; 117; 48; 48; 54; 102]%N).
  exists (Parameters [] [] None [] [RequiredKey foo] None None), [Keywords [Pair (SymbolKey foo (Some w))]], [UnknownKeyword w; MissingKeywords [foo]], 0, ([Sym foo] ++ []).
  split; [vm_compute; reflexivity|]. split; [discriminate|]. split; [constructor|]. split.
  - apply by_keyword; [|constructor]. change [Sym foo] with (key_of (SymbolKey foo (Some w)) :: []). repeat constructor.
  - apply with_keywords; [left; discriminate|split; [cbn; auto|right; cbn; auto]| |].
    + intros k [<-|[]]. left. reflexivity.
    + right. intros x [<-|[]]. exists foo. split; [left|]; reflexivity.
Qed.

(** [def f(h, **nil) end; f(a: 1)] is refused by Ruby and not reported. *)
Theorem C70_no_keywords_refuted : exists p args, check_call p 0 args = Some [] /\ plain p /\ Forall in_sight args /\ Forall spelled_out args /\
  (forall n ks, passes args n ks -> ~ accepts p n ks).
Proof.
  exists (Parameters [Plain [104%N]] [] None [] [] (Some NoKeywords) None), [Keywords [Pair (SymbolKey [97%N] (Some [97%N]))]].
  split; [vm_compute; reflexivity|]. split; [repeat constructor; discriminate|]. split; [|split].
  - repeat constructor. intros e [<-|[]]. eauto.
  - repeat constructor. intros k [H|[]]. injection H as <-. reflexivity.
  - intros n ks R A. inversion R as [| | |es l keys n' ks' EP R' |  |]; subst. inversion R'; subst. inversion EP as [|k l ks0 EP' |]; subst. inversion EP'; subst.
    destruct A as [T _ _ _|_ A _|_ A _ _]; [|discriminate|now apply A]. destruct T as [T|[T|[[m T]|[T|T]]]]; cbn in T; congruence.
Qed.

(** [def f(a, b = 1, *c, d, k:, o: 2)] is plain, [f(1, k: 3)] is reported and refused, [f(1, 2, k: 3)] is neither. *)
Definition example_method : parameters := Parameters [Plain [97%N]] [[98%N]] (Some (NamedRest [99%N])) [Plain [100%N]] [RequiredKey [107%N]; OptionalKey [111%N]] None None.
Definition pair_k : argument := Keywords [Pair (SymbolKey [107%N] (Some [107%N]))].
Example C70_example : plain example_method /\ Forall spelled_out [Positional false; Positional false; pair_k] /\ Forall in_sight [Positional false; Positional false; pair_k] /\
  check_call example_method 0 [Positional false; pair_k] = Some [WrongArity 2 None 1] /\
  check_call example_method 0 [Positional false; Positional false; pair_k] = Some [] /\
  check_call example_method 0 [Positional false; Positional false; Splat; Keywords [Pair (SymbolKey [120%N] (Some [120%N]))]] = Some [UnknownKeyword [120%N]] /\
  check_call example_method 1 [Positional false; Positional false; Positional false] = Some [MissingKeywords [[107%N]]] /\
  passes [Positional false; Positional false; pair_k] 2 ([Sym [107%N]] ++ []).
Proof.
  split; [repeat constructor; discriminate|]. split; [repeat constructor; intros k [H|[]]; injection H as <-; reflexivity|].
  split; [repeat constructor; intros e [<-|[]]; eauto|]. repeat (split; [vm_compute; reflexivity|]).
  repeat constructor.
Qed.

Print Assumptions C70_no_panic.
Print Assumptions C70_sound_partial.
Print Assumptions C70_arity_reported.
Print Assumptions C70_keywords_reported.
Print Assumptions C70_complete_partial.
Print Assumptions C70_destructuring_refuted.
Print Assumptions C70_spelling_refuted.
Print Assumptions C70_no_keywords_refuted.
