(** C114: the Ruby names of Java classes. *)
From Coq Require Import List Arith Bool Lia.
From Verif Require Import Archive_Model Archive_Proofs JName_Model JName_Spec.
Import ListNotations.

Lemma join_more sep x y r : join sep (x :: y :: r) = x ++ sep ++ join sep (y :: r).
Proof. reflexivity. Qed.

Lemma split_some c s : split c s <> [].
Proof. rewrite split_eq. destruct (split_once c s) as [[a b]|]; discriminate. Qed.

Lemma split_join c s : join [c] (split c s) = s.
Proof.
  induction s as [|x s IH]; [reflexivity|]. cbn [split]. destruct (Nat.eqb_spec x c) as [->|D].
  - destruct (split c s) as [|w ws] eqn:E; [now apply split_some in E|].
    rewrite join_more, IH. reflexivity.
  - destruct (split c s) as [|w ws] eqn:E; [now apply split_some in E|].
    destruct ws as [|v ws]; cbn in *; now rewrite IH.
Qed.

Lemma split_clean c s w : In w (split c s) -> ~ In c w.
Proof.
  revert w. induction s as [|x s IH]; intros w; cbn [split].
  - intros [<-|[]] [].
  - destruct (Nat.eqb_spec x c) as [->|D].
    + intros [<-|I]; [intros [] | now apply IH].
    + destruct (split c s) as [|v vs] eqn:E; [now apply split_some in E|].
      intros [<-|I] X.
      * destruct X as [X|X]; [now apply D | revert X; apply IH; now left].
      * revert X. apply IH. now right.
Qed.

Lemma split_plain c a : ~ In c a -> split c a = [a].
Proof. intros N. rewrite split_eq. apply once_none in N. now rewrite N. Qed.

Lemma split_first c a b : ~ In c a -> split c (a ++ c :: b) = a :: split c b.
Proof.
  intros N. rewrite split_eq.
  assert (E : split_once c (a ++ c :: b) = Some (a, b)) by now apply once_iff.
  now rewrite E.
Qed.

Lemma join_split c l : l <> [] -> (forall w, In w l -> ~ In c w) -> split c (join [c] l) = l.
Proof.
  induction l as [|x l IH]; intros N H; [congruence|]. destruct l as [|y r].
  - apply split_plain. apply H. now left.
  - rewrite join_more. change ([c] ++ join [c] (y :: r)) with (c :: join [c] (y :: r)).
    rewrite split_first by (apply H; now left).
    rewrite IH; [reflexivity | discriminate |]. intros w I. apply H. now right.
Qed.

Lemma rsplit_iff c s a b : rsplit_once c s = Some (a, b) <-> s = a ++ c :: b /\ ~ In c b.
Proof.
  unfold rsplit_once. destruct (split_once c (rev s)) as [[p q]|] eqn:E; cbn [option_map fst snd].
  - apply once_iff in E. destruct E as [E N].
    assert (S1 : s = rev q ++ c :: rev p).
    { rewrite <- (rev_involutive s), E, rev_app_distr. cbn [rev]. now rewrite <- app_assoc. }
    split.
    + intros X. injection X as <- <-. split; [exact S1|]. now rewrite <- in_rev.
    + intros [S2 N2]. assert (X : split_once c (rev s) = Some (rev b, rev a)).
      { apply once_iff. split; [|now rewrite <- in_rev].
        rewrite S2, rev_app_distr. cbn [rev]. now rewrite <- app_assoc. }
      assert (Y : split_once c (rev s) = Some (p, q)) by now apply once_iff.
      rewrite X in Y. injection Y as <- <-. now rewrite !rev_involutive.
  - split; [discriminate|]. intros [-> _]. apply once_none in E. exfalso. apply E.
    rewrite <- in_rev. apply in_or_app. right. now left.
Qed.

Lemma rsplit_none c s : rsplit_once c s = None <-> ~ In c s.
Proof.
  unfold rsplit_once. destruct (split_once c (rev s)) as [[p q]|] eqn:E; cbn [option_map].
  - split; [discriminate|]. intros N. apply once_iff in E. destruct E as [E _]. exfalso. apply N.
    rewrite in_rev, E. apply in_or_app. right. now left.
  - apply once_none in E. rewrite <- in_rev in E. tauto.
Qed.

Section Letters.
Variables alphabetic alphanumeric : nat -> bool.
Hypothesis plain : letters_only alphabetic alphanumeric.

Notation ident := (identifier alphabetic alphanumeric).
Notation jid := (java_identifier alphabetic alphanumeric).

Lemma ident_iff s : ident s = true <-> jid s.
Proof.
  unfold java_identifier. destruct s as [|c r]; cbn [identifier].
  - split; [discriminate | intros (c & r & E & _); discriminate].
  - rewrite andb_true_iff, !orb_true_iff, !Nat.eqb_eq, forallb_forall. split.
    + intros [A B]. exists c, r. split; [reflexivity|]. split; [tauto|].
      intros x X. specialize (B x X). rewrite !orb_true_iff, !Nat.eqb_eq in B. tauto.
    + intros (c' & r' & E & A & B). injection E as <- <-. split; [tauto|].
      intros x X. specialize (B x X). rewrite !orb_true_iff, !Nat.eqb_eq. tauto.
Qed.

Lemma ident_clean s c : jid s -> In c [dot; slash; colon] -> ~ In c s.
Proof.
  intros (x & r & -> & A & B) C.
  assert (P : alphabetic c = false /\ alphanumeric c = false).
  { apply plain. destruct C as [<-|[<-|[<-|[]]]]; cbn; auto. }
  assert (Q : c <> underscore /\ c <> dollar).
  { destruct C as [<-|[<-|[<-|[]]]]; split; discriminate. }
  destruct P as [P1 P2], Q as [Q1 Q2]. intros [->|I].
  - destruct A as [A|[A|A]]; congruence.
  - destruct (B c I) as [X|[X|X]]; congruence.
Qed.

(** A name is accepted exactly if it is written as one or more packages and one or more
    classes, all of them Java identifiers; what is read is what was written. *)
Theorem C114_parse s n :
  parse alphabetic alphanumeric s = inl n <->
  exists ps cs, ps <> [] /\ cs <> [] /\ written s ps cs /\
    (forall p, In p ps -> jid p) /\ (forall c, In c cs -> jid c /\ ~ In dollar c) /\
    n = {| internal_name := normalize s; package := ps; classes := cs |}.
Proof.
  unfold parse, written. split.
  - destruct (rsplit_once slash (normalize s)) as [[p c]|] eqn:R; [|discriminate].
    apply rsplit_iff in R. destruct R as [R N].
    destruct (forallb ident (split slash p)) eqn:P; [|discriminate].
    destruct (forallb ident (split dollar c)) eqn:C; [|discriminate].
    intros X. injection X as <-. rewrite forallb_forall in P, C.
    exists (split slash p), (split dollar c).
    split; [apply split_some|]. split; [apply split_some|]. rewrite !split_join.
    split; [exact R|]. split; [intros x I; now apply ident_iff, P|]. split; [|reflexivity].
    intros x I. split; [now apply ident_iff, C | now apply split_clean with c].
  - intros (ps & cs & NP & NC & W & P & C & ->).
    assert (K : ~ In slash (join [dollar] cs)).
    { assert (A : forall l, (forall c, In c l -> jid c /\ ~ In dollar c) -> ~ In slash (join [dollar] l)).
      { induction l as [|x l IH]; intros H; [intros []|]. destruct l as [|y r].
        - apply ident_clean; [apply H; now left | cbn; auto].
        - rewrite join_more. intros I. apply in_app_or in I. destruct I as [I|[I|I]].
          + revert I. apply ident_clean; [apply H; now left | cbn; auto].
          + discriminate.
          + revert I. apply IH. intros c J. apply H. now right. }
      now apply A. }
    assert (R : rsplit_once slash (normalize s) = Some (join [slash] ps, join [dollar] cs))
      by now apply rsplit_iff.
    rewrite R. rewrite !join_split; auto.
    + assert (E1 : forallb ident ps = true) by (apply forallb_forall; intros; now apply ident_iff, P).
      assert (E2 : forallb ident cs = true) by (apply forallb_forall; intros; now apply ident_iff, C).
      now rewrite E1, E2.
    + intros w I. now apply C.
    + intros w I. apply ident_clean; [now apply P | cbn; auto].
Qed.

(** Only names without a package are refused for that reason. *)
Theorem C114_default s :
  parse alphabetic alphanumeric s = inr DefaultPackage <-> ~ In dot s /\ ~ In slash s.
Proof.
  assert (A : In slash (normalize s) <-> In dot s \/ In slash s).
  { unfold normalize. rewrite in_map_iff. split.
    - intros (x & E & K). destruct (x =? dot) eqn:D.
      + left. apply Nat.eqb_eq in D. now rewrite <- D.
      + right. now rewrite <- E.
    - intros [I|I]; [exists dot | exists slash]; (split; [reflexivity | exact I]). }
  unfold parse. destruct (rsplit_once slash (normalize s)) as [[p c]|] eqn:R.
  - apply rsplit_iff in R. destruct R as [R _].
    assert (I : In slash (normalize s)) by (rewrite R; apply in_or_app; right; now left).
    apply A in I. destruct (forallb ident (split slash p)), (forallb ident (split dollar c));
      (split; [discriminate | tauto]).
  - apply rsplit_none in R. split; [intros _|reflexivity]. tauto.
Qed.

(** The constant an import defines is the name of the innermost class; there always is
    one. *)
Theorem C114_imported s n : parse alphabetic alphanumeric s = inl n ->
  exists outer c, classes n = outer ++ [c] /\ imported_constant n = Some c.
Proof.
  intros P. apply C114_parse in P. destruct P as (ps & cs & _ & N & _ & _ & _ & ->).
  cbn [classes]. unfold imported_constant. cbn [classes].
  destruct (rev cs) as [|c r] eqn:E.
  - exfalso. apply N. rewrite <- (rev_involutive cs), E. reflexivity.
  - exists (rev r), c. split; [|reflexivity]. now rewrite <- (rev_involutive cs), E.
Qed.

(** ** Different classes, different names *)
Lemma cut_colon a b x y :
  ~ In colon a -> ~ In colon b -> a ++ colon :: x = b ++ colon :: y -> a = b /\ x = y.
Proof.
  revert b. induction a as [|c a IH]; intros [|d b] A B E; cbn in *.
  - injection E as E. auto.
  - injection E as E _. exfalso. apply B. now left.
  - injection E as E _. exfalso. apply A. now left.
  - injection E as -> E. destruct (IH b) with (3 := E) as [-> ->]; auto.
Qed.

Lemma join_inj l : forall m, l <> [] -> m <> [] ->
  (forall x, In x l -> ~ In colon x) -> (forall x, In x m -> ~ In colon x) ->
  join [colon; colon] l = join [colon; colon] m -> l = m.
Proof.
  induction l as [|x l IH]; intros [|y m] L M A B E; try congruence.
  destruct l as [|x2 l], m as [|y2 m].
  - cbn in E. now subst.
  - exfalso. cbn [join] in E. apply (A x); [now left|]. rewrite E. apply in_or_app. right. now left.
  - exfalso. cbn [join] in E. apply (B y); [now left|]. rewrite <- E. apply in_or_app. right. now left.
  - rewrite !join_more in E. cbn [app] in E.
    apply cut_colon in E; [|apply A; now left | apply B; now left]. destruct E as [-> E].
    injection E as E. f_equal. apply IH; try discriminate; auto.
    + intros z Z. apply A. now right.
    + intros z Z. apply B. now right.
Qed.

Lemma proxy_inj : forall l m,
  (forall p, In p l -> conventional p) -> (forall p, In p m -> conventional p) ->
  concat (map capital l) = concat (map capital m) -> l = m.
Proof.
  assert (U : forall c, small c -> capital_letter (upper c) /\ upper c = c - 32).
  { intros c [A B]. unfold upper. assert (E : (97 <=? c) && (c <=? 122) = true)
      by (apply andb_true_iff; rewrite !Nat.leb_le; auto). rewrite E.
    split; [|reflexivity]. unfold capital_letter. lia. }
  assert (K : forall r r' t t',
    (forall x, In x r -> ~ capital_letter x) -> (forall x, In x r' -> ~ capital_letter x) ->
    (match t with [] => True | c :: _ => capital_letter c end) ->
    (match t' with [] => True | c :: _ => capital_letter c end) ->
    r ++ t = r' ++ t' -> r = r' /\ t = t').
  { induction r as [|c r IH]; intros [|d r'] t t' A B T T' E; cbn in *; auto.
    - subst t. exfalso. apply (B d); [now left | exact T].
    - subst t'. exfalso. apply (A c); [now left | exact T'].
    - injection E as -> E. destruct (IH r' t t') as [-> ->]; auto. }
  assert (H : forall l, (forall p, In p l -> conventional p) ->
    match concat (map capital l) with [] => True | c :: _ => capital_letter c end).
  { intros [|p l] C; [exact Logic.I|]. destruct (C p) as (c & r & -> & S1 & _); [now left|].
    cbn. now apply U. }
  induction l as [|p l IH]; intros [|q m] A B E.
  - reflexivity.
  - destruct (B q) as (c & r & -> & _ & _); [now left|]. discriminate.
  - destruct (A p) as (c & r & -> & _ & _); [now left|]. discriminate.
  - destruct (A p) as (c & r & -> & C & R); [now left|].
    destruct (B q) as (d & r' & -> & D & R'); [now left|]. cbn in E. injection E as E1 E.
    assert (c = d).
    { destruct (U c C) as [_ X], (U d D) as [_ Y]. unfold small in *. lia. }
    subst d. apply K in E; auto.
    + destruct E as [-> E]. f_equal. apply IH; auto.
      * intros p P. apply A. now right.
      * intros p P. apply B. now right.
    + apply H. intros p P. apply A. now right.
    + apply H. intros p P. apply B. now right.
Qed.

(** Classes in packages named by the conventions have different Ruby names. *)
Theorem C114_distinct_partial s1 s2 n1 n2 :
  parse alphabetic alphanumeric s1 = inl n1 -> parse alphabetic alphanumeric s2 = inl n2 ->
  (forall p, In p (package n1) -> conventional p) ->
  (forall p, In p (package n2) -> conventional p) ->
  ruby_fqn n1 = ruby_fqn n2 -> internal_name n1 = internal_name n2.
Proof.
  intros P1 P2 C1 C2 E. apply C114_parse in P1, P2.
  destruct P1 as (ps1 & cs1 & NP1 & NC1 & W1 & I1 & J1 & ->).
  destruct P2 as (ps2 & cs2 & NP2 & NC2 & W2 & I2 & J2 & ->). cbn [package internal_name] in *.
  unfold ruby_fqn, ruby_namespace_parts, package_proxy_module in E. cbn [package classes] in E.
  assert (K : forall ps, (forall p, In p ps -> jid p) -> (forall p, In p ps -> conventional p) ->
    ~ In colon (concat (map capital ps))).
  { intros ps A B X. apply in_concat in X. destruct X as (x & X & Y). apply in_map_iff in X.
    destruct X as (p & <- & X). destruct (B p X) as (c & r & -> & S1 & _). cbn [capital] in Y.
    destruct Y as [Y|Y].
    - unfold upper in Y. unfold small in S1. destruct S1 as [S1 S2].
      assert (Q : (97 <=? c) && (c <=? 122) = true)
        by (apply andb_true_iff; rewrite !Nat.leb_le; auto).
      rewrite Q in Y. unfold colon in Y. lia.
    - apply (ident_clean (c :: r) colon); [now apply A | cbn; auto | now right]. }
  apply join_inj in E; try discriminate.
  - injection E as EP EC. apply proxy_inj in EP; auto. subst. unfold written in *. congruence.
  - intros x [<-|[<-|I]]; [cbn; intuition discriminate | now apply K |].
    apply ident_clean; [now apply J1 | cbn; auto].
  - intros x [<-|[<-|I]]; [cbn; intuition discriminate | now apply K |].
    apply ident_clean; [now apply J2 | cbn; auto].
Qed.
End Letters.
Print Assumptions C114_parse.
Print Assumptions C114_default.
Print Assumptions C114_imported.
Print Assumptions C114_distinct_partial.

(** ** Examples *)
Definition letter (c : nat) : bool := ((65 <=? c) && (c <=? 90)) || ((97 <=? c) && (c <=? 122)).
Definition letter_or_digit (c : nat) : bool := letter c || ((48 <=? c) && (c <=? 57)).
Example ex_letters : letters_only letter letter_or_digit.
Proof. intros c [<-|[<-|[<-|[<-|[]]]]]; split; reflexivity. Qed.

(** java.util.Map$Entry *)
Definition ex_name : text :=
  [106; 97; 118; 97; 46; 117; 116; 105; 108; 46; 77; 97; 112; 36; 69; 110; 116; 114; 121].
(** Java::JavaUtil::Map::Entry *)
Example ex_parse : exists n, parse letter letter_or_digit ex_name = inl n /\
  package n = [[106; 97; 118; 97]; [117; 116; 105; 108]] /\
  classes n = [[77; 97; 112]; [69; 110; 116; 114; 121]] /\
  (forall p, In p (package n) -> conventional p) /\
  ruby_fqn n = [74; 97; 118; 97; 58; 58; 74; 97; 118; 97; 85; 116; 105; 108; 58; 58; 77; 97; 112;
                58; 58; 69; 110; 116; 114; 121].
Proof.
  eexists. split; [reflexivity|]. split; [reflexivity|]. split; [reflexivity|]. split; [|reflexivity].
  intros p [<-|[<-|[]]]; eexists _, _; (split; [reflexivity|]);
    (split; [unfold small; cbn; lia|]); intros x K; unfold capital_letter;
    cbn in K; repeat (destruct K as [K|K]; [lia|]); destruct K.
Qed.

(** ** Corners *)
(** a.b.C and aB.C are both Java::AB::C. *)
Theorem C114_distinct_refuted : exists s1 s2 n1 n2,
  parse letter letter_or_digit s1 = inl n1 /\ parse letter letter_or_digit s2 = inl n2 /\
  internal_name n1 <> internal_name n2 /\ ruby_fqn n1 = ruby_fqn n2.
Proof.
  exists [97; 46; 98; 46; 67], [97; 66; 46; 67]. eexists _, _.
  split; [reflexivity|]. split; [reflexivity|]. split; [discriminate | reflexivity].
Qed.
Print Assumptions C114_distinct_refuted.

(** The class a.b, a Java name, is given the Ruby name Java::A::b, which is not a name of
    a constant. *)
Theorem C114_constant_refuted : exists s n p,
  parse letter letter_or_digit s = inl n /\ In p (ruby_namespace_parts n) /\
  exists c r, p = c :: r /\ small c.
Proof.
  exists [97; 46; 98]. eexists _, [98]. split; [reflexivity|].
  split; [right; right; now left|]. exists 98, []. split; [reflexivity|]. unfold small. lia.
Qed.
Print Assumptions C114_constant_refuted.
