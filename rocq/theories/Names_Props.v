(** The text of a name and the name it is read back as. *)
From Coq Require Import List Arith Bool Lia.
From Verif Require Import Names_Model.
Import ListNotations.

(** What is used of the Unicode tables: ':' and '#' belong to no identifier. *)
Definition plain (u : unicode) : Prop :=
  xid_start u colon = false /\ xid_continue u colon = false /\
  xid_start u hash = false /\ xid_continue u hash = false /\ alphabetic u hash = false.

(** A name a source text can spell: every part is a constant, the method a method name. *)
Definition spelled (u : unicode) (ps : list text) : Prop := forall p, In p ps -> constant u p = Some p.

Lemma constant_same u t c : constant u t = Some c -> c = t.
Proof. destruct t as [|d r]; [discriminate|]. unfold constant. destruct (negb (xid_start u d) || negb (upper u d)); [discriminate|].
  destruct (negb (forallb (xid_continue u) r)); congruence. Qed.
Lemma method_same u t c : method u t = Some c -> c = t /\ valid_method u t = true.
Proof. destruct t; [discriminate|]. cbn -[valid_method]. destruct (valid_method u _) eqn:E; intros H; inversion H; subst; auto. Qed.

Lemma constants_same u l : forall cs, constants u l = Some cs -> cs = l.
Proof.
  induction l as [|t r IH]; cbn; intros cs H; [congruence|].
  destruct (constant u t) eqn:E; [|discriminate]. destruct (constants u r) eqn:F; [|discriminate].
  apply constant_same in E. specialize (IH _ eq_refl). congruence.
Qed.
Lemma constants_all u l : spelled u l -> constants u l = Some l.
Proof.
  induction l as [|t r IH]; cbn; intros H; auto. rewrite (H t) by now left.
  rewrite IH; auto. intros p Hp. apply H. now right.
Qed.
Lemma constants_spelled u l cs : constants u l = Some cs -> spelled u cs.
Proof.
  revert cs. induction l as [|t r IH]; cbn; intros cs H; [injection H as <-; intros p []|].
  destruct (constant u t) eqn:E; [|discriminate]. destruct (constants u r) eqn:F; [|discriminate].
  injection H as <-. pose proof (constant_same _ _ _ E). subst.
  intros p [<-|Hp]; auto. now apply (IH _ eq_refl).
Qed.

(** ** Splitting and joining *)
Lemma split_not_nil t : forall p, split p t <> [].
Proof.
  assert (forall n t, length t <= n -> forall p, split p t <> []) as H; [|intros p; apply (H (length t)); auto].
  induction n as [|n IH]; intros [|a r] HL p; cbn in *; try discriminate; try lia.
  destruct r as [|b r']; [discriminate|]. destruct (_ && _); [discriminate|]. apply IH. cbn in *. lia.
Qed.

Lemma join_split t : forall p, join (split p t) = p ++ t.
Proof.
  assert (forall n t, length t <= n -> forall p, join (split p t) = p ++ t) as H; [|intros p; apply (H (length t)); auto].
  induction n as [|n IH]; intros [|a r] HL p; cbn in HL; try lia.
  - cbn. now rewrite app_nil_r.
  - cbn. now rewrite app_nil_r.
  - destruct r as [|b r']; [reflexivity|].
    change (split p (a :: b :: r')) with
      (if (a =? colon) && (b =? colon) then p :: split [] r' else split (p ++ [a]) (b :: r')).
    destruct ((a =? colon) && (b =? colon)) eqn:E.
    + apply andb_prop in E as [Ea Eb]. apply Nat.eqb_eq in Ea, Eb. subst.
      cbn [join]. destruct (split [] r') eqn:F; [now apply split_not_nil in F|].
      rewrite <- F. rewrite IH; [reflexivity|cbn in HL; lia].
    + rewrite IH; [now rewrite <- app_assoc|cbn in *; lia].
Qed.

Lemma split_piece q : ~ In colon q -> forall p, split p q = [p ++ q].
Proof.
  induction q as [|a q IH]; intros H p; [cbn; now rewrite app_nil_r|].
  assert (a =? colon = false) as Ea by (apply Nat.eqb_neq; intros ->; apply H; now left).
  destruct q as [|b r']; [reflexivity|].
  change (split p (a :: b :: r')) with
    (if (a =? colon) && (b =? colon) then p :: split [] r' else split (p ++ [a]) (b :: r')).
  rewrite Ea. cbn [andb]. rewrite IH; [now rewrite <- app_assoc|]. intros K. apply H. now right.
Qed.

Lemma split_sep q t : ~ In colon q -> forall p, split p (q ++ colon :: colon :: t) = (p ++ q) :: split [] t.
Proof.
  induction q as [|a q IH]; intros H p.
  - cbn [app]. change (split p (colon :: colon :: t)) with (p :: split [] t). now rewrite app_nil_r.
  - assert (a =? colon = false) as Ea by (apply Nat.eqb_neq; intros ->; apply H; now left).
    cbn [app]. destruct (q ++ colon :: colon :: t) as [|b r'] eqn:F; [destruct q; discriminate|].
    change (split p (a :: b :: r')) with
      (if (a =? colon) && (b =? colon) then p :: split [] r' else split (p ++ [a]) (b :: r')).
    rewrite Ea. cbn [andb]. rewrite IH; [now rewrite <- app_assoc|]. intros K. apply H. now right.
Qed.

Lemma constant_chars u t : constant u t = Some t -> forall c, In c t -> xid_start u c = true \/ xid_continue u c = true.
Proof.
  destruct t as [|d r]; [discriminate|]. unfold constant. destruct (xid_start u d) eqn:E; [|discriminate].
  cbn [negb orb]. destruct (upper u d); [|discriminate]. cbn [negb].
  destruct (forallb (xid_continue u) r) eqn:F; [|discriminate]. intros _ c [<-|H]; auto.
  right. rewrite forallb_forall in F. auto.
Qed.
Lemma constant_no_colon u t : plain u -> constant u t = Some t -> ~ In colon t.
Proof. intros (P1 & P2 & _) C H. destruct (constant_chars u t C _ H); congruence. Qed.
Lemma constant_no_hash u t : plain u -> constant u t = Some t -> ~ In hash t.
Proof. intros (_ & _ & P3 & P4 & _) C H. destruct (constant_chars u t C _ H); congruence. Qed.
Lemma constant_not_nil u t : constant u t = Some t -> t <> [].
Proof. now destruct t. Qed.

Lemma split_join u ps : plain u -> spelled u ps -> ps <> [] -> split [] (join ps) = ps.
Proof.
  intros P. induction ps as [|p r IH]; intros S N; [easy|].
  assert (~ In colon p) as Hp by (apply (constant_no_colon u); auto; apply S; now left).
  destruct r as [|q r].
  - cbn [join]. now rewrite split_piece.
  - change (join (p :: q :: r)) with (p ++ colon :: colon :: join (q :: r)). rewrite split_sep by auto.
    rewrite IH; [reflexivity| |discriminate]. intros x Hx. apply S. now right.
Qed.

Lemma join_nil u ps : spelled u ps -> join ps = [] -> ps = [].
Proof.
  destruct ps as [|p [|q r]]; auto; cbn; intros S H.
  - destruct (constant_not_nil u p); auto. apply S. now left.
  - destruct p; discriminate.
Qed.

(** ** The last '#' *)
Lemma rsplit_none t : rsplit_once t = None <-> ~ In hash t.
Proof.
  induction t as [|c r IH]; cbn; [easy|]. destruct (rsplit_once r) as [[a b]|] eqn:E.
  - split; [discriminate|]. intros H. exfalso.
    assert (~ In hash r) as K by tauto. apply IH in K. discriminate.
  - destruct (c =? hash) eqn:F.
    + apply Nat.eqb_eq in F. split; [discriminate|]. intros H. destruct H; auto.
    + apply Nat.eqb_neq in F. split; auto. intros _ [->|H]; auto. now apply IH in H.
Qed.
Lemma rsplit_some t : forall a b, rsplit_once t = Some (a, b) -> t = a ++ hash :: b.
Proof.
  induction t as [|c r IH]; cbn; intros a b H; [discriminate|]. destruct (rsplit_once r) as [[x y]|] eqn:E.
  - injection H as <- <-. cbn. f_equal. now apply IH.
  - destruct (c =? hash) eqn:F; [|discriminate]. apply Nat.eqb_eq in F. subst c. now injection H as <- <-.
Qed.
Lemma rsplit_at a b : ~ In hash b -> rsplit_once (a ++ hash :: b) = Some (a, b).
Proof.
  intros H. induction a as [|c a IH]; cbn.
  - now rewrite (proj2 (rsplit_none b) H).
  - now rewrite IH.
Qed.

Lemma existsb_text t l : existsb (text_eqb t) l = true -> In t l.
Proof.
  rewrite existsb_exists. intros (x & Hx & E). unfold text_eqb in E.
  destruct (list_eq_dec Nat.eq_dec t x); [congruence|discriminate].
Qed.

Lemma stem_cases t : stem t = t \/ exists c, In c [63; 33; 61] /\ t = stem t ++ [c].
Proof.
  unfold stem. destruct (rev t) as [|c r] eqn:E; auto.
  destruct ((c =? 63) || (c =? 33) || (c =? 61)) eqn:F; auto. right. exists c. split.
  - apply orb_prop in F as [F|F]; [apply orb_prop in F as [F|F]|]; apply Nat.eqb_eq in F; subst; cbn; auto.
  - rewrite <- (rev_involutive t), E. reflexivity.
Qed.

Lemma method_no_hash u m : plain u -> valid_method u m = true -> ~ In hash m.
Proof.
  intros (_ & _ & _ & P4 & P5) V H. unfold valid_method in V. destruct m as [|m0 mr]; [easy|].
  set (m := m0 :: mr) in *.
  destruct (existsb (text_eqb m) binary_operators) eqn:E1.
  { apply existsb_text in E1. clearbody m. repeat (destruct E1 as [<-|E1]; [cbn in H; unfold hash in H; lia|]). easy. }
  destruct (existsb (text_eqb m) unary_operators) eqn:E2.
  { apply existsb_text in E2. clearbody m. repeat (destruct E2 as [<-|E2]; [cbn in H; unfold hash in H; lia|]). easy. }
  assert (In hash (stem m)) as K.
  { destruct (stem_cases m) as [->|(c & Hc & E)]; auto. rewrite E in H. apply in_app_or in H as [H|[->|[]]]; auto.
    exfalso. cbn in Hc. unfold hash in Hc. lia. }
  destruct (stem m) as [|c r]; [easy|].
  destruct (alphabetic u c || (c =? underscore)) eqn:A; [|discriminate]. cbn [negb] in V.
  destruct K as [->|K].
  - rewrite P5 in A. discriminate.
  - rewrite forallb_forall in V. specialize (V _ K). rewrite P4 in V. discriminate.
Qed.

(** A method's text is read back as the method: the follow-up request of a call hierarchy item
    asks about the method the item shows. *)
Theorem C90_method_round_trip u ps m : plain u -> spelled u ps -> method u m = Some m ->
  parse_method u (print (Method ps m)) = Some (Method ps m).
Proof.
  intros P S M. destruct (method_same _ _ _ M) as [_ V]. unfold parse_method, print.
  rewrite rsplit_at by (now apply (method_no_hash u)). rewrite M.
  destruct (join ps) eqn:E.
  - apply (join_nil u) in E; auto. now subst.
  - rewrite <- E. assert (ps <> []) as N by (intros ->; discriminate).
    rewrite (split_join u) by auto. now rewrite constants_all.
Qed.
Print Assumptions C90_method_round_trip.

(** Whatever text is read as a method is the text of that method, which a source can spell. *)
Theorem C90_method_text u t n : parse_method u t = Some n ->
  print n = t /\ exists ps m, n = Method ps m /\ spelled u ps /\ method u m = Some m.
Proof.
  unfold parse_method. destruct (rsplit_once t) as [[ns m]|] eqn:E; [|discriminate].
  apply rsplit_some in E. destruct (method u m) as [m'|] eqn:M; [|discriminate].
  pose proof (method_same _ _ _ M) as [-> V]. destruct ns as [|c r].
  - intros H. injection H as <-. split; [now subst|]. exists [], m. repeat split; auto. intros p [].
  - destruct (constants u (split [] (c :: r))) as [ps|] eqn:C; [|discriminate].
    intros H. injection H as <-. pose proof (constants_same _ _ _ C) as EC. subst ps.
    split; [cbn [print]; rewrite join_split; cbn [app]; now rewrite E|].
    eexists _, m. repeat split; auto. now apply (constants_spelled u _ _ C).
Qed.
Print Assumptions C90_method_text.

(** The same of a class or module. *)
Theorem C90_namespace_round_trip u ps : plain u -> spelled u ps -> ps <> [] ->
  parse_namespace u (print (Namespace ps Instance)) = Some (Namespace ps Instance).
Proof.
  intros P S N. unfold parse_namespace, print. rewrite (split_join u) by auto. rewrite constants_all by auto.
  now destruct ps.
Qed.
Print Assumptions C90_namespace_round_trip.

Theorem C90_namespace_text u t n : parse_namespace u t = Some n ->
  print n = t /\ exists ps, n = Namespace ps Instance /\ spelled u ps /\ ps <> [].
Proof.
  unfold parse_namespace. destruct (constants u (split [] t)) as [[|p ps]|] eqn:C; try discriminate.
  intros H. injection H as <-. pose proof (constants_same _ _ _ C) as EC.
  split; [cbn [print]; rewrite EC, join_split; reflexivity|].
  eexists. repeat split; [|discriminate]. now apply (constants_spelled u _ _ C).
Qed.
Print Assumptions C90_namespace_text.

(** The operators Ruby lets a program define as methods: | ^ & <=> == === =~ > >= < <= << >> + - * / % ** +@ -@
    [] []= != !~, and then ! ~ `. *)
Definition ruby_operators : list text :=
  [[124]; [94]; [38]; [60; 61; 62]; [61; 61]; [61; 61; 61]; [61; 126]; [62]; [62; 61]; [60]; [60; 61]; [60; 60]; [62; 62];
   [43]; [45]; [42]; [47]; [37]; [42; 42]; [43; 64]; [45; 64]; [91; 93]; [91; 93; 61]; [33; 61]; [33; 126]].
Definition ruby_unary : list text := [[33]; [126]; [96]].
(** Every method name of Ruby is accepted: a word, with or without ?, ! or = behind it, and every operator but the
    three last. *)
Theorem C90_ruby_names_partial u c w e m :
  In m ruby_operators \/
  (m = (c :: w) ++ e /\ In e [[]; [63]; [33]; [61]] /\ (alphabetic u c = true \/ c = underscore) /\
   (forall x, In x w -> (xid_continue u x = true \/ x = underscore) /\ x <> 63 /\ x <> 33 /\ x <> 61) /\
   c <> 63 /\ c <> 33 /\ c <> 61) ->
  method u m = Some m.
Proof.
  intros [H|(-> & He & Hc & Hw & N)].
  - cbn in H. decompose [or] H; subst; try contradiction; reflexivity.
  - assert (HS : stem ((c :: w) ++ e) = c :: w).
    { cbn in He. assert (Hsuf : forall x, In x [63; 33; 61] -> stem ((c :: w) ++ [x]) = c :: w).
      { intros x Hx. unfold stem. rewrite rev_app_distr. cbn [rev app].
        replace ((x =? 63) || (x =? 33) || (x =? 61)) with true
          by (cbn in Hx; destruct Hx as [<-|[<-|[<-|[]]]]; reflexivity).
        change (rev w ++ [c]) with (rev (c :: w)). now rewrite rev_involutive. }
      destruct He as [<-|[<-|[<-|[<-|[]]]]]; try (apply Hsuf; cbn; tauto).
      rewrite app_nil_r. unfold stem. destruct (rev (c :: w)) as [|x r] eqn:R; [reflexivity|].
      assert (Hx : In x (c :: w)) by (rewrite in_rev, R; now left).
      assert (x <> 63 /\ x <> 33 /\ x <> 61) as (A & B & C) by (destruct Hx as [<-|Hx]; [exact N|apply Hw in Hx as [_ Hx]; exact Hx]).
      apply Nat.eqb_neq in A. apply Nat.eqb_neq in B. apply Nat.eqb_neq in C. now rewrite A, B, C. }
    unfold method. cbn [app] in *. unfold valid_method. rewrite HS.
    replace (alphabetic u c || (c =? underscore)) with true
      by (symmetry; apply orb_true_iff; destruct Hc as [Hc| ->]; [now left|right; apply Nat.eqb_refl]).
    cbn [negb]. replace (forallb _ w) with true.
    + destruct (existsb _ _); [reflexivity|]. now destruct (existsb _ _).
    + symmetry. apply forallb_forall. intros x Hx. apply Hw in Hx as [[Hx| ->] _]; apply orb_true_iff; [now left|right; apply Nat.eqb_refl].
Qed.
Print Assumptions C90_ruby_names_partial.
(** Refuted for the three others: [def !] is no method to the index. *)
Theorem C90_unary_refuted u m : alphabetic u 126 = false -> alphabetic u 96 = false -> In m ruby_unary -> method u m = None.
Proof.
  intros H1 H2 H. cbn in H. destruct H as [<-|[<-|[<-|[]]]]; cbn; rewrite ?H1, ?H2; reflexivity.
Qed.
Print Assumptions C90_unary_refuted.

(** Two methods a source can spell have different texts, as have two classes. *)
Corollary C90_method_print_inj u ps m ps' m' : plain u -> spelled u ps -> spelled u ps' ->
  method u m = Some m -> method u m' = Some m' ->
  print (Method ps m) = print (Method ps' m') -> ps = ps' /\ m = m'.
Proof.
  intros P S S' M M' E. pose proof (C90_method_round_trip u ps m P S M) as R.
  rewrite E, (C90_method_round_trip u ps' m' P S' M') in R. now injection R as -> ->.
Qed.
Print Assumptions C90_method_print_inj.

(** Refuted: a singleton class is shown under a text no follow-up request can read. *)
Theorem C90_singleton_refuted u ps : plain u -> parse_namespace u (print (Namespace ps Singleton)) = None.
Proof.
  intros (P1 & P2 & P3 & P4 & P5). destruct (parse_namespace u _) as [n|] eqn:E; auto. exfalso.
  unfold parse_namespace, print in E. change (singleton_open ++ join ps ++ singleton_close) with
    ([35; 60; 67; 108; 97; 115; 115; 58] ++ join ps ++ [62]) in E.
  destruct (constants u _) as [cs|] eqn:C in E; [|discriminate].
  pose proof (constants_spelled _ _ _ C) as S. pose proof (constants_same _ _ _ C) as EC.
  pose proof (join_split ([35; 60; 67; 108; 97; 115; 115; 58] ++ join ps ++ [62]) []) as J. rewrite <- EC in J.
  cbn [app] in J. destruct cs as [|p r]; [discriminate|].
  assert (constant u p = Some p) as CP by (apply S; now left).
  destruct p as [|c p]; [discriminate|].
  assert (c = hash) as -> by (destruct r; injection J as J _; exact J).
  unfold constant in CP. rewrite P3 in CP. discriminate.
Qed.
Print Assumptions C90_singleton_refuted.

(** Non-vacuity: the ASCII tables; Foo::Bar#baz? and #[]=. *)
Definition between (a b c : nat) : bool := (a <=? c) && (c <=? b).
Definition ascii_table : unicode :=
  let letter c := between 65 90 c || between 97 122 c in
  mkUnicode (between 65 90) letter letter (fun c => letter c || between 48 57 c || (c =? underscore)).
Example ascii_plain : plain ascii_table.
Proof. now vm_compute. Qed.
Example C90_names_case : method ascii_table [98; 97; 122; 63] = Some [98; 97; 122; 63] /\ method ascii_table [33] = None /\
  alphabetic ascii_table 126 = false /\ alphabetic ascii_table 96 = false.
Proof. now vm_compute. Qed.
Definition Foo : text := [70; 111; 111].
Definition Bar : text := [66; 97; 114].
Example C90_case :
  parse_method ascii_table (print (Method [Foo; Bar] [98; 97; 122; 63])) = Some (Method [Foo; Bar] [98; 97; 122; 63]) /\
  parse_method ascii_table (print (Method [] [91; 93; 61])) = Some (Method [] [91; 93; 61]) /\
  parse_namespace ascii_table (print (Namespace [Foo; Bar] Instance)) = Some (Namespace [Foo; Bar] Instance) /\
  parse_method ascii_table (join [Foo; Bar]) = None.
Proof. now vm_compute. Qed.
