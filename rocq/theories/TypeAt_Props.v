(** C99 The type under the cursor in a comment. *)
From Coq Require Import List Arith Bool ZArith Lia.
From Verif Require Import Names_Model Names_Props Yard_Model Yard_Spec Yard_Proofs Yard_Props YardDoc_Model YardDoc_Spec YardDoc_Proofs YardDoc_Props.
Import ListNotations.

(** ** The parts of a list of types *)
Definition kept (ps : list (nat * nat * text)) : list text := map (fun p => trim (snd p)) ps.
Lemma position_sim t : forall d start i cur ps d' cur' parts', fold_left split_step t (d, cur, kept ps) = (d', cur', parts') ->
  exists start' ps', fold_left position_step t (d, start, i, cur, ps) = (d', start', i + size t, cur', ps') /\ parts' = kept ps' /\
    length ps <= length ps' /\ (length ps' = length ps -> start' = start /\ ps' = ps).
Proof.
  induction t as [|c t IH]; intros d start i cur ps d' cur' parts' H.
  - cbn in H. injection H as <- <- <-. exists start, ps. cbn. rewrite Nat.add_0_r. auto.
  - cbn [fold_left] in H |- *. unfold split_step at 2 in H. unfold position_step at 2.
    assert (Sz : size (c :: t) = width c + size t) by reflexivity. rewrite Sz, Nat.add_assoc.
    destruct ((c =? 60) || (c =? 123)); [exact (IH _ _ _ _ _ _ _ _ H)|]. destruct ((c =? 62) || (c =? 125)); [exact (IH _ _ _ _ _ _ _ _ H)|].
    destruct ((c =? 44) && (d =? 0)%Z); [|exact (IH _ _ _ _ _ _ _ _ H)].
    assert (E : kept ps ++ [trim cur] = kept (ps ++ [(start, i, cur)])) by (unfold kept; rewrite map_app; reflexivity). rewrite E in H.
    destruct (IH d (i + 1) (i + width c) [] (ps ++ [(start, i, cur)]) _ _ _ H) as (s' & ps' & A & B & C & _). exists s', ps'.
    rewrite app_length in C. cbn in C. repeat split; auto; lia.
Qed.
Lemma position_keeps t : keeps_split t -> forall start i cur ps,
  fold_left position_step t (0%Z, start, i, cur, ps) = (0%Z, start, i + size t, cur ++ t, ps).
Proof.
  intros K start i cur ps. destruct (position_sim t 0%Z start i cur ps _ _ _ (K 0%Z cur (kept ps) ltac:(lia))) as (s' & ps' & A & B & _ & D).
  destruct D as [-> ->]; [|exact A]. apply (f_equal (@length _)) in B. unfold kept in B. rewrite !map_length in B. congruence.
Qed.
Fixpoint places (start : nat) (lead : text) (l : list text) : list (nat * nat * text) :=
  match l with
  | [] => []
  | t :: r => (start, start + size (lead ++ t), lead ++ t) :: places (start + size (lead ++ t) + 1) [32] r
  end.
Section Types.
  Variable u : unicode.
  Hypothesis Sep : separate u.
  Lemma written_not_nil w : angled u w -> write w <> [].
  Proof. intros A. exact (proj1 (angled_tight u Sep w A)). Qed.
  Lemma width_pos c : 1 <= width c.
  Proof. unfold width, Text_Lib.u8. repeat destruct (_ <? _)%N; lia. Qed.
  Lemma size_pos t : t <> [] -> 1 <= size t.
  Proof. destruct t as [|c t]; [congruence|]. intros _. change (size (c :: t)) with (width c + size t). pose proof (width_pos c). lia. Qed.
  Lemma places_spec l : forall w start lead ps, angled u w -> Forall (angled u) l ->
    (let '(_, s, i, cur, parts) := fold_left position_step (commas (map write (w :: l))) (0%Z, start, start + size lead, lead, ps) in
     if s <? i then parts ++ [(s, i, cur)] else parts) = ps ++ places start lead (map write (w :: l)).
  Proof.
    induction l as [|w' l IH]; intros w start lead ps Hw F.
    - cbn [map commas places]. rewrite (position_keeps _ (proj1 (angled_keeps u Sep w Hw))), size_app.
      pose proof (size_pos _ (written_not_nil w Hw)). rewrite (proj2 (Nat.ltb_lt _ _)) by lia. now rewrite Nat.add_assoc.
    - inversion F; subst. cbn [map]. change (commas (write w :: write w' :: map write l)) with (write w ++ 44 :: 32 :: commas (map write (w' :: l))).
      rewrite fold_left_app, (position_keeps _ (proj1 (angled_keeps u Sep w Hw))). cbn [fold_left].
      set (i := start + size lead + size (write w)).
      assert (E1 : position_step (0%Z, start, i, lead ++ write w, ps) 44 = (0%Z, i + 1, i + 1, [], ps ++ [(start, i, lead ++ write w)])) by reflexivity.
      rewrite E1. assert (E2 : forall q, position_step (0%Z, i + 1, i + 1, [], q) 32 = (0%Z, i + 1, i + 1 + size [32], [32], q)) by reflexivity.
      rewrite E2, (IH w' (i + 1) [32] _ H1 H2). cbn [places map]. rewrite (size_app lead). fold i. replace (start + (size lead + size (write w))) with i by (subst i; lia).
      rewrite <- app_assoc. reflexivity.
  Qed.
  Lemma split_positions_spec l : Forall (angled u) l -> split_positions (commas (map write l)) = places 0 [] (map write l).
  Proof. intros F. destruct l as [|w l]; [reflexivity|]. inversion F; subst. exact (places_spec l w 0 [] [] H1 H2). Qed.

  Lemma base_type_head lead w : forallb space lead = true -> angled u w -> base_type (lead ++ write w) = head_name w /\ head_name w <> [].
  Proof.
    intros B A. pose proof (angled_tight u Sep w A) as T. unfold base_type. rewrite (trim_left lead (write w) B T).
    assert (Q : (forall c, In c (write w) -> quiet c) -> trim (fst (span_while (fun c => negb ((c =? 60) || (c =? 123))) (write w))) = write w).
    { intros Hq. rewrite <- (app_nil_r (write w)) at 1. rewrite span_app; [exact (trim_tight _ T)| |now left]. apply forallb_forall. intros c Hc.
      destruct (quiet_false c (Hq c Hc)) as (E1 & _ & E2 & _). now rewrite E1, E2. }
    destruct A as [w Hw|p Np Sp Rp|l Nl Fl|k v Ak Av].
    - cbn in Hw. destruct Hw as [<-|[<-|[<-|[<-|[<-|[]]]]]]; (split; [reflexivity|discriminate]).
    - split; [|exact (proj1 T)]. exact (Q (name_quiet u Sep p Sp)).
    - split; [|discriminate]. cbn [write]. rewrite span_app; [reflexivity|reflexivity|now right].
    - split; [|discriminate]. cbn [write]. rewrite span_app; [reflexivity|reflexivity|now right].
  Qed.
  Definition lead_of (l : list written) : text := concat (map (fun v => write v ++ [44; 32]) l).
  Lemma in_places l1 : forall start lead e w l2 r, Forall (angled u) (l1 ++ w :: l2) -> forallb space lead = true ->
    start + size lead + size (lead_of l1) <= r -> r < start + size lead + size (lead_of l1) + size (write w) ->
    fst (in_parts r e (places start lead (map write (l1 ++ w :: l2)))) = Some (head_name w).
  Proof.
    induction l1 as [|v l1 IH]; intros start lead e w l2 r F B H1 H2; cbn [app map places in_parts] in *; inversion F; subst.
    - rewrite size_app. change (size (lead_of [])) with 0 in H1, H2. rewrite (proj2 (Nat.leb_le _ _)), (proj2 (Nat.ltb_lt _ _)) by lia.
      destruct (base_type_head lead w B H3) as [-> N]. cbn [andb]. destruct (head_name w) eqn:E; [congruence|]. reflexivity.
    - unfold lead_of in H1, H2. cbn [map concat] in H1, H2. rewrite !size_app in H1, H2. change (size [44; 32]) with 2 in H1, H2. fold (lead_of l1) in H1, H2.
      rewrite size_app. replace (r <? start + (size lead + size (write v))) with false by (symmetry; apply Nat.ltb_ge; lia). rewrite andb_false_r. cbn [andb].
      apply IH; [assumption|reflexivity| |]; change (size [32]) with 1; lia.
  Qed.
  Lemma in_bracket_spec l1 w l2 r : Forall (angled u) (l1 ++ w :: l2) -> size (lead_of l1) <= r < size (lead_of l1) + size (write w) ->
    in_bracket (commas (map write (l1 ++ w :: l2))) r = Some (head_name w).
  Proof.
    intros F H. unfold in_bracket. rewrite split_positions_spec by exact F.
    pose proof (in_places l1 0 [] 0 w l2 r F eq_refl) as P. change (size []) with 0 in P. specialize (P ltac:(lia) ltac:(lia)).
    destruct (in_parts r 0 (places 0 [] (map write (l1 ++ w :: l2)))) as [o e]. cbn [fst] in P. now rewrite P.
  Qed.
  Lemma commas_lead l1 w l2 : exists q, commas (map write (l1 ++ w :: l2)) = lead_of l1 ++ write w ++ q.
  Proof.
    induction l1 as [|v l1 (q & IH)].
    - cbn [app map commas]. destruct l2 as [|x l2]; [exists []; now rewrite app_nil_r|]. eexists. cbn [map]. reflexivity.
    - exists q. cbn [app map]. destruct (l1 ++ w :: l2) as [|x y] eqn:E; [destruct l1; discriminate|]. cbn [map] in *.
      change (commas (write v :: write x :: map write y)) with (write v ++ 44 :: 32 :: commas (write x :: map write y)). rewrite IH.
      unfold lead_of. cbn [map concat]. rewrite <- !app_assoc. reflexivity.
  Qed.
End Types.

(** ** The line *)
Lemma bracket_none c r : c <> 91 -> bracket (c :: r) = None.
Proof. intros N. unfold bracket. do 91 (destruct c as [|c]; [reflexivity|]). destruct c; [congruence|reflexivity]. Qed.
Lemma type_from_pre pre : ~ In 91 pre -> forall cursor at_ t, type_from cursor at_ 0 (pre ++ t) = type_from cursor (at_ + size pre) 0 t.
Proof.
  induction pre as [|c pre IH]; intros N cursor at_ t; cbn [app]; [now rewrite Nat.add_0_r|]. cbn [type_from].
  rewrite bracket_none by (intros ->; apply N; now left). rewrite IH by (intros X; apply N; now right). now rewrite <- Nat.add_assoc.
Qed.
Lemma comment_start l : starts_hash (trim_start l) = comment l.
Proof.
  induction l as [|c l IH]; [reflexivity|]. cbn [trim_start comment]. destruct (space c); [exact IH|]. unfold starts_hash.
  do 36 (destruct c as [|c]; try reflexivity).
Qed.
Lemma comment_app a b : comment a = true -> comment (a ++ b) = true.
Proof. induction a as [|c a IH]; [discriminate|]. cbn [app comment]. destruct (space c); auto. Qed.
Lemma size_ascii t : Forall (fun c => c < 128) t -> size t = units t.
Proof.
  intros F. unfold size, units. f_equal. apply map_ext_in. intros c Hc. rewrite Forall_forall in F. specialize (F c Hc).
  unfold width, Text_Lib.u8, Text_Lib.u16. rewrite (proj2 (N.ltb_lt (N.of_nat c) 128)) by lia. destruct (N.ltb_spec (N.of_nat c) 65536); [reflexivity|lia].
Qed.
Lemma type_from_skip a : forall cursor at_ r, type_from cursor at_ (length a) (a ++ r) = type_from cursor (at_ + size a) 0 r.
Proof.
  induction a as [|c a IH]; intros cursor at_ r; [now rewrite Nat.add_0_r|]. cbn [length app type_from]. rewrite IH. change (size (c :: a)) with (width c + size a). now rewrite Nat.add_assoc.
Qed.
Lemma type_from_group g r cursor at_ : types_in g -> at_ + size g + 2 <= cursor -> type_from cursor at_ 0 (91 :: g ++ 93 :: r) = type_from cursor (at_ + size g + 2) 0 r.
Proof.
  intros G H. cbn [type_from]. rewrite bracket_app by exact G. replace (cursor <? at_ + size g + 2) with false by (symmetry; apply Nat.ltb_ge; exact H). rewrite andb_false_r.
  replace (length g + 1) with (length (g ++ [93])) by (rewrite app_length; reflexivity). change (g ++ 93 :: r) with (g ++ [93] ++ r). rewrite app_assoc, type_from_skip, size_app.
  change (size [93]) with 1. change (width 91) with 1. f_equal. lia.
Qed.
Definition grouped (groups : list (text * text)) : text := concat (map (fun g => 91 :: fst g ++ 93 :: snd g) groups).
Lemma type_from_groups groups : forall cursor at_ r, Forall (fun g => types_in (fst g) /\ ~ In 91 (snd g)) groups -> at_ + size (grouped groups) <= cursor ->
  type_from cursor at_ 0 (grouped groups ++ r) = type_from cursor (at_ + size (grouped groups)) 0 r.
Proof.
  induction groups as [|[g s] groups IH]; intros cursor at_ r F H; [cbn; now rewrite Nat.add_0_r|]. inversion F as [|? ? [G N] F']; subst. cbn [fst snd] in *.
  assert (Z : size (grouped ((g, s) :: groups)) = size g + 2 + size s + size (grouped groups)).
  { change (grouped ((g, s) :: groups)) with ((91 :: g ++ 93 :: s) ++ grouped groups). rewrite size_app. change (91 :: g ++ 93 :: s) with ([91] ++ g ++ [93] ++ s). rewrite !size_app.
    change (size [91]) with 1. change (size [93]) with 1. lia. }
  change (grouped ((g, s) :: groups) ++ r) with ((91 :: g ++ 93 :: s) ++ grouped groups ++ r) || replace (grouped ((g, s) :: groups) ++ r) with (91 :: g ++ 93 :: s ++ grouped groups ++ r).
  2:{ change (grouped ((g, s) :: groups)) with ((91 :: g ++ 93 :: s) ++ grouped groups). cbn [app]. now rewrite <- !app_assoc. }
  rewrite type_from_group; [|exact G|lia]. rewrite (type_from_pre s N), IH; [|exact F'|lia]. f_equal. lia.
Qed.
(** With the cursor anywhere on one of the types in brackets of a comment, be they the first brackets or later ones, the
    answer is the name this type begins with: the type itself but for its parameters. *)
Theorem C99_type_partial u pre groups l1 w l2 post x c y : separate u -> Forall (angled u) (l1 ++ w :: l2) ->
  let types := commas (map write (l1 ++ w :: l2)) in
  let before := pre ++ concat (map (fun g => 91 :: fst g ++ 93 :: snd g) groups) in
  comment pre = true -> ~ In 91 pre -> Forall (fun g => types_in (fst g) /\ ~ In 91 (snd g)) groups ->
  ~ In 93 types -> Forall (fun c => c < 128) (before ++ types) -> write w = x ++ c :: y ->
  type_at (before ++ 91 :: types ++ 93 :: post) (units (before ++ 91 :: concat (map (fun v => write v ++ [44; 32]) l1) ++ x)) = Some (head_name w).
Proof.
  intros S0 F types before C Np Gs Nt A E. fold (lead_of l1). destruct (commas_lead l1 w l2) as (q & Q). fold types in Q.
  apply Forall_app in A as [A1 A2]. assert (A3 := A2). rewrite Q in A3. apply Forall_app in A3 as [A3 A4]. apply Forall_app in A4 as [A4 _].
  assert (Aw := A4). rewrite E in A4. apply Forall_app in A4 as [A4 _].
  rewrite <- size_ascii.
  2:{ apply Forall_app. split; [exact A1|]. constructor; [lia|]. apply Forall_app. split; assumption. }
  unfold type_at. unfold before. fold (grouped groups). rewrite <- (app_assoc pre (grouped groups)), comment_start, (comment_app _ _ C), (type_from_pre pre Np).
  rewrite <- (app_assoc pre (grouped groups)). rewrite !size_app.
  rewrite type_from_groups; [|exact Gs|lia]. cbn [type_from].
  assert (Ti : types_in types).
  { split; [|exact Nt]. rewrite Q. intros X. apply app_eq_nil in X as [_ X]. apply app_eq_nil in X as [X _]. rewrite E in X. destruct x; discriminate. }
  rewrite bracket_app by exact Ti.
  replace (size (91 :: lead_of l1 ++ x)) with (1 + size (lead_of l1) + size x) by (change (91 :: lead_of l1 ++ x) with ([91] ++ lead_of l1 ++ x); rewrite !size_app; reflexivity).
  assert (W : size (write w) = size x + width c + size y).
  { rewrite E, size_app. change (size (c :: y)) with (width c + size y). lia. }
  pose proof (width_pos c) as Wc.
  assert (Z0 : size types = size (lead_of l1) + size (write w) + size q) by (rewrite Q, !size_app; lia).
  rewrite (proj2 (Nat.leb_le _ _)), (proj2 (Nat.ltb_lt _ _)) by lia. cbn [andb].
  unfold types. rewrite (in_bracket_spec u S0 l1 w l2); [reflexivity|exact F|lia].
Qed.
Print Assumptions C99_type_partial.
(** On the bracket that closes a single type, the answer is that type. *)
Theorem C99_closing_partial u pre w post : separate u -> angled u w -> comment pre = true -> ~ In 91 pre -> ~ In 93 (write w) ->
  Forall (fun c => c < 128) (pre ++ write w) -> type_at (pre ++ 91 :: write w ++ 93 :: post) (units (pre ++ 91 :: write w)) = Some (head_name w).
Proof.
  intros S0 Hw C Np Nt A. apply Forall_app in A as [A1 A2]. rewrite <- size_ascii by (apply Forall_app; split; [exact A1|constructor; [lia|exact A2]]).
  pose proof (written_not_nil u S0 w Hw) as Nw. pose proof (size_pos _ Nw) as P.
  unfold type_at. rewrite comment_start, (comment_app _ _ C), (type_from_pre pre Np). cbn [type_from]. rewrite bracket_app by (split; assumption). rewrite size_app.
  replace (size (91 :: write w)) with (1 + size (write w)) by reflexivity. rewrite (proj2 (Nat.leb_le _ _)), (proj2 (Nat.ltb_lt _ _)) by lia. cbn [andb].
  replace (0 + size pre + (1 + size (write w)) - (0 + size pre + 1)) with (size (write w)) by lia.
  replace (size pre + (1 + size (write w)) - (0 + size pre + 1)) with (size (write w)) by lia.
  assert (B : in_bracket (write w) (size (write w)) = Some (head_name w)); [|now rewrite B].
  unfold in_bracket. pose proof (split_positions_spec u S0 [w] (Forall_cons _ Hw (Forall_nil _))) as Sp. cbn [map commas places app] in Sp. rewrite Sp. cbn [in_parts].
  rewrite Nat.ltb_irrefl || replace (size (write w) <? 0 + size (write w)) with false by (symmetry; apply Nat.ltb_ge; lia). rewrite andb_false_r. cbn [andb].
  replace (0 + size (write w) <=? size (write w)) with true by (symmetry; apply Nat.leb_le; lia).
  destruct (base_type_head u S0 [] w eq_refl Hw) as [H N]. cbn [app] in H. rewrite H.
  assert (T1 : text_eqb (write w) [] = false) by (destruct (write w); [congruence|reflexivity]). assert (T2 : text_eqb (head_name w) [] = false) by (destruct (head_name w); [congruence|reflexivity]).
  now rewrite T1, T2.
Qed.
Print Assumptions C99_closing_partial.
(** There is no type outside a comment, and none in a comment without brackets. *)
Theorem C99_no_type line cursor : comment line = false \/ ~ In 91 line -> type_at line cursor = None.
Proof.
  unfold type_at. rewrite comment_start. intros [->|N]; [reflexivity|]. destruct (comment line); [|reflexivity].
  rewrite <- (app_nil_r line), (type_from_pre line N). reflexivity.
Qed.
Print Assumptions C99_no_type.

(** ** Corners *)
(** On the parameter of a type the answer is the type around it: on String in [Array<String>] it is Array. *)
Theorem C99_parameter_refuted : exists pre x y,
  write (WArray [str]) = x ++ write str ++ y /\ type_at (pre ++ 91 :: write (WArray [str]) ++ [93]) (units (pre ++ 91 :: x)) = Some w_Array /\ w_Array <> write str.
Proof. exists [35; 32], (w_Array ++ [60]), [62]. split; [reflexivity|]. split; [reflexivity|discriminate]. Qed.
Print Assumptions C99_parameter_refuted.
(** On String in [Hash{Symbol => String}, String], the second one, the answer is Hash: the arrow closes a bracket. *)
Theorem C99_after_map_refuted : exists pre, comment pre = true /\
  type_at (pre ++ 91 :: commas (map write [WMap [sym] [str]; str]) ++ [93]) (units (pre ++ 91 :: write (WMap [sym] [str]) ++ [44; 32])) = Some w_Hash.
Proof. exists [35; 32]. split; reflexivity. Qed.
Print Assumptions C99_after_map_refuted.
(** After letters outside ASCII, here six of them, the place is wrong: in [nil, String] the cursor on String finds nil,
    and the cursor on nil finds nothing. *)
Theorem C99_columns_refuted : exists pre, comment pre = true /\ ~ In 91 pre /\
  type_at (pre ++ 91 :: commas (map write [WNil; str]) ++ [93]) (units (pre ++ 91 :: commas [write WNil; []])) = Some w_nil /\
  type_at (pre ++ 91 :: commas (map write [WNil; str]) ++ [93]) (units (pre ++ [91])) = None.
Proof. exists [35; 32; 233; 233; 233; 233; 233; 233; 32]. split; [reflexivity|]. split; [cbn; intuition discriminate|]. split; reflexivity. Qed.
Print Assumptions C99_columns_refuted.

(** On the bracket that closes [nil, String], the answer is the text between the brackets, no name of a type. *)
Theorem C99_closing_refuted : exists pre, comment pre = true /\
  type_at (pre ++ 91 :: commas (map write [WNil; str]) ++ [93]) (units (pre ++ 91 :: commas (map write [WNil; str]))) = Some (commas (map write [WNil; str])).
Proof. exists [35; 32]. split; reflexivity. Qed.
Print Assumptions C99_closing_refuted.

(** ** A case *)
(** # @param x [nil, Array<Foo::Bar>, String] *)
Example C99_case : let pre := [32; 35; 32] ++ t_param ++ [32; 120; 32] in
  let line := pre ++ 91 :: commas (map write [WNil; WArray [str]; str]) ++ [93; 32; 46] in
  type_at line (length pre + 3) = Some w_nil /\ type_at line (length pre + 4) = None /\ type_at line (length pre + 8) = Some w_Array /\
  type_at line (length pre + 22) = Some (write str) /\ type_at line 3 = None.
Proof. repeat split; reflexivity. Qed.
(** # [Foo] x [nil, Array<Foo::Bar>] *)
Example C99_later_case : let pre := [35; 32] in let groups := [([70; 111; 111], [32; 120; 32])] in
  let line := pre ++ concat (map (fun g => 91 :: fst g ++ 93 :: snd g) groups) ++ 91 :: commas (map write [WNil; WArray [str]]) ++ [93] in
  Forall (fun g => types_in (fst g) /\ ~ In 91 (snd g)) groups /\ type_at line 4 = Some [70; 111; 111] /\ type_at line 12 = Some w_nil /\ type_at line 17 = Some w_Array.
Proof.
  cbv zeta. split; [|repeat split; reflexivity]. constructor; [|constructor]. split; [split; [discriminate|]|]; cbn; intuition discriminate.
Qed.
