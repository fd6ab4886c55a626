(** C98 The comment above a method is its documentation, and its tags say what they say. *)
From Coq Require Import List Arith Bool Lia.
From Verif Require Import Names_Model Names_Props Yard_Model Yard_Spec Yard_Proofs YardDoc_Model YardDoc_Spec YardDoc_Proofs.
Import ListNotations.

(** ** The comment *)
(** Lines end with a line feed, or with a carriage return and a line feed. *)
Theorem C98_lines (ls : list (text * bool)) rest : Forall (fun l : text * bool => ~ In 10 (fst l) /\ last (fst l) 0 <> 13) ls -> ~ In 10 rest ->
  lines (concat (map (fun l : text * bool => fst l ++ (if snd l then [13; 10] else [10])) ls) ++ rest) = map fst ls ++ match rest with [] => [] | _ => [rest] end.
Proof.
  intros F N. unfold lines.
  assert (G : forall t cur r, ~ In 10 t -> lines_from cur (t ++ r) = lines_from (cur ++ t) r).
  { induction t as [|c t IH]; intros cur r H; [now rewrite app_nil_r|]. cbn [app lines_from]. destruct (Nat.eqb_spec c 10) as [->|_]; [exfalso; apply H; now left|].
    rewrite IH by (intros X; apply H; now right). now rewrite <- app_assoc. }
  induction F as [|[l cr] ls (H1 & H2) F IH]; cbn [map concat app fst snd] in *.
  - rewrite <- (app_nil_r rest) at 1. rewrite G by exact N. cbn [app lines_from]. now destruct rest.
  - rewrite <- !app_assoc, G by exact H1. cbn [app]. destruct cr; cbn [app lines_from].
    + change (13 =? 10) with false. change (10 =? 10) with true. cbn iota. rewrite IH. f_equal. unfold strip_cr.
      assert (strip_last 13 (l ++ [13]) = Some l) as ->; [|reflexivity]. unfold strip_last. rewrite rev_app_distr. cbn. now rewrite rev_involutive.
    + change (10 =? 10) with true. cbn iota. rewrite IH. f_equal. unfold strip_cr.
      assert (strip_last 13 l = None) as ->; [|reflexivity]. unfold strip_last. destruct (rev l) as [|c t] eqn:E; [reflexivity|].
      apply (f_equal (@rev nat)) in E. rewrite rev_involutive in E. cbn in E. rewrite E, last_last in H2. destruct (Nat.eqb_spec 13 c), (Nat.eqb_spec c 13); congruence || reflexivity.
Qed.
Print Assumptions C98_lines.
(** The documentation of a method is read from the comments among the last lines before it that are comments or blank:
    all of these, in order, each with its line. *)
Theorem C98_attached before above block : lines before = above ++ block -> last_block above block ->
  collect before (newlines before) = Some (map (fun p => info_of (fst p) (snd p)) (comments above block)).
Proof. exact (collect_spec before above block). Qed.
Print Assumptions C98_attached.
(** What is read of a comment is what follows its hashes, without the blanks around it, and it stands where it is said
    to stand, in bytes. *)
Theorem C98_comment n l : comment l = true -> exists a k b c,
  l = a ++ repeat 35 (S k) ++ b ++ content (info_of n l) ++ c /\ blank a = true /\ blank b = true /\ blank c = true /\
  trimmed (content (info_of n l)) /\ (b = [] -> hd 0 (content (info_of n l)) <> 35) /\
  line_number (info_of n l) = n /\ content_start (info_of n l) = size (a ++ repeat 35 (S k) ++ b) /\ line_length (info_of n l) = size l.
Proof.
  intros C. destruct (info_spec n l C) as (a & k & b & c & H). exists a, k, b, c. intuition.
Qed.
Print Assumptions C98_comment.

(** ** The lines of a comment *)
Section Lines.
  Variable word : nat -> bool.
  Lemma is_tag_content i : is_tag i = true <-> exists r, content i = 64 :: r.
  Proof.
    unfold is_tag. destruct (content i) as [|c r]; [split; [discriminate|intros (r & H); discriminate]|].
    destruct (Nat.eq_dec c 64) as [->|N]; [split; [intros _; now exists r|reflexivity]|].
    split; [|intros (q & H); congruence]. intros H. exfalso. revert H.
    do 64 (destruct c as [|c]; [discriminate|]). destruct c; [congruence|discriminate].
  Qed.
  Lemma parse_from_cons d ds b i l : parse_from word d ds b (i :: l) =
    if is_tag i then parse_from word (parse_tag word d i) ds false l
    else match content i with [] => parse_from word d ds b l | _ => parse_from word d (if b then ds ++ [content i] else ds) b l end.
  Proof.
    cbn [parse_from]. unfold is_tag. destruct (content i) as [|c r]; [reflexivity|].
    do 65 (destruct c as [|c]; [reflexivity|]). reflexivity.
  Qed.
  Lemma parse_from_tags l : forall d ds b, fst (parse_from word d ds b l) = fold_left (parse_tag word) (filter is_tag l) d.
  Proof.
    induction l as [|i l IH]; intros d ds b; [reflexivity|]. rewrite parse_from_cons. cbn [filter]. destruct (is_tag i).
    - cbn [fold_left]. apply IH.
    - destruct (content i); apply IH.
  Qed.
  Lemma parse_from_closed l : forall d ds, snd (parse_from word d ds false l) = ds.
  Proof.
    induction l as [|i l IH]; intros d ds; [reflexivity|]. rewrite parse_from_cons. destruct (is_tag i); [apply IH|].
    destruct (content i); apply IH.
  Qed.
  Definition filled (i : info) : bool := match content i with [] => false | _ => true end.
  Lemma parse_from_open before rest : forallb (fun i => negb (is_tag i)) before = true -> (rest = [] \/ exists i r, rest = i :: r /\ is_tag i = true) ->
    forall d ds, snd (parse_from word d ds true (before ++ rest)) = ds ++ map content (filter filled before).
  Proof.
    intros N R. induction before as [|i before IH]; intros d ds; cbn [app].
    - cbn. rewrite app_nil_r. destruct R as [->|(i & r & -> & H)]; [reflexivity|]. rewrite parse_from_cons, H. apply parse_from_closed.
    - cbn [forallb] in N. apply andb_true_iff in N as [N1 N2]. apply negb_true_iff in N1. rewrite parse_from_cons, N1. cbn [filter]. unfold filled at 1.
      destruct (content i) as [|c t] eqn:E; rewrite (IH N2); [reflexivity|]. cbn [map]. rewrite E, <- app_assoc. reflexivity.
  Qed.
  Lemma parse_lines_parts l : let d := fold_left (parse_tag word) (filter is_tag l) empty_doc in
    parse_lines word l = mkDoc (params d) (options d) (returns d) (yield_params d) (yield_returns d) (raises d) (deprecated d) (unavailable d)
          (absent d) (match snd (parse_from word empty_doc [] true l) with [] => None | q => Some (join_blank q) end).
  Proof.
    intros d. unfold parse_lines. pose proof (parse_from_tags l empty_doc [] true) as E.
    destruct (parse_from word empty_doc [] true l) as [d' q]. cbn [fst snd] in E |- *. subst d'. destruct q; reflexivity.
  Qed.
  (** What a tag adds does not depend on the others. *)
  Definition or (a b : option text) : option text := match b with Some x => Some x | None => a end.
  Definition adds (d e r : doc) : Prop :=
    params r = params d ++ params e /\ options r = options d ++ options e /\ returns r = returns d ++ returns e /\
    yield_params r = yield_params d ++ yield_params e /\ yield_returns r = yield_returns d ++ yield_returns e /\
    raises r = raises d ++ raises e /\ deprecated r = or (deprecated d) (deprecated e) /\
    unavailable r = or (unavailable d) (unavailable e) /\ absent r = or (absent d) (absent e).
  Lemma parse_tag_adds d i : adds d (parse_tag word empty_doc i) (parse_tag word d i).
  Proof.
    unfold adds, parse_tag.
    repeat match goal with
    | |- context [match first_match ?f ?l with _ => _ end] =>
        lazymatch f with context [first_match] => fail | _ => destruct (first_match f l) as [[[[[? ?] ?] ?] ?]|] end
    end; cbn; rewrite ?app_nil_r; repeat split; reflexivity.
  Qed.
  Definition last_of (f : info -> option text) (l : list info) : option text := fold_left (fun a i => or a (f i)) l None.
  Lemma tags_fold l : forall d, let r := fold_left (parse_tag word) l d in
    let each {A} (f : doc -> list A) := flat_map (fun i => f (parse_tag word empty_doc i)) l in
    let final (f : doc -> option text) := fold_left (fun a i => or a (f (parse_tag word empty_doc i))) l in
    params r = params d ++ each params /\ options r = options d ++ each options /\ returns r = returns d ++ each returns /\
    yield_params r = yield_params d ++ each yield_params /\ yield_returns r = yield_returns d ++ each yield_returns /\
    raises r = raises d ++ each raises /\ deprecated r = final deprecated (deprecated d) /\
    unavailable r = final unavailable (unavailable d) /\ absent r = final absent (absent d).
  Proof.
    induction l as [|i l IH]; intros d; [cbn; rewrite !app_nil_r; repeat split; reflexivity|]. cbn [fold_left flat_map].
    destruct (IH (parse_tag word d i)) as (A1 & A2 & A3 & A4 & A5 & A6 & A7 & A8 & A9).
    destruct (parse_tag_adds d i) as (B1 & B2 & B3 & B4 & B5 & B6 & B7 & B8 & B9).
    rewrite A1, A2, A3, A4, A5, A6, A7, A8, A9, B1, B2, B3, B4, B5, B6, B7, B8, B9, !app_assoc. repeat split; reflexivity.
  Qed.
End Lines.
(** The description is the lines before the first tag, the empty ones left out, with a blank between them. *)
Theorem C98_description word before rest : forallb (fun i => negb (is_tag i)) before = true ->
  (rest = [] \/ exists i r, rest = i :: r /\ is_tag i = true) ->
  description (parse_lines word (before ++ rest)) =
    match map content (filter (fun i => negb (text_eqb (content i) [])) before) with [] => None | t :: l => Some (spaced t l) end.
Proof.
  assert (J : forall l t, join_blank (t :: l) = spaced t l).
  { induction l as [|x l IH]; intros t; unfold spaced; [now rewrite app_nil_r|]. change (join_blank (t :: x :: l)) with (t ++ 32 :: join_blank (x :: l)). now rewrite IH. }
  intros N R. rewrite parse_lines_parts. cbn [description]. rewrite (parse_from_open word before rest N R). cbn [app].
  replace (filter filled before) with (filter (fun i => negb (text_eqb (content i) [])) before); [destruct (map _ _); [reflexivity|now rewrite J]|].
  apply filter_ext. intros i. unfold filled. destruct (content i) as [|c t]; reflexivity.
Qed.
Print Assumptions C98_description.
(** Every tag counts, in order and whatever the others say; of two notes of deprecation or availability the later one
    stays. *)
Theorem C98_tags word l : let d := parse_lines word l in
  let each {A} (f : doc -> list A) := flat_map (fun i => f (parse_tag word empty_doc i)) (filter is_tag l) in
  let final (f : doc -> option text) := last_of (fun i => f (parse_tag word empty_doc i)) (filter is_tag l) in
  params d = each params /\ options d = each options /\ returns d = each returns /\ yield_params d = each yield_params /\
  yield_returns d = each yield_returns /\ raises d = each raises /\ deprecated d = final deprecated /\
  unavailable d = final unavailable /\ absent d = final absent.
Proof.
  cbv zeta. rewrite parse_lines_parts. cbn [params options returns yield_params yield_returns raises deprecated unavailable absent].
  exact (tags_fold word (filter is_tag l) empty_doc).
Qed.
Print Assumptions C98_tags.

(** ** Tags *)
Lemma name_type_none word tag at_ t : strip_prefix tag t = None -> name_type word tag at_ t = None.
Proof. unfold name_type. now intros ->. Qed.
Lemma alt_none word tag at_ t : strip_prefix tag t = None -> type_name_alt word tag at_ t = None.
Proof. unfold type_name_alt. now intros ->. Qed.
Lemma type_only_none tag at_ t : strip_prefix tag t = None -> type_only tag at_ t = None.
Proof. unfold type_only. now intros ->. Qed.
Lemma text_only_none tag at_ t : strip_prefix tag t = None -> text_only tag at_ t = None.
Proof. unfold text_only. now intros ->. Qed.
Lemma option_none word tag at_ t : strip_prefix tag t = None -> option_key word tag at_ t = None.
Proof. unfold option_key. intros H. now rewrite (name_type_none word tag at_ t H). Qed.
Ltac no_tag := intros at0 t0 H0;
  first [apply name_type_none; exact H0|apply alt_none; exact H0|apply type_only_none; exact H0|apply text_only_none; exact H0|apply option_none; exact H0].
Lemma hd_app_ne (a b : text) : a <> [] -> hd 0 (a ++ b) = hd 0 a.
Proof. destruct a; [congruence|reflexivity]. Qed.
Lemma named_hd word t : named word t -> word (hd 0 t) = true.
Proof. intros [N F]. destruct t; [congruence|]. cbn in *. now apply andb_true_iff in F as [F _]. Qed.
Lemma blanks_hd t : blanks t -> space (hd 0 t) = true.
Proof. intros [N F]. destruct t; [congruence|]. unfold blank in F. cbn in *. now apply andb_true_iff in F as [F _]. Qed.
Lemma letters_space word c : letters word -> space c = true -> word c = false.
Proof. intros L H. destruct (word c) eqn:E; [|reflexivity]. destruct (L c E). congruence. Qed.
Lemma letters_91 word : letters word -> word 91 = false.
Proof. intros L. destruct (word 91) eqn:E; [|reflexivity]. destruct (L _ E). congruence. Qed.
Lemma blank_no_at t : blank t = true -> ~ In 64 t.
Proof. unfold blank. rewrite forallb_forall. intros H X. specialize (H _ X). discriminate. Qed.

Section Shapes.
  Variable word : nat -> bool.
  Hypothesis L : letters word.
  Lemma name_type_shape tag at_ sp1 name sp2 types rest : blanks sp1 -> named word name -> blanks sp2 -> types_in types ->
    name_type word tag at_ (tag ++ sp1 ++ name ++ sp2 ++ 91 :: types ++ 93 :: rest) =
    Some (name, types, at_ + size (tag ++ sp1 ++ name ++ sp2) + 1, at_ + size (tag ++ sp1 ++ name ++ sp2) + 1 + size types, spaces rest).
  Proof.
    intros B1 W B2 T. unfold name_type. rewrite strip_prefix_app, spaces1_app; [|exact B1|].
    2:{ right. rewrite hd_app_ne by exact (proj1 W). destruct (L _ (named_hd _ _ W)) as [S0 _]. exact S0. }
    rewrite word1_app; [|exact W|].
    2:{ right. rewrite hd_app_ne by exact (proj1 B2). apply letters_space; [exact L|]. now apply blanks_hd. }
    rewrite spaces1_app; [|exact B2|now right]. rewrite bracket_app by exact T. unfold at_bracket.
    replace (size (tag ++ sp1 ++ name ++ sp2 ++ 91 :: types ++ 93 :: rest) - size (91 :: types ++ 93 :: rest)) with (size (tag ++ sp1 ++ name ++ sp2)); [reflexivity|].
    rewrite !size_app. lia.
  Qed.
  Lemma type_only_shape tag at_ sp types rest : blanks sp -> types_in types ->
    type_only tag at_ (tag ++ sp ++ 91 :: types ++ 93 :: rest) =
    Some ([], types, at_ + size (tag ++ sp) + 1, at_ + size (tag ++ sp) + 1 + size types, spaces rest).
  Proof.
    intros B T. unfold type_only. rewrite strip_prefix_app, spaces1_app; [|exact B|now right]. rewrite bracket_app by exact T. unfold at_bracket.
    replace (size (tag ++ sp ++ 91 :: types ++ 93 :: rest) - size (91 :: types ++ 93 :: rest)) with (size (tag ++ sp)); [reflexivity|].
    rewrite !size_app. lia.
  Qed.
  Lemma spaces_blank a b : blank a = true -> (b = [] \/ space (hd 0 b) = false) -> spaces (a ++ b) = b.
  Proof. intros A B. unfold spaces. rewrite span_app by assumption. reflexivity. Qed.
  Lemma alt_shape tag at_ sp1 types sp2 name rest : blank sp1 = true -> types_in types -> blank sp2 = true -> named word name ->
    (rest = [] \/ word (hd 0 rest) = false) ->
    type_name_alt word tag at_ (tag ++ sp1 ++ 91 :: types ++ 93 :: sp2 ++ name ++ rest) =
    Some (name, types, at_ + size (tag ++ sp1) + 1, at_ + size (tag ++ sp1) + 1 + size types, spaces rest).
  Proof.
    intros B1 T B2 W R. unfold type_name_alt. rewrite strip_prefix_app, spaces_blank; [|exact B1|now right]. rewrite bracket_app by exact T.
    rewrite spaces_blank; [|exact B2|]. 2:{ right. rewrite hd_app_ne by exact (proj1 W). destruct (L _ (named_hd _ _ W)) as [S0 _]. exact S0. }
    rewrite word1_app by assumption. unfold at_bracket.
    replace (size (tag ++ sp1 ++ 91 :: types ++ 93 :: sp2 ++ name ++ rest) - size (91 :: types ++ 93 :: sp2 ++ name ++ rest)) with (size (tag ++ sp1)); [reflexivity|].
    rewrite !size_app. lia.
  Qed.
  Lemma alt_name_type at_ tag sp1 x : blank sp1 = true -> name_type word tag at_ (tag ++ sp1 ++ 91 :: x) = None.
  Proof.
    intros B. unfold name_type. rewrite strip_prefix_app. destruct sp1 as [|c sp1]; [reflexivity|].
    rewrite spaces1_app; [|split; [discriminate|exact B]|now right].
    unfold word1. cbn [span_while]. rewrite (letters_91 word L). reflexivity.
  Qed.
End Shapes.

(** @param name [types] description. *)
Theorem C98_param word d i sp1 name sp2 types rest : letters word -> blanks sp1 -> named word name -> blanks sp2 -> types_in types ->
  content i = t_param ++ sp1 ++ name ++ sp2 ++ 91 :: types ++ 93 :: rest ->
  exists desc, says rest desc /\ parse_tag word d i =
    mkDoc (params d ++ [mkParam name (parse_type_list types) desc (line_number i)
             (Some (content_start i + size (t_param ++ sp1 ++ name ++ sp2),
                    content_start i + size (t_param ++ sp1 ++ name ++ sp2 ++ 91 :: types ++ [93])))])
          (options d) (returns d) (yield_params d) (yield_returns d) (raises d) (deprecated d) (unavailable d) (absent d) (description d).
Proof.
  intros L B1 W B2 T E. exists (non_empty rest). split; [apply non_empty_says|]. unfold parse_tag. rewrite E. unfold first_match.
  rewrite (search_head _ _ _ _ (name_type_shape word L t_param 0 sp1 name sp2 types rest B1 W B2 T)).
  unfold to_param. rewrite non_empty_spaces. do 5 f_equal. f_equal; [lia|].
  replace (t_param ++ sp1 ++ name ++ sp2 ++ 91 :: types ++ [93]) with ((t_param ++ sp1 ++ name ++ sp2) ++ [91] ++ types ++ [93]) by (rewrite <- !app_assoc; reflexivity).
  rewrite (size_app (t_param ++ sp1 ++ name ++ sp2)), !size_app. cbn. lia.
Qed.
Print Assumptions C98_param.
(** @param [types] name description. *)
Theorem C98_param_types_first word d i sp1 name sp2 types rest : letters word -> blank sp1 = true -> named word name -> blank sp2 = true -> types_in types ->
  (rest = [] \/ word (hd 0 rest) = false) -> ~ In 64 (types ++ name ++ rest) ->
  content i = t_param ++ sp1 ++ 91 :: types ++ 93 :: sp2 ++ name ++ rest ->
  exists desc, says rest desc /\ parse_tag word d i =
    mkDoc (params d ++ [mkParam name (parse_type_list types) desc (line_number i)
             (Some (content_start i + size (t_param ++ sp1), content_start i + size (t_param ++ sp1 ++ 91 :: types ++ [93])))])
          (options d) (returns d) (yield_params d) (yield_returns d) (raises d) (deprecated d) (unavailable d) (absent d) (description d).
Proof.
  intros L B1 W B2 T R N E. exists (non_empty rest). split; [apply non_empty_says|]. unfold parse_tag. rewrite E. unfold first_match.
  assert (Nt : ~ In 64 (tl (t_param ++ sp1 ++ 91 :: types ++ 93 :: sp2 ++ name ++ rest))).
  { cbn [t_param tl app]. intros X. repeat (destruct X as [X|X]; [discriminate|]). apply in_app_or in X as [X|X]; [exact (blank_no_at _ B1 X)|].
    destruct X as [X|X]; [discriminate|]. apply in_app_or in X as [X|X]; [apply N, in_or_app; now left|]. destruct X as [X|X]; [discriminate|].
    apply in_app_or in X as [X|X]; [exact (blank_no_at _ B2 X)|]. apply N, in_or_app. now right. }
  assert (S0 : search (name_type word t_param) 0 (t_param ++ sp1 ++ 91 :: types ++ 93 :: sp2 ++ name ++ rest) = None).
  { remember (sp1 ++ 91 :: types ++ 93 :: sp2 ++ name ++ rest) as q eqn:Q. change (t_param ++ q) with (64 :: (tl t_param ++ q)) in *. cbn [search].
    change (64 :: (tl t_param ++ q)) with (t_param ++ q). rewrite Q, alt_name_type by assumption. rewrite <- Q.
    cbn [tl] in Nt. apply (search_none (tl t_param)); [no_tag| |].
    - reflexivity.
    - intros X. apply Nt. change (tl t_param ++ q) with (112 :: (tl (tl t_param ++ q))). now right. }
  rewrite S0. rewrite (search_head _ _ _ _ (alt_shape word L t_param 0 sp1 types sp2 name rest B1 T B2 W R)).
  unfold to_param. rewrite non_empty_spaces. do 5 f_equal. f_equal; [lia|].
  replace (t_param ++ sp1 ++ 91 :: types ++ [93]) with ((t_param ++ sp1) ++ [91] ++ types ++ [93]) by (rewrite <- !app_assoc; reflexivity).
  rewrite (size_app (t_param ++ sp1)), !size_app. cbn. lia.
Qed.
Print Assumptions C98_param_types_first.

Lemma tag_no_at tag x : ~ In 64 (tl tag) -> tag <> [] -> ~ In 64 x -> ~ In 64 (tl (tag ++ x)).
Proof. intros A B C X. destruct tag as [|c t]; [congruence|]. cbn in *. apply in_app_or in X as [X|X]; auto. Qed.
Lemma shape_no_at sp types rest : blank sp = true -> ~ In 64 (types ++ rest) -> ~ In 64 (sp ++ 91 :: types ++ 93 :: rest).
Proof.
  intros B N X. apply in_app_or in X as [X|X]; [exact (blank_no_at _ B X)|]. destruct X as [X|X]; [discriminate|].
  apply in_app_or in X as [X|X]; [apply N, in_or_app; now left|]. destruct X as [X|X]; [discriminate|]. apply N, in_or_app. now right.
Qed.
Ltac literal := cbn; intuition discriminate.
Ltac skip_all N := repeat (rewrite (search_none (tl t_param) (name_type _ t_param)); [|no_tag|reflexivity|exact N] ||
  (rewrite (search_none (tl t_param) (type_name_alt _ t_param)); [|no_tag|reflexivity|exact N]) ||
  (rewrite (search_none (tl t_option) (option_key _ t_option)); [|no_tag|reflexivity|exact N]) ||
  (rewrite (search_none (tl t_return) (type_only t_return)); [|no_tag|reflexivity|exact N]) ||
  (rewrite (search_none (tl t_yieldparam) (name_type _ t_yieldparam)); [|no_tag|reflexivity|exact N]) ||
  (rewrite (search_none (tl t_yieldreturn) (type_only t_yieldreturn)); [|no_tag|reflexivity|exact N]) ||
  (rewrite (search_none (tl t_raise) (type_only t_raise)); [|no_tag|reflexivity|exact N]) ||
  (rewrite (search_none (tl t_deprecated) (text_only t_deprecated)); [|no_tag|reflexivity|exact N]) ||
  (rewrite (search_none (tl t_unavailable) (text_only t_unavailable)); [|no_tag|reflexivity|exact N])).
(** @option name [types] :key, on a line without another tag. *)
Theorem C98_option word d i sp1 name sp2 types sp3 key rest : letters word -> blanks sp1 -> named word name -> blanks sp2 -> types_in types -> blanks sp3 -> named word key ->
  (rest = [] \/ word (hd 0 rest) = false) -> ~ In 64 (name ++ types ++ key ++ rest) ->
  content i = t_option ++ sp1 ++ name ++ sp2 ++ 91 :: types ++ 93 :: sp3 ++ 58 :: key ++ rest ->
  parse_tag word d i = mkDoc (params d) (options d ++ [(name, key, parse_type_list types)]) (returns d) (yield_params d) (yield_returns d) (raises d) (deprecated d) (unavailable d) (absent d) (description d).
Proof.
  intros L B1 W B2 T B3 K R N E. unfold parse_tag. rewrite E. unfold first_match.
  assert (Nt : ~ In 64 (tl (t_option ++ sp1 ++ name ++ sp2 ++ 91 :: types ++ 93 :: sp3 ++ 58 :: key ++ rest))).
  { apply tag_no_at; [literal|discriminate|]. intros X. apply in_app_or in X as [X|X]; [exact (blank_no_at _ (proj2 B1) X)|].
    apply in_app_or in X as [X|X]; [apply N, in_or_app; now left|]. apply in_app_or in X as [X|X]; [exact (blank_no_at _ (proj2 B2) X)|]. destruct X as [X|X]; [discriminate|].
    apply in_app_or in X as [X|X]; [apply N, in_or_app; right; apply in_or_app; now left|]. destruct X as [X|X]; [discriminate|].
    apply in_app_or in X as [X|X]; [exact (blank_no_at _ (proj2 B3) X)|]. destruct X as [X|X]; [discriminate|]. apply N, in_or_app. right. apply in_or_app. now right. }
  rewrite (search_none (tl t_param) (name_type word t_param)); [|no_tag|reflexivity|exact Nt].
  rewrite (search_none (tl t_param) (type_name_alt word t_param)); [|no_tag|reflexivity|exact Nt].
  assert (O : option_key word t_option 0 (t_option ++ sp1 ++ name ++ sp2 ++ 91 :: types ++ 93 :: sp3 ++ 58 :: key ++ rest) =
    Some (name, types, 0 + size (t_option ++ sp1 ++ name ++ sp2) + 1, 0 + size (t_option ++ sp1 ++ name ++ sp2) + 1 + size types, key)).
  { unfold option_key. rewrite (name_type_shape word L t_option 0 sp1 name sp2 types _ B1 W B2 T), strip_prefix_app.
    assert (H1 : space (hd 0 name) = false) by (destruct (L _ (named_hd _ _ W)); assumption).
    rewrite spaces1_app; [|exact B1|right; rewrite hd_app_ne by exact (proj1 W); exact H1].
    rewrite word1_app; [|exact W|]. 2:{ right. destruct B2 as [Nb B2]. destruct sp2 as [|c sp2]; [congruence|]. cbn in B2 |- *. apply andb_true_iff in B2 as [B2 _].
      destruct (word c) eqn:Wc; [|reflexivity]. destruct (L c Wc). congruence. }
    rewrite spaces1_app; [|exact B2|now right]. rewrite bracket_app by exact T. rewrite spaces1_app; [|exact B3|now right]. now rewrite word1_app. }
  now rewrite (search_head _ _ _ _ O).
Qed.
Print Assumptions C98_option.
(** @return [types] description, on a line without another tag. *)
Theorem C98_return word d i sp types rest : blanks sp -> types_in types -> ~ In 64 (types ++ rest) ->
  content i = t_return ++ sp ++ 91 :: types ++ 93 :: rest ->
  exists desc, says rest desc /\ parse_tag word d i =
    mkDoc (params d) (options d)
          (returns d ++ [mkParam [] (parse_type_list types) desc (line_number i)
             (Some (content_start i + size (t_return ++ sp), content_start i + size (t_return ++ sp ++ 91 :: types ++ [93])))])
          (yield_params d) (yield_returns d) (raises d) (deprecated d) (unavailable d) (absent d) (description d).
Proof.
  intros B T N E. exists (non_empty rest). split; [apply non_empty_says|]. unfold parse_tag. rewrite E. unfold first_match.
  assert (Nt : ~ In 64 (tl (t_return ++ sp ++ 91 :: types ++ 93 :: rest))) by (apply tag_no_at; [literal|discriminate|now apply shape_no_at; [apply (proj2 B)|]]).
  skip_all Nt.
  rewrite (search_head _ _ _ _ (type_only_shape t_return 0 sp types rest B T)).
  unfold to_param. rewrite non_empty_spaces. do 5 f_equal. f_equal; [lia|].
  replace (t_return ++ sp ++ 91 :: types ++ [93]) with ((t_return ++ sp) ++ [91] ++ types ++ [93]) by (rewrite <- !app_assoc; reflexivity).
  rewrite (size_app (t_return ++ sp)), !size_app. cbn. lia.
Qed.
Print Assumptions C98_return.
(** @yieldparam name [types] description and @yieldreturn [types] description, on a line without another tag. *)
Theorem C98_yieldparam word d i sp1 name sp2 types rest : letters word -> blanks sp1 -> named word name -> blanks sp2 -> types_in types ->
  ~ In 64 (name ++ types ++ rest) -> content i = t_yieldparam ++ sp1 ++ name ++ sp2 ++ 91 :: types ++ 93 :: rest ->
  exists desc, says rest desc /\ parse_tag word d i =
    mkDoc (params d) (options d) (returns d) (yield_params d ++ [mkParam name (parse_type_list types) desc (line_number i) None])
          (yield_returns d) (raises d) (deprecated d) (unavailable d) (absent d) (description d).
Proof.
  intros L B1 W B2 T N E. exists (non_empty rest). split; [apply non_empty_says|]. unfold parse_tag. rewrite E. unfold first_match.
  assert (Nt : ~ In 64 (tl (t_yieldparam ++ sp1 ++ name ++ sp2 ++ 91 :: types ++ 93 :: rest))).
  { apply tag_no_at; [literal|discriminate|]. intros X. apply in_app_or in X as [X|X]; [exact (blank_no_at _ (proj2 B1) X)|].
    apply in_app_or in X as [X|X]; [apply N, in_or_app; now left|]. revert X. apply shape_no_at; [exact (proj2 B2)|].
    intros X. apply N, in_or_app. now right. }
  skip_all Nt. rewrite (search_head _ _ _ _ (name_type_shape word L t_yieldparam 0 sp1 name sp2 types rest B1 W B2 T)).
  unfold to_param. rewrite non_empty_spaces. reflexivity.
Qed.
Print Assumptions C98_yieldparam.
Theorem C98_yieldreturn word d i sp types rest : blanks sp -> types_in types -> ~ In 64 (types ++ rest) ->
  content i = t_yieldreturn ++ sp ++ 91 :: types ++ 93 :: rest ->
  exists desc, says rest desc /\ parse_tag word d i =
    mkDoc (params d) (options d) (returns d) (yield_params d) (yield_returns d ++ [mkParam [] (parse_type_list types) desc (line_number i) None])
          (raises d) (deprecated d) (unavailable d) (absent d) (description d).
Proof.
  intros B T N E. exists (non_empty rest). split; [apply non_empty_says|]. unfold parse_tag. rewrite E. unfold first_match.
  assert (Nt : ~ In 64 (tl (t_yieldreturn ++ sp ++ 91 :: types ++ 93 :: rest))) by (apply tag_no_at; [literal|discriminate|now apply shape_no_at; [apply (proj2 B)|]]).
  skip_all Nt. rewrite (search_head _ _ _ _ (type_only_shape t_yieldreturn 0 sp types rest B T)).
  unfold to_param. rewrite non_empty_spaces. reflexivity.
Qed.
Print Assumptions C98_yieldreturn.
(** @raise [types]. *)
Theorem C98_raise word d i sp types rest : blanks sp -> types_in types -> ~ In 64 (types ++ rest) ->
  content i = t_raise ++ sp ++ 91 :: types ++ 93 :: rest ->
  parse_tag word d i = mkDoc (params d) (options d) (returns d) (yield_params d) (yield_returns d) (raises d ++ [types])
                             (deprecated d) (unavailable d) (absent d) (description d).
Proof.
  intros B T N E. unfold parse_tag. rewrite E. unfold first_match.
  assert (Nt : ~ In 64 (tl (t_raise ++ sp ++ 91 :: types ++ 93 :: rest))) by (apply tag_no_at; [literal|discriminate|now apply shape_no_at; [apply (proj2 B)|]]).
  skip_all Nt. rewrite (search_head _ _ _ _ (type_only_shape t_raise 0 sp types rest B T)). reflexivity.
Qed.
Print Assumptions C98_raise.
(** @deprecated, @unavailable and @absent, each with its reason. *)
Theorem C98_marks word d i reason : ~ In 64 reason ->
  (content i = t_deprecated ++ reason -> parse_tag word d i =
     mkDoc (params d) (options d) (returns d) (yield_params d) (yield_returns d) (raises d) (Some (trim reason)) (unavailable d) (absent d) (description d)) /\
  (content i = t_unavailable ++ reason -> parse_tag word d i =
     mkDoc (params d) (options d) (returns d) (yield_params d) (yield_returns d) (raises d) (deprecated d) (Some (trim reason)) (absent d) (description d)) /\
  (content i = t_absent ++ reason -> parse_tag word d i =
     mkDoc (params d) (options d) (returns d) (yield_params d) (yield_returns d) (raises d) (deprecated d) (unavailable d) (Some (trim reason)) (description d)).
Proof.
  intros N. assert (G : forall tag at_, text_only tag at_ (tag ++ reason) = Some ([], [], at_, at_, spaces reason)) by (intros; unfold text_only; now rewrite strip_prefix_app).
  assert (R : YardDoc_Model.reason (spaces reason) = Some (trim reason)) by (unfold YardDoc_Model.reason; now rewrite spaces_trim, trim_trim_start).
  split; [|split]; intros E; unfold parse_tag; rewrite E; unfold first_match.
  - assert (Nt : ~ In 64 (tl (t_deprecated ++ reason))) by (apply tag_no_at; [literal|discriminate|exact N]).
    skip_all Nt. rewrite (search_head _ _ _ _ (G t_deprecated 0)), R. reflexivity.
  - assert (Nt : ~ In 64 (tl (t_unavailable ++ reason))) by (apply tag_no_at; [literal|discriminate|exact N]).
    skip_all Nt. rewrite (search_head _ _ _ _ (G t_unavailable 0)), R. reflexivity.
  - assert (Nt : ~ In 64 (tl (t_absent ++ reason))) by (apply tag_no_at; [literal|discriminate|exact N]).
    skip_all Nt. rewrite (search_head _ _ _ _ (G t_absent 0)), R. reflexivity.
Qed.
Print Assumptions C98_marks.

(** ** Availability *)
Lemma last_of_some f l : last_of f l <> None <-> exists i, In i l /\ f i <> None.
Proof.
  unfold last_of. assert (G : forall a, fold_left (fun a i => or a (f i)) l a <> None <-> a <> None \/ exists i, In i l /\ f i <> None).
  { induction l as [|i l IH]; intros a; cbn [fold_left]; [split; [auto|intros [H|(i & [] & _)]; exact H]|]. rewrite IH. unfold or. split.
    - intros [H|(j & Hj & H)]; [|right; exists j; split; [now right|exact H]].
      destruct (f i) eqn:E; [right; exists i; split; [now left|congruence]|now left].
    - intros [H|(j & [<-|Hj] & H)].
      + left. destruct (f i); [discriminate|exact H].
      + left. destruct (f i); [discriminate|congruence].
      + right. now exists j. }
  rewrite G. split; [intros [H|H]; [congruence|exact H]|now right].
Qed.
(** The analysis of a file stops with a panic at exactly those methods whose comment marks them both unavailable and
    absent. *)
Theorem C98_availability_refuted word l :
  availability_of (parse_lines word l) = None <->
  (exists i, In i l /\ is_tag i = true /\ unavailable (parse_tag word empty_doc i) <> None) /\
  (exists i, In i l /\ is_tag i = true /\ absent (parse_tag word empty_doc i) <> None).
Proof.
  assert (G : forall f, (exists i, In i (filter is_tag l) /\ f i <> None) <-> (exists i : info, In i l /\ is_tag i = true /\ f i <> (None : option text))).
  { intros f. split; intros (i & H); exists i; rewrite filter_In in *; tauto. }
  rewrite <- (G (fun i => unavailable (parse_tag word empty_doc i))), <- (G (fun i => absent (parse_tag word empty_doc i))), <- !last_of_some.
  destruct (C98_tags word l) as (_ & _ & _ & _ & _ & _ & _ & <- & <-). unfold availability_of.
  destruct (unavailable (parse_lines word l)), (absent (parse_lines word l)); split; try discriminate; try reflexivity;
    try (intros [A B]; congruence). intros _. split; discriminate.
Qed.
Print Assumptions C98_availability_refuted.
(** Otherwise a method is unavailable, absent or neither as the last such mark says, with the reason it gives. *)
Theorem C98_availability word l a : availability_of (parse_lines word l) = Some a <->
  match a with
  | Unavailable why => unavailable (parse_lines word l) = Some why /\ absent (parse_lines word l) = None
  | Absent why => absent (parse_lines word l) = Some why /\ unavailable (parse_lines word l) = None
  | Available => unavailable (parse_lines word l) = None /\ absent (parse_lines word l) = None
  end.
Proof.
  unfold availability_of. destruct (unavailable (parse_lines word l)) as [r|], (absent (parse_lines word l)) as [q|]; destruct a as [|y|y]; split;
    try discriminate; try (intros [X Y]; discriminate); try (intros [= ->]; auto); try (intros [X Y]; congruence); auto.
Qed.
Print Assumptions C98_availability.

(** ** Corners *)
Definition ascii_word (c : nat) : bool := ((48 <=? c) && (c <=? 57)) || ((65 <=? c) && (c <=? 90)) || ((97 <=? c) && (c <=? 122)) || (c =? 95) || (128 <=? c).
Example ascii_letters : letters ascii_word.
Proof.
  intros c H. split.
  - unfold space. apply orb_false_iff. rewrite Nat.eqb_neq, andb_false_iff, !Nat.leb_gt. unfold ascii_word in H.
    rewrite !orb_true_iff, !andb_true_iff, !Nat.leb_le, Nat.eqb_eq in H. lia.
  - intros ->. discriminate.
Qed.
(** # @unavailable and # @absent above one method. *)
Example C98_panic_case : exists d, doc_of ascii_word ([35; 32] ++ t_unavailable ++ [10; 35; 32] ++ t_absent ++ [10; 32; 32]) 2 = Some d /\ availability_of d = None.
Proof. eexists. split; reflexivity. Qed.
(** A method defined after other code on its line, as in [private def name], has no documentation, whatever comment
    stands above that line. *)
Theorem C98_modifier_refuted above code : comment code = false -> blank code = false -> ~ In 10 code -> above <> [] -> last above 0 = 10 ->
  collect (above ++ code) (newlines (above ++ code)) = Some [].
Proof.
  intros C B N A E.
  assert (G : forall t cur, t <> [] -> last t 0 = 10 -> exists ls, lines_from cur (t ++ code) = ls ++ lines_from [] code).
  { clear A E. induction t as [|c t IH]; intros cur Nt E; [congruence|]. cbn [app lines_from]. destruct t as [|c' t].
    - cbn in E. subst c. change (10 =? 10) with true. cbn [app]. eexists [_]. reflexivity.
    - destruct (c =? 10).
      + destruct (IH [] ltac:(discriminate) E) as (ls & H). exists (strip_cr cur :: ls). now rewrite H.
      + exact (IH (cur ++ [c]) ltac:(discriminate) E). }
  assert (Q : forall t cur, cur ++ t <> [] -> ~ In 10 t -> lines_from cur t = [cur ++ t]).
  { clear. induction t as [|c t IH]; intros cur Ne N; cbn [lines_from]; [rewrite app_nil_r in *; destruct cur; [congruence|reflexivity]|].
    rewrite (proj2 (Nat.eqb_neq c 10)) by (intros ->; apply N; now left). rewrite IH; [now rewrite <- app_assoc| |intros X; apply N; now right].
    destruct cur; discriminate. }
  destruct (G above [] A E) as (ls & H). rewrite (Q code []) in H; [|destruct code; [discriminate|discriminate]|exact N]. cbn [app] in H.
  rewrite (C98_attached (above ++ code) (ls ++ [code]) []); [reflexivity|unfold lines; rewrite app_nil_r; exact H|].
  split; [constructor|]. right. exists ls, code. auto.
Qed.
Print Assumptions C98_modifier_refuted.
(** # doc and then [private ]. *)
Example C98_modifier_case : collect ([35; 32; 100; 111; 99; 10] ++ [112; 114; 105; 118; 97; 116; 101; 32]) 1 = Some [].
Proof. reflexivity. Qed.
(** A comment is not cut off from a method by blank lines, however many: the notice at the head of a file documents
    the first method. *)
Theorem C98_blank_lines_refuted n : collect ([35; 97] ++ repeat 10 (S n)) (S n) = Some [mkInfo [97] 0 1 2].
Proof.
  assert (L : forall k, lines_from [] (repeat 10 k) = repeat [] k) by (intros k; induction k as [|k IH]; [reflexivity|]; cbn [repeat lines_from]; change (10 =? 10) with true; cbn [app]; now rewrite IH).
  assert (W : forall k, newlines (repeat 10 k) = k) by (intros k; induction k as [|k IH]; [reflexivity|]; unfold newlines in *; cbn; now rewrite IH).
  replace (collect ([35; 97] ++ repeat 10 (S n)) (S n)) with (collect ([35; 97] ++ repeat 10 (S n)) (newlines ([35; 97] ++ repeat 10 (S n)))).
  - rewrite (C98_attached _ [] ([35; 97] :: repeat [] n)).
    + unfold comments. cbn [length seq combine filter snd comment space app]. change (if comment [35; 97] then ?a else ?b) with a. cbn [map fst snd]. f_equal.
      change (info_of 0 [35; 97]) with (mkInfo [97] 0 1 2). f_equal.
      assert (Z0 : forall k a, filter (fun p : nat * text => comment (snd p)) (combine (seq a k) (repeat [] k)) = []) by (intros k; induction k as [|k IH]; intros a; [reflexivity|apply IH]).
      rewrite repeat_length. now rewrite Z0.
    + cbn [app repeat lines lines_from]. unfold lines. cbn [lines_from Nat.eqb app]. now rewrite L.
    + split; [|now left]. constructor; [now left|]. apply Forall_forall. intros l Hl. apply repeat_spec in Hl. subst. now right.
  - f_equal. change ([35; 97] ++ repeat 10 (S n)) with ([35] ++ [97] ++ repeat 10 (S n)). unfold newlines. rewrite !count_occ_app. cbn [count_occ Nat.eq_dec]. exact (W (S n)).
Qed.
Print Assumptions C98_blank_lines_refuted.
(** @not @return [X] is taken for the type of the result. *)
Theorem C98_mention_refuted : exists note, In 110 note /\
  returns (parse_lines ascii_word [mkInfo (64 :: note ++ 32 :: t_return ++ [32; 91; 88; 93]) 0 2 30]) =
    [mkParam [] [[88]] None 0 (Some (2 + 5 + 8, 2 + 5 + 11))].
Proof. exists [110; 111; 116]. split; [now left|reflexivity]. Qed.
Print Assumptions C98_mention_refuted.
(** In @param é [X] the types are said to begin a column after the bracket: the columns count bytes, the editor counts
    units. *)
Theorem C98_columns_refuted : exists before after,
  units before <> size before /\
  params (parse_lines ascii_word [info_of 0 (before ++ after)]) = [mkParam [233] [[88]] None 0 (Some (size before, size before + 3))] /\
  hd 0 after = 91.
Proof. exists ([35; 32] ++ t_param ++ [32; 233; 32]), [91; 88; 93]. split; [vm_compute; discriminate|split; reflexivity]. Qed.
Print Assumptions C98_columns_refuted.

(** ** A case *)
(** Sums, @param n [Integer, nil] count, @return [String], above an indented method. *)
Definition w_count : text := [99; 111; 117; 110; 116].
Definition source : text :=
  [120; 10] ++ [32; 35; 32; 83; 117; 109; 115; 10] ++ ([32; 35; 32] ++ t_param ++ [32; 110; 32; 91] ++ w_Integer ++ [44; 32] ++ w_nil ++ [93; 32] ++ w_count ++ [10]) ++
  [10] ++ ([32; 35; 35; 32] ++ t_return ++ [32; 91; 88; 93; 13; 10]) ++ [32].
Example C98_case : doc_of ascii_word source (newlines source) = Some (mkDoc
  [mkParam [110] [w_Integer; w_nil] (Some w_count) 2 (Some (12, 26))] [] [mkParam [] [[88]] None 4 (Some (12, 15))] [] [] [] None None None (Some [83; 117; 109; 115])).
Proof. reflexivity. Qed.
