(** Semantic tokens: the theorems. *)
From Coq Require Import List Arith NArith Bool Lia Sorting.Sorted.
From Verif Require Import Text_Lib Position_Model Position_Spec Position_Proofs Tokens_Model Tokens_Spec Tokens_Proofs.
Import ListNotations.

(** For a tree written in visiting order, nothing panics, in either build profile, and the editor decodes
    exactly the tree's tokens, in the order of the text, each with its position, length, kind and
    modifiers.  (Trees written otherwise are excluded; the refutations below say why.) *)
Theorem C49_tokens_partial : forall special checked t n, short t -> laid_out t n ->
  exists out marks, semantic_tokens special checked t n = Some out /\
    Forall2 (shown t) marks (decode 0 0 out) /\
    (forall m, In m marks <-> has_token special t n m) /\
    StronglySorted before marks.
Proof.
  intros special checked t n H L. destruct (all_fit n t L) as [O C].
  destruct (performs_ok special checked t H (visit n) _ _ init [] t 0 0 O C eq_refl (Nat.le_0_l _)) as (out & cur & E & F).
  - exists []. split; [|reflexivity]. exists []. repeat split; [now left|easy].
  - reflexivity.
  - exists out, (flat_map (resolve special t) (visit n)). unfold semantic_tokens. rewrite E. split; [reflexivity|]. split; [exact F|].
    split; [now apply marks|]. apply (resolve_order special t) in O. now apply order_sorted in O.
Qed.
Print Assumptions C49_tokens_partial.

(** The stream the visitor sends for any tokens written one after the other, whatever tree they come
    from. *)
Theorem C49_stream : forall checked t l lo hi, short t ->
  Forall (fun m => covers t (fst (fst m))) l -> in_order lo (map (fun m => fst (fst m)) l) hi ->
  exists st, performs (fun _ => false) checked t init (map (fun m : marked => Add (fst (fst m)) (snd (fst m)) (snd m)) l) = Some st /\
    Forall2 (shown t) l (decode 0 0 (tokens st)).
Proof.
  intros checked t l lo hi H C O. set (acts := map (fun m : marked => Add (fst (fst m)) (snd (fst m)) (snd m)) l).
  assert (map span_of acts = map (fun m => fst (fst m)) l) as E1 by (unfold acts; rewrite map_map; reflexivity).
  assert (flat_map (resolve (fun _ => false) t) acts = l) as E2.
  { unfold acts. clear. induction l as [|[[s k] ms] l IH]; auto. cbn [map flat_map resolve app fst snd]. now rewrite IH. }
  destruct (performs_ok (fun _ => false) checked t H acts lo hi init [] t 0 0) as (out & cur & E & F).
  - now rewrite E1.
  - unfold acts. apply Forall_map. exact C.
  - reflexivity.
  - apply Nat.le_0_l.
  - exists []. split; [|reflexivity]. exists []. repeat split; [now left|easy].
  - reflexivity.
  - eexists. split; [exact E|]. rewrite E2 in F. exact F.
Qed.
Print Assumptions C49_stream.

(** No marks are shown by a stream whose decoding leaves the text's lines or columns. *)
Lemma shown_bounds t m line ch tok : shown t m (line, ch, tok) -> (line <= N.of_nat (size t) /\ ch <= N.of_nat (size t))%N.
Proof.
  destruct m as [[loc k] ms]. intros (a & w & b & -> & _ & (l & c & P & -> & ->) & _).
  destruct P as (m & (x & -> & _ & _) & E). injection E as -> ->. pose proof (breaks_size (x ++ m)). pose proof (units_le_size m).
  rewrite !size_app in *. lia.
Qed.

(** [!x]: a prefix operator's message is written before its receiver but visited after it.  A build with
    overflow checks panics; one without sends a start of nearly 2^32, at which nothing is. *)
Definition not_x : text := [33; 120]%N.
Definition not_x_tree : node :=
  Node (0, 2) (Call [Node (1, 2) (Call [] (Some (1, 2)) [] [])] (Some (0, 1)) [] []).
Theorem C49_prefix_operator_refuted : forall special, semantic_tokens special true not_x not_x_tree = None /\
  exists out, semantic_tokens special false not_x not_x_tree = Some out /\
    forall marks, ~ Forall2 (shown not_x) marks (decode 0 0 out).
Proof.
  intros special.
  assert (forall c, exists k1 k2 n, semantic_tokens special c not_x not_x_tree =
    match sub32 c 0 1 with None => None | Some d => Some [Token 0 1 n (token_type_to_index k1) 0; Token 0 d 1 (token_type_to_index k2) 0] end) as H.
  { intros c. unfold semantic_tokens, not_x_tree. cbn [visit app performs perform fst snd].
    change (slice not_x 1 2) with (Some [120%N]). change (slice not_x 0 1) with (Some [33%N]). unfold message_kind. cbn [starts_with_bracket N.eqb Pos.eqb open_bracket andb].
    exists (if special [120%N] then Macro else Method), (if special [33%N] then Macro else Method), 1%N.
    destruct (special [120%N]), (special [33%N]); destruct c; reflexivity. }
  split.
  - destruct (H true) as (k1 & k2 & n & ->). reflexivity.
  - destruct (H false) as (k1 & k2 & n & ->). cbn [sub32 N.leb N.compare]. eexists. split; [reflexivity|]. intros marks F.
    cbn [decode delta_line delta_start N.eqb N.add Pos.add Pos.eqb] in F. inversion F as [|m p l r S1 F1 E1 E2]; subst.
    inversion F1 as [|m' p' l' r' S2 F2 E1 E2]; subst. apply shown_bounds in S2. destruct S2 as [_ S2]. revert S2. vm_compute. intros S2. now apply S2.
Qed.
Print Assumptions C49_prefix_operator_refuted.

(** [f while g]: prism's while node lists the condition first. *)
Definition f_while_g : text := [102; 32; 119; 104; 105; 108; 101; 32; 103]%N.
Definition f_while_g_tree : node :=
  Node (0, 9) (Other [Node (8, 9) (Call [] (Some (8, 9)) [] []); Node (0, 1) (Other [Node (0, 1) (Call [] (Some (0, 1)) [] [])])]).
Theorem C49_trailing_condition_refuted : forall special, semantic_tokens special true f_while_g f_while_g_tree = None /\
  exists out, semantic_tokens special false f_while_g f_while_g_tree = Some out /\
    forall marks, ~ Forall2 (shown f_while_g) marks (decode 0 0 out).
Proof.
  intros special.
  assert (forall c, exists k1 k2, semantic_tokens special c f_while_g f_while_g_tree =
    match sub32 c 0 8 with None => None | Some d => Some [Token 0 8 1 (token_type_to_index k1) 0; Token 0 d 1 (token_type_to_index k2) 0] end) as H.
  { intros c. unfold semantic_tokens, f_while_g_tree. cbn [visit app performs perform fst snd].
    change (slice f_while_g 8 9) with (Some [103%N]). change (slice f_while_g 0 1) with (Some [102%N]). unfold message_kind. cbn [starts_with_bracket N.eqb Pos.eqb open_bracket andb].
    exists (if special [103%N] then Macro else Method), (if special [102%N] then Macro else Method).
    destruct (special [103%N]), (special [102%N]); destruct c; vm_compute; reflexivity. }
  split.
  - destruct (H true) as (k1 & k2 & ->). reflexivity.
  - destruct (H false) as (k1 & k2 & ->). cbn [sub32 N.leb N.compare]. eexists. split; [reflexivity|]. intros marks F.
    cbn [decode delta_line delta_start N.eqb N.add Pos.add Pos.eqb] in F. inversion F as [|m p l r S1 F1 E1 E2]; subst.
    inversion F1 as [|m' p' l' r' S2 F2 E1 E2]; subst. apply shown_bounds in S2. destruct S2 as [_ S2]. revert S2. vm_compute. intros S2. now apply S2.
Qed.
Print Assumptions C49_trailing_condition_refuted.

(** [f <<A,g] with [#{x}] in the here-document: the body, on the next line, is visited before [g]. *)
Definition heredoc : text := [102; 32; 60; 60; 65; 44; 103; 10; 35; 123; 120; 125; 10; 65; 10]%N.
Definition heredoc_tree : node :=
  Node (0, 7) (Call [] (Some (0, 1)) [Node (2, 5) (Other [Node (8, 12) (Other [Node (10, 11) (Call [] (Some (10, 11)) [] [])])]);
                                      Node (6, 7) (Call [] (Some (6, 7)) [] [])] []).
Theorem C49_heredoc_refuted : forall special, semantic_tokens special true heredoc heredoc_tree = None /\
  exists out, semantic_tokens special false heredoc heredoc_tree = Some out /\
    forall marks, ~ Forall2 (shown heredoc) marks (decode 0 0 out).
Proof.
  intros special.
  assert (forall c, exists k1 k2 k3, semantic_tokens special c heredoc heredoc_tree =
    match sub32 c 0 1 with
    | None => None
    | Some d => Some [Token 0 0 1 (token_type_to_index k1) 0; Token 1 2 1 (token_type_to_index k2) 0; Token d 6 1 (token_type_to_index k3) 0]
    end) as H.
  { intros c. unfold semantic_tokens, heredoc_tree. cbn [visit app performs perform fst snd].
    change (slice heredoc 0 1) with (Some [102%N]). change (slice heredoc 10 11) with (Some [120%N]). change (slice heredoc 6 7) with (Some [103%N]).
    unfold message_kind. cbn [starts_with_bracket N.eqb Pos.eqb open_bracket andb].
    exists (if special [102%N] then Macro else Method), (if special [120%N] then Macro else Method), (if special [103%N] then Macro else Method).
    destruct (special [102%N]), (special [120%N]), (special [103%N]); destruct c; vm_compute; reflexivity. }
  split.
  - destruct (H true) as (k1 & k2 & k3 & ->). reflexivity.
  - destruct (H false) as (k1 & k2 & k3 & ->). cbn [sub32 N.leb N.compare]. eexists. split; [reflexivity|]. intros marks F.
    cbn [decode delta_line delta_start N.eqb N.add Pos.add Pos.eqb] in F. inversion F as [|m p l r S1 F1 E1 E2]; subst.
    inversion F1 as [|m' p' l' r' S2 F2 E1 E2]; subst. inversion F2 as [|m3 p3 l3 r3 S3 F3 E1 E2]; subst.
    apply shown_bounds in S3. destruct S3 as [S3 _]. revert S3. vm_compute. intros S3. now apply S3.
Qed.
Print Assumptions C49_heredoc_refuted.

(** Non-vacuity: "x=A::B if x.y" is laid out, and its five tokens decode as written. *)
Definition sample : text := [120; 61; 65; 58; 58; 66; 32; 105; 102; 32; 120; 46; 121]%N.
Definition sample_tree : node :=
  Node (0, 13) (If (Node (10, 13) (Call [Node (10, 11) (Local (10, 11) false [])] (Some (12, 13)) [] []))
                   [Node (0, 6) (Other [Node (0, 6) (Local (0, 1) true [Node (2, 6) (ConstantPath [Node (2, 3) ConstantRead] (5, 6))])])] []).
Example C49_example : short sample /\ laid_out sample sample_tree /\
  option_map (fun out => map (fun p => let '(l, c, k) := p in (l, c, len k, token_type k, modifiers_bitset k)) (decode 0 0 out))
    (semantic_tokens (fun _ => false) true sample sample_tree) =
  Some [(0, 0, 1, 8, 1); (0, 2, 1, 2, 0); (0, 5, 1, 2, 0); (0, 10, 1, 8, 0); (0, 12, 1, 13, 0)]%N.
Proof.
  assert (forall i, i < 13 -> covers sample (i, S i)) as C.
  { intros i L. exists (firstn i sample), (firstn 1 (skipn i sample)), (skipn (S i) sample).
    do 13 (destruct i as [|i]; [repeat split; discriminate|]). lia. }
  split; [unfold short; cbn; lia|]. split; [|vm_compute; reflexivity].
  cbn. repeat (match goal with |- _ /\ _ => split end); auto; try lia; try (apply C; lia).
  right. split; [lia|]. eexists. eexists. split; [reflexivity|]. cbn. lia.
Qed.
