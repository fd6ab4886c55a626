From Coq Require Import List Arith Bool Lia.
From Verif Require Import Names_Model Yard_Model Yard_Spec Yard_Proofs YardDoc_Model YardDoc_Spec.
Import ListNotations.

(** * Sizes and blanks *)
Lemma size_app a b : size (a ++ b) = size a + size b.
Proof. unfold size. rewrite map_app, list_sum_app. reflexivity. Qed.
Lemma trim_start_split t : exists a, t = a ++ trim_start t /\ blank a = true /\ (trim_start t = [] \/ space (hd 0 (trim_start t)) = false).
Proof.
  induction t as [|c t (a & E & B & H)]; [exists []; cbn; auto|]. cbn [trim_start]. destruct (space c) eqn:S.
  - exists (c :: a). cbn [app]. rewrite <- E. unfold blank in *. cbn [forallb]. rewrite S. auto.
  - exists []. cbn. auto.
Qed.
Lemma blank_rev t : blank (rev t) = blank t.
Proof. apply forallb_rev. Qed.
Lemma last_rev (t : text) : last (rev t) 0 = hd 0 t.
Proof. rewrite <- rev_hd, rev_involutive. reflexivity. Qed.
Lemma trim_split t : exists a b, t = a ++ trim t ++ b /\ trim_start t = trim t ++ b /\ blank a = true /\ blank b = true /\ trimmed (trim t).
Proof.
  destruct (trim_start_split t) as (a & E & B & H). unfold trim.
  destruct (trim_start_split (rev (trim_start t))) as (b & E' & B' & H').
  exists a, (rev b). assert (X : trim_start t = rev (trim_start (rev (trim_start t))) ++ rev b).
  { rewrite <- rev_app_distr, <- E'. now rewrite rev_involutive. }
  split; [rewrite <- X; exact E|]. split; [exact X|]. split; [exact B|]. split; [now rewrite blank_rev|].
  unfold trimmed. destruct H' as [H'|H'].
  - left. rewrite H'. reflexivity.
  - destruct (trim_start (rev (trim_start t))) as [|x y] eqn:Q; [now left|]. right. split.
    + destruct H as [H|H].
      * rewrite H in X. symmetry in X. apply app_eq_nil in X as [X _]. cbn in X. now apply app_eq_nil in X as [_ X].
      * rewrite X in H. destruct (rev (x :: y)) as [|z w] eqn:R; [|exact H]. cbn in R. now apply app_eq_nil in R as [_ R].
    + rewrite last_rev. exact H'.
Qed.
Lemma trimmed_tight t : t <> [] -> trimmed t -> tight t.
Proof. intros N [->|[A B]]; [congruence|]. split; auto. Qed.
Lemma trim_blank t : blank t = true -> trim t = [].
Proof. intros B. unfold trim. rewrite <- (app_nil_r t), (trim_start_spaces t [] B). reflexivity. Qed.
Lemma trim_start_idem t : trim_start (trim_start t) = trim_start t.
Proof. induction t as [|c t IH]; [reflexivity|]. cbn [trim_start]. destruct (space c) eqn:S; [exact IH|]. cbn [trim_start]. now rewrite S. Qed.
Lemma trim_trim_start t : trim (trim_start t) = trim t.
Proof. unfold trim. now rewrite trim_start_idem. Qed.
Lemma trim_nil t : trim t = [] <-> blank t = true.
Proof.
  split; [|apply trim_blank]. intros E. destruct (trim_split t) as (a & b & H & _ & A & B & _). rewrite H, E. unfold blank in *.
  rewrite forallb_app. cbn. now rewrite A, B.
Qed.
Lemma comment_trim l : starts_hash (trim l) = comment l.
Proof.
  assert (G : starts_hash (trim_start l) = comment l).
  { induction l as [|c l IH]; [reflexivity|]. cbn [trim_start comment]. destruct (space c); [exact IH|]. unfold starts_hash.
    do 36 (destruct c as [|c]; try reflexivity). }
  rewrite <- G. destruct (trim_split l) as (a & b & _ & H & _ & B & _). rewrite H.
  destruct (trim l) as [|c t]; [|reflexivity]. cbn [app]. destruct b as [|c b]; [reflexivity|]. unfold blank in B. cbn [forallb] in B.
  apply andb_true_iff in B as [B _]. destruct (Nat.eq_dec c 35) as [->|Nc]; [discriminate B|]. symmetry. unfold starts_hash.
  do 36 (destruct c as [|c]; try reflexivity). congruence.
Qed.

(** * The comment above a method *)
Lemma lines_length t : forall cur, length (lines_from cur t) =
  newlines t + match rev t with [] => match cur with [] => 0 | _ => 1 end | c :: _ => if c =? 10 then 0 else 1 end.
Proof.
  induction t as [|c t IH]; intros cur; [destruct cur; reflexivity|]. cbn [lines_from]. unfold newlines in *. cbn [count_occ rev].
  destruct (Nat.eq_dec c 10) as [->|N].
  - change (10 =? 10) with true. cbn [length]. rewrite IH. destruct (rev t) as [|x y]; cbn [app]; [reflexivity|lia].
  - rewrite (proj2 (Nat.eqb_neq c 10) N), IH. destruct (rev t) as [|x y]; cbn [app].
    + rewrite (proj2 (Nat.eqb_neq c 10) N). destruct cur; reflexivity.
    + reflexivity.
Qed.
Definition infos (above block : list text) : list info := map (fun p => info_of (fst p) (snd p)) (comments above block).
Lemma infos_snoc above b x : infos above (b ++ [x]) =
  infos above b ++ (if comment x then [info_of (length above + length b) x] else []).
Proof.
  unfold infos, comments. rewrite app_length, seq_app. cbn [length seq].
  assert (G : forall (A B : Type) (l : list A) (m : list B) p q, length l = length m -> combine (l ++ [p]) (m ++ [q]) = combine l m ++ [(p, q)]).
  { intros A B l. induction l as [|x0 l IH]; intros [|y m] p q E; try discriminate; [reflexivity|]. cbn. rewrite IH by (cbn in E; lia). reflexivity. }
  rewrite G by apply seq_length. rewrite filter_app, map_app. cbn [filter snd]. destruct (comment x); reflexivity.
Qed.
Lemma collect_block above block : last_block above block ->
  collect_rev (rev block ++ rev above) (length above + length block - 1) = rev (infos above block).
Proof.
  intros [F A]. induction block as [|x b IH] using rev_ind.
  - cbn [rev app length infos]. destruct A as [->|(r & l & -> & C & B)]; [reflexivity|].
    rewrite rev_app_distr. cbn [rev app collect_rev]. rewrite comment_trim, C. destruct (trim l) eqn:T; [|reflexivity].
    apply trim_nil in T. congruence.
  - apply Forall_app in F as [F Fx]. inversion Fx as [|? ? Hx _ E]; subst. clear Fx. specialize (IH F).
    rewrite rev_app_distr, app_length. cbn [rev app length collect_rev].
    replace (length above + (length b + 1) - 1) with (length above + length b) by lia.
    assert (R : match length above + length b with 0 => [] | S m => collect_rev (rev b ++ rev above) m end = rev (infos above b)).
    { destruct (length above + length b) as [|m] eqn:L.
      - destruct above; [|discriminate]. destruct b; [|discriminate]. reflexivity.
      - rewrite <- IH. f_equal. lia. }
    rewrite R, infos_snoc, rev_app_distr, comment_trim. destruct (comment x) eqn:C; [reflexivity|].
    destruct Hx as [Hx|Hx]; [congruence|]. rewrite (trim_blank _ Hx). reflexivity.
Qed.
Lemma collect_spec before above block : lines before = above ++ block -> last_block above block ->
  collect before (newlines before) = Some (infos above block).
Proof.
  intros E B. pose proof (collect_block above block B) as C. rewrite <- rev_app_distr, <- E, <- app_length, <- E in C.
  unfold lines in C at 2. rewrite lines_length in C. unfold collect.
  assert (I2 : rev (rev (infos above block)) = infos above block) by apply rev_involutive.
  destruct (rev before) as [|c r] eqn:R.
  - assert (before = []) as -> by (rewrite <- (rev_involutive before), R; reflexivity). cbn in C |- *. rewrite <- I2, <- C. reflexivity.
  - destruct (Nat.eq_dec c 10) as [->|N].
    + cbn in C. destruct (newlines before) as [|n] eqn:W.
      * exfalso. unfold newlines in W. apply count_occ_not_In in W. apply W. apply in_rev. rewrite R. now left.
      * replace (S n + 0 - 1) with n in C by lia. now rewrite C, I2.
    + rewrite (proj2 (Nat.eqb_neq c 10) N) in C. replace (newlines before + 1 - 1) with (newlines before) in C by lia.
      rewrite C, I2. do 10 (destruct c as [|c]; [reflexivity|]). destruct c; [congruence|reflexivity].
Qed.

(** Where the text of a comment is. *)
Lemma strip_hashes_split t : exists k, t = repeat 35 k ++ strip_hashes t /\ starts_hash (strip_hashes t) = false.
Proof.
  induction t as [|c t (k & E & H)]; [exists 0; auto|]. destruct (Nat.eq_dec c 35) as [->|N].
  - exists (S k). cbn [strip_hashes repeat app]. rewrite <- E. auto.
  - exists 0. assert (X : strip_hashes (c :: t) = c :: t) by (do 35 (destruct c as [|c]; [reflexivity|]); destruct c; [congruence|reflexivity]).
    rewrite X. split; [reflexivity|]. do 35 (destruct c as [|c]; [reflexivity|]). destruct c; [congruence|reflexivity].
Qed.
Lemma last_app_ne (a b : text) : b <> [] -> last (a ++ b) 0 = last b 0.
Proof. intros N. destruct (exists_last N) as (r & x & ->). rewrite app_assoc, !last_last. reflexivity. Qed.
Lemma starts_hash_35 t : starts_hash t = true -> exists r, t = 35 :: r.
Proof.
  destruct t as [|c t]; [discriminate|]. intros H. destruct (Nat.eq_dec c 35) as [->|N]; [now exists t|].
  exfalso. revert H. unfold starts_hash. do 35 (destruct c as [|c]; [discriminate|]). destruct c; [congruence|discriminate].
Qed.
Lemma info_spec n l : comment l = true -> exists a k b c,
  l = a ++ repeat 35 (S k) ++ b ++ content (info_of n l) ++ c /\ blank a = true /\ blank b = true /\ blank c = true /\
  trimmed (content (info_of n l)) /\ (b = [] -> hd 0 (content (info_of n l)) <> 35) /\
  content_start (info_of n l) = size (a ++ repeat 35 (S k) ++ b) /\ line_length (info_of n l) = size l.
Proof.
  intros C. rewrite <- comment_trim in C. destruct (trim_split l) as (a & c & E & T & A & Bc & Tr).
  destruct (strip_hashes_split (trim l)) as (k & Ek & Hk). destruct (trim_start_split (strip_hashes (trim l))) as (b & Eb & Bb & Hb).
  destruct k as [|k].
  { cbn [repeat app] in Ek. rewrite Ek in C. congruence. }
  exists a, k, b, c. unfold info_of. cbn [content content_start line_length]. set (body := trim_start (strip_hashes (trim l))) in *.
  assert (El : trim l = repeat 35 (S k) ++ b ++ body) by (rewrite Ek at 1; f_equal; exact Eb).
  split; [rewrite E at 1; rewrite El, <- !app_assoc; reflexivity|]. do 3 (split; [assumption|]). split.
  - destruct body as [|x y] eqn:Q; [now left|]. right. split; [destruct Hb as [Hb|Hb]; [discriminate|exact Hb]|].
    destruct Tr as [Tr|[_ Tr]]; [rewrite Tr in C; discriminate|]. rewrite El in Tr.
    rewrite app_assoc, last_app_ne in Tr by discriminate. exact Tr.
  - split.
    + intros ->. cbn [app] in Eb. rewrite <- Eb. intros X. destruct (strip_hashes (trim l)) as [|z w]; [discriminate|]. cbn [hd] in X. subst z. discriminate.
    + split; [|reflexivity]. rewrite E at 1. rewrite T, El. rewrite !size_app. lia.
Qed.

(** * Matching *)
Lemma span_app f a b : forallb f a = true -> (b = [] \/ f (hd 0 b) = false) -> span_while f (a ++ b) = (a, b).
Proof.
  intros A B. induction a as [|c a IH]; cbn [app].
  - destruct b as [|x b]; [reflexivity|]. destruct B as [B|B]; [discriminate|]. cbn in B |- *. now rewrite B.
  - cbn [forallb] in A. apply andb_true_iff in A as [A1 A2]. cbn [span_while]. rewrite A1, (IH A2). reflexivity.
Qed.
Lemma spaces_trim t : spaces t = trim_start t.
Proof.
  unfold spaces. induction t as [|c t IH]; [reflexivity|]. cbn [span_while trim_start]. destruct (space c); [|reflexivity].
  destruct (span_while space t). exact IH.
Qed.
Lemma spaces1_app a b : blanks a -> (b = [] \/ space (hd 0 b) = false) -> spaces1 (a ++ b) = Some b.
Proof. intros [N A] B. unfold spaces1. rewrite span_app by assumption. destruct a; [congruence|reflexivity]. Qed.
Lemma word1_app word a b : named word a -> (b = [] \/ word (hd 0 b) = false) -> word1 word (a ++ b) = Some (a, b).
Proof. intros [N A] B. unfold word1. rewrite span_app by assumption. destruct a; [congruence|reflexivity]. Qed.
Lemma bracket_app t s : types_in t -> bracket (91 :: t ++ 93 :: s) = Some (t, s).
Proof.
  intros [N H]. unfold bracket. rewrite span_app; [|apply forallb_forall; intros c Hc; apply negb_true_iff, Nat.eqb_neq; intros ->; exact (H Hc)|now right].
  destruct t; [congruence|reflexivity].
Qed.
Lemma strip_prefix_app p t : strip_prefix p (p ++ t) = Some t.
Proof. induction p as [|c p IH]; [reflexivity|]. cbn. now rewrite Nat.eqb_refl. Qed.
Lemma non_empty_says rest : says rest (non_empty rest).
Proof.
  unfold non_empty. destruct (trim_split rest) as (a & b & E & _ & A & B & T). destruct (trim rest) as [|c t] eqn:Q.
  - left. split; [reflexivity|]. now apply trim_nil.
  - right. exists a, (c :: t), b. repeat split; auto; discriminate.
Qed.
Lemma non_empty_spaces rest : non_empty (spaces rest) = non_empty rest.
Proof. unfold non_empty. now rewrite spaces_trim, trim_trim_start. Qed.
Lemma search_head f at_ t x : f at_ t = Some x -> search f at_ t = Some x.
Proof. intros H. destruct t; cbn [search]; now rewrite H. Qed.
Lemma search_none tag f : (forall at_ t, strip_prefix (64 :: tag) t = None -> f at_ t = None) ->
  forall t at_, strip_prefix (64 :: tag) t = None -> ~ In 64 (tl t) -> search f at_ t = None.
Proof.
  intros F. induction t as [|c t IH]; intros at_ H N; cbn [search]; [now rewrite F|]. rewrite F by exact H. apply IH.
  - destruct t as [|d t]; [reflexivity|]. cbn [strip_prefix]. destruct (64 =? d) eqn:E; [|reflexivity].
    apply Nat.eqb_eq in E. subst. exfalso. apply N. now left.
  - intros X. apply N. cbn [tl]. destruct t; [destruct X|now right].
Qed.
