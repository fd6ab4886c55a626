(** C73 (selection ranges) and C74 (folding ranges). *)
From Coq Require Import List Arith NArith Bool Lia.
From Verif Require Import Text_Lib Position_Model Position_Spec Position_Proofs Position_Props Ranges_Model Ranges_Spec Ranges_Proofs.
Import ListNotations.

(** ** C73 *)
Definition answered (f : forest) (o : nat) (answer : list range) : Prop :=
  ((exists r, In r (locations f) /\ covers r o) /\ selects f o answer) \/
  ((forall r, In r (locations f) -> ~ covers r o) /\ answer = [(o, o)]).

(** Every requested place gets its answer: the locations around it from the inside out, or the empty range there if
    there is none. *)
Theorem C73_chains : forall n f offsets, (N.of_nat n <= 4294967295)%N -> located n f ->
  exists chains, selection_range_chains f offsets = Some chains /\ Forall2 (answered f) offsets chains.
Proof.
  intros n f offsets H L. unfold selection_range_chains. rewrite (visit_eq n) by auto. eexists. split; [reflexivity|].
  rewrite !map_map. induction offsets as [|o os IH]; cbn [map]; constructor; auto.
  destruct (covered_or f o) as [C|C]; [left; split; auto; now apply finish_eq|right; split; auto; now apply finish_none].
Qed.

(** Where the locations around a place are nested, all of them are offered; they are in a tree whose children and
    names lie side by side in their parents.  Partial: the arguments of an index assignment overlap its message,
    see [C73_overlap_refuted]. *)
Theorem C73_all_partial : forall f o answer, nested_at o f -> answered f o answer -> forall r, In r (locations f) -> covers r o -> In r answer.
Proof.
  intros f o answer NA [[_ (S1 & S2 & S3 & S4)]|[C _]] r I R; [|exfalso; eapply C; eauto].
  apply S4; auto. intros s J. destruct (S2 s J) as [K Q]. now apply NA.
Qed.
Theorem C73_well_placed : forall f, well_placed f -> forall o, nested_at o f.
Proof. exact well_nested. Qed.

(** [a\[1\] = 2]: the message is the brackets, the arguments begin inside them and end with the value. *)
Definition index_assignment : forest := Node Plain (0, 8) [(1, 4)] (Node Plain (0, 1) [] Nil (Node Plain (2, 8) [] (Node Plain (2, 3) [] Nil (Node Plain (7, 8) [] Nil Nil)) Nil)) Nil.
Theorem C73_overlap_refuted : exists f o answer r, selection_range_chains f [o] = Some [answer] /\ located 8 f /\ In r (locations f) /\ covers r o /\ ~ In r answer.
Proof.
  exists index_assignment, 2, [(2, 3); (1, 4); (0, 8)], (2, 8). split; [reflexivity|]. split.
  - intros r I. cbn in I. intuition; subst; cbn; lia.
  - split; [cbn; auto|]. split; [split; cbn; lia|]. cbn. intuition discriminate.
Qed.

(** The reply: one nested range for each position, the conversions of its answer; nothing panics. *)
Theorem C73_reply : forall t f positions, short t -> located (size t) f ->
  exists replies, handle_selection_ranges t f positions = Some replies /\
    Forall2 (fun p s => exists a b answer, t = a ++ b /\ (points_at (fst p) (snd p) a b \/ (b = [] /\ breaks t < fst p)) /\
      answered f (size a) answer /\ Forall2 (shows t) answer (reply s)) positions replies.
Proof.
  intros t f positions H L. unfold handle_selection_ranges.
  destruct (every_forall (fun p : nat * nat => match line_character_to_offset t (fst p) (snd p) with Some o => u32 o | None => None end)
    (fun p o => exists a b, t = a ++ b /\ o = size a /\ (points_at (fst p) (snd p) a b \/ (b = [] /\ breaks t < fst p))) positions) as (os & -> & F).
  { intros [line ch] _. cbn [fst snd]. destruct (C40_any_position t line ch) as (a & b & E & -> & P). exists (size a). split; [|eauto].
    apply (u32_below (size t)); auto. rewrite E. rewrite size_app. lia. }
  destruct (C73_chains (size t) f os H L) as (chains & -> & G).
  assert (forall c, In c chains -> c <> []) as NE.
  { intros c I. clear -G I. induction G as [|o c' os cs A G IH]; [easy|]. destruct I as [<-|I]; auto.
    destruct A as [[_ (S & _)]|[_ ->]]; [destruct S; discriminate|discriminate]. }
  destruct (every_forall (selection_range_from_chain t) (fun c s => Forall2 (shows t) c (reply s)) chains) as (rs & E & K).
  { intros c I. apply from_chain; auto. }
  exists rs. split; auto. clear -F G K. revert os chains F G rs K. induction positions as [|p ps IH]; intros os chains F G rs K; inversion F; subst; inversion G; subst; inversion K; subst; constructor; eauto.
  destruct H1 as (a & b & -> & -> & P). exists a, b. eauto.
Qed.

(** In the editor's positions, too, every range contains the place and lies in the next one. *)
Definition spans (q : (nat * nat) * (nat * nat)) (p : nat * nat) : Prop := pos_le (fst q) p /\ pos_le p (snd q).
Lemma pos_refl p : pos_le p p. Proof. right. auto. Qed.
Theorem C73_contains : forall t f o answer s p, short t -> answered f o answer -> offset_to_line_character t o = Some p ->
  Forall2 (shows t) answer (reply s) ->
  (forall q, In q (reply s) -> spans q p) /\
  (forall pre q q' post, reply s = pre ++ q :: q' :: post -> pos_le (fst q') (fst q) /\ pos_le (snd q) (snd q')).
Proof.
  intros t f o answer s p H A P F. assert (forall r, In r answer -> fst r <= o <= snd r) as C.
  { destruct A as [[_ (_ & S2 & _)]|[_ ->]]; [intros r I; destruct (S2 r I) as [_ [? ?]]; lia|]. intros r [<-|[]]. cbn. lia. }
  split.
  - clear A. induction F as [|r q l rs [S1 S2] F IH]; [easy|]. intros q' [<-|I]; [|apply IH; auto; intros; apply C; right; auto].
    destruct (C r (or_introl eq_refl)) as [L1 L2]. split; [exact (C40_monotone t _ _ _ _ H L1 S1 P)|exact (C40_monotone t _ _ _ _ H L2 P S2)].
  - assert (inside_out answer) as IO by (destruct A as [[_ (S1 & _)]|[_ ->]]; [auto|constructor]).
    intros pre q q' post E. rewrite E in F. apply Forall2_app_inv_r in F. destruct F as (l1 & l2 & _ & F2 & ->).
    inversion F2 as [|r ? l3 ? [A1 A2] F3]; subst. inversion F3 as [|r' ? l4 ? [B1 B2] F4]; subst.
    assert (within r r') as [W1 W2].
    { clear -IO. induction l1 as [|x l1 IH]; cbn in IO; [inversion IO; auto|]. apply IH. destruct l1 as [|z l1]; cbn in *; inversion IO; subst; auto. }
    split; [exact (C40_monotone t _ _ _ _ H W1 B1 A1)|exact (C40_monotone t _ _ _ _ H W2 A2 B2)].
Qed.

(** [def label(user)] of the test in the code: the four ranges, and a tree that is well placed. *)
Definition sample : forest :=
  Node Plain (0, 48) [] (Node Def_ (0, 48) [(4, 9)] (Node Plain (10, 14) [] Nil
    (Node Plain (18, 44) [(18, 24)] (Node Plain (27, 44) [(40, 44)] (Node Plain (27, 39) [(32, 39)] (Node Plain (27, 31) [] Nil Nil) Nil) Nil) Nil)) Nil) Nil.
Example C73_example :
  well_placed sample /\ located 49 sample /\ selection_range_chains sample [41; 28; 48] = Some [[(40, 44); (27, 44); (18, 44); (0, 48)]; [(27, 31); (27, 39); (27, 44); (18, 44); (0, 48)]; [(48, 48)]].
Proof.
  split; [|split; [|reflexivity]].
  - assert (forall r l, (fst l <=? fst r) && (snd r <=? snd l) = true -> within r l) as WI by (intros r l E; apply andb_true_iff in E; rewrite !Nat.leb_le in E; unfold within; lia).
    cbn. repeat match goal with |- _ /\ _ => split end; auto using no_ranges.
    all: try (intros r I; cbn in I; repeat (destruct I as [<-|I]; [apply WI; reflexivity|]); contradiction).
    all: try (intros r I; cbn in I; repeat (destruct I as [<-|I]; [unfold apart; cbn; lia|]); contradiction).
    all: repeat (apply one_more; [intros q I; cbn in I; repeat (destruct I as [<-|I]; [unfold apart; cbn; lia|]); contradiction|]); apply no_ranges.
  - intros r I. cbn in I. repeat (destruct I as [<-|I]; [cbn; lia|]). destruct I.
Qed.

(** ** C74 *)
Lemma closed_lines t r : short t -> closed t r -> exists a b, covers_lines t r a b /\ folding_range t r = Some (if a <? b then [(a, b)] else []) /\ a <= b <= breaks t.
Proof.
  intros H (a & m & c & b & E & NC & NB & E1 & E2). exists (breaks a), (breaks (a ++ m ++ [c])).
  assert (breaks (a ++ m ++ [c]) = breaks (removelast (a ++ m ++ [c]))) as BR.
  { rewrite app_assoc, removelast_last, breaks_app. rewrite (breaks_none [c]); [lia|]. intros [Q|[]]. auto. }
  split; [|split].
  - exists a, (m ++ [c]), b. repeat split; auto. destruct m; discriminate.
  - unfold folding_range. rewrite <- E1, <- E2.
    destruct (end_position a ((m ++ [c]) ++ b)) as (c1 & P1); [now rewrite <- E|destruct m; discriminate|]. rewrite <- E in P1. rewrite P1.
    destruct (end_position (a ++ m ++ [c]) b) as (c2 & P2); [now rewrite <- app_assoc, <- E|auto|]. rewrite <- app_assoc, <- E in P2. rewrite P2. reflexivity.
  - rewrite E, !breaks_app. lia.
Qed.
Lemma folded_app t a fa b fb : folded t a fa -> folded t b fb -> folded t (a ++ b) (fa ++ fb).
Proof. induction 1; cbn; intros; [auto|eapply one_line; eauto|eapply more_lines; eauto]. Qed.

(** The folds are those of the constructs outside definitions and of the definitions themselves, in the order of
    the text.  Partial: definitions hide what is in them, five kinds of construct do not fold, and at the very end
    of a file without a final newline the last line is wrong, as refuted below. *)
Theorem C74_folds_partial : forall t f, short t -> (forall k r, In (k, r) (constructs f) -> closed t r) ->
  exists fs, handle_folding_range t f = Some fs /\ folded t (filter (fun q => folds (fst q)) (shallow f)) fs.
Proof.
  intros t f H. unfold handle_folding_range. induction f as [|k l names inside IH1 after IH2]; intros C; [eexists; split; [reflexivity|constructor]|].
  cbn [constructs fold_visit shallow] in *.
  destruct IH1 as (f1 & E1 & F1); [intros; eapply C; rewrite !in_app_iff; eauto|]. destruct IH2 as (f2 & E2 & F2); [intros; eapply C; rewrite !in_app_iff; eauto|].
  rewrite E1, E2.
  assert (exists fa, (if folds k then folding_range t l else Some []) = Some fa /\ folded t (filter (fun q => folds (fst q)) (if construct k then [(k, l)] else [])) fa) as (fa & -> & FA).
  { destruct (folds k) eqn:K.
    - assert (construct k = true) as KC by (destruct k; auto; discriminate). rewrite KC in *. destruct (closed_lines t l H) as (a & b & CL & -> & L); [eapply C; left; reflexivity|].
      eexists. split; [reflexivity|]. cbn [filter fst]. rewrite K. destruct (Nat.ltb_spec a b); [eapply more_lines; eauto; constructor|]. assert (a = b) as -> by lia. eapply one_line; eauto. constructor.
    - exists []. split; auto. destruct (construct k); cbn; rewrite ?K; constructor. }
  rewrite !filter_app. destruct k; eexists; (split; [reflexivity|]); repeat apply folded_app; auto; constructor.
Qed.

(** Every fold is offered with a first line before its last line, both lines of the document. *)
Theorem C74_lines_partial : forall t f fs, short t -> (forall k r, In (k, r) (constructs f) -> closed t r) -> handle_folding_range t f = Some fs ->
  forall a b, In (a, b) fs -> a < b <= breaks t.
Proof.
  intros t f fs H C E. destruct (C74_folds_partial t f H C) as (fs' & E' & F). rewrite E in E'. injection E' as <-. clear E C.
  induction F as [|k r l fs a CL F IH|k r l fs a b CL L F IH]; [easy|auto|]. intros a' b' [Q|I]; [|auto]. injection Q as <- <-. split; auto.
  destruct CL as (x & m & y & -> & NE & _ & _ & _ & ->). rewrite app_assoc, breaks_app.
  destruct (exists_last NE) as (m' & c & ->). rewrite app_assoc, removelast_last, !breaks_app. lia.
Qed.

(** Nothing panics, whatever the locations. *)
Theorem C74_no_panic : forall t f, short t -> exists fs, handle_folding_range t f = Some fs.
Proof.
  intros t f H. unfold handle_folding_range. induction f as [|k l names inside IH1 after IH2]; cbn [fold_visit]; [eauto|].
  destruct IH1 as (f1 & ->), IH2 as (f2 & ->). assert (exists fa, folding_range t l = Some fa) as (fa & EA).
  { unfold folding_range. destruct (offset_position t (fst l) H) as (a & ->), (offset_position t (snd l) H) as (b & ->). eauto. }
  rewrite EA. destruct k; cbn; eauto.
Qed.

(** [def f / if x / end / end]: the body of a method has no folds. *)
Definition method_text : text := [100; 101; 102; 32; 102; 10; 105; 102; 32; 120; 10; 101; 110; 100; 10; 101; 110; 100; 10]%N.
Theorem C74_body_refuted : exists t f k r a b fs, short t /\ In (k, r) (constructs f) /\ folds k = true /\ closed t r /\ covers_lines t r a b /\ a < b /\
  (forall k' r', In (k', r') (constructs f) -> closed t r') /\ handle_folding_range t f = Some fs /\ ~ In (a, b) fs.
Proof.
  assert (closed method_text (6, 14)) as C1.
  { exists (firstn 6 method_text), (firstn 7 (skipn 6 method_text)), 100%N, (skipn 14 method_text). repeat split; try reflexivity; discriminate. }
  assert (closed method_text (0, 18)) as C2.
  { exists [], (firstn 17 method_text), 100%N, (skipn 18 method_text). repeat split; try reflexivity; discriminate. }
  exists method_text, (Node Def_ (0, 18) [(4, 5)] (Node If_ (6, 14) [] Nil Nil) Nil), If_, (6, 14), 1, 2, [(0, 3)].
  repeat split; auto.
  - unfold short. cbn. lia.
  - cbn. auto.
  - exists (firstn 6 method_text), (firstn 8 (skipn 6 method_text)), (skipn 14 method_text). repeat split; try reflexivity; discriminate.
  - cbn. intros k' r' [E|[E|[]]]; injection E as <- <-; auto.
  - cbn. intuition discriminate.
Qed.

(** Five kinds of construct never fold. *)
Definition unless_text : text := [117; 32; 120; 10; 101; 110; 100; 10]%N.
Theorem C74_kinds_refuted : forall k, In k [Unless_; Until_; CaseIn_; SingletonClass_; Lambda_] ->
  construct k = true /\ forall t l names, handle_folding_range t (Node k l names Nil Nil) = Some [].
Proof. intros k I. cbn in I. repeat (destruct I as [<-|I]; [auto|]). destruct I. Qed.
Example C74_kinds_case : closed unless_text (0, 7) /\ covers_lines unless_text (0, 7) 0 1.
Proof.
  split.
  - exists [], (firstn 6 unless_text), 100%N, [10%N]. repeat split; try reflexivity; discriminate.
  - exists [], (firstn 7 unless_text), [10%N]. repeat split; try reflexivity; discriminate.
Qed.

(** [\[1\]] and nothing else: a construct on one line folds, to a line the document does not have. *)
Theorem C74_end_refuted : exists t f r a b, short t /\ constructs f = [(Array_, r)] /\ covers_lines t r a a /\ handle_folding_range t f = Some [(a, b)] /\ breaks t < b.
Proof.
  exists [91; 49; 93]%N, (Node Array_ (0, 3) [] Nil Nil), (0, 3), 0, 1. repeat split.
  - unfold short. cbn. lia.
  - exists [], [91; 49; 93]%N, []. repeat split. discriminate.
  - vm_compute. lia.
Qed.

Example C74_example : handle_folding_range method_text (Node Class_ (0, 18) [] (Node If_ (6, 14) [] Nil Nil) Nil) = Some [(0, 3); (1, 2)].
Proof. reflexivity. Qed.

Print Assumptions C73_chains.
Print Assumptions C73_all_partial.
Print Assumptions C73_well_placed.
Print Assumptions C73_overlap_refuted.
Print Assumptions C73_reply.
Print Assumptions C73_contains.
Print Assumptions C74_folds_partial.
Print Assumptions C74_lines_partial.
Print Assumptions C74_no_panic.
Print Assumptions C74_body_refuted.
Print Assumptions C74_kinds_refuted.
Print Assumptions C74_end_refuted.
