(** C42, C43: templates. *)
From Coq Require Import List Arith NArith Lia Bool.
From Verif Require Import Text_Lib Erb_Model Erb_Spec Erb_Proofs.
Import ListNotations.

(** C42: the Ruby source of every template exists (no panic) and has the template's length; inside the
    Ruby ranges it is the template, outside them it is white space or the [;] put for a [%>]; its line
    breaks are the template's; it is UTF-8. *)
Theorem C42_layout : forall t : text, Forall scalar t -> exists e, mask_erb (bytes t) = Some e /\
  length (source e) = length (bytes t) /\
  (forall i x, nth_error (bytes t) i = Some x -> is_ruby_offset e i = true -> nth_error (source e) i = Some x) /\
  (forall i x, nth_error (bytes t) i = Some x -> is_ruby_offset e i = false ->
     nth_error (source e) i = Some (if (x =? nl)%N || (x =? cr)%N then x else SPACE) \/
     (nth_error (source e) i = Some SEMI /\ x = PCT /\ nth_error (bytes t) (S i) = Some GT)) /\
  (forall i b, b = nl \/ b = cr -> nth_error (source e) i = Some b <-> nth_error (bytes t) i = Some b) /\
  exists t', Forall scalar t' /\ source e = bytes t'.
Proof.
  intros t HT. destruct (mask_sound (bytes t)) as (e & E & c & S1 & S2 & S3 & S4 & _). exists e. split; [exact E|]. split; [exact S1|].
  assert (forall i, is_ruby_offset e i = inside (ruby_ranges e) i) as IR by reflexivity.
  split; [|split; [|split]].
  - intros i x Hx Hi. destruct (S2 i x Hx) as (y & Hy & Sy). unfold shown in Sy. rewrite <- IR, Hi in Sy. now subst.
  - intros i x Hx Hi. destruct (S2 i x Hx) as (y & Hy & Sy). unfold shown in Sy. rewrite <- IR, Hi in Sy.
    destruct Sy as [->|(-> & Sx & Sn)]; [left|right]; auto.
  - intros i b Hb. split.
    + intros Hi. assert (i < length (bytes t)) as L by (rewrite <- S1; apply nth_error_Some; congruence).
      destruct (nth_error (bytes t) i) as [x|] eqn:Hx; [|apply nth_error_None in Hx; lia].
      destruct (S2 i x Hx) as (y & Hy & Sy). rewrite Hi in Hy. injection Hy as <-. unfold shown in Sy.
      destruct (inside (ruby_ranges e) i); [now subst|]. destruct Sy as [Sy|(Sy & _)].
      * unfold blank in Sy. destruct (_ || _); [now subst|]. destruct Hb as [->| ->]; discriminate.
      * destruct Hb as [->| ->]; discriminate.
    + intros Hx. destruct (S2 i b Hx) as (y & Hy & Sy). unfold shown in Sy. rewrite Hy. f_equal.
      destruct (inside (ruby_ranges e) i); auto. destruct Sy as [->|(_ & Sx & _)].
      * destruct Hb as [->| ->]; reflexivity.
      * destruct Hb as [->| ->]; discriminate.
  - destruct (utf8_kept (bytes t) (ruby_ranges e) (source e) S3 S1 S2 t [] eq_refl HT) as (t' & Ht' & E'). exists t'. split; auto.
Qed.
Print Assumptions C42_layout.

(** Statements are kept apart: the code of every tag is followed by a [;] in place of the [%>]. *)
Theorem C42_statements_apart : forall s e, mask_erb s = Some e -> forall r, In r (ruby_ranges e) -> exists c,
  (c = snd r \/ (c = S (snd r) /\ nth_error s (snd r) = Some DASH)) /\ nth_error s c = Some PCT /\ nth_error s (S c) = Some GT /\
  nth_error (source e) c = Some SEMI.
Proof.
  intros s e E r Hr. destruct (mask_sound s) as (e' & E' & c & _ & _ & _ & _ & S5). rewrite E in E'. injection E' as <-.
  rewrite Forall_forall in S5. destruct (S5 _ Hr) as (k & A & _ & B & C & D). eauto.
Qed.
Print Assumptions C42_statements_apart.

(** C43: exactly the code of the executable tags is visible as Ruby, and an opening that is never closed
    is reported, unless a tag begins with [<%==] or [<%-=]. Missing: those two. *)
Theorem C43_tags_partial : forall s ms rs u, template 0 s ms rs u ->
  (forall m code, In (m, code) ms -> m <> [EQ; EQ] /\ ~ (m = [DASH] /\ hd 0%N code = EQ)) ->
  exists e, mask_erb s = Some e /\ ruby_ranges e = nonempty rs /\ unclosed_tag_offset e = u /\
  forall i, is_ruby_offset e i = true <-> exists r, In r rs /\ fst r <= i < snd r.
Proof.
  intros s ms rs u T HM. destruct (scan_template 0 s ms rs u T) with (fuel := S (length s)) (P := @nil N) (masked := map blank s)
    (ranges := @nil (nat * nat)) as (e & E1 & E2 & E3); auto.
  { apply Forall_forall. intros [m code] H. apply HM. exact H. }
  exists e. split; [exact E1|]. split; [exact E2|]. split; [exact E3|]. intros i. unfold is_ruby_offset. rewrite E2. cbn [app].
  rewrite existsb_exists. unfold nonempty. split.
  - intros (r & Hr & Hi). apply filter_In in Hr. exists r. split; [apply Hr|]. apply andb_true_iff in Hi. destruct Hi as [A B].
    apply Nat.leb_le in A. apply Nat.ltb_lt in B. lia.
  - intros (r & Hr & Hi). exists r. split; [apply filter_In; split; auto; apply Nat.ltb_lt; lia|].
    apply andb_true_iff. split; [apply Nat.leb_le|apply Nat.ltb_lt]; lia.
Qed.
Print Assumptions C43_tags_partial.

(** Every byte string is a template: the theorem above leaves no text out. *)
Theorem C43_every_text_is_a_template : forall s o, exists ms rs u, template o s ms rs u.
Proof. intros s o. exact (template_exists (length s) s o (le_n _)). Qed.
Print Assumptions C43_every_text_is_a_template.

(** ** Witnesses *)

(** [é<%= x %>\n<%# y %><%- z -%><% w] *)
Definition sample : list N :=
  [195; 169; 60; 37; 61; 32; 120; 32; 37; 62; 10; 60; 37; 35; 32; 121; 32; 37; 62;
   60; 37; 45; 32; 122; 32; 45; 37; 62; 60; 37; 32; 119]%N.
Lemma no_tag_in l : find_bytes LT PCT l = None -> ~ contains LT PCT l.
Proof. apply find_none. Qed.
Lemma no_end_in l : find_bytes PCT GT l = None -> ~ contains PCT GT l.
Proof. apply find_none. Qed.
Example C43_sample : template 0 sample [([EQ], [32; 120; 32]%N); ([DASH], [32; 122; 32]%N)] [(5, 8); (22, 25)] (Some 28).
Proof.
  change sample with ([195; 169]%N ++ (LT :: PCT :: ([EQ] ++ [32; 120; 32]%N ++ []) ++ [PCT; GT]) ++
    ([10]%N ++ (LT :: PCT :: HASH :: [32; 121; 32]%N ++ [PCT; GT]) ++ ([] ++ (LT :: PCT :: ([DASH] ++ [32; 122; 32]%N ++ [DASH]) ++ [PCT; GT]) ++
    ([] ++ LT :: PCT :: [32; 119]%N)))).
  eapply (visible 0 [195; 169]%N _ [EQ] [32; 120; 32]%N); [apply no_tag_in; reflexivity| |].
  { constructor; [|discriminate|apply no_end_in; reflexivity]. split; [constructor|]. split; auto. cbn. repeat split; discriminate. }
  eapply (hidden _ [10]%N); [apply no_tag_in; reflexivity|constructor; apply no_end_in; reflexivity|].
  eapply (visible 19 [] _ [DASH] [32; 122; 32]%N); [apply no_tag_in; reflexivity| |].
  { constructor; [|discriminate|apply no_end_in; reflexivity]. split; [constructor|]. split; auto. cbn. repeat split; discriminate. }
  apply (unclosed 28 [] [32; 119]%N); [apply no_tag_in; reflexivity|apply no_end_in; reflexivity].
Qed.
Example C43_sample_scanned : mask_erb sample =
  Some (mkEmbedded [32; 32; 32; 32; 32; 32; 120; 32; 59; 32; 10; 32; 32; 32; 32; 32; 32; 32; 32;
                    32; 32; 32; 32; 122; 32; 32; 59; 32; 32; 32; 32; 32]%N [(5, 8); (22, 25)] (Some 28)).
Proof. vm_compute. reflexivity. Qed.

(** Refuted: [<%== x %>] leaves a [=] in front of the code: the Ruby source begins with [= x], a syntax error. *)
Theorem C43_raw_output_refuted : exists s ms rs u e, template 0 s ms rs u /\ mask_erb s = Some e /\ ruby_ranges e <> nonempty rs /\
  nth_error (source e) 3 = Some EQ /\ is_ruby_offset e 3 = true.
Proof.
  exists [60; 37; 61; 61; 32; 120; 32; 37; 62]%N, [([EQ; EQ], [32; 120; 32]%N)], [(4, 7)], None.
  eexists. split; [|split; [vm_compute; reflexivity|split; [vm_compute; discriminate|split; reflexivity]]].
  apply (visible 0 [] (LT :: PCT :: ([EQ; EQ] ++ [32; 120; 32]%N ++ []) ++ [PCT; GT]) [EQ; EQ] [32; 120; 32]%N [] [] [] None).
  - apply no_tag_in. reflexivity.
  - constructor; [|discriminate|apply no_end_in; reflexivity]. split; [constructor|]. split; auto. cbn. repeat split; discriminate.
  - apply no_tags. intros ([|? ?] & r & E); discriminate.
Qed.
Print Assumptions C43_raw_output_refuted.
