(** "Did you mean": proofs. *)
From Coq Require Import List Arith NArith Bool Lia Permutation Sorted.
From Verif Require Import Text_Lib Sort_Lib Calls_Model Calls_Proofs Suggest_Model Suggest_Spec.
Import ListNotations.

(** ** Alignments *)
Inductive align : name -> nat -> name -> Prop :=
| al_nil : align [] 0 []
| al_keep x a n b : align a n b -> align (x :: a) n (x :: b)
| al_sub x y a n b : align a n b -> align (x :: a) (S n) (y :: b)
| al_del x a n b : align a n b -> align (x :: a) (S n) b
| al_ins y a n b : align a n b -> align a (S n) (y :: b).

Lemma align_refl a : align a 0 a.
Proof. induction a; constructor; auto. Qed.

Lemma align_app a n b : align a n b -> forall a' n' b', align a' n' b' -> align (a ++ a') (n + n') (b ++ b').
Proof. induction 1; intros; cbn; try (constructor; auto; fail); auto. Qed.

Lemma align_rev a n b : align a n b -> align (rev a) n (rev b).
Proof.
  induction 1; cbn.
  - constructor.
  - replace n with (n + 0) by lia. apply align_app; auto. apply align_refl.
  - replace (S n) with (n + 1) by lia. apply align_app; auto. apply al_sub, al_nil.
  - replace (S n) with (n + 1) by lia. rewrite <- (app_nil_r (rev b)). apply align_app; auto. apply al_del, al_nil.
  - replace (S n) with (n + 1) by lia. rewrite <- (app_nil_r (rev a)). apply align_app; auto. apply al_ins, al_nil.
Qed.

Lemma align_edit a b : edit a b -> exists n, n <= 1 /\ align a n b.
Proof.
  intros []; exists 1; (split; [lia|]); change 1 with (0 + 1); (apply align_app; [apply align_refl|]).
  - apply al_ins, align_refl.
  - apply al_del, align_refl.
  - apply al_sub, align_refl.
Qed.

Lemma align_trans a n b : align a n b -> forall m c, align b m c -> exists k, k <= n + m /\ align a k c.
Proof.
  induction 1 as [|x a n b A IH|x y a n b A IH|x a n b A IH|y a n b A IH]; intros m c B.
  - exists m. auto.
  - remember (x :: b) as xb eqn:E. revert E. induction B as [|z b' m c B IB|z w b' m c B IB|z b' m c B IB|w b' m c B IB]; intros E; try discriminate.
    + injection E as -> ->. destruct (IH _ _ B) as (k & K & L). exists k. split; auto. now constructor.
    + injection E as -> ->. destruct (IH _ _ B) as (k & K & L). exists (S k). split; [lia|]. now constructor.
    + injection E as -> ->. destruct (IH _ _ B) as (k & K & L). exists (S k). split; [lia|]. now constructor.
    + destruct (IB E) as (k & K & L). exists (S k). split; [lia|]. now constructor.
  - remember (y :: b) as xb eqn:E. revert E. induction B as [|z b' m c B IB|z w b' m c B IB|z b' m c B IB|w b' m c B IB]; intros E; try discriminate.
    + injection E as -> ->. destruct (IH _ _ B) as (k & K & L). exists (S k). split; [lia|]. now constructor.
    + injection E as -> ->. destruct (IH _ _ B) as (k & K & L). exists (S k). split; [lia|]. now constructor.
    + injection E as -> ->. destruct (IH _ _ B) as (k & K & L). exists (S k). split; [lia|]. now constructor.
    + destruct (IB E) as (k & K & L). exists (S k). split; [lia|]. now constructor.
  - destruct (IH _ _ B) as (k & K & L). exists (S k). split; [lia|]. now constructor.
  - remember (y :: b) as xb eqn:E. revert E. induction B as [|z b' m c B IB|z w b' m c B IB|z b' m c B IB|w b' m c B IB]; intros E; try discriminate.
    + injection E as -> ->. destruct (IH _ _ B) as (k & K & L). exists (S k). split; [lia|]. now constructor.
    + injection E as -> ->. destruct (IH _ _ B) as (k & K & L). exists (S k). split; [lia|]. now constructor.
    + injection E as -> ->. destruct (IH _ _ B) as (k & K & L). exists k. split; [lia|]. auto.
    + destruct (IB E) as (k & K & L). exists (S k). split; [lia|]. now constructor.
Qed.

Lemma edits_align n a b : edits n a b -> exists m, m <= n /\ align a m b.
Proof.
  induction 1 as [a|n a b c E _ (m & M & A)]; [exists 0; split; auto; apply align_refl|].
  destruct (align_edit _ _ E) as (k & K & B). destruct (align_trans _ _ _ B _ _ A) as (j & J & C). exists j. split; [lia|auto].
Qed.

Lemma edit_cons x a b : edit a b -> edit (x :: a) (x :: b).
Proof. intros [p c q|p c q|p c d q]; [exact (inserted (x :: p) c q)|exact (removed (x :: p) c q)|exact (replaced (x :: p) c d q)]. Qed.
Lemma edits_cons x n a b : edits n a b -> edits n (x :: a) (x :: b).
Proof. induction 1; [constructor|]. econstructor; [apply edit_cons; eauto|auto]. Qed.
Lemma align_edits a n b : align a n b -> edits n a b.
Proof.
  induction 1 as [|x a n b A IH|x y a n b A IH|x a n b A IH|y a n b A IH].
  - constructor.
  - now apply edits_cons.
  - econstructor; [exact (replaced [] x y a)|]. now apply edits_cons.
  - econstructor; [exact (removed [] x a)|]. exact IH.
  - econstructor; [exact (inserted [] y a)|]. now apply edits_cons.
Qed.

Lemma distance_align a b n : distance a b n <-> align a n b /\ forall m, align a m b -> n <= m.
Proof.
  split; intros [A B].
  - destruct (edits_align _ _ _ A) as (m & M & C). assert (n <= m) by (apply B, align_edits, C). assert (m = n) as -> by lia. split; auto.
    intros k K. apply B, align_edits, K.
  - split; [now apply align_edits|]. intros m M. destruct (edits_align _ _ _ M) as (k & K & C). specialize (B _ C). lia.
Qed.

(** ** The recursion *)
Fixpoint d (a : name) : name -> nat :=
  match a with
  | [] => fun b => length b
  | x :: a' => fix in_b b := match b with
      | [] => S (length a')
      | y :: b' => Nat.min (Nat.min (d a' b + 1) (in_b b' + 1)) (d a' b' + if (x =? y)%N then 0 else 1)
      end
  end.
Lemma d_cons x a y b : d (x :: a) (y :: b) = Nat.min (Nat.min (d a (y :: b) + 1) (d (x :: a) b + 1)) (d a b + if (x =? y)%N then 0 else 1).
Proof. reflexivity. Qed.
Lemma d_nil a : d a [] = length a.
Proof. destruct a; reflexivity. Qed.

Lemma d_least a n b : align a n b -> d a b <= n.
Proof.
  induction 1 as [|x a n b A IH|x y a n b A IH|x a n b A IH|y a n b A IH]; auto.
  - rewrite d_cons, N.eqb_refl. lia.
  - rewrite d_cons. destruct (x =? y)%N; lia.
  - destruct b; [rewrite d_nil in *; cbn; lia|]. rewrite d_cons. lia.
  - destruct a; [cbn in *; lia|]. rewrite d_cons. lia.
Qed.
Lemma align_length_l b : align [] (length b) b.
Proof. induction b; cbn; constructor; auto. Qed.
Lemma align_length_r a : align a (length a) [].
Proof. induction a; cbn; constructor; auto. Qed.
Lemma d_align a : forall b, align a (d a b) b.
Proof.
  induction a as [|x a IH]; [apply align_length_l|]. induction b as [|y b IB]; [apply align_length_r|]. rewrite d_cons.
  set (u := d a (y :: b) + 1). set (l := d (x :: a) b + 1). set (g := d a b + _).
  assert (align (x :: a) u (y :: b)) as U by (unfold u; rewrite Nat.add_1_r; apply al_del, IH).
  assert (align (x :: a) l (y :: b)) as L by (unfold l; rewrite Nat.add_1_r; apply al_ins, IB).
  assert (align (x :: a) g (y :: b)) as G.
  { unfold g. destruct (N.eqb_spec x y); [subst; rewrite Nat.add_0_r; apply al_keep, IH|rewrite Nat.add_1_r; apply al_sub, IH]. }
  destruct (Nat.min_dec (Nat.min u l) g) as [-> | ->]; auto. destruct (Nat.min_dec u l) as [-> | ->]; auto.
Qed.
Lemma d_rev a b : d (rev a) (rev b) = d a b.
Proof.
  apply Nat.le_antisymm.
  - apply d_least, align_rev, d_align.
  - apply d_least. pose proof (align_rev _ _ _ (d_align (rev a) (rev b))) as H. rewrite !rev_involutive in H. exact H.
Qed.
Lemma d_distance a b : distance a b (d a b).
Proof. apply distance_align. split; [apply d_align|]. intros m. apply d_least. Qed.
Lemma distance_d a b n : distance a b n -> n = d a b.
Proof. intros D. destruct (d_distance a b) as [A B], D as [C E]. apply Nat.le_antisymm; auto. Qed.

(** ** The rows *)
Fixpoint line (P Q b : name) : list nat := d P Q :: match b with [] => [] | c :: b' => line P (c :: Q) b' end.

Lemma inner_line x P b : forall Q, inner x (d (x :: P) Q) (line P Q b) b = Some (match b with [] => [] | c :: b' => line (x :: P) (c :: Q) b' end).
Proof.
  induction b as [|c b IH]; intros Q; [reflexivity|].
  assert (exists t, line P (c :: Q) b = d P (c :: Q) :: t) as (t & T) by (destruct b; cbn; eauto).
  cbn [inner line]. rewrite T. rewrite <- T. cbn zeta.
  rewrite <- (d_cons x P c Q). rewrite IH. cbn [option_map line]. destruct b; reflexivity.
Qed.
Lemma line_eq P Q b : d P Q :: match b with [] => [] | c :: b' => line P (c :: Q) b' end = line P Q b.
Proof. destruct b; reflexivity. Qed.
Lemma outer_line a b : forall P, outer (length P) a b (line P [] b) = Some (line (rev a ++ P) [] b).
Proof.
  induction a as [|x a IH]; intros P; [reflexivity|]. cbn [outer].
  replace (length P + 1) with (d (x :: P) []) by (rewrite d_nil; cbn; lia). rewrite inner_line.
  rewrite line_eq, d_nil, IH. cbn [rev]. now rewrite <- app_assoc.
Qed.
Lemma line_seq b : forall Q, line [] Q b = seq (length Q) (S (length b)).
Proof. induction b as [|c b IH]; intros Q; [reflexivity|]. cbn [line]. rewrite IH. reflexivity. Qed.
Lemma line_last P b : forall Q, nth_error (line P Q b) (length b) = Some (d P (rev b ++ Q)).
Proof. induction b as [|c b IH]; intros Q; [reflexivity|]. cbn [line nth_error length]. rewrite IH. cbn [rev]. now rewrite <- app_assoc. Qed.

Lemma levenshtein_d a b : levenshtein a b = Some (d a b).
Proof.
  unfold levenshtein. destruct (name_eqb a b) eqn:E.
  { apply name_eqb_iff in E. subst. f_equal. pose proof (d_least _ _ _ (align_refl b)). lia. }
  destruct a as [|x a]; [reflexivity|]. destruct b as [|y b]; [reflexivity|]. set (a' := x :: a). set (b' := y :: b).
  assert (outer 0 a' b' (seq 0 (S (length b'))) = Some (line (rev a' ++ []) [] b')) as E2.
  { rewrite <- (outer_line a' b' []), line_seq. reflexivity. }
  cbn iota. rewrite E2, line_last, !app_nil_r, d_rev. reflexivity.
Qed.

Lemma d_length a b : length a <= length b + d a b /\ length b <= length a + d a b.
Proof. generalize (d_align a b). generalize (d a b). induction 1; cbn; lia. Qed.

(** ** The choice *)
Fixpoint choice (t : nat) (target : name) (l : list name) (best : option (name * nat)) : option (name * nat) :=
  match l with
  | [] => best
  | c :: l' => choice t target l' (if t <? d c target then best else match best with
      | Some (_, m) => if m <=? d c target then best else Some (c, d c target) | None => Some (c, d c target) end)
  end.
Lemma closest_choice t target l : forall best, closest_from t target l best = Some (choice t target l best).
Proof. induction l as [|c l IH]; intros best; cbn; auto. unfold consider. rewrite levenshtein_d. apply IH. Qed.

Definition best_of (t : nat) (target : name) (l : list name) (best : option (name * nat)) : Prop :=
  match best with
  | Some (c, n) => exists before after, l = before ++ c :: after /\ n = d c target /\ n <= t /\
      (forall x, In x before -> n < d x target) /\ (forall x, In x after -> n <= d x target)
  | None => forall x, In x l -> t < d x target
  end.
Lemma choice_best t target l : forall p best, best_of t target p best -> best_of t target (p ++ l) (choice t target l best).
Proof.
  induction l as [|c l IH]; intros p best B; cbn [choice]; [now rewrite app_nil_r|].
  change (c :: l) with ([c] ++ l). rewrite app_assoc. apply IH. clear IH. destruct (Nat.ltb_spec t (d c target)) as [T|T].
  - destruct best as [[b n]|]; cbn in *.
    + destruct B as (be & af & -> & -> & L & B1 & B2). exists be, (af ++ [c]). rewrite <- app_assoc. cbn. repeat split; auto.
      intros x I. apply in_app_or in I. destruct I as [I|[<-|[]]]; [auto|lia].
    + intros x I. apply in_app_or in I. destruct I as [I|[<-|[]]]; auto.
  - destruct best as [[b n]|]; cbn in B.
    + destruct B as (be & af & -> & -> & L & B1 & B2). destruct (Nat.leb_spec (d b target) (d c target)) as [M|M]; cbn.
      * exists be, (af ++ [c]). rewrite <- app_assoc. cbn. repeat split; auto. intros x I. apply in_app_or in I. destruct I as [I|[<-|[]]]; auto.
      * exists (be ++ b :: af), []. repeat split; auto; [|easy]. intros x I. apply in_app_or in I.
        destruct I as [I|[<-|I]]; [specialize (B1 _ I); lia|lia|specialize (B2 _ I); lia].
    + cbn. exists p, []. repeat split; auto; [|easy]. intros x I. specialize (B _ I). lia.
Qed.
Lemma best_nearest t target l best : best_of t target l best -> nearest target t l (option_map fst best).
Proof.
  destruct best as [[c n]|]; cbn.
  - intros (be & af & -> & -> & L & B1 & B2). exists be, af, (d c target). repeat split; auto; try apply d_distance.
    + intros x m I D. apply distance_d in D. subst. auto.
    + intros x m I D. apply distance_d in D. subst. auto.
  - intros B x m I D. apply distance_d in D. subst. auto.
Qed.
Lemma closest_nearest t target l : exists r, option_map (option_map fst) (closest_from t target l None) = Some r /\ nearest target t l r.
Proof.
  rewrite closest_choice. eexists. split; [reflexivity|]. apply best_nearest. apply (choice_best t target l [] None). intros x [].
Qed.

(** ** The names of methods *)
Lemma dedup_in l x : In x (dedup l) <-> In x l.
Proof.
  induction l as [|a [|b l] IH]; cbn [dedup]; [tauto|tauto|].
  destruct (name_eqb a b) eqn:E; [apply name_eqb_iff in E; subst; rewrite IH; cbn; tauto|]. cbn [In] in *. rewrite IH. tauto.
Qed.
Lemma names_in l x : In x (method_names l) <-> In x l.
Proof. unfold method_names. now rewrite dedup_in, sort_in. Qed.
