(** C117: calls with a block. *)
From Coq Require Import List Arith Bool Lia.
From Verif Require Import Types_Model Types_Spec Types_Order Types_Union Types_Widen HigherOrder_Model HigherOrder_Spec.
Import ListNotations.

Lemma andthen_fine {X Y} (o : out X) (f : X -> out Y) y : andthen o f = Fine y ->
  exists x, o = Fine x /\ f x = Fine y.
Proof. destruct o; cbn; try discriminate. eauto. Qed.

Lemma all_fine_iff {X Y} (f : X -> out Y) l r : all_fine (map f l) = Fine r <-> Forall2 (fun x y => f x = Fine y) l r.
Proof.
  revert r. induction l as [|x l IH]; intros r; cbn.
  - split; [intros E; injection E as <-; constructor | intros F; now inversion F].
  - split.
    + intros E. apply andthen_fine in E. destruct E as (y & E1 & E). apply andthen_fine in E.
      destruct E as (k & E2 & E). injection E as <-. constructor; [exact E1 | now apply IH].
    + intros F. inversion F as [|a y b k F1 F2]; subst. rewrite F1. cbn. apply IH in F2. now rewrite F2.
Qed.

Lemma template_ind' (P : template -> Prop) :
  (forall x, P (Concrete x)) -> P Receiver -> (forall n, P (Variable_ n)) ->
  (forall e, P e -> P (ArrayOf e)) -> (forall k v, P k -> P v -> P (HashOf k v)) ->
  (forall l, Forall P l -> P (OneOf l)) -> P Unconstrained -> forall t, P t.
Proof.
  intros H1 H2 H3 H4 H5 H6 H7. fix IH 1. intros [x| |n|e|k v|l|].
  - apply H1.
  - apply H2.
  - apply H3.
  - apply H4, IH.
  - apply H5; apply IH.
  - apply H6. induction l as [|a l IHl]; constructor; [apply IH | exact IHl].
  - apply H7.
Qed.

Lemma look_cons s n x m : look ((n, x) :: s) m = if n =? m then Some x else look s m.
Proof. unfold look. cbn. now destruct (n =? m). Qed.

Lemma list_eqb_eq a : forall b, list_eqb a b = true -> a = b.
Proof.
  induction a as [|x a IH]; intros [|y b]; cbn; try discriminate; [reflexivity|].
  intros H. apply andb_true_iff in H. destruct H as [H1 H2]. apply eqb_eq in H1. subst y. f_equal. auto.
Qed.

Section Solved.
Variable named : meaning.
Variable compatible : ty -> ty -> bool.
Hypothesis core : core_classes named.
Notation D := (den named).

Definition grows (s s' : substs) : Prop :=
  forall n x, look s n = Some x -> exists y, look s' n = Some y /\ forall v, D x v -> D y v.
Lemma grows_refl s : grows s s.
Proof. intros n x E. eauto. Qed.
Lemma grows_trans a b c : grows a b -> grows b c -> grows a c.
Proof.
  intros H1 H2 n x E. destruct (H1 n x E) as (y & E1 & I1). destruct (H2 n y E1) as (z & E2 & I2).
  exists z. auto.
Qed.

Lemma bind_fine n a st st' : bind n a st = Fine st' ->
  grows (fst st) (fst st') /\ exists y, look (fst st') n = Some y /\ forall v, D a v -> D y v.
Proof.
  unfold bind. destruct st as [s i]. destruct (contains_unknown a); [discriminate|].
  destruct (max_iterations <? S i); [discriminate|].
  destruct (exceeds _); [discriminate|]. intros E. injection E as <-. cbn [fst]. split.
  - intros m x L. rewrite look_cons. destruct (Nat.eqb_spec n m) as [<-|_]; [|eauto].
    rewrite L. eexists. split; [reflexivity|]. intros v V. apply union_complete. exists x. split; [now left | exact V].
  - rewrite look_cons, Nat.eqb_refl. eexists. split; [reflexivity|]. intros v V.
    destruct (look s n); [|exact V]. apply union_complete. exists a. split; [right; now left | exact V].
Qed.

Lemma constrain_grows t : forall a st st', constrain compatible t a st = Fine st' -> grows (fst st) (fst st').
Proof.
  induction t as [x| |n|e IH|k IHk w IHw|l|]; intros a st st'; cbn [constrain];
    (destruct (contains_unknown a); [discriminate|]).
  - destruct (compatible x a); [|discriminate]. intros E. injection E as <-. apply grows_refl.
  - discriminate.
  - intros E. apply bind_fine in E. tauto.
  - destruct a; try discriminate. apply IH.
  - assert (K : forall ks vs, andthen (constrain compatible k (union ks) st)
      (fun st => constrain compatible w (union vs) st) = Fine st' -> grows (fst st) (fst st')).
    { intros ks vs E. apply andthen_fine in E. destruct E as (st1 & E1 & E2).
      apply grows_trans with (fst st1); eauto. }
    destruct a; try discriminate; [apply K|]. destruct (generic_hash fs rest ex) as [[]|]; try discriminate. apply K.
  - unfold constrain_union. destruct (1 <? _); [discriminate|].
    destruct (variables l) as [|n ns].
    + destruct (filter _ _); [|discriminate]. intros E. injection E as <-. apply grows_refl.
    + destruct (filter _ _) as [|y ys].
      * intros E. injection E as <-. apply grows_refl.
      * intros E. apply bind_fine in E. tauto.
  - intros E. injection E as <-. apply grows_refl.
Qed.

(** Sets that contain what the variables were solved to. *)
Definition above (A : nat -> val -> Prop) (s : substs) : Prop :=
  forall n x, look s n = Some x -> forall v, D x v -> A n v.
Definition below (A : nat -> val -> Prop) (s : substs) : Prop :=
  forall n x, look s n = Some x -> forall v, A n v -> D x v.
Lemma above_grows A s s' : grows s s' -> above A s' -> above A s.
Proof. intros G H n x E v V. destruct (G n x E) as (y & Y1 & Y2). eauto. Qed.

Lemma variables_in n l : In n (variables l) -> In (Variable_ n) l.
Proof.
  unfold variables. intros H. apply in_flat_map in H. destruct H as (t & H1 & H2).
  destruct t; try contradiction. destruct H2 as [<-|[]]. exact H1.
Qed.

Lemma constrain_sound A self t : forall a st st', constrain compatible t a st = Fine st' ->
  answered named compatible t a -> above A (fst st') -> forall v, D a v -> tden named self A t v.
Proof.
  induction t as [x| |n|e IH|k IHk w IHw|l|]; intros a st st'; cbn [constrain];
    (destruct (contains_unknown a); [discriminate|]).
  - destruct (compatible x a) eqn:C; [|discriminate]. intros _ W _ v V. now apply (W x a); [constructor | |].
  - discriminate.
  - intros E _ H v V. apply bind_fine in E. destruct E as (_ & y & Y1 & Y2). cbn. eauto.
  - destruct a; try discriminate. intros E W H v (vs & -> & V). exists vs. split; [reflexivity|].
    intros x X. apply (IH _ _ _ E); [|exact H|].
    { intros e' z Z. apply W. now constructor. }
    specialize (V x X). apply union_complete.
    destruct V as (P & P1 & P2). apply in_map_iff in P1. destruct P1 as (z & <- & Z). now exists z.
  - assert (K : forall ks vs, andthen (constrain compatible k (union ks) st)
      (fun st => constrain compatible w (union vs) st) = Fine st' ->
      answered named compatible (HashOf k w) (THash ks vs) -> above A (fst st') ->
      forall v, D (THash ks vs) v -> tden named self A (HashOf k w) v).
    { intros ks vs E W H v (es & -> & V). apply andthen_fine in E. destruct E as (st1 & E1 & E2).
      exists es. split; [reflexivity|]. intros x y X. destruct (V x y X) as [V1 V2].
      assert (U : forall l z, ors (map D l) z -> D (union l) z).
      { intros l z (P & P1 & P2). apply in_map_iff in P1. destruct P1 as (q & <- & Q).
        apply union_complete. now exists q. }
      split.
      - apply (IHk _ _ _ E1); [|  |now apply U].
        { intros e' z Z. apply W. now apply Q_key. }
        apply above_grows with (fst st'); [|exact H].
        now apply constrain_grows in E2.
      - apply (IHw _ _ _ E2); [|exact H|now apply U]. intros e' z Z. apply W. now apply Q_value. }
    destruct a; try discriminate; [apply K|]. destruct (generic_hash fs rest ex) as [g|] eqn:G; [|discriminate].
    destruct g; try discriminate. intros E W H u V. apply (K _ _ E); [|exact H|].
    { intros e' z Z. apply W. eapply Q_shape; eauto. }
    eapply generic_hash_larger; eauto.
  - unfold constrain_union. destruct (1 <? _); [discriminate|]. intros E W H v V.
    apply members_den in V. destruct V as (x & X & V).
    destruct (matches compatible l x) eqn:M.
    { unfold matches in M. apply existsb_exists in M. destruct M as (t & T & M).
      exists (tden named self A t). split; [now apply in_map|].
      destruct t; try discriminate; [|exact Logic.I]. apply (W x0 x); [|exact M|exact V]. now constructor. }
    assert (F : In x (filter (fun x => negb (matches compatible l x)) (members a)))
      by (apply filter_In; now rewrite M).
    destruct (variables l) as [|n ns] eqn:N.
    + destruct (filter _ _); [destruct F | discriminate].
    + destruct (filter _ _) as [|y ys] eqn:Q; [destruct F|].
      apply bind_fine in E. destruct E as (_ & z & Z1 & Z2).
      exists (tden named self A (Variable_ n)). split.
      * apply in_map. apply variables_in. rewrite N. now left.
      * cbn. apply (H n z Z1), Z2, union_complete. now exists x.
  - intros _ _ _ v _. exact Logic.I.
Qed.

Lemma resolve_sound A self s t : forall d x, resolve s d t = Fine x -> below A s ->
  forall v, tden named self A t v -> D x v.
Proof.
  induction t as [y| |n|e IH|k w IHk IHw|l IH|] using template_ind'; intros d x; cbn [resolve];
    (destruct (max_template_depth <? d); [discriminate|]).
  - intros E _ v V. injection E as <-. exact V.
  - discriminate.
  - destruct (look s n) eqn:L; [|discriminate]. intros E H v V. injection E as <-. now apply (H n t L).
  - intros E H v (vs & -> & V). apply andthen_fine in E. destruct E as (y & E1 & E). injection E as <-.
    exists vs. split; [reflexivity|]. intros z Z. exists (D y). split; [now left|]. apply (IH _ _ E1 H). auto.
  - intros E H v (es & -> & V). apply andthen_fine in E. destruct E as (y & E1 & E). apply andthen_fine in E.
    destruct E as (z & E2 & E). injection E as <-. exists es. split; [reflexivity|]. intros a b X.
    destruct (V a b X) as [V1 V2]. split; [exists (D y) | exists (D z)]; (split; [now left|]).
    + now apply (IHk _ _ E1 H).
    + now apply (IHw _ _ E2 H).
  - destruct (max_union_variants <? length l); [discriminate|]. intros E H v (P & P1 & V).
    apply andthen_fine in E. destruct E as (r & E1 & E). injection E as <-.
    apply in_map_iff in P1. destruct P1 as (t & <- & T). apply all_fine_iff in E1. apply union_complete.
    rewrite Forall_forall in IH. specialize (IH t T). clear - E1 T V H IH.
    induction E1 as [|a y l r E E1 IH1]; [destruct T|]. destruct T as [<-|T].
    + exists y. split; [now left|]. now apply (IH _ _ E H).
    + destruct (IH1 T) as (z & Z1 & Z2). exists z. split; [now right | exact Z2].
  - discriminate.
Qed.

Lemma arguments_sound A self g args : forall i st st' vs,
  constrain_arguments compatible g i args st = Fine st' ->
  (forall j a t, nth_error args j = Some a -> parameter_of g (i + j) = Some t -> answered named compatible t a) ->
  above A (fst st') -> Forall2 (fun a v => D a v) args vs ->
  forall j v, nth_error vs j = Some v -> exists t, parameter_of g (i + j) = Some t /\ tden named self A t v.
Proof.
  assert (G : forall args i st st', constrain_arguments compatible g i args st = Fine st' -> grows (fst st) (fst st')).
  { clear args. intros args. induction args as [|a args IH]; intros i st st' E; cbn in E.
    - injection E as <-. apply grows_refl.
    - destruct (parameter_of g i); [|discriminate]. apply andthen_fine in E. destruct E as (st1 & E1 & E2).
      apply grows_trans with (fst st1); [now apply constrain_grows in E1 | eauto]. }
  induction args as [|a args IH]; intros i st st' vs E W H F j v N; cbn in E.
  - inversion F; subst. destruct j; discriminate.
  - destruct (parameter_of g i) as [t|] eqn:P; [|discriminate]. apply andthen_fine in E.
    destruct E as (st1 & E1 & E2). inversion F as [|x y l k F1 F2]; subst. destruct j as [|j].
    + cbn in N. injection N as <-. rewrite Nat.add_0_r. exists t. split; [exact P|].
      apply (constrain_sound A self t _ _ _ E1); [| |exact F1].
      { apply (W 0); [reflexivity | now rewrite Nat.add_0_r]. }
      apply above_grows with (fst st'); eauto.
    + cbn in N. rewrite Nat.add_succ_r. apply (IH (S i) st1 st' k E2); auto.
      intros j' a' t' N' P'. apply (W (S j')); [exact N' | now rewrite Nat.add_succ_r].
Qed.
Lemma arguments_grow g args : forall i st st', constrain_arguments compatible g i args st = Fine st' ->
  grows (fst st) (fst st').
Proof.
  induction args as [|a args IH]; intros i st st' E; cbn in E.
  - injection E as <-. apply grows_refl.
  - destruct (parameter_of g i); [|discriminate]. apply andthen_fine in E. destruct E as (st1 & E1 & E2).
    apply grows_trans with (fst st1); [now apply constrain_grows in E1 | eauto].
Qed.

Lemma receiver_sound A g l : forall st st', bind_receiver g l st = Fine st' -> above A (fst st') ->
  grows (fst st) (fst st') /\
  forall n x, In (n, x) l -> In n (type_parameters g) -> forall v, D x v -> A n v.
Proof.
  induction l as [|[n x] l IH]; intros st st' E H; cbn in E.
  - injection E as <-. split; [apply grows_refl | intros n x []].
  - destruct (existsb (Nat.eqb n) (type_parameters g)) eqn:M.
    + apply andthen_fine in E. destruct E as (st1 & E1 & E2). destruct (IH _ _ E2 H) as [G K].
      apply bind_fine in E1. destruct E1 as (G1 & y & Y1 & Y2). split; [now apply grows_trans with (fst st1)|].
      intros m z [E|I1] T v V; [|now apply (K m z)]. injection E as <- <-.
      destruct (G n y Y1) as (q & Q1 & Q2). apply (H n q Q1). auto.
    + destruct (IH _ _ E H) as [G K]. split; [exact G|]. intros m z [E1|I1] T v V; [|now apply (K m z)].
      injection E1 as -> ->. exfalso.
      assert (X : existsb (Nat.eqb m) (type_parameters g) = true)
        by (apply existsb_exists; exists m; split; [exact T | apply Nat.eqb_refl]).
      rewrite X in M. discriminate.
Qed.

(** ** The receiver put in *)
Lemma instantiate_den A self receiver t :
  (forall x, receiver = Some x -> forall v, D x v <-> self v) ->
  forall t', instantiate receiver t = Fine t' -> forall v, tden named self A t v <-> tden named self A t' v.
Proof.
  intros R. induction t as [y| |n|e IH|k w IHk IHw|l IH|] using template_ind'; intros t'; cbn [instantiate]; intros E v.
  - injection E as <-. reflexivity.
  - destruct receiver as [x|]; [|discriminate]. destruct (contains_unknown x); [discriminate|].
    injection E as <-. cbn. symmetry. now apply R.
  - injection E as <-. reflexivity.
  - apply andthen_fine in E. destruct E as (e' & E1 & E). injection E as <-. cbn.
    split; intros (vs & -> & V); exists vs; (split; [reflexivity|]); intros x X; apply (IH _ E1), V, X.
  - apply andthen_fine in E. destruct E as (k' & E1 & E). apply andthen_fine in E. destruct E as (w' & E2 & E).
    injection E as <-. cbn.
    split; intros (es & -> & V); exists es; (split; [reflexivity|]); intros x y X; destruct (V x y X) as [V1 V2];
      (split; [apply (IHk _ E1), V1 | apply (IHw _ E2), V2]).
  - apply andthen_fine in E. destruct E as (l' & E1 & E). injection E as <-. apply all_fine_iff in E1.
    cbn [tden]. clear R. induction E1 as [|a b l l' E E1 IH1].
    + reflexivity.
    + inversion IH as [|a' l'' H1 H2]; subst. specialize (IH1 H2). unfold ors in *. cbn [map In].
      split; intros (P & [<-|P1] & V).
      * exists (tden named self A b). split; [now left | now apply (H1 _ E)].
      * destruct (proj1 IH1 (ex_intro _ P (conj P1 V))) as (Q & Q1 & Q2). exists Q. auto.
      * exists (tden named self A a). split; [now left | now apply (H1 _ E)].
      * destruct (proj2 IH1 (ex_intro _ P (conj P1 V))) as (Q & Q1 & Q2). exists Q. auto.
  - injection E as <-. reflexivity.
Qed.

Definition put_in (f : template -> out template) (p : param_kind * template) : out (param_kind * template) :=
  andthen (f (snd p)) (fun t => Fine (fst p, t)).
Lemma find_put f (q : param_kind -> bool) l l' : Forall2 (fun x y => put_in f x = Fine y) l l' ->
  match find (fun p => q (fst p)) l, find (fun p => q (fst p)) l' with
  | Some x, Some y => f (snd x) = Fine (snd y)
  | None, None => True
  | _, _ => False
  end.
Proof.
  induction 1 as [|x y l l' E F IH]; cbn; [exact Logic.I|]. unfold put_in in E. apply andthen_fine in E.
  destruct E as (t & E1 & E). injection E as <-. cbn. destruct (q (fst x)); [exact E1 | exact IH].
Qed.
Lemma filter_put f (q : param_kind -> bool) l l' : Forall2 (fun x y => put_in f x = Fine y) l l' ->
  Forall2 (fun x y => put_in f x = Fine y) (filter (fun p => q (fst p)) l) (filter (fun p => q (fst p)) l').
Proof.
  induction 1 as [|x y l l' E F IH]; cbn; [constructor|].
  assert (K : fst y = fst x).
  { unfold put_in in E. apply andthen_fine in E. destruct E as (t & E1 & E). now injection E as <-. }
  rewrite K. destruct (q (fst x)); [now constructor | exact IH].
Qed.
Lemma nth_put f l l' i : Forall2 (fun x y => put_in f x = Fine y) l l' ->
  match nth_error l i, nth_error l' i with
  | Some x, Some y => f (snd x) = Fine (snd y)
  | None, None => True
  | _, _ => False
  end.
Proof.
  intros F. revert i. induction F as [|x y l l' E F IH]; intros [|i]; cbn; try exact Logic.I.
  - unfold put_in in E. apply andthen_fine in E. destruct E as (t & E1 & E). now injection E as <-.
  - apply IH.
Qed.
Lemma parameter_put f g g' i : Forall2 (fun x y => put_in f x = Fine y) (parameters g) (parameters g') ->
  forall t', parameter_of g' i = Some t' -> exists t, parameter_of g i = Some t /\ f t = Fine t'.
Proof.
  intros F t'. unfold parameter_of.
  assert (P : Forall2 (fun x y => put_in f x = Fine y) (positional g) (positional g'))
    by apply (filter_put f (fun k => match k with OtherKind => false | _ => true end) _ _ F).
  assert (N := nth_put f _ _ i P). assert (Q := find_put f (fun k => kind_eqb k Rest) _ _ P).
  destruct (nth_error (positional g) i) as [x|], (nth_error (positional g') i) as [y|]; try contradiction.
  - intros E. injection E as <-. eauto.
  - destruct (find _ (positional g)) as [x|], (find _ (positional g')) as [y|]; try contradiction; cbn; [|discriminate].
    intros E. injection E as <-. eauto.
Qed.

(** ** One candidate *)
Lemma one_sound self receiver bindings args g g' st bs block st' x r :
  (forall x, receiver = Some x -> forall v, D x v <-> self v) ->
  prepare_one compatible receiver bindings args g = Fine ((g', st), bs) ->
  constrain compatible (block_return g') block st = Fine st' ->
  all_fine (map (resolve (fst st') 1) (block_parameters g')) = Fine bs ->
  resolve (fst st') 1 (return_template g') = Fine x ->
  answered named compatible (block_return g') block ->
  (forall i a t, nth_error args i = Some a -> parameter_of g' i = Some t -> answered named compatible t a) ->
  typed_call named args bs block r -> keeps named self g bindings r ->
  forall v, run_result r v -> D x v.
Proof.
  intros R P C B X W1 W2 [T1 T2] K v V.
  unfold prepare_one in P. apply andthen_fine in P. destruct P as (g1 & I1 & P).
  destruct (valid g1); [|discriminate]. apply andthen_fine in P. destruct P as (st1 & P1 & P).
  apply andthen_fine in P. destruct P as (st2 & P2 & P). apply andthen_fine in P. destruct P as (bs1 & P3 & P).
  destruct (existsb contains_unknown bs1); [discriminate|]. injection P as -> -> ->.
  unfold instantiate_signature in I1. apply andthen_fine in I1. destruct I1 as (ps & J1 & I1).
  apply andthen_fine in I1. destruct I1 as (bps & J2 & I1). apply andthen_fine in I1.
  destruct I1 as (br & J3 & I1). apply andthen_fine in I1. destruct I1 as (rt & J4 & I1). subst.
  injection I1 as I1. subst g'. cbn [block_return block_parameters return_template] in *.
  set (A := fun n v => match look (fst st') n with Some x => D x v | None => False end).
  assert (UP : above A (fst st')) by (intros n y L w W; unfold A; now rewrite L).
  assert (DN : below A (fst st')) by (intros n y L w W; unfold A in W; now rewrite L in W).
  assert (G := constrain_grows _ _ _ _ C).
  assert (UP2 : above A (fst st)) by now apply above_grows with (fst st').
  assert (INST := fun t t' => instantiate_den A self receiver t R t').
  apply (resolve_sound A self _ _ _ _ X DN). apply (INST _ _ J4). apply (K A); [| | | exact V].
  - intros n y Y1 Y2. assert (UP1 : above A (fst st1)).
    { apply above_grows with (fst st); [now apply arguments_grow in P2 | exact UP2]. }
    destruct (receiver_sound A _ _ _ _ P1 UP1) as [_ H]. now apply (H n y).
  - intros i w W. destruct (arguments_sound A self _ _ _ _ _ _ P2 W2 UP2 T1 i w W) as (t' & T & H).
    destruct (parameter_put (instantiate receiver) g
      {| receiver_parameters := receiver_parameters g; type_parameters := type_parameters g; parameters := ps;
         block_parameters := bps; block_return := br; return_template := rt |} (0 + i)) with t' as (t & Q1 & Q2).
    + now apply all_fine_iff.
    + exact T.
    + exists t. split; [exact Q1|]. now apply (INST _ _ Q2).
  - intros ws w W3 W4. apply (INST _ _ J3). apply (constrain_sound A self _ _ _ _ C W1 UP).
    apply (T2 ws w); [|exact W4]. apply all_fine_iff in B. apply all_fine_iff in J2.
    clear - B J2 W3 INST DN. revert bps J2 bs B. induction W3 as [|t w l ws W W3 IH]; intros bps J2 bs B.
    + inversion J2; subst. inversion B; subst. constructor.
    + inversion J2 as [|a b c d J J']; subst. inversion B as [|a' b' c' d' Q Q']; subst.
      constructor; [|now apply (IH d)]. apply (resolve_sound A self _ _ _ _ Q DN). now apply (INST _ _ J).
Qed.

Lemma prepare_all_in receiver bindings args l : forall common cs bs,
  prepare_all compatible receiver bindings args common l = Fine (cs, Some bs) ->
  (forall c, common = Some c -> c = bs) /\
  forall g, In g l -> exists c, In c cs /\ prepare_one compatible receiver bindings args g = Fine (c, bs).
Proof.
  induction l as [|g l IH]; intros common cs bs E; cbn in E.
  - injection E as <- ->. split; [intros c Q; now injection Q | intros g []].
  - apply andthen_fine in E. destruct E as ((c, b) & E1 & E). cbn [fst snd] in E. destruct common as [c0|].
    + destruct (list_eqb c0 b) eqn:Q; [|discriminate]. apply list_eqb_eq in Q. subst c0.
      apply andthen_fine in E. destruct E as ((cs', o) & E2 & E). injection E as <- ->.
      destruct (IH _ _ _ E2) as [H1 H2]. assert (b = bs) by auto. subst b. split; [exact H1|].
      intros g' [<-|I1]; [exists c; split; [now left | exact E1]|].
      destruct (H2 g' I1) as (c' & C1 & C2). exists c'. split; [now right | exact C2].
    + apply andthen_fine in E. destruct E as ((cs', o) & E2 & E). injection E as <- ->.
      destruct (IH _ _ _ E2) as [H1 H2]. assert (b = bs) by auto. subst b. split; [discriminate|].
      intros g' [<-|I1]; [exists c; split; [now left | exact E1]|].
      destruct (H2 g' I1) as (c' & C1 & C2). exists c'. split; [now right | exact C2].
Qed.

(** If a type is given for the call, and the call keeps one of the signatures that take so
    many arguments, every value it returns is of that type; provided the block's result
    leaves the types announced for its parameters as they were, and types found compatible
    are included in those expected. *)
Theorem C117_sound_partial self receiver sigs bindings args set block x r :
  (forall x, receiver = Some x -> forall v, D x v <-> self v) ->
  prepare compatible receiver sigs bindings args = Fine set ->
  finish compatible set block = Fine x ->
  settled compatible set block ->
  all_answered named compatible set args block ->
  typed_call named args (snd set) block r ->
  (exists g, In g sigs /\ count_matches g (length args) = true /\ keeps named self g bindings r) ->
  forall v, run_result r v -> D x v.
Proof.
  intros R P F S1 S2 T (g & G1 & G2 & G3) v V. unfold prepare in P.
  destruct (filter _ sigs) as [|g0 gs] eqn:FL; [discriminate|].
  destruct (max_overloads <? _); [discriminate|]. apply andthen_fine in P. destruct P as ((cs, o) & P & Q).
  cbn [fst snd] in Q. destruct o as [bs|]; [|discriminate]. injection Q as <-. cbn [fst snd] in *.
  destruct (prepare_all_in _ _ _ _ _ _ _ P) as [_ H].
  destruct (H g) as ((g', st) & C1 & C2).
  { rewrite <- FL. apply filter_In. auto. }
  unfold finish in F. destruct (contains_unknown block); [discriminate|]. destruct (exceeds block); [discriminate|].
  apply andthen_fine in F. destruct F as (results & F1 & F). cbn [fst] in F1.
  assert (Y : exists y, finish_one compatible block (g', st) = Fine y /\ In y results).
  { apply all_fine_iff in F1. clear - F1 C1. induction F1 as [|a b l k E F1 IH]; [destruct C1|].
    destruct C1 as [->|C1]; [exists b; split; [exact E | now left]|].
    destruct (IH C1) as (y & Y1 & Y2). exists y. split; [exact Y1 | now right]. }
  destruct Y as (y & Y1 & Y2).
  assert (y = x).
  { destruct results as [|z rs]; [destruct Y2|]. destruct (forallb (eqb z) rs) eqn:A; [|discriminate].
    injection F as ->. destruct Y2 as [->|Y2]; [reflexivity|]. rewrite forallb_forall in A.
    specialize (A y Y2). apply eqb_eq in A. congruence. }
  subst y. unfold finish_one in Y1. cbn [fst snd] in Y1. apply andthen_fine in Y1. destruct Y1 as (st' & Z1 & Z).
  apply andthen_fine in Z. destruct Z as (y & Z2 & Z). destruct (contains_unknown y); [discriminate|].
  injection Z as ->.
  apply (one_sound self receiver bindings args g g' st bs block st' x r); auto.
  - apply (S1 (g', st) st' C1 Z1).
  - apply (S2 (g', st) C1).
  - apply (S2 (g', st) C1).
Qed.
End Solved.
Print Assumptions C117_sound_partial.

(** ** The receiver is put in before anything is solved *)
Lemma instantiate_no_receiver receiver t : forall t', instantiate receiver t = Fine t' -> no_receiver t' = true.
Proof.
  induction t as [y| |n|e IH|k w IHk IHw|l IH|] using template_ind'; intros t'; cbn [instantiate]; intros E.
  - now injection E as <-.
  - destruct receiver as [x|]; [|discriminate]. destruct (contains_unknown x); [discriminate|]. now injection E as <-.
  - now injection E as <-.
  - apply andthen_fine in E. destruct E as (e' & E1 & E). injection E as <-. cbn. auto.
  - apply andthen_fine in E. destruct E as (k' & E1 & E). apply andthen_fine in E. destruct E as (w' & E2 & E).
    injection E as <-. cbn. apply andb_true_iff. auto.
  - apply andthen_fine in E. destruct E as (l' & E1 & E). injection E as <-. apply all_fine_iff in E1. cbn.
    induction E1 as [|a b l l' E E1 IH1]; [reflexivity|]. inversion IH as [|a' l'' H1 H2]; subst. cbn.
    apply andb_true_iff. auto.
  - now injection E as <-.
Qed.
Lemma all_fine_panic {X} (l : list (out X)) : all_fine l = Panic -> In Panic l.
Proof.
  induction l as [|o l IH]; cbn; [discriminate|]. destruct o; cbn; try discriminate; [|auto].
  destruct (all_fine l); cbn; try discriminate. auto.
Qed.
Lemma resolve_no_panic s t : no_receiver t = true -> forall d, resolve s d t <> Panic.
Proof.
  induction t as [y| |n|e IH|k w IHk IHw|l IH|] using template_ind'; intros N d; cbn [resolve];
    (destruct (max_template_depth <? d); [discriminate|]); try discriminate.
  - destruct (look s n); discriminate.
  - specialize (IH N (S d)). destruct (resolve s (S d) e); cbn; congruence.
  - cbn in N. apply andb_true_iff in N. destruct N as [N1 N2]. specialize (IHk N1 (S d)). specialize (IHw N2 (S d)).
    destruct (resolve s (S d) k), (resolve s (S d) w); cbn; congruence.
  - destruct (max_union_variants <? length l); [discriminate|].
    destruct (all_fine (map (resolve s (S d)) l)) eqn:E; cbn; try discriminate. exfalso.
    apply all_fine_panic in E. apply in_map_iff in E. destruct E as (t & E & T).
    rewrite Forall_forall in IH. cbn in N. rewrite forallb_forall in N. now apply (IH t T (N t T) (S d)).
Qed.

Definition templates (g : signature) : list template :=
  block_return g :: return_template g :: map snd (parameters g) ++ block_parameters g.
Lemma prepared_from compatible receiver bindings args l : forall common r,
  prepare_all compatible receiver bindings args common l = Fine r ->
  forall c, In c (fst r) -> exists g b, prepare_one compatible receiver bindings args g = Fine (c, b).
Proof.
  induction l as [|g l IH]; intros common r E c I1; cbn in E.
  - injection E as <-. destruct I1.
  - apply andthen_fine in E. destruct E as ((c', b) & E1 & E). cbn [fst snd] in E.
    assert (K : exists common r', prepare_all compatible receiver bindings args common l = Fine r' /\
      r = (c' :: fst r', snd r')).
    { destruct common as [c0|]; [destruct (list_eqb c0 b); [|discriminate]|];
        apply andthen_fine in E; destruct E as (r' & E2 & E); injection E as <-; eauto. }
    destruct K as (cm & r' & K1 & ->). cbn in I1. destruct I1 as [<-|I1]; [eauto | now apply (IH cm r')].
Qed.

(** No template with the receiver in it is met when the call is solved, and none makes the
    solver stop. *)
Theorem C117_receiver compatible receiver sigs bindings args set :
  prepare compatible receiver sigs bindings args = Fine set ->
  forall c t, In c (fst set) -> In t (templates (fst c)) ->
  no_receiver t = true /\ forall s d, resolve s d t <> Panic.
Proof.
  intros P c t C T.
  assert (N : no_receiver t = true); [|split; [exact N | intros s d; now apply resolve_no_panic]].
  unfold prepare in P. destruct (filter _ sigs) as [|g0 gs]; [discriminate|].
  destruct (max_overloads <? _); [discriminate|]. apply andthen_fine in P. destruct P as (r & P & Q).
  destruct (snd r); [|discriminate]. injection Q as <-. cbn [fst] in C.
  destruct (prepared_from _ _ _ _ _ _ _ P c C) as (g & b & E). unfold prepare_one in E.
  apply andthen_fine in E. destruct E as (g1 & I1 & E).
  assert (K : fst c = g1).
  { destruct (valid g1); [|discriminate]. apply andthen_fine in E. destruct E as (st1 & _ & E).
    apply andthen_fine in E. destruct E as (st2 & _ & E). apply andthen_fine in E. destruct E as (bs & _ & E).
    destruct (existsb contains_unknown bs); [discriminate|]. now injection E as <- _. }
  rewrite K in T. clear - I1 T. unfold instantiate_signature in I1. apply andthen_fine in I1.
  destruct I1 as (ps & J1 & I1). apply andthen_fine in I1. destruct I1 as (bps & J2 & I1).
  apply andthen_fine in I1. destruct I1 as (br & J3 & I1). apply andthen_fine in I1.
  destruct I1 as (rt & J4 & I1). injection I1 as <-. unfold templates in T. cbn in T.
  destruct T as [<-|[<-|T]]; [now apply instantiate_no_receiver in J3 | now apply instantiate_no_receiver in J4|].
  apply in_app_or in T. destruct T as [T|T].
  - apply all_fine_iff in J1. apply in_map_iff in T. destruct T as (p & <- & T). clear - J1 T.
    induction J1 as [|a b l k E F IH]; [destruct T|]. destruct T as [<-|T]; [|auto].
    apply andthen_fine in E. destruct E as (t & E1 & E). injection E as <-. now apply instantiate_no_receiver in E1.
  - apply all_fine_iff in J2. clear - J2 T. induction J2 as [|a b l k E F IH]; [destruct T|].
    destruct T as [<-|T]; [|auto]. now apply instantiate_no_receiver in E.
Qed.
Print Assumptions C117_receiver.

(** What is announced to the block and given for the call has no unknown part. *)
Theorem C117_proven compatible receiver sigs bindings args set :
  prepare compatible receiver sigs bindings args = Fine set ->
  (forall b, In b (snd set) -> contains_unknown b = false) /\
  forall block x, finish compatible set block = Fine x ->
    contains_unknown block = false /\ contains_unknown x = false.
Proof.
  intros P. split.
  - unfold prepare in P. destruct (filter _ sigs) as [|g gs]; [discriminate|].
    destruct (max_overloads <? _); [discriminate|]. apply andthen_fine in P. destruct P as ((cs, o) & P & Q).
    cbn [fst snd] in Q. destruct o as [bs|]; [|discriminate]. injection Q as <-. cbn [snd].
    destruct (prepare_all_in _ _ _ _ _ _ _ _ P) as [_ H]. destruct (H g (or_introl eq_refl)) as (c & _ & E).
    unfold prepare_one in E. apply andthen_fine in E. destruct E as (g1 & _ & E).
    destruct (valid g1); [|discriminate]. apply andthen_fine in E. destruct E as (st1 & _ & E).
    apply andthen_fine in E. destruct E as (st2 & _ & E). apply andthen_fine in E. destruct E as (bs' & _ & E).
    destruct (existsb contains_unknown bs') eqn:U; [discriminate|]. injection E as _ ->.
    intros b B. destruct (contains_unknown b) eqn:V; [|reflexivity].
    assert (X : existsb contains_unknown bs = true) by (apply existsb_exists; eauto). congruence.
  - intros block x F. unfold finish in F. destruct (contains_unknown block); [discriminate|].
    split; [reflexivity|]. destruct (exceeds block); [discriminate|]. apply andthen_fine in F.
    destruct F as (results & F1 & F). apply all_fine_iff in F1. destruct results as [|z rs]; [discriminate|].
    destruct (forallb (eqb z) rs); [|discriminate]. injection F as ->. inversion F1 as [|c y l k E _]; subst.
    unfold finish_one in E. apply andthen_fine in E. destruct E as (st & _ & E). apply andthen_fine in E.
    destruct E as (y & _ & E). destruct (contains_unknown y) eqn:U; [discriminate|]. now injection E as <-.
Qed.
Print Assumptions C117_proven.

(** ** What is not true *)
Definition float := TClass (const_name float_text).
Definition elem := 0. Definition other := 1.
(** [inject: [A] (A) { (A, Elem) -> A } -> A] *)
Definition inject : signature :=
  {| receiver_parameters := [elem]; type_parameters := [elem; other];
     parameters := [(Required, Variable_ other)]; block_parameters := [Variable_ other; Variable_ elem];
     block_return := Variable_ other; return_template := Variable_ other |}.

(** The block is typed once, with the type of the first argument for the accumulator.  Its
    result may add to that type, and the block is not typed again: what it returns on its
    own results is lost. *)
Theorem C117_accumulator_refuted named self i f s :
  den named integer i -> den named float f -> ~ den named integer f ->
  ~ den named integer s -> ~ den named float s ->
  exists set x r,
    prepare is_compatible None [inject] [(elem, integer)] [integer] = Fine set /\
    finish is_compatible set float = Fine x /\ contains_unknown x = false /\
    all_answered named is_compatible set [integer] float /\
    typed_call named [integer] (snd set) float r /\
    keeps named self inject [(elem, integer)] r /\
    run_result r s /\ ~ den named x s.
Proof.
  intros I1 F1 NF NS1 NS2.
  exists ([(inject, ([(other, integer); (elem, integer)], 2))], [integer; integer]),
    (TUnion [integer; float]),
    {| run_args := [i]; run_block := fun bs v => bs = [i; i] /\ v = f \/ bs = [f; i] /\ v = s;
       run_result := fun v => v = s |}.
  split; [vm_compute; reflexivity|]. split; [vm_compute; reflexivity|]. split; [reflexivity|]. split; [|split; [|split; [|split]]].
  - intros c [<-|[]]. split.
    + intros e x Q. inversion Q.
    + intros j a t J P e x Q. destruct j as [|[|j]]; cbn in *; try discriminate. injection P as <-. inversion Q.
  - split; [constructor; [exact I1 | constructor]|]. cbn. intros bs v B [[-> ->]|[-> ->]]; [exact F1|].
    inversion B; subst. contradiction.
  - intros A HB HA HK v ->. cbn in *.
    assert (A0 : A elem i) by (apply (HB elem integer); auto).
    assert (A1 : A other i). { destruct (HA 0 i eq_refl) as (t & T & H). injection T as <-. exact H. }
    assert (A2 : A other f). { apply (HK [i; i] f); [repeat constructor; auto | left; auto]. }
    apply (HK [f; i] s); [repeat constructor; auto | right; auto].
  - reflexivity.
  - intros (P & [<-|[<-|[]]] & D); auto.
Qed.
Print Assumptions C117_accumulator_refuted.

(** [keep: [U] { (Elem) -> (:skip | U) } -> Array[U]], with the symbol 1 for :skip *)
Definition keep : signature :=
  {| receiver_parameters := [elem]; type_parameters := [elem; other]; parameters := [];
     block_parameters := [Variable_ elem];
     block_return := OneOf [Concrete (TLit (LSym 1)); Variable_ other];
     return_template := ArrayOf (Variable_ other) |}.
(** Compatibility goes either way: any Symbol counts as the one symbol expected, and the
    other symbols are lost from the result. *)
Theorem C117_compatible_refuted named self i :
  core_classes named -> den named integer i -> ~ den named integer (VSym 2) ->
  exists set block x r,
    prepare is_compatible None [keep] [(elem, integer)] [] = Fine set /\
    finish is_compatible set block = Fine x /\ contains_unknown x = false /\
    settled is_compatible set block /\
    typed_call named [] (snd set) block r /\
    keeps named self keep [(elem, integer)] r /\
    run_result r (VArr [VSym 2]) /\ ~ den named x (VArr [VSym 2]).
Proof.
  intros C I1 N.
  exists ([(keep, ([(elem, integer)], 1))], [integer]), (TUnion [symbol; integer]), (TArray [integer]),
    {| run_args := []; run_block := fun bs v => bs = [i] /\ v = VSym 2; run_result := fun v => v = VArr [VSym 2] |}.
  split; [vm_compute; reflexivity|]. split; [vm_compute; reflexivity|]. split; [reflexivity|].
  split; [|split; [|split; [|split]]].
  - intros c st [<-|[]] E. vm_compute in E. injection E as <-. reflexivity.
  - split; [constructor|]. cbn. intros bs v _ [-> ->]. exists (den named symbol). split; [now left | apply C].
  - intros A HB HA HK v ->. cbn in *. exists [VSym 2]. split; [reflexivity|]. intros x [<-|[]].
    assert (A0 : A elem i) by (apply (HB elem integer); auto).
    destruct (HK [i] (VSym 2)) as (P & [<-|[<-|[]]] & H); [repeat constructor; auto | auto | discriminate | exact H].
  - reflexivity.
  - intros (vs & E & H). injection E as <-. destruct (H (VSym 2)) as (P & [<-|[]] & D); [now left | now apply N].
Qed.
Print Assumptions C117_compatible_refuted.

(** ** Cases that meet the hypotheses *)
(** Even objects are integers, odd ones floats. *)
Definition halves : meaning := fun k f v =>
  f = const_name match v with
                 | VObj n => if Nat.even n then integer_text else float_text
                 | VSym _ => symbol_text | VStr _ => string_text | _ => 50
                 end.
Example accumulator_case : den halves integer (VObj 2) /\ den halves float (VObj 3) /\ ~ den halves integer (VObj 3) /\
  ~ den halves integer (VStr 1) /\ ~ den halves float (VStr 1).
Proof. repeat split; cbn; unfold halves; cbn; try discriminate. Qed.
Example compatible_case : core_classes halves /\ den halves integer (VObj 2) /\ ~ den halves integer (VSym 2).
Proof. repeat split. cbn. unfold halves. discriminate. Qed.

(** [[2].map { |x| x.to_s }], and [[2].inject(4) { |a, x| a + x }] *)
Definition map_ : signature :=
  {| receiver_parameters := [elem]; type_parameters := [elem; other]; parameters := [];
     block_parameters := [Variable_ elem]; block_return := Variable_ other;
     return_template := ArrayOf (Variable_ other) |}.
Definition map_run : run :=
  {| run_args := []; run_block := fun bs v => bs = [VObj 2] /\ v = VStr 7; run_result := fun v => v = VArr [VStr 7] |}.
Example map_case : exists set,
  prepare is_compatible None [inject; map_] [(elem, integer)] [] = Fine set /\
  finish is_compatible set string = Fine (TArray [string]) /\
  settled is_compatible set string /\ all_answered halves is_compatible set [] string /\
  typed_call halves [] (snd set) string map_run /\
  keeps halves (fun _ => False) map_ [(elem, integer)] map_run /\
  run_result map_run (VArr [VStr 7]) /\ den halves (TArray [string]) (VArr [VStr 7]).
Proof.
  set (st := ([(map_, ([(elem, integer)], 1))], [integer])).
  assert (P : prepare is_compatible None [inject; map_] [(elem, integer)] [] = Fine st) by (vm_compute; reflexivity).
  assert (F : finish is_compatible st string = Fine (TArray [string])) by (vm_compute; reflexivity).
  assert (S1 : settled is_compatible st string)
    by (intros c s [<-|[]] E; vm_compute in E; injection E as <-; reflexivity).
  assert (S2 : all_answered halves is_compatible st [] string).
  { intros c [<-|[]]. split; [intros e x Q; inversion Q|]. intros [|j] a t J; discriminate. }
  assert (T : typed_call halves [] (snd st) string map_run)
    by (split; [constructor|]; intros bs v _ [_ ->]; reflexivity).
  assert (K : keeps halves (fun _ => False) map_ [(elem, integer)] map_run).
  { intros A HB HA HK v ->. cbn in *. exists [VStr 7]. split; [reflexivity|]. intros x [<-|[]].
    apply (HK [VObj 2]); auto. repeat constructor. apply (HB elem integer); auto. reflexivity. }
  exists st. repeat (split; [assumption|]). split; [reflexivity|].
  apply (C117_sound_partial halves is_compatible) with (self := fun _ => False) (receiver := None)
    (sigs := [inject; map_]) (bindings := [(elem, integer)]) (args := []) (set := st) (block := string) (r := map_run); auto.
  - split; intros n; reflexivity.
  - discriminate.
  - exists map_. cbn. auto.
  - reflexivity.
Qed.
Example inject_case : exists set,
  prepare is_compatible None [inject; map_] [(elem, integer)] [integer] = Fine set /\
  finish is_compatible set integer = Fine integer /\ settled is_compatible set integer.
Proof.
  exists ([(inject, ([(other, integer); (elem, integer)], 2))], [integer; integer]).
  split; [vm_compute; reflexivity|]. split; [vm_compute; reflexivity|].
  intros c s [<-|[]] E. vm_compute in E. injection E as <-. reflexivity.
Qed.
(** [tap: { (self) -> void } -> self] *)
Definition tap : signature :=
  {| receiver_parameters := []; type_parameters := []; parameters := []; block_parameters := [Receiver];
     block_return := Unconstrained; return_template := Receiver |}.
Example receiver_case : exists set,
  prepare is_compatible (Some integer) [tap] [] [] = Fine set /\ snd set = [integer] /\
  finish is_compatible set string = Fine integer /\
  exists c t, In c (fst set) /\ In t (templates (fst c)).
Proof.
  eexists. split; [vm_compute; reflexivity|]. split; [reflexivity|]. split; [vm_compute; reflexivity|].
  eexists. eexists. split; [now left | now left].
Qed.
