From Coq Require Import List Arith Lia Bool Permutation Sorted.
From Verif Require Import Sort_Lib Index_Lib References_Model References_Proofs FileStores_Model FileStores_Spec.
Import ListNotations.

(** ** Maps from a file to its sorted facts *)
Section Files.
  Context {A : Type} (file_of : A -> nat) (leb : A -> A -> bool).
  Hypothesis total : forall x y, leb x y = true \/ leb y x = true.
  Hypothesis trans : forall x y z, leb x y = true -> leb y z = true -> leb x z = true.

  Definition opt (l : list A) : option (list A) := match l with [] => None | _ => Some l end.
  Definition of_file (n : nat) (L : list A) : list A := filter (fun x => file_of x =? n) L.
  Definition others (n : nat) (L : list A) : list A := filter (fun x => negb (file_of x =? n)) L.

  Definition buckets (m : list (nat * list A)) (L : list A) : Prop :=
    NoDup (map fst m) /\ forall n, get Nat.eqb m n = opt (sort leb (of_file n L)).

  Lemma opt_nil l : sort leb l = [] <-> l = [].
  Proof.
    split; [|intros ->; auto]. intros H. pose proof (sort_length leb l) as E. rewrite H in E.
    destruct l; [auto|discriminate].
  Qed.

  Lemma buckets_nil : buckets [] [].
  Proof. split; [constructor|]. auto. Qed.

  Lemma of_others n k L : of_file k (others n L) = if n =? k then [] else of_file k L.
  Proof.
    destruct (Nat.eqb_spec n k) as [<-|N].
    - apply filter_nil. intros x H. apply filter_In in H. now apply negb_true_iff.
    - unfold of_file, others. rewrite filter_comm. apply filter_all. intros x H. apply filter_In in H.
      destruct H as [_ H]. apply Nat.eqb_eq in H. apply negb_true_iff, Nat.eqb_neq. congruence.
  Qed.

  Lemma of_own n k xs : (forall x, In x xs -> file_of x = n) -> of_file k xs = if n =? k then xs else [].
  Proof.
    intros H. destruct (Nat.eqb_spec n k) as [<-|N].
    - apply filter_all. intros x Hx. apply Nat.eqb_eq. auto.
    - apply filter_nil. intros x Hx. apply Nat.eqb_neq. rewrite (H x Hx). auto.
  Qed.

  Lemma buckets_del m L n : buckets m L -> buckets (del Nat.eqb m n) (others n L).
  Proof.
    intros [K H]. split; [now apply del_keys|]. intros k. rewrite get_del by apply Nat.eqb_eq.
    rewrite of_others, H. destruct (n =? k); auto.
  Qed.

  (** The bucket of [n] becomes [xs], sorted. *)
  Lemma buckets_set m m' L n xs : buckets m L -> (forall x, In x xs -> file_of x = n) ->
    NoDup (map fst m') ->
    (forall k, get Nat.eqb m' k = if n =? k then opt (sort leb xs) else get Nat.eqb m k) ->
    buckets m' (others n L ++ xs).
  Proof.
    intros [K H] HX K' H'. split; auto. intros k. rewrite H', H. unfold of_file. rewrite filter_app.
    fold (of_file k (others n L)). fold (of_file k xs). rewrite of_others, (of_own n k xs HX).
    destruct (n =? k); auto. now rewrite app_nil_r.
  Qed.

  Lemma buckets_perm m L : buckets m L -> Permutation (flat_map snd m) L.
  Proof.
    intros [K H].
    assert (flat_map snd m = map snd (flat_map (fun e : nat * list A => map (pair (fst e)) (snd e)) m)) as ->.
    { clear. induction m as [|[t l] m IH]; auto. simpl. rewrite map_app, map_map. simpl. now rewrite map_id, IH. }
    replace L with (map snd (map (fun x => (file_of x, x)) L)) at 1 by (rewrite map_map; apply map_id).
    apply Permutation_map. apply (perm_of_buckets Nat.eqb Nat.eqb_eq); auto. intros k.
    replace (map snd (filter (fun e => fst e =? k) (map (fun x => (file_of x, x)) L))) with (of_file k L).
    - unfold getd. rewrite H. destruct (sort leb (of_file k L)) as [|x l] eqn:E; simpl.
      + apply (proj1 (opt_nil _)) in E. now rewrite E.
      + rewrite <- E. symmetry. apply sort_perm.
    - clear. induction L as [|x L IH]; auto. simpl. destruct (file_of x =? k); simpl; now rewrite IH.
  Qed.

  Lemma buckets_files m L n : buckets m L -> (In n (map fst m) <-> exists x, In x L /\ file_of x = n).
  Proof.
    intros [K H]. split.
    - intros Hn. apply in_map_iff in Hn. destruct Hn as ([k v] & <- & Hk). simpl.
      apply (in_get Nat.eqb Nat.eqb_eq) in Hk; auto. rewrite H in Hk.
      destruct (sort leb (of_file k L)) as [|x l] eqn:E; [discriminate|].
      assert (In x (of_file k L)) as Hx by (apply (sort_in leb); rewrite E; now left).
      apply filter_In in Hx. destruct Hx as [Hx F]. apply Nat.eqb_eq in F. eauto.
    - intros (x & Hx & E). specialize (H n).
      assert (In x (of_file n L)) as Hin by (apply filter_In; split; auto; now apply Nat.eqb_eq).
      destruct (sort leb (of_file n L)) as [|y l] eqn:ES; [apply (proj1 (opt_nil _)) in ES; now rewrite ES in Hin|].
      apply get_in in H; [|apply Nat.eqb_eq]. apply (in_map fst) in H. exact H.
  Qed.

  Lemma buckets_getd m L n : buckets m L -> getd Nat.eqb m n = sort leb (of_file n L).
  Proof. intros [_ H]. unfold getd. rewrite H. now destruct (sort leb (of_file n L)). Qed.

  Lemma list_sum_perm m L : Permutation (flat_map snd m) L ->
    list_sum (map (fun e : nat * list A => length (snd e)) m) = length L.
  Proof.
    intros P. rewrite <- (Permutation_length P). clear P. induction m as [|[t l] m IH]; auto. simpl.
    now rewrite app_length, <- IH.
  Qed.

  (** Pushing the facts of a file one by one and sorting. *)
  Fixpoint push_all (n : nat) (s : list (nat * list A)) (xs : list A) : option (list (nat * list A)) :=
    match xs with
    | [] => Some s
    | x :: r => if file_of x =? n then push_all n (push Nat.eqb s n x) r else None
    end.

  Lemma push_all_ok n xs : (forall x, In x xs -> file_of x = n) -> forall s, NoDup (map fst s) ->
    exists s', push_all n s xs = Some s' /\ NoDup (map fst s') /\
      forall k, get Nat.eqb s' k =
        if n =? k then match xs with [] => get Nat.eqb s k | _ => Some (getd Nat.eqb s k ++ xs) end
        else get Nat.eqb s k.
  Proof.
    induction xs as [|x xs IH]; intros HX s K.
    - exists s. split; auto. split; auto. intros k. now destruct (n =? k).
    - cbn [push_all]. rewrite HX by now left. rewrite Nat.eqb_refl.
      destruct (IH (fun y H => HX y (or_intror H)) (push Nat.eqb s n x)) as (s' & E & K' & H').
      { apply put_keys; auto. apply Nat.eqb_eq. }
      exists s'. split; auto. split; auto. intros k. rewrite H'. unfold push at 1 3.
      rewrite !get_put by apply Nat.eqb_eq. destruct (Nat.eqb_spec n k) as [<-|N]; auto.
      rewrite getd_push by apply Nat.eqb_eq. rewrite Nat.eqb_refl, <- app_assoc. now destruct xs.
  Qed.

  Lemma push_all_panics n xs : (exists x, In x xs /\ file_of x <> n) -> forall s, push_all n s xs = None.
  Proof.
    intros (x & Hx & N). induction xs as [|y xs IH]; [easy|]. intros s. cbn [push_all].
    destruct (Nat.eqb_spec (file_of y) n) as [E|E]; auto. destruct Hx as [->|Hx]; [contradiction|auto].
  Qed.

  Definition sort_at (s : list (nat * list A)) (n : nat) : list (nat * list A) :=
    match get Nat.eqb s n with Some l => put Nat.eqb s n (sort leb l) | None => s end.

  Lemma sort_at_get s n k : get Nat.eqb (sort_at s n) k =
    if n =? k then match get Nat.eqb s k with Some l => Some (sort leb l) | None => None end
    else get Nat.eqb s k.
  Proof.
    unfold sort_at. destruct (get Nat.eqb s n) as [l|] eqn:E.
    - rewrite get_put by apply Nat.eqb_eq. destruct (Nat.eqb_spec n k) as [<-|N]; auto. now rewrite E.
    - destruct (Nat.eqb_spec n k) as [<-|N]; auto. now rewrite E.
  Qed.

  Lemma sort_at_keys s n : NoDup (map fst s) -> NoDup (map fst (sort_at s n)).
  Proof.
    intros H. unfold sort_at. destruct (get Nat.eqb s n); auto. apply put_keys; auto. apply Nat.eqb_eq.
  Qed.

  Lemma replace_buckets m L n xs : buckets m L -> (forall x, In x xs -> file_of x = n) ->
    exists m', push_all n (del Nat.eqb m n) xs = Some m' /\ buckets (sort_at m' n) (others n L ++ xs).
  Proof.
    intros HB HX. destruct (push_all_ok n xs HX (del Nat.eqb m n)) as (m' & E & K & H).
    { apply del_keys, HB. }
    exists m'. split; auto. apply (buckets_set m); auto.
    - now apply sort_at_keys.
    - intros k. rewrite sort_at_get, H. unfold getd. rewrite !get_del by apply Nat.eqb_eq.
      destruct (Nat.eqb_spec n k) as [<-|N]; auto. destruct xs as [|x xs]; auto. cbn [app].
      pose proof (sort_length leb (x :: xs)). now destruct (sort leb (x :: xs)).
  Qed.

  Lemma add_buckets m L x : buckets m L ->
    buckets (sort_at (push Nat.eqb m (file_of x) x) (file_of x)) (L ++ [x]).
  Proof.
    intros HB. destruct HB as [K H]. set (n := file_of x). split.
    - apply sort_at_keys. apply put_keys; auto. apply Nat.eqb_eq.
    - intros k. rewrite sort_at_get. unfold push. rewrite !get_put by apply Nat.eqb_eq.
      unfold of_file. rewrite filter_app. cbn [filter]. fold n.
      destruct (Nat.eqb_spec n k) as [<-|N].
      + fold (of_file n L). unfold getd. rewrite H.
        assert (match opt (sort leb (of_file n L)) with Some v => v | None => [] end = sort leb (of_file n L)) as ->
          by (now destruct (sort leb (of_file n L))).
        rewrite sort_sort_app by auto.
        pose proof (sort_length leb (of_file n L ++ [x])) as E. rewrite app_length in E. simpl in E.
        destruct (sort leb (of_file n L ++ [x])); [simpl in E; lia|auto].
      + rewrite H. now rewrite app_nil_r.
  Qed.
End Files.

(** ** The order of diagnostics *)

Definition enc (s : list nat) : list nat := map S s ++ [0].
Definition diag_key (x : diagnostic) : list nat :=
  [start_byte (drange x); end_byte (drange x); severity_rank (dseverity x)] ++ enc (code x) ++ enc (message x).

Lemma lexb_refl a : lexb a a = true.
Proof. destruct (lexb_total a a); auto. Qed.

Lemma lexb_cons x y a b : lexb (x :: a) (y :: b) = if y <? x then false else if x <? y then true else lexb a b.
Proof.
  cbn [lexb]. destruct (Nat.ltb_spec x y), (Nat.ltb_spec y x); try lia; simpl; auto.
  - destruct (Nat.eqb_spec x y); [lia|auto].
  - destruct (Nat.eqb_spec x y); [auto|lia].
Qed.

Lemma lexb_fixed a : forall b c d, length a = length b ->
  lexb (a ++ c) (b ++ d) = if lexb b a then if lexb a b then lexb c d else false else true.
Proof.
  induction a as [|x a IH]; intros [|y b] c d E; try discriminate; auto.
  cbn [app]. rewrite !lexb_cons. injection E as E. rewrite (IH b c d E).
  destruct (Nat.ltb_spec y x), (Nat.ltb_spec x y); try lia; auto.
Qed.

Lemma lexb_enc s : forall t c d,
  lexb (enc s ++ c) (enc t ++ d) = if lexb t s then if lexb s t then lexb c d else false else true.
Proof.
  unfold enc. induction s as [|x s IH]; intros [|y t] c d; cbn [map app].
  - reflexivity.
  - reflexivity.
  - reflexivity.
  - rewrite !lexb_cons, IH. change (S y <? S x) with (y <? x). change (S x <? S y) with (x <? y).
    destruct (Nat.ltb_spec y x), (Nat.ltb_spec x y); try lia; auto.
Qed.

Lemma diag_leb_key x y : diag_leb x y = key_leb diag_key x y.
Proof.
  unfold key_leb, diag_key, diag_leb. rewrite lexb_fixed by auto. rewrite lexb_enc.
  rewrite <- (app_nil_r (enc (message x))), <- (app_nil_r (enc (message y))), lexb_enc.
  change (lexb [] []) with true.
  repeat match goal with |- (if ?c then _ else _) = _ => destruct c; auto end.
  pose proof (lexb_total (message x) (message y)). destruct (lexb (message y) (message x)), (lexb (message x) (message y)); auto.
  destruct H; discriminate.
Qed.

Lemma diag_total x y : diag_leb x y = true \/ diag_leb y x = true.
Proof. rewrite !diag_leb_key. apply key_total. Qed.
Lemma diag_trans x y z : diag_leb x y = true -> diag_leb y z = true -> diag_leb x z = true.
Proof. rewrite !diag_leb_key. apply key_trans. Qed.

Lemma text_before_spec s t : text_before s t <-> lexb s t = true /\ lexb t s = false.
Proof.
  unfold text_before. split; intros [H1 H2]; split; auto.
  - destruct (lexb t s) eqn:E; auto. exfalso. apply H2. now apply lexb_antisym.
  - intros ->. congruence.
Qed.

Lemma before_leb x y : before x y <-> diag_leb x y = true.
Proof.
  unfold before. cbv zeta. rewrite !text_before_spec. unfold diag_leb. cbv zeta.
  set (a := start_byte (drange x)). set (a' := start_byte (drange y)).
  set (b := end_byte (drange x)). set (b' := end_byte (drange y)).
  change (match dseverity x with Error => 0 | Warning => 1 | Information => 2 | Hint => 3 end)
    with (severity_rank (dseverity x)).
  change (match dseverity y with Error => 0 | Warning => 1 | Information => 2 | Hint => 3 end)
    with (severity_rank (dseverity y)).
  set (r := severity_rank (dseverity x)). set (r' := severity_rank (dseverity y)).
  assert (forall s t, s = t <-> lexb s t = true /\ lexb t s = true) as EQ.
  { intros s t. split; [intros ->; split; apply lexb_refl|intros [? ?]; now apply lexb_antisym]. }
  rewrite (EQ (code x)), (EQ (message x)). rewrite !lexb_cons. change (lexb [] []) with true.
  destruct (lexb_total (code x) (code y)) as [T1|T1], (lexb_total (message x) (message y)) as [T2|T2];
  destruct (Nat.ltb_spec a a'), (Nat.ltb_spec a' a), (Nat.ltb_spec b b'), (Nat.ltb_spec b' b),
    (Nat.ltb_spec r r'), (Nat.ltb_spec r' r); try lia;
  destruct (lexb (code x) (code y)), (lexb (code y) (code x)), (lexb (message x) (message y)),
    (lexb (message y) (message x)); try discriminate;
  (split; [intros; intuition (try lia; try discriminate; auto)|
           intros H'; try discriminate; intuition lia]).
Qed.

Lemma before_antisym x y : file_id (drange x) = file_id (drange y) ->
  diag_leb x y = true -> diag_leb y x = true -> x = y.
Proof.
  intros F H1 H2. rewrite diag_leb_key in H1, H2. pose proof (lexb_antisym _ _ H1 H2) as E.
  assert (forall s t c d, enc s ++ c = enc t ++ d -> s = t /\ c = d) as EI.
  { induction s as [|u s IH]; intros [|w t] c d H; try discriminate H.
    - injection H as ->. auto.
    - unfold enc in H. cbn [map app] in H. injection H as -> H. apply IH in H. destruct H as [-> ->]. auto. }
  unfold diag_key in E. cbn [app] in E. injection E as E1 E2 E3 E4. apply EI in E4. destruct E4 as [E4 E5].
  rewrite <- (app_nil_r (enc (message x))), <- (app_nil_r (enc (message y))) in E5. apply EI in E5.
  destruct E5 as [E5 _]. destruct x as [[f1 a1 b1] s1 c1 m1], y as [[f2 a2 b2] s2 c2 m2]. simpl in *. subst.
  f_equal. destruct s1, s2; auto; discriminate.
Qed.

(** ** Candidates *)

Definition cfile (x : candidate) : nat := file_id (crange x).
Notation cleb := (key_leb ckey).
Notation cbuckets p m L := (buckets cfile cleb m (filter p L)).

Lemma install_ok p m L n xs : cbuckets p m L -> (forall x, In x xs -> cfile x = n) ->
  cbuckets p (install (del Nat.eqb m n) n (filter p xs)) (others cfile n L ++ xs).
Proof.
  intros HB HX. rewrite filter_app. unfold others at 1. rewrite filter_comm.
  fold (others cfile n (filter p L)). apply (buckets_set cfile cleb m); auto.
  - intros x Hx. apply filter_In in Hx. now apply HX.
  - unfold install. pose proof (del_keys Nat.eqb m n (proj1 HB)) as K.
    destruct (filter p xs); auto. apply put_keys; auto. apply Nat.eqb_eq.
  - intros k. unfold install. destruct (filter p xs) as [|x r] eqn:E.
    + rewrite get_del by apply Nat.eqb_eq. now destruct (n =? k).
    + rewrite get_put, get_del by apply Nat.eqb_eq. destruct (n =? k); auto.
      pose proof (sort_length cleb (x :: r)). now destruct (sort cleb (x :: r)).
Qed.

Definition cok (s : cstore) (L : list candidate) : Prop :=
  cbuckets is_constant (constants s) L /\ cbuckets is_method (methods s) L /\ cbuckets is_resolved (resolved s) L.

Lemma three_kinds (L : list candidate) :
  Permutation (filter is_constant L ++ filter is_method L ++ filter is_resolved L) L.
Proof.
  induction L as [|x L IH]; auto. simpl. unfold is_constant at 1, is_method at 1, is_resolved at 1.
  destruct (kind x); simpl; auto.
  - symmetry. eapply perm_trans; [apply perm_skip, Permutation_sym, IH|]. apply Permutation_middle.
  - symmetry. eapply perm_trans; [apply perm_skip, Permutation_sym, IH|].
    rewrite !app_assoc. apply Permutation_middle.
Qed.

Lemma by_kind m : (forall x y, In x m -> In y m -> ckey x = ckey y) ->
  sort (key_leb c_position) m = filter is_constant m ++ filter is_method m ++ filter is_resolved m.
Proof.
  intros H. rewrite (sort_ext (key_leb c_position) (key_leb (fun x => [nth 2 (c_position x) 0])) m).
  2:{ intros x y Hx Hy. specialize (H x y Hx Hy). unfold ckey in H. injection H as H1 H2.
      unfold key_leb, c_position. cbn [nth]. rewrite !lexb_cons, H1, H2, !Nat.ltb_irrefl. reflexivity. }
  set (le := key_leb _). assert (forall p, (forall x y, p x = true -> p y = true -> le x y = true) ->
    StronglySorted (Sort_Lib.le le) (filter p m)) as SS.
  { intros p Hp. clear H. induction m as [|x m IH]; simpl; [constructor|]. destruct (p x) eqn:E; auto.
    constructor; auto. apply Forall_forall. intros y Hy. apply filter_In in Hy. apply Hp; tauto. }
  apply sort_eq.
  - apply key_total.
  - apply key_trans.
  - apply sorted_app; [|apply sorted_app|].
    + apply SS. unfold le, key_leb, c_position, is_constant. cbn [nth]. intros x y.
      destruct (kind x), (kind y); auto; discriminate.
    + apply SS. unfold le, key_leb, c_position, is_method. cbn [nth]. intros x y.
      destruct (kind x), (kind y); auto; discriminate.
    + apply SS. unfold le, key_leb, c_position, is_resolved. cbn [nth]. intros x y.
      destruct (kind x), (kind y); auto; discriminate.
    + intros x y Hx Hy. apply filter_In in Hx, Hy. destruct Hx as [_ Hx], Hy as [_ Hy].
      unfold le, key_leb, c_position, is_method, is_resolved in *. cbn [nth].
      destruct (kind x), (kind y); auto; discriminate.
    + intros x y Hx Hy. apply filter_In in Hx. apply in_app_or in Hy. rewrite !filter_In in Hy. destruct Hx as [_ Hx].
      assert (is_method y = true \/ is_resolved y = true) as Hy' by tauto.
      unfold le, key_leb, c_position, is_method, is_resolved, is_constant in *. cbn [nth].
      destruct (kind x), (kind y); auto; destruct Hy'; discriminate.
  - intros x. rewrite !filter_app.
    assert (forall p q, (p = is_constant \/ p = is_method \/ p = is_resolved) ->
      (q = is_constant \/ q = is_method \/ q = is_resolved) -> p = q \/ forall y : candidate, q y = true -> p y = false) as DJ.
    { intros p q [-> | [-> | ->]] [-> | [-> | ->]]; auto; right; intros y; unfold is_constant, is_method, is_resolved;
        destruct (kind y); auto; discriminate. }
    assert (exists p, (p = is_constant \/ p = is_method \/ p = is_resolved) /\ forall y, eqv le x y = p y) as (p & Hp & Ep).
    { unfold eqv, le, key_leb, c_position. cbn [nth lexb].
      destruct (kind x); [exists is_constant|exists is_method|exists is_resolved]; (split; [tauto|]);
      intros y; unfold is_constant, is_method, is_resolved; destruct (kind y); reflexivity. }
    rewrite !(filter_same (eqv le x) p) by auto.
    assert (filter p (filter p m) = filter p m) as PP.
    { apply filter_all. intros y Hy. now apply filter_In in Hy. }
    assert (forall q, (q = is_constant \/ q = is_method \/ q = is_resolved) -> p <> q -> filter p (filter q m) = []) as PQ.
    { intros q Hq N. apply filter_nil. intros y Hy. apply filter_In in Hy. destruct (DJ p q Hp Hq); [contradiction|].
      apply H0. tauto. }
    assert (is_constant <> is_method /\ is_constant <> is_resolved /\ is_method <> is_resolved) as (N1 & N2 & N3).
    { set (r := mkRange 0 0 0). repeat split; intros E;
      [apply (f_equal (fun f => f (mkCand r Constant 0))) in E|apply (f_equal (fun f => f (mkCand r Constant 0))) in E|
       apply (f_equal (fun f => f (mkCand r (Method 0) 0))) in E]; discriminate. }
    destruct Hp as [-> | [-> | ->]]; rewrite PP.
    + rewrite (PQ is_method), (PQ is_resolved) by auto. apply app_nil_r.
    + rewrite (PQ is_constant), (PQ is_resolved) by auto. apply app_nil_r.
    + now rewrite (PQ is_constant), (PQ is_method) by auto.
Qed.

Lemma candidates_ok s L n : cok s L ->
  candidates_in_file s n = sort (key_leb c_position) (of_file cfile n L).
Proof.
  intros (H1 & H2 & H3). unfold candidates_in_file.
  rewrite (buckets_getd _ _ _ _ n H1), (buckets_getd _ _ _ _ n H2), (buckets_getd _ _ _ _ n H3).
  assert (forall p, of_file cfile n (filter p L) = filter p (of_file cfile n L)) as FF by (intros; apply filter_comm).
  rewrite !FF. set (l := of_file cfile n L).
  rewrite sort_sort_app by (apply key_total || apply key_trans).
  apply sort_eq; [apply key_total|apply key_trans| |].
  - assert (StronglySorted (Sort_Lib.le (key_leb c_position)) (sort (key_leb c_position) l)) as SS
      by (apply sort_sorted; [apply key_total|apply key_trans]).
    induction SS as [|x r S IH F]; constructor; auto. eapply Forall_impl; [|exact F]. intros y.
    unfold Sort_Lib.le, key_leb, c_position, ckey. rewrite !lexb_cons.
    destruct (start_byte (crange y) <? start_byte (crange x)); auto.
    destruct (start_byte (crange x) <? start_byte (crange y)); auto.
    destruct (end_byte (crange y) <? end_byte (crange x)); auto.
    destruct (end_byte (crange x) <? end_byte (crange y)); auto.
  - intros x. rewrite sort_filter by (apply key_total || apply key_trans). rewrite by_kind.
    + rewrite !filter_app, !sort_filter by (apply key_total || apply key_trans).
      rewrite !(filter_comm (eqv cleb x)).
      assert (forall q : list candidate, (forall y z, In y q -> In z q -> ckey y = ckey z) -> sort cleb q = q) as SI.
      { intros q Hq. apply sort_id; [apply key_total|apply key_trans|]. clear -Hq.
        induction q as [|y q IH]; constructor.
        - apply IH. intros a b Ha Hb. apply Hq; now right.
        - apply Forall_forall. intros z Hz. unfold Sort_Lib.le, key_leb.
          rewrite (Hq y z); [apply lexb_refl|now left|now right]. }
      rewrite !SI; auto.
      all: intros y z Hy Hz; apply filter_In in Hy, Hz; destruct Hy as [Hy _], Hz as [Hz _];
        apply filter_In in Hy, Hz; destruct Hy as [_ Hy], Hz as [_ Hz]; apply key_eqv in Hy, Hz; congruence.
    + intros y z Hy Hz. apply filter_In in Hy, Hz. destruct Hy as [_ Hy], Hz as [_ Hz].
      apply key_eqv in Hy, Hz. congruence.
Qed.
