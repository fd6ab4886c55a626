(** Proofs about the class file parser. *)
From Coq Require Import String List Arith NArith ZArith Bool Lia.
From Verif Require Import Text_Lib Descriptor_Model Descriptor_Spec Descriptor_Props Classfile_Model Classfile_Spec.
Import ListNotations.
Local Open Scope N_scope.
Local Open Scope list_scope.


(** ** Numbers *)
Lemma split_at (m a b w : N) : b < m -> w = a * m + b -> w / m = a /\ w mod m = b.
Proof.
  intros L E. split; symmetry; [apply (N.div_unique w m a b L)|apply (N.mod_unique w m a b L)]; lia.
Qed.
Lemma join_at (m w : N) : m <> 0 -> w = w / m * m + w mod m /\ w mod m < m.
Proof. intros H. split; [rewrite N.mul_comm; apply N.div_mod, H|apply N.mod_lt, H]. Qed.
Lemma octets_app a b : octets (a ++ b) <-> octets a /\ octets b.
Proof. apply Forall_app. Qed.
Lemma two_iff n x y : x < 256 -> y < 256 -> (two n [x; y] <-> n = 256 * x + y).
Proof.
  intros X Y. unfold two, be2. split.
  - intros [L E]. injection E as -> ->. pose proof (join_at 256 n ltac:(discriminate)). lia.
  - intros E. destruct (split_at 256 x y n Y ltac:(lia)) as [-> ->]. split; [lia|reflexivity].
Qed.
Lemma be2_length n : length (be2 n) = 2%nat. Proof. reflexivity. Qed.
Lemma four_iff n x y z w : x < 256 -> y < 256 -> z < 256 -> w < 256 -> (four n [x; y; z; w] <-> n = 256 * (256 * (256 * x + y) + z) + w).
Proof.
  intros X Y Z W. unfold four, be4, be2. cbn [app]. split.
  - intros [L E]. injection E as E1 E2 E3 E4. pose proof (join_at 65536 n ltac:(discriminate)). pose proof (join_at 256 (n / 65536) ltac:(discriminate)). pose proof (join_at 256 (n mod 65536) ltac:(discriminate)). lia.
  - intros E. destruct (split_at 65536 (256 * x + y) (256 * z + w) n ltac:(lia) ltac:(lia)) as [-> ->].
    destruct (split_at 256 x y (256 * x + y) Y ltac:(lia)) as [-> ->]. destruct (split_at 256 z w (256 * z + w) W ltac:(lia)) as [-> ->]. split; [lia|reflexivity].
Qed.
Lemma two_shape n x : two n x -> exists a b, x = [a; b].
Proof. intros [_ ->]. unfold be2. eauto. Qed.
Lemma four_shape n x : four n x -> exists a b c d, x = [a; b; c; d].
Proof. intros [_ ->]. unfold be4, be2. cbn. eauto 6. Qed.
Lemma two_fun n m x : two n x -> two m x -> n = m.
Proof. intros [A ->] [B E]. unfold be2 in E. injection E as E1 E2. pose proof (join_at 256 n ltac:(discriminate)). pose proof (join_at 256 m ltac:(discriminate)). lia. Qed.

(** ** Parsers that count nothing: on inputs of at most [n] bytes, [p] splits off what [P] describes *)
Definition pure {A} (n : nat) (p : parser A) (P : A -> list N -> Prop) : Prop :=
  forall seen b a seen' r, octets b -> (length b <= n)%nat ->
    (p seen b = Some (a, seen', r) <-> seen' = seen /\ exists x, P a x /\ b = x ++ r).
Lemma pure_ext {A} n (p : parser A) P Q : pure n p P -> (forall a x, octets x -> (P a x <-> Q a x)) -> pure n p Q.
Proof.
  intros H E seen b a seen' r O Le. rewrite (H seen b a seen' r O Le). split; intros (S & x & X & B); split; auto; exists x; (split; [|exact B]); apply E; auto; rewrite B in O; apply octets_app in O; tauto.
Qed.
Lemma pure_ret {A} n (a : A) : pure n (ret a) (fun c x => c = a /\ x = []).
Proof.
  intros seen b c seen' r O Le. unfold ret. split.
  - intros E. injection E as <- <- <-. split; [reflexivity|]. exists []. auto.
  - intros (-> & x & (-> & ->) & ->). reflexivity.
Qed.
Lemma pure_fail {A} n : pure n (@fail A) (fun _ _ => False).
Proof. intros seen b c seen' r O Le. split; [discriminate|intros (_ & x & [] & _)]. Qed.
Lemma pure_bind {A B} n (p : parser A) (q : A -> parser B) P Q : pure n p P -> (forall a x, P a x -> octets x -> pure n (q a) (Q a)) ->
  pure n (bind p q) (fun c x => exists a y z, P a y /\ Q a c z /\ x = y ++ z).
Proof.
  intros H K seen b c seen' r O Le. unfold bind. split.
  - destruct (p seen b) as [[[a s1] b1]|] eqn:E; [|discriminate]. intros E2. apply (H seen b a s1 b1 O Le) in E. destruct E as (-> & y & Y & ->).
    apply octets_app in O. destruct O as [Oy Ob]. rewrite app_length in Le. apply (K a y Y Oy seen b1 c seen' r Ob ltac:(lia)) in E2. destruct E2 as (-> & z & Z & ->).
    split; [reflexivity|]. exists (y ++ z). rewrite app_assoc. split; [exists a, y, z; auto|reflexivity].
  - intros (-> & x & (a & y & z & Y & Z & ->) & ->). rewrite <- app_assoc in O, Le |- *. pose proof O as O'. apply octets_app in O. destruct O as [Oy Ob].
    assert (E : p seen (y ++ z ++ r) = Some (a, seen, z ++ r)) by (apply (H seen _ a seen (z ++ r) O' Le); split; [reflexivity|]; exists y; auto).
    rewrite E. rewrite app_length in Le. apply (K a y Y Oy seen (z ++ r) c seen r Ob ltac:(lia)). split; [reflexivity|]. exists z. auto.
Qed.
Lemma pure_lift {A} n (o : option A) : pure n (lift o) (fun c x => o = Some c /\ x = []).
Proof.
  destruct o as [a|]; cbn [lift].
  - eapply pure_ext; [apply pure_ret|]. intros c x _. split; [intros [-> ->]; auto|intros [E ->]; injection E as ->; auto].
  - eapply pure_ext; [apply pure_fail|]. intros c x _. split; [intros []|intros [E _]; discriminate E].
Qed.
Lemma pure_bind_lift {A B} n (o : option A) (q : A -> parser B) Q : (forall a, o = Some a -> pure n (q a) (Q a)) -> pure n (bind (lift o) q) (fun c x => exists a, o = Some a /\ Q a c x).
Proof.
  intros H. eapply pure_ext; [apply pure_bind with (Q := Q); [apply pure_lift|]|].
  - intros a x [E _] _. exact (H a E).
  - intros c x _. split.
    + intros (a & y & z & (E & ->) & Z & ->). eauto.
    + intros (a & E & Z). exists a, [], x. auto.
Qed.
Lemma pure_bind_guard {B} n (g : bool) (q : unit -> parser B) Q : (g = true -> pure n (q tt) Q) -> pure n (bind (guard g) q) (fun c x => g = true /\ Q c x).
Proof.
  intros H. destruct g; cbn [guard].
  - eapply pure_ext; [apply (pure_bind n (ret tt) q (fun c x => c = tt /\ x = []) (fun _ => Q)); [apply pure_ret|intros [] ? _ _; apply H; reflexivity]|].
    intros c x _. split; [intros (a & y & z & (_ & ->) & Z & ->); auto|intros [_ Z]; exists tt, [], x; auto].
  - intros seen b c seen' r O Le. cbn. split; [discriminate|intros (_ & x & (E & _) & _); discriminate E].
Qed.
Lemma pure_bind_ret {A B} n (a : A) (q : A -> parser B) Q : pure n (q a) Q -> pure n (bind (ret a) q) Q.
Proof. intros H. exact H. Qed.
(** ret at the end *)
Lemma pure_map {A B} n (p : parser A) (f : A -> B) P : pure n p P -> pure n (bind p (fun a => ret (f a))) (fun c x => exists a, P a x /\ c = f a).
Proof.
  intros H. eapply pure_ext; [apply pure_bind with (Q := fun a c x => c = f a /\ x = []); [exact H|intros; apply pure_ret]|].
  intros c x _. split.
  - intros (a & y & z & Y & (-> & ->) & ->). rewrite app_nil_r. eauto.
  - intros (a & Y & ->). exists a, x, []. rewrite app_nil_r. auto.
Qed.
Lemma pure_u1 n : pure n u1 (fun a x => a < 256 /\ x = [a]).
Proof.
  intros seen b a seen' r O Le. unfold u1. split.
  - destruct b as [|c b]; [discriminate|]. intros E. injection E as <- <- <-. inversion O; subst. split; [reflexivity|]. exists [c]. auto.
  - intros (-> & x & (_ & ->) & ->). reflexivity.
Qed.
Lemma pure_u2 n : pure n u2 two.
Proof.
  intros seen b a seen' r O Le. unfold u2. split.
  - destruct b as [|c [|d b]]; [discriminate|discriminate|]. intros E. injection E as <- <- <-. inversion O as [|? ? O1 O']; subst. inversion O' as [|? ? O2 O3]; subst.
    split; [reflexivity|]. exists [c; d]. split; [apply two_iff; auto|reflexivity].
  - intros (-> & x & T & ->). destruct (two_shape _ _ T) as (c & d & ->). apply octets_app in O. destruct O as [O _]. inversion O as [|? ? O1 O']; subst. inversion O' as [|? ? O2 O3]; subst.
    apply two_iff in T; auto. subst a. reflexivity.
Qed.
Lemma pure_u4 n : pure n u4 four.
Proof.
  intros seen b a seen' r O Le. unfold u4. split.
  - destruct b as [|c [|d [|e [|f b]]]]; try discriminate. intros E. injection E as <- <- <-.
    inversion O as [|? ? O1 Oa]; subst. inversion Oa as [|? ? O2 Ob]; subst. inversion Ob as [|? ? O3 Oc]; subst. inversion Oc as [|? ? O4 Od]; subst.
    split; [reflexivity|]. exists [c; d; e; f]. split; [apply four_iff; auto|reflexivity].
  - intros (-> & x & T & ->). destruct (four_shape _ _ T) as (c & d & e & f & ->). apply octets_app in O. destruct O as [O _].
    inversion O as [|? ? O1 Oa]; subst. inversion Oa as [|? ? O2 Ob]; subst. inversion Ob as [|? ? O3 Oc]; subst. inversion Oc as [|? ? O4 Od]; subst.
    apply four_iff in T; auto. subst a. reflexivity.
Qed.
Lemma pure_take n k : pure n (take k) (fun a x => x = a /\ len a = k).
Proof.
  intros seen b a seen' r O Le. unfold take. split.
  - destruct (N.leb_spec k (N.of_nat (length b))) as [L|L]; [|discriminate]. intros E. injection E as <- <- <-. split; [reflexivity|]. exists (firstn (N.to_nat k) b).
    split; [|symmetry; apply firstn_skipn]. split; [reflexivity|]. unfold len. rewrite firstn_length. lia.
  - intros (-> & x & (-> & E) & ->). unfold len in E. rewrite app_length. destruct (N.leb_spec k (N.of_nat (length a + length r))) as [L|L]; [|lia].
    assert (T : N.to_nat k = length a) by lia. rewrite T, firstn_app, skipn_app, Nat.sub_diag, firstn_all, skipn_all. cbn. rewrite app_nil_r. reflexivity.
Qed.
Lemma pure_times {A} n (p : parser A) P : pure n p P -> forall k, pure n (times k p) (fun l x => length l = k /\ sequence P l x).
Proof.
  intros H. induction k as [|k IH]; cbn [times].
  - eapply pure_ext; [apply pure_ret|]. intros l x _. split; [intros [-> ->]; split; [reflexivity|constructor]|]. intros [E S]. destruct l; [|discriminate E]. inversion S. auto.
  - eapply pure_ext; [apply pure_bind; [exact H|intros a x _ _; exact (pure_map n _ (cons a) _ IH)]|]. intros l x _. split.
    + intros (a & y & z & Y & (m & (E & S) & ->) & ->). cbn. split; [congruence|constructor; auto].
    + intros [E S]. destruct l as [|a l]; [discriminate E|]. inversion S as [|? ? y z Y Z]; subst. exists a, y, z. split; [exact Y|]. split; [|reflexivity]. exists l. auto.
Qed.
Lemma pure_bounded n max : pure n (bounded max) (fun k x => k <= max /\ two k x).
Proof.
  unfold bounded. eapply pure_ext.
  { apply pure_bind with (Q := fun k c x => (k <=? max) = true /\ (c = k /\ x = [])); [apply pure_u2|]. intros k x _ _. apply pure_bind_guard. intros _. apply pure_ret. }
  intros k x _. split.
  - intros (a & y & z & Y & (L & -> & ->) & ->). rewrite app_nil_r. apply N.leb_le in L. auto.
  - intros [L T]. exists k, x, []. apply N.leb_le in L. rewrite app_nil_r. auto.
Qed.
Lemma pure_table {A} n max (p : parser A) P : pure n p P -> pure n (bind (bounded max) (fun k => times (N.to_nat k) p)) (table max P).
Proof.
  intros H. eapply pure_ext; [apply pure_bind; [apply pure_bounded|intros a x _ _; apply pure_times, H]|].
  intros l x _. unfold table, len. split.
  - intros (k & y & z & (L & T & ->) & (E & S) & ->). exists z. replace (N.of_nat (length l)) with k by lia. auto.
  - intros (y & L & T & -> & S). exists (N.of_nat (length l)), (be2 (N.of_nat (length l))), y. rewrite Nat2N.id. repeat split; auto.
Qed.
Lemma pure_within {A} n (body : list N) (p : parser A) P : octets body -> pure (length body) p P -> pure n (within body p) (fun a x => x = [] /\ P a body).
Proof.
  intros O H seen b a seen' r _ _. unfold within. split.
  - destruct (p seen body) as [[[c s] r']|] eqn:E; [|discriminate]. destruct r' as [|z r']; [|discriminate]. intros E2. injection E2 as <- <- <-.
    apply (H seen body c s [] O (le_n _)) in E. destruct E as (-> & x & X & B). rewrite app_nil_r in B. subst x. split; [reflexivity|]. exists []. auto.
  - intros (-> & x & (-> & X) & ->). assert (E : p seen body = Some (a, seen, [])) by (apply (H seen body a seen [] O (le_n _)); split; [reflexivity|]; exists body; rewrite app_nil_r; auto).
    rewrite E. reflexivity.
Qed.

(** ** Names *)
Lemma utf8_iff cp i s : utf8 cp i = Some s <-> string_index cp s i.
Proof.
  unfold utf8, entry_at, string_index. destruct (N.eqb_spec i 0) as [->|H]; [split; [discriminate|intros [K _]; congruence]|].
  destruct (nth_error cp (N.to_nat i)) as [e|]; [|split; [discriminate|intros [_ E]; discriminate E]].
  destruct e as [|o| | |]; try (split; [discriminate|intros [_ E]; discriminate E]). split; [intros ->; auto|intros [_ E]; injection E as ->; reflexivity].
Qed.
Lemma class_iff cp i s : class_at cp i = Some s <-> class_index cp s i.
Proof.
  unfold class_at, entry_at, class_index. destruct (N.eqb_spec i 0) as [->|H]; [split; [discriminate|intros [K _]; congruence]|].
  destruct (nth_error cp (N.to_nat i)) as [e|]; [|split; [discriminate|intros [_ (n & E & _)]; discriminate E]].
  destruct e as [| |k| |]; try (split; [discriminate|intros [_ (n & E & _)]; discriminate E]). rewrite utf8_iff. split; [intros K; split; [auto|]; exists k; auto|intros [_ (n & E & K)]; injection E as ->; exact K].
Qed.
Lemma module_iff cp i s : module_at cp i = Some s <-> module_index cp s i.
Proof.
  unfold module_at, entry_at, module_index. destruct (N.eqb_spec i 0) as [->|H]; [split; [discriminate|intros [K _]; congruence]|].
  destruct (nth_error cp (N.to_nat i)) as [e|]; [|split; [discriminate|intros [_ (n & E & _)]; discriminate E]].
  destruct e as [| | |k|]; try (split; [discriminate|intros [_ (n & E & _)]; discriminate E]). rewrite utf8_iff. split; [intros K; split; [auto|]; exists k; auto|intros [_ (n & E & K)]; injection E as ->; exact K].
Qed.
Lemma string_nonzero cp s i : string_index cp s i -> i <> 0. Proof. intros [H _]. exact H. Qed.
Lemma class_nonzero cp s i : class_index cp s i -> i <> 0. Proof. intros [H _]. exact H. Qed.

(** An index followed by its lookup. *)
Lemma pure_refers n (at_ : N -> option text) (P : text -> N -> Prop) : (forall i s, at_ i = Some s <-> P s i) -> pure n (bind u2 (fun i => lift (at_ i))) (refers P).
Proof.
  intros H. eapply pure_ext; [apply pure_bind; [apply pure_u2|intros; apply pure_lift]|]. intros s x _. unfold refers. split.
  - intros (i & y & z & T & (E & ->) & ->). rewrite app_nil_r. exists i. rewrite <- H. auto.
  - intros (i & E & T). exists i, x, []. rewrite H, app_nil_r. auto.
Qed.
Lemma maybe_at (at_ : N -> option text) (P : text -> N -> Prop) : (forall i s, at_ i = Some s <-> P s i) -> (forall i s, P s i -> i <> 0) ->
  forall o x, (exists i, two i x /\ optional_at at_ i = Some o) <-> maybe P o x.
Proof.
  intros H NZ o x. unfold optional_at. split.
  - intros (i & T & E). destruct (N.eqb_spec i 0) as [->|Z]; [injection E as <-; exact T|]. destruct (at_ i) as [s|] eqn:A; [|discriminate E]. injection E as <-. exists i. rewrite <- H. auto.
  - destruct o as [s|]; cbn [maybe].
    + intros (i & K & T). exists i. split; [exact T|]. destruct (N.eqb_spec i 0) as [->|Z]; [exfalso; exact (NZ 0 s K eq_refl)|]. apply H in K. rewrite K. reflexivity.
    + intros T. exists 0. auto.
Qed.
