(** Proofs about semantic tokens. *)
From Coq Require Import List Arith NArith Bool Lia Sorting.Sorted.
From Verif Require Import Text_Lib Position_Model Position_Spec Position_Proofs Tokens_Model Tokens_Spec.
Import ListNotations.

Lemma node_children (P : node -> Prop) :
  (forall s sh, (forall c, child (Node s sh) c -> P c) -> P (Node s sh)) -> forall n, P n.
Proof.
  intros H. fix IH 1. intros [s sh]. apply H. destruct sh as [nm d c| |p nm|r m a b|p st e|c].
  - assert (Forall P c) as L by (induction c; constructor; [apply IH|assumption]).
    clear IH. intros x C. inversion C. subst. eapply Forall_forall; eauto.
  - clear IH. intros x C. inversion C.
  - assert (Forall P p) as L by (induction p; constructor; [apply IH|assumption]).
    clear IH. intros x C. inversion C. subst. eapply Forall_forall; eauto.
  - assert (Forall P r) as L1 by (induction r; constructor; [apply IH|assumption]).
    assert (Forall P a) as L2 by (induction a; constructor; [apply IH|assumption]).
    assert (Forall P b) as L3 by (induction b; constructor; [apply IH|assumption]).
    clear IH. rewrite Forall_forall in *. intros x C. inversion C. subst. intuition auto.
  - assert (P p) as L1 by apply IH.
    assert (Forall P st) as L2 by (induction st; constructor; [apply IH|assumption]).
    assert (Forall P e) as L3 by (induction e; constructor; [apply IH|assumption]).
    clear IH. rewrite Forall_forall in *. intros x C. inversion C. subst. intuition (subst; auto).
  - assert (Forall P c) as L by (induction c; constructor; [apply IH|assumption]).
    clear IH. intros x C. inversion C. subst. eapply Forall_forall; eauto.
Qed.

(** ** One step of the recursive definitions *)
Definition every (P : node -> Prop) : list node -> Prop :=
  fix all l := match l with [] => True | x :: r => P x /\ all r end.
Lemma every_in P l x : every P l -> In x l -> P x.
Proof. induction l as [|y l IH]; [easy|]. intros [H E] [<-|I]; auto. Qed.

Lemma visit_step loc sh : visit (Node loc sh) =
  match sh with
  | Local name declares children => Add name Variable_ (if declares then [Declaration] else []) :: flat_map visit children
  | ConstantRead => [Add loc Class []]
  | ConstantPath parent name => flat_map visit parent ++ [Add name Class []]
  | Call receiver message arguments block =>
      flat_map visit receiver ++ match message with Some m => [Message m] | None => [] end
      ++ flat_map visit arguments ++ flat_map visit block
  | If predicate statements subsequent =>
      (if match statements with s :: _ => fst (at_ s) <? fst (at_ predicate) | [] => false end
       then flat_map visit statements ++ visit predicate
       else visit predicate ++ flat_map visit statements) ++ flat_map visit subsequent
  | Other children => flat_map visit children
  end.
Proof. destruct sh; reflexivity. Qed.

Lemma laid_step t s e sh : laid_out t (Node (s, e) sh) =
  match sh with
  | Local name _ children => covers t name /\ in_order s (name :: map at_ children) e /\ every (laid_out t) children
  | ConstantRead => covers t (s, e)
  | ConstantPath parent name => covers t name /\ in_order s (map at_ parent ++ [name]) e /\ every (laid_out t) parent
  | Call receiver message arguments block =>
      match message with Some m => covers t m | None => True end /\
      in_order s (map at_ receiver ++ match message with Some m => [m] | None => [] end
                  ++ map at_ arguments ++ map at_ block) e /\
      every (laid_out t) receiver /\ every (laid_out t) arguments /\ every (laid_out t) block
  | If predicate statements subsequent =>
      (in_order s (at_ predicate :: map at_ statements ++ map at_ subsequent) e \/
       in_order s (map at_ statements ++ at_ predicate :: map at_ subsequent) e /\
       exists st r, statements = st :: r /\ fst (at_ st) < snd (at_ st)) /\
      laid_out t predicate /\ every (laid_out t) statements /\ every (laid_out t) subsequent
  | Other children => in_order s (map at_ children) e /\ every (laid_out t) children
  end.
Proof. destruct sh; reflexivity. Qed.

(** ** Order *)
Lemma in_order_le lo l hi : in_order lo l hi -> lo <= hi.
Proof. revert lo. induction l as [|[s e] l IH]; intros lo; cbn [in_order]; auto. intros (A & B & C). apply IH in C. lia. Qed.
Lemma in_order_weaken lo lo' l hi hi' : in_order lo l hi -> lo' <= lo -> hi <= hi' -> in_order lo' l hi'.
Proof.
  revert lo lo'. induction l as [|[s e] l IH]; intros lo lo'; cbn [in_order]; intros H A B; [lia|].
  destruct H as (X & Y & Z). repeat split; [lia|lia|]. eapply IH; eauto.
Qed.
Lemma in_order_app lo a b hi : in_order lo (a ++ b) hi <-> exists mid, in_order lo a mid /\ in_order mid b hi.
Proof.
  revert lo. induction a as [|[s e] a IH]; intros lo; cbn [app in_order].
  - split; [intros H; exists lo; auto|]. intros (m & L & H). eapply in_order_weaken; eauto.
  - rewrite IH. split; [intros (A & B & m & C & D); exists m; auto|intros (m & (A & B & C) & D); repeat split; auto; exists m; auto].
Qed.

Definition span_of (a : act) : span := match a with Add loc _ _ => loc | Message loc => loc end.
Definition fits (n : node) : Prop := forall t, laid_out t n ->
  in_order (fst (at_ n)) (map span_of (visit n)) (snd (at_ n)) /\ Forall (fun a => covers t (span_of a)) (visit n).

Lemma covers_order t loc : covers t loc -> in_order (fst loc) [loc] (snd loc).
Proof. intros (a & w & b & E & N & ->). cbn. rewrite size_app. lia. Qed.
Lemma one_order lo s hi : in_order lo [s] hi -> lo <= fst s /\ fst s <= snd s /\ snd s <= hi.
Proof. destruct s. cbn. lia. Qed.

Lemma many_fit t l lo hi : (forall x, In x l -> fits x) -> every (laid_out t) l -> in_order lo (map at_ l) hi ->
  in_order lo (map span_of (flat_map visit l)) hi /\ Forall (fun a => covers t (span_of a)) (flat_map visit l).
Proof.
  revert lo. induction l as [|x l IH]; intros lo F E O; [split; [exact O|constructor]|].
  destruct E as [X E]. change (map at_ (x :: l)) with ([at_ x] ++ map at_ l) in O. apply in_order_app in O. destruct O as (mid & O1 & O2).
  destruct (IH mid) as [A B]; auto; [intros; apply F; now right|].
  destruct (F x (or_introl eq_refl) t X) as [C D]. cbn [flat_map]. rewrite map_app. split.
  - apply in_order_app. exists mid. split; auto. apply one_order in O1. eapply in_order_weaken; eauto; lia.
  - apply Forall_app. auto.
Qed.
Lemma one_fit t x lo hi : fits x -> laid_out t x -> in_order lo [at_ x] hi ->
  in_order lo (map span_of (visit x)) hi /\ Forall (fun a => covers t (span_of a)) (visit x).
Proof.
  intros F L O. destruct (F t L) as [C D]. split; auto. apply one_order in O. eapply in_order_weaken; eauto; lia.
Qed.

Lemma all_fit n : fits n.
Proof.
  induction n as [[s e] sh IH] using node_children. intros t L. rewrite laid_step in L. rewrite visit_step. cbn [at_ fst snd].
  destruct sh as [nm d c| |p nm|r m a b|p st el|c].
  - destruct L as (C & O & E). change (in_order s ([nm] ++ map at_ c) e) in O. apply in_order_app in O. destruct O as (mid & O1 & O2).
    destruct (many_fit t c mid e) as [A B]; auto; [intros x I; apply IH; now constructor|].
    cbn [map span_of]. split.
    + change (in_order s ([nm] ++ map span_of (flat_map visit c)) e). apply in_order_app. eauto.
    + constructor; auto.
  - split; [|constructor; [exact L|constructor]]. cbn [map span_of]. apply (covers_order t (s, e) L).
  - destruct L as (C & O & E). apply in_order_app in O. destruct O as (mid & O1 & O2).
    destruct (many_fit t p s mid) as [A B]; auto; [intros x I; apply IH; now constructor|]. rewrite map_app. split.
    + apply in_order_app. eauto.
    + apply Forall_app. split; auto.
  - destruct L as (C & O & E1 & E2 & E3). repeat rewrite in_order_app in O.
    destruct O as (m1 & O1 & O). apply in_order_app in O. destruct O as (m2 & O2 & O). apply in_order_app in O. destruct O as (m3 & O3 & O4).
    destruct (many_fit t r s m1) as [A1 B1]; auto; [intros x I; apply IH; constructor; auto|].
    destruct (many_fit t a m2 m3) as [A2 B2]; auto; [intros x I; apply IH; constructor; auto|].
    destruct (many_fit t b m3 e) as [A3 B3]; auto; [intros x I; apply IH; constructor; auto|].
    rewrite !map_app. split.
    + apply in_order_app. exists m1. split; auto. apply in_order_app. exists m2. split; [now destruct m|].
      apply in_order_app. eauto.
    + repeat (apply Forall_app; split); auto. destruct m; auto.
  - destruct L as (O & P & E1 & E2).
    assert (fits p) as Fp by (apply IH; constructor; auto).
    assert (forall x, In x st -> fits x) as Fs by (intros x I; apply IH; constructor; auto).
    assert (forall x, In x el -> fits x) as Fe by (intros x I; apply IH; constructor; auto).
    destruct O as [O|(O & x & r & -> & N)].
    + change (in_order s ([at_ p] ++ map at_ st ++ map at_ el) e) in O. apply in_order_app in O. destruct O as (m1 & O1 & O).
      apply in_order_app in O. destruct O as (m2 & O2 & O3).
      destruct (one_fit t p s m1) as [A1 B1], (many_fit t st m1 m2) as [A2 B2], (many_fit t el m2 e) as [A3 B3]; auto.
      replace (match st with x :: _ => fst (at_ x) <? fst (at_ p) | [] => false end) with false.
      * cbn iota. rewrite !map_app. split; [|apply Forall_app; split; [apply Forall_app; split; assumption|assumption]].
        apply in_order_app. exists m2. split; auto. apply in_order_app. eauto.
      * destruct st as [|x r]; auto. symmetry. apply Nat.ltb_ge. apply one_order in O1.
        change (in_order m1 ([at_ x] ++ map at_ r) m2) in O2. apply in_order_app in O2. destruct O2 as (k & O2 & _). apply one_order in O2. lia.
    + apply in_order_app in O. destruct O as (m1 & O1 & O).
      change (in_order m1 ([at_ p] ++ map at_ el) e) in O. apply in_order_app in O. destruct O as (m2 & O2 & O3).
      destruct (one_fit t p m1 m2) as [A1 B1], (many_fit t (x :: r) s m1) as [A2 B2], (many_fit t el m2 e) as [A3 B3]; auto.
      replace (fst (at_ x) <? fst (at_ p)) with true.
      * cbn iota. rewrite !map_app. split; [|apply Forall_app; split; [apply Forall_app; split; assumption|assumption]].
        apply in_order_app. exists m2. split; auto. apply in_order_app. eauto.
      * symmetry. apply Nat.ltb_lt. apply one_order in O2.
        change (in_order s ([at_ x] ++ map at_ r) m1) in O1. apply in_order_app in O1. destruct O1 as (k & O1 & O1').
        apply one_order in O1. apply in_order_le in O1'. lia.
  - destruct L as (O & E). apply many_fit; auto. intros x I. apply IH. now constructor.
Qed.

(** ** Which tokens *)
Section Special.
Variable special : text -> bool.

Lemma bracketed_spec w : starts_with_bracket w && ends_with_bracket w = true <-> bracketed w.
Proof.
  rewrite andb_true_iff. unfold bracketed, starts_with_bracket, ends_with_bracket. split; intros [A B]; split.
  - destruct w as [|c w]; [easy|]. apply N.eqb_eq in A. subst. eauto.
  - destruct (rev w) as [|c r] eqn:E; [easy|]. apply orb_true_iff in B. apply (f_equal (@rev N)) in E. rewrite rev_involutive in E. cbn [rev] in E.
    destruct B as [B|B].
    + apply N.eqb_eq in B. subst. left. eauto.
    + apply andb_true_iff in B. destruct B as [B D]. apply N.eqb_eq in B. destruct r as [|d r]; [easy|]. apply N.eqb_eq in D. subst.
      right. exists (rev r). cbn [rev]. now rewrite <- app_assoc.
  - destruct A as (v & ->). apply N.eqb_refl.
  - destruct B as [(v & ->)|(v & ->)]; rewrite rev_app_distr; cbn [rev app].
    + now rewrite N.eqb_refl.
    + rewrite !N.eqb_refl. now rewrite orb_true_r.
Qed.

Definition resolve (t : text) (a : act) : list marked :=
  match a with
  | Add loc k ms => [(loc, k, ms)]
  | Message loc => match slice t (fst loc) (snd loc) with
                   | Some w => match message_kind special w with Some k => [(loc, k, [])] | None => [] end
                   | None => []
                   end
  end.

Lemma resolve_message t m x : covers t m -> In x (resolve t (Message m)) <->
  exists w a b, t = a ++ w ++ b /\ m = (size a, size (a ++ w)) /\ ~ bracketed w /\ x = (m, if special w then Macro else Method, []).
Proof.
  intros (a & w & b & -> & N & ->). cbn [resolve fst snd]. rewrite slice_app. unfold message_kind.
  pose proof (bracketed_spec w) as B. split.
  - intros I. destruct (starts_with_bracket w && ends_with_bracket w); [easy|]. exists w, a, b. repeat split; auto.
    + intros C. now apply B in C.
    + destruct (special w); destruct I as [<-|[]]; reflexivity.
  - intros (w' & a' & b' & E & F & C & ->). apply pair_equal_spec in F. destruct F as [F G].
    destruct (cut_eq _ a (w ++ b) a' (w' ++ b') eq_refl E F) as [<- E'].
    assert (size (a ++ w) = size (a ++ w')) as G' by auto. rewrite !size_app in G'.
    destruct (cut_eq _ w b w' b' eq_refl E') as [<- _]; [lia|].
    destruct (starts_with_bracket w && ends_with_bracket w); [now destruct C; apply B|]. destruct (special w); now left.
Qed.

Lemma in_resolve_app t a b x : In x (flat_map (resolve t) (a ++ b)) <-> In x (flat_map (resolve t) a) \/ In x (flat_map (resolve t) b).
Proof. rewrite flat_map_app. apply in_app_iff. Qed.
Lemma in_resolve_many t l x : In x (flat_map (resolve t) (flat_map visit l)) <-> exists n, In n l /\ In x (flat_map (resolve t) (visit n)).
Proof.
  induction l as [|y l IH]; cbn [flat_map]; [split; [easy|intros (n & [] & _)]|]. rewrite in_resolve_app, IH. split.
  - intros [H|(n & I & H)]; [exists y|exists n]; split; auto; [now left|now right].
  - intros (n & [<-|I] & H); [now left|right; eauto].
Qed.

Lemma marks t n : laid_out t n -> forall x, In x (flat_map (resolve t) (visit n)) <-> has_token special t n x.
Proof.
  induction n as [[s e] sh IH] using node_children. intros L x. rewrite laid_step in L. rewrite visit_step.
  assert (forall c, child (Node (s, e) sh) c -> laid_out t c -> In x (flat_map (resolve t) (visit c)) -> has_token special t (Node (s, e) sh) x) as Down.
  { intros c C Lc I. apply (HChild _ _ _ c); auto. now apply IH. }
  destruct sh as [nm d c| |p nm|r m a b|p st el|c].
  - destruct L as (C & O & E). cbn [flat_map resolve app In]. rewrite in_resolve_many. split.
    + intros [<-|(n & I & H)]; [constructor|]. apply (Down n); auto; [now constructor|eapply every_in; eauto].
    + intros H. remember (Node (s, e) (Local nm d c)) as q eqn:Q. destruct H as [| | | |q k x C' H]; try discriminate.
      * injection Q as -> -> -> ->. now left.
      * subst q. inversion C'; subst. right. exists k. split; auto. apply IH; auto. eapply every_in; eauto.
  - cbn [flat_map resolve app In]. split.
    + intros [<-|[]]. constructor.
    + intros H. remember (Node (s, e) ConstantRead) as q eqn:Q. destruct H as [| | | |q k x C' H]; try discriminate.
      * injection Q as ->. now left.
      * subst q. inversion C'.
  - destruct L as (C & O & E). rewrite in_resolve_app, in_resolve_many. cbn [flat_map resolve app In]. split.
    + intros [(n & I & H)|[<-|[]]]; [|constructor]. apply (Down n); auto; [now constructor|eapply every_in; eauto].
    + intros H. remember (Node (s, e) (ConstantPath p nm)) as q eqn:Q. destruct H as [| | | |q k x C' H]; try discriminate.
      * injection Q as -> -> ->. right. now left.
      * subst q. inversion C'; subst. left. exists k. split; auto. apply IH; auto. eapply every_in; eauto.
  - destruct L as (C & O & E1 & E2 & E3). rewrite !in_resolve_app, !in_resolve_many. split.
    + intros [(n & I & H)|[H|[(n & I & H)|(n & I & H)]]].
      * apply (Down n); auto; [constructor; auto|now apply (every_in (laid_out t) r)].
      * destruct m as [m|]; [|easy]. cbn [flat_map] in H. rewrite app_nil_r in H. apply resolve_message in H; auto.
        destruct H as (w & a' & b' & T & M & B & ->). eapply HMessage; eauto.
      * apply (Down n); auto; [constructor; auto|now apply (every_in (laid_out t) a)].
      * apply (Down n); auto; [constructor; auto|now apply (every_in (laid_out t) b)].
    + intros H. remember (Node (s, e) (Call r m a b)) as q eqn:Q. destruct H as [| | |s' r' m' x' y' w a' b' T M B|q k x C' H]; try discriminate.
      * assert (m = Some m') as -> by congruence. right. left. cbn [flat_map]. rewrite app_nil_r. apply resolve_message; auto.
        exists w, a', b'. auto.
      * subst q. inversion C' as [| |s' r' m' a' b' k' D| |]; subst.
        destruct D as [D|[D|D]]; [left|right; right; left|right; right; right]; exists k; (split; [assumption|]); apply IH; auto;
          [now apply (every_in (laid_out t) r)|now apply (every_in (laid_out t) a)|now apply (every_in (laid_out t) b)].
  - destruct L as (O & P & E1 & E2).
    assert (In x (flat_map (resolve t) ((if match st with y :: _ => fst (at_ y) <? fst (at_ p) | [] => false end
       then flat_map visit st ++ visit p else visit p ++ flat_map visit st) ++ flat_map visit el)) <->
      In x (flat_map (resolve t) (visit p)) \/ In x (flat_map (resolve t) (flat_map visit st)) \/ In x (flat_map (resolve t) (flat_map visit el))) as ->.
    { rewrite in_resolve_app. destruct (match st with y :: _ => _ | [] => _ end); rewrite in_resolve_app; tauto. }
    rewrite !in_resolve_many. split.
    + intros [H|[(n & I & H)|(n & I & H)]].
      * apply (Down p); auto. constructor; auto.
      * apply (Down n); auto; [constructor; auto|now apply (every_in (laid_out t) st)].
      * apply (Down n); auto; [constructor; auto|now apply (every_in (laid_out t) el)].
    + intros H. remember (Node (s, e) (If p st el)) as q eqn:Q. destruct H as [| | | |q k x C' H]; try discriminate.
      subst q. inversion C' as [| | |s' p' st' el' k' D|]; subst. destruct D as [->|[D|D]].
      * left. apply IH; auto.
      * right. left. exists k. split; auto. apply IH; auto. now apply (every_in (laid_out t) st).
      * right. right. exists k. split; auto. apply IH; auto. now apply (every_in (laid_out t) el).
  - destruct L as (O & E). rewrite in_resolve_many. split.
    + intros (n & I & H). apply (Down n); auto; [now constructor|eapply every_in; eauto].
    + intros H. remember (Node (s, e) (Other c)) as q eqn:Q. destruct H as [| | | |q k x C' H]; try discriminate.
      subst q. inversion C'; subst. exists k. split; auto. apply IH; auto. eapply every_in; eauto.
Qed.

(** ** The stream *)
Lemma type_index k : nth_error token_types (N.to_nat (token_type_to_index k)) = Some k.
Proof. destruct k; reflexivity. Qed.
Lemma bit_index m : exists i, index_of modifier_eq m token_modifiers 0 = Some i /\ nth_error token_modifiers (N.to_nat i) = Some m.
Proof. destruct m; eexists; split; reflexivity. Qed.
Lemma modifiers_distinct i j m : nth_error token_modifiers i = Some m -> nth_error token_modifiers j = Some m -> i = j.
Proof.
  intros A B. assert (NoDup token_modifiers) as D. { repeat (constructor; [cbn; intuition discriminate|]). constructor. }
  apply (proj1 (NoDup_nth_error token_modifiers) D); [apply nth_error_Some; congruence|congruence].
Qed.
Lemma bits_from ms : forall bits i m, nth_error token_modifiers i = Some m ->
  (N.testbit_nat (fold_left (fun bits m => match index_of modifier_eq m token_modifiers 0 with
                           | Some i => N.lor bits (N.shiftl 1 i) | None => bits end) ms bits) i = true
   <-> N.testbit_nat bits i = true \/ In m ms).
Proof.
  induction ms as [|k ms IH]; intros bits i m H; [cbn [fold_left]; intuition easy|]. cbn [fold_left]. rewrite (IH _ i m H).
  destruct (bit_index k) as (j & -> & J). rewrite <- !Ntestbit_Nbit, N.lor_spec, orb_true_iff, N.shiftl_1_l, N.pow2_bits_eqb, N.eqb_eq.
  cbn [In]. split.
  - intros [[A|A]|A]; auto. right. left. subst j. rewrite Nnat.Nat2N.id in J. congruence.
  - intros [A|[<-|A]]; auto. left. right. rewrite <- (modifiers_distinct _ _ _ J H). symmetry. apply Nnat.N2Nat.id.
Qed.
Lemma bits_spec ms i m : nth_error token_modifiers i = Some m ->
  (N.testbit_nat (token_modifiers_to_bitset ms) i = true <-> In m ms).
Proof.
  intros H. unfold token_modifiers_to_bitset. rewrite (bits_from ms 0%N i m H). rewrite <- Ntestbit_Nbit, N.bits_0. intuition easy.
Qed.

Lemma sub_ok checked a b : b <= a -> sub32 checked (N.of_nat a) (N.of_nat b) = Some (N.of_nat (a - b)).
Proof. intros H. unfold sub32. destruct (N.leb_spec (N.of_nat b) (N.of_nat a)); [f_equal|]; lia. Qed.
Lemma sum_ok checked t w n : short t -> n <= units w -> size w <= size t -> sum32 checked (N.of_nat n) = Some (N.of_nat n).
Proof.
  intros H A B. unfold short in H. unfold sum32. pose proof (units_le_size w).
  destruct (N.ltb_spec (N.of_nat n) 4294967296); auto. lia.
Qed.

Lemma add_ok checked t st a w b k ms l0 c0 l c : short t -> t = a ++ w ++ b -> w <> [] ->
  current st = (N.of_nat l0, N.of_nat c0) -> lsp_position a (l, c) -> pos_le (l0, c0) (l, c) ->
  exists tok, add_token checked t st (size a, size (a ++ w)) k ms = Some (State (tokens st ++ [tok]) (N.of_nat l, N.of_nat c)) /\
    (N.of_nat l0 + delta_line tok = N.of_nat l)%N /\
    (if (delta_line tok =? 0)%N then (N.of_nat c0 + delta_start tok)%N else delta_start tok) = N.of_nat c /\
    shown t (size a, size (a ++ w), k, ms) (N.of_nat l, N.of_nat c, tok).
Proof.
  intros H -> NE CU P LE. unfold add_token. cbn [fst snd].
  rewrite (position_at a (w ++ b) (l, c)) by (auto; left; split; auto; left; now destruct w).
  destruct (reported_exists (a ++ w) b) as ([el ec] & R). assert (short ((a ++ w) ++ b)) as H' by now rewrite <- app_assoc.
  pose proof (position_at (a ++ w) b (el, ec) H' R) as Q. rewrite <- app_assoc in Q. rewrite Q. rewrite CU. cbn [fst snd].
  destruct LE as [LE|[LE LC]]; cbn [fst snd] in *.
  - rewrite sub_ok by lia.
    assert ((N.of_nat (l - l0) =? 0)%N = false) as -> by (apply N.eqb_neq; lia).
    assert ((if l =? el then sub32 checked (N.of_nat ec) (N.of_nat c) else
      match slice (a ++ w ++ b) (size a) (size (a ++ w)) with Some w => sum32 checked (N.of_nat (units w)) | None => None end) = Some (N.of_nat (units w))) as ->.
    { destruct (Nat.eqb_spec l el) as [<-|NL].
      - destruct P as (m & M & EP). apply pair_equal_spec in EP. destruct EP as [-> ->].
        destruct R as [((m' & M' & EP) & _)|(_ & _ & EP)]; apply pair_equal_spec in EP; destruct EP as [E1 ->]; rewrite breaks_app in E1; [|lia].
        assert (breaks w = 0) as W by lia. assert (~ In nl w) as NW by now apply (count_occ_not_In N.eq_dec).
        assert (last_line (a ++ w) (m ++ w)) as M2.
        { destruct M as (x & -> & X & NX). exists x. rewrite app_assoc. repeat split; auto. intros I. apply in_app_or in I. tauto. }
        rewrite (last_line_unique _ _ _ M' M2), units_app, sub_ok by lia. f_equal. lia.
      - rewrite slice_app. apply (sum_ok checked (a ++ w ++ b) w); auto. rewrite !size_app. lia. }
    eexists. split; [reflexivity|]. cbn [delta_line delta_start]. split; [lia|].
    assert ((N.of_nat (l - l0) =? 0)%N = false) as -> by (apply N.eqb_neq; lia). split; [reflexivity|].
    exists a, w, b. repeat (split; [reflexivity|]). split; [exists l, c; auto|]. split; [reflexivity|]. split; [apply type_index|].
    intros i m I. now apply bits_spec.
  - rewrite sub_ok by lia. subst l0. rewrite Nat.sub_diag. cbn [N.of_nat N.eqb]. rewrite sub_ok by lia.
    assert ((if l =? el then sub32 checked (N.of_nat ec) (N.of_nat c) else
      match slice (a ++ w ++ b) (size a) (size (a ++ w)) with Some w => sum32 checked (N.of_nat (units w)) | None => None end) = Some (N.of_nat (units w))) as ->.
    { destruct (Nat.eqb_spec l el) as [<-|NL].
      - destruct P as (m & M & EP). apply pair_equal_spec in EP. destruct EP as [-> ->].
        destruct R as [((m' & M' & EP) & _)|(_ & _ & EP)]; apply pair_equal_spec in EP; destruct EP as [E1 ->]; rewrite breaks_app in E1; [|lia].
        assert (breaks w = 0) as W by lia. assert (~ In nl w) as NW by now apply (count_occ_not_In N.eq_dec).
        assert (last_line (a ++ w) (m ++ w)) as M2.
        { destruct M as (x & -> & X & NX). exists x. rewrite app_assoc. repeat split; auto. intros I. apply in_app_or in I. tauto. }
        rewrite (last_line_unique _ _ _ M' M2), units_app, sub_ok by lia. f_equal. lia.
      - rewrite slice_app. apply (sum_ok checked (a ++ w ++ b) w); auto. rewrite !size_app. lia. }
    eexists. split; [reflexivity|]. cbn [delta_line delta_start]. split; [lia|]. cbn [N.eqb]. split; [lia|].
    exists a, w, b. repeat (split; [reflexivity|]). split; [exists l, c; auto|]. split; [reflexivity|]. split; [apply type_index|].
    intros i m I. now apply bits_spec.
Qed.

Definition where_ (m : marked) : span := fst (fst m).

Lemma performs_ok checked t : short t -> forall acts lo hi st a0 b0 l0 c0,
  in_order lo (map span_of acts) hi -> Forall (fun a => covers t (span_of a)) acts ->
  t = a0 ++ b0 -> size a0 <= lo -> lsp_position a0 (l0, c0) -> current st = (N.of_nat l0, N.of_nat c0) ->
  exists out cur, performs special checked t st acts = Some (State (tokens st ++ out) cur) /\
    Forall2 (shown t) (flat_map (resolve t) acts) (decode (N.of_nat l0) (N.of_nat c0) out).
Proof.
  intros H. induction acts as [|x acts IH]; intros lo hi st a0 b0 l0 c0 O C T0 L0 P0 CU.
  - exists [], (current st). cbn. rewrite app_nil_r. split; [now destruct st|constructor].
  - apply Forall_cons_iff in C. destruct C as [C Cs]. destruct C as (a & w & b & T & NE & EL).
    cbn [map] in O. rewrite EL in O. cbn [in_order] in O. destruct O as (A & B & O).
    assert (exists l c, lsp_position a (l, c)) as (l & c & P).
    { destruct (last_line_exists a) as (m & M). exists (breaks a), (units m). now exists m. }
    assert (pos_le (l0, c0) (l, c)) as LE.
    { destruct (cut_le t a0 b0 a (w ++ b) T0 T) as (m & -> & _); [lia|]. eapply lsp_mono; eauto. }
    assert (forall k ms, exists out cur,
      match add_token checked t st (size a, size (a ++ w)) k ms with Some st' => performs special checked t st' acts | None => None end
        = Some (State (tokens st ++ out) cur) /\
      Forall2 (shown t) ((size a, size (a ++ w), k, ms) :: flat_map (resolve t) acts) (decode (N.of_nat l0) (N.of_nat c0) out)) as Step.
    { intros k ms. destruct (add_ok checked t st a w b k ms l0 c0 l c H T NE CU P LE) as (tok & -> & D1 & D2 & S1).
      destruct (IH (size (a ++ w)) hi (State (tokens st ++ [tok]) (N.of_nat l, N.of_nat c)) a (w ++ b) l c) as (out & cur & E & F); auto.
      exists (tok :: out), cur. rewrite E. cbn [tokens]. rewrite <- app_assoc. split; [reflexivity|]. cbn [decode]. rewrite D1, D2. constructor; auto. }
    cbn [performs flat_map]. destruct x as [loc k ms|loc]; cbn [span_of] in EL; subst loc; cbn [perform resolve fst snd].
    + apply Step.
    + assert (slice t (size a) (size (a ++ w)) = Some w) as -> by (rewrite T; apply slice_app). destruct (message_kind special w) as [k|].
      * apply Step.
      * destruct (IH (size (a ++ w)) hi st a0 b0 l0 c0) as (out & cur & E & F); auto; [rewrite size_app in *; lia|]. eauto.
Qed.

Lemma resolve_order t acts : forall lo hi, in_order lo (map span_of acts) hi ->
  in_order lo (map where_ (flat_map (resolve t) acts)) hi.
Proof.
  induction acts as [|x acts IH]; intros lo hi O; auto. cbn [flat_map]. rewrite map_app. cbn [map] in O.
  change (in_order lo ([span_of x] ++ map span_of acts) hi) in O. apply in_order_app in O. destruct O as (mid & O1 & O2).
  apply in_order_app. exists mid. split; auto. pose proof (in_order_le _ _ _ O1) as LE. destruct x as [loc k ms|loc]; cbn [resolve span_of] in *.
  - exact O1.
  - destruct (slice t (fst loc) (snd loc)) as [w|]; [|exact LE]. destruct (message_kind special w); [exact O1|exact LE].
Qed.
Lemma order_sorted l : forall lo hi, in_order lo (map where_ l) hi -> StronglySorted before l /\ Forall (fun x => lo <= fst (where_ x)) l.
Proof.
  induction l as [|x l IH]; intros lo hi O; [split; constructor|]. cbn [map in_order] in O. destruct (where_ x) as [s e] eqn:E.
  cbn [in_order] in O. destruct O as (A & B & C). destruct (IH _ _ C) as [D F]. split.
  - constructor; auto. eapply Forall_impl; [|exact F]. intros y Y. unfold before. unfold where_ in E, Y. rewrite E. exact Y.
  - constructor; [now rewrite E|]. eapply Forall_impl; [|exact F]. intros y Y. cbn beta in Y. lia.
Qed.
End Special.
