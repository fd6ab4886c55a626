(** Proofs about method calls. *)
From Coq Require Import List Arith Bool Lia Permutation Sorted.
From Verif Require Import Sort_Lib Dispatch_Model Dispatch_Spec.
Import ListNotations.

Lemma same_spec a b : same a b = true <-> a = b.
Proof.
  destruct a as [x k], b as [y k']; unfold same; cbn. rewrite andb_true_iff, Nat.eqb_eq.
  destruct k, k'; cbn; intuition congruence.
Qed.
Lemma same_refl a : same a a = true.
Proof. now apply same_spec. Qed.
Lemma same_neq a b : a <> b -> same a b = false.
Proof. intros H. destruct (same a b) eqn:E; auto. now apply same_spec in E. Qed.

(** * The events about one name *)

Definition defs_of (a : owner) (n : nat) (l : list event) : list (vis * place) :=
  flat_map (fun e => match e with
    | Def o m v p => if owner_eq_dec o a then if Nat.eq_dec m n then [(v, p)] else [] else []
    | Set_ _ _ _ _ => [] end) l.
Definition sets_of (a : owner) (n : nat) (l : list event) : list (vis * place) :=
  flat_map (fun e => match e with
    | Set_ o m v p => if owner_eq_dec o a then if Nat.eq_dec m n then [(v, p)] else [] else []
    | Def _ _ _ _ => [] end) l.

Definition last_of {A} (l : list A) : option A := match rev l with [] => None | x :: _ => Some x end.

Lemma last_of_snoc {A} (l : list A) x : last_of (l ++ [x]) = Some x.
Proof. unfold last_of. now rewrite rev_app_distr. Qed.
Lemma last_of_nil {A} (l : list A) : last_of l = None -> l = [].
Proof.
  destruct l using rev_ind; auto. now rewrite last_of_snoc.
Qed.

Lemma defs_app a n l r : defs_of a n (l ++ r) = defs_of a n l ++ defs_of a n r.
Proof. apply flat_map_app. Qed.
Lemma sets_app a n l r : sets_of a n (l ++ r) = sets_of a n l ++ sets_of a n r.
Proof. apply flat_map_app. Qed.

Lemma defs_in a n l v p : In (v, p) (defs_of a n l) <-> In (Def a n v p) l.
Proof.
  unfold defs_of. rewrite in_flat_map. split.
  - intros (e & H & I). destruct e as [o m w q|]; [|now cbn in I].
    destruct (owner_eq_dec o a); [|now cbn in I]. destruct (Nat.eq_dec m n); [|now cbn in I].
    destruct I as [I|[]]. now inversion I; subst.
  - intros H. exists (Def a n v p). split; auto.
    destruct (owner_eq_dec a a); [|congruence]. destruct (Nat.eq_dec n n); [|congruence]. now left.
Qed.
Lemma sets_in a n l v p : In (v, p) (sets_of a n l) <-> In (Set_ a n v p) l.
Proof.
  unfold sets_of. rewrite in_flat_map. split.
  - intros (e & H & I). destruct e as [|o m w q]; [now cbn in I|].
    destruct (owner_eq_dec o a); [|now cbn in I]. destruct (Nat.eq_dec m n); [|now cbn in I].
    destruct I as [I|[]]. now inversion I; subst.
  - intros H. exists (Set_ a n v p). split; auto.
    destruct (owner_eq_dec a a); [|congruence]. destruct (Nat.eq_dec n n); [|congruence]. now left.
Qed.

(** What the table holds for [n] in [a] after loading [l]. *)
Definition entry_of (a : owner) (n : nat) (l : list event) : option entry :=
  match defs_of a n l, last_of (sets_of a n l) with
  | (v, p) :: _, None => Some (Body p v)
  | (v, p) :: _, Some (w, _) => Some (Body p w)
  | [], Some (w, _) => Some (Forward w)
  | [], None => None
  end.

Lemma load_app chain l r : forall t,
  load chain t (l ++ r) = match load chain t l with Some t1 => load chain t1 r | None => None end.
Proof.
  induction l as [|e l IH]; intros t; cbn [load app]; auto. destruct (apply_event chain t e); auto.
Qed.

Definition orderly (chain : owner -> list owner) (n : nat) (l : list event) : Prop :=
  defined_once n l /\ defined_first n l /\ changing chain n l.

Lemma orderly_prefix chain n l r : orderly chain n (l ++ r) -> orderly chain n l.
Proof.
  intros (A & B & C). split; [|split].
  - intros l1 l2 l3 o v p w q E. apply (A l1 l2 (l3 ++ r) o v p w q). rewrite E.
    rewrite <- app_assoc. cbn. f_equal. f_equal. rewrite <- app_assoc. now cbn.
  - intros l1 l2 l3 o v p w q E. apply (B l1 l2 (l3 ++ r) o v p w q). rewrite E.
    rewrite <- app_assoc. cbn. f_equal. f_equal. rewrite <- app_assoc. now cbn.
  - intros l1 o v p l2 t x E. apply (C l1 o v p (l2 ++ r) t x). rewrite E.
    rewrite <- app_assoc. now cbn.
Qed.

Lemma put_same t o n e : put t o n e o n = Some e.
Proof. unfold put. destruct (owner_eq_dec o o); [|congruence]. destruct (Nat.eq_dec n n); congruence. Qed.
Lemma put_other t o n e o' n' : (o' <> o \/ n' <> n) -> put t o n e o' n' = t o' n'.
Proof.
  intros H. unfold put. destruct (owner_eq_dec o' o); auto. destruct (Nat.eq_dec n' n); auto.
  destruct H; congruence.
Qed.

Lemma split_in {A} (x : A) l : In x l -> exists l1 l2, l = l1 ++ x :: l2.
Proof. apply in_split. Qed.

(** The table after loading. *)
Theorem table_is chain n l : forall t, orderly chain n l -> load chain empty l = Some t ->
  forall a, t a n = entry_of a n l.
Proof.
  induction l as [|e l IH] using rev_ind; intros t O L a.
  - cbn in L. injection L as <-. reflexivity.
  - pose proof (orderly_prefix _ _ _ _ O) as O1. rewrite load_app in L.
    destruct (load chain empty l) as [t1|] eqn:L1; [|discriminate].
    specialize (IH _ O1 eq_refl). destruct O as (A & B & C).
    cbn [load] in L. destruct (apply_event chain t1 e) as [t2|] eqn:E2; [|discriminate].
    injection L as <-.
    unfold entry_of. rewrite defs_app, sets_app.
    destruct e as [o m v p|o m v p]; cbn [apply_event] in E2.
    + injection E2 as <-. cbn [sets_of flat_map]. rewrite !app_nil_r.
      cbn [defs_of flat_map].
      destruct (owner_eq_dec o a) as [->|Ho]; [destruct (Nat.eq_dec m n) as [->|Hm]|].
      * rewrite put_same.
        assert (D : defs_of a n l = []).
        { destruct (defs_of a n l) as [|[w q] r] eqn:D; auto. exfalso.
          assert (J : In (Def a n w q) l) by (apply defs_in; rewrite D; now left).
          destruct (in_split _ _ J) as (l1 & l2 & ->).
          apply (A l1 l2 [] a w q v p). rewrite <- app_assoc. reflexivity. }
        assert (S0 : sets_of a n l = []).
        { destruct (sets_of a n l) as [|[w q] r] eqn:D0; auto. exfalso.
          assert (J : In (Set_ a n w q) l) by (apply sets_in; rewrite D0; now left).
          destruct (in_split _ _ J) as (l1 & l2 & ->).
          apply (B l1 l2 [] a w q v p). rewrite <- app_assoc. reflexivity. }
        rewrite D, S0. reflexivity.
      * rewrite put_other by (right; congruence). rewrite app_nil_r. apply IH.
      * rewrite put_other by (left; congruence). rewrite app_nil_r. apply IH.
    + cbn [defs_of flat_map]. rewrite !app_nil_r. cbn [sets_of flat_map].
      destruct (owner_eq_dec o a) as [->|Ho]; [destruct (Nat.eq_dec m n) as [->|Hm]|].
      * rewrite app_nil_r, last_of_snoc.
        destruct (t1 a n) as [x|] eqn:T.
        -- injection E2 as <-. rewrite put_same. rewrite IH in T. unfold entry_of in T.
           destruct (defs_of a n l) as [|[w q] r].
           ++ destruct (last_of (sets_of a n l)) as [[w q]|]; [|discriminate].
              injection T as <-. reflexivity.
           ++ destruct (last_of (sets_of a n l)) as [[w' q']|]; injection T as <-; reflexivity.
        -- destruct (find t1 (chain a) n) as [[b x]|] eqn:F; [|discriminate].
           destruct (vis_eq_dec (entry_vis x) v) as [V|V].
           ++ exfalso. apply (C l a v p [] t1 (b, x) eq_refl L1 T F V).
           ++ injection E2 as <-. rewrite put_same. rewrite IH in T. unfold entry_of in T.
              destruct (defs_of a n l) as [|[w q] r]; [reflexivity|].
              destruct (last_of (sets_of a n l)) as [[w' q']|]; discriminate.
      * rewrite !app_nil_r. fold (entry_of a n l). rewrite <- IH.
        destruct (t1 a m) as [x|].
        -- injection E2 as <-. apply put_other. right; congruence.
        -- destruct (find t1 (chain a) m) as [[b x]|]; [|discriminate].
           destruct (vis_eq_dec (entry_vis x) v); injection E2 as <-; auto.
           apply put_other. right; congruence.
      * rewrite !app_nil_r. fold (entry_of a n l). rewrite <- IH.
        destruct (t1 o m) as [x|].
        -- injection E2 as <-. apply put_other. left; congruence.
        -- destruct (find t1 (chain o) m) as [[b x]|]; [|discriminate].
           destruct (vis_eq_dec (entry_vis x) v); injection E2 as <-; auto.
           apply put_other. left; congruence.
Qed.

Lemma defs_short n l a : defined_once n l -> length (defs_of a n l) <= 1.
Proof.
  intros A. induction l as [|e l IH] using rev_ind; [cbn; lia|].
  assert (A1 : defined_once n l).
  { intros l1 l2 l3 o v p w q E. apply (A l1 l2 (l3 ++ [e]) o v p w q). rewrite E.
    rewrite <- app_assoc. cbn. f_equal. f_equal. rewrite <- app_assoc. now cbn. }
  specialize (IH A1). rewrite defs_app, app_length. destruct e as [o m v p|o m v p]; cbn [defs_of flat_map].
  - destruct (owner_eq_dec o a) as [->|]; [|cbn; lia]. destruct (Nat.eq_dec m n) as [->|]; [|cbn; lia].
    destruct (defs_of a n l) as [|[w q] r] eqn:D; [cbn; lia|]. exfalso.
    assert (J : In (Def a n w q) l) by (apply defs_in; rewrite D; now left).
    destruct (in_split _ _ J) as (l1 & l2 & ->).
    apply (A l1 l2 [] a w q v p). rewrite <- app_assoc. reflexivity.
  - cbn. lia.
Qed.

(** * What the indexer collects *)

Definition owned (f : fact) (a : owner) (n : nat) : bool := same (f_owner f) a && (f_name f =? n).

(** The facts and overrides about [n] say what the events [l] say. *)
Definition agrees (n : nat) (d : db) (l : list event) : Prop :=
  (forall a, Forall2 (fun f e => f_at f = snd e /\ (overrides_of d a n = [] -> f_vis f = fst e))
               (facts_of d a n) (defs_of a n l)) /\
  (forall a, map (fun o => (o_vis o, o_at o)) (overrides_of d a n) = sets_of a n l).

Lemma forall2_mono {A B} (P Q : A -> B -> Prop) l r : (forall x y, P x y -> Q x y) ->
  Forall2 P l r -> Forall2 Q l r.
Proof. intros H. induction 1; constructor; auto. Qed.

Lemma snoc_cons {A} (l : list A) x r : l ++ x :: r = (l ++ [x]) ++ r.
Proof. now rewrite <- app_assoc. Qed.

Lemma agrees_nil n : agrees n (mkDb [] []) [].
Proof. split; intros a; [constructor|reflexivity]. Qed.

Lemma agrees_app n d1 d2 l1 l2 : agrees n d1 l1 -> agrees n d2 l2 ->
  agrees n (mkDb (facts d1 ++ facts d2) (overrides d1 ++ overrides d2)) (l1 ++ l2).
Proof.
  intros (F1 & S1) (F2 & S2). split; intros a.
  - unfold facts_of, overrides_of. cbn [facts overrides]. rewrite !filter_app, defs_app.
    apply Forall2_app.
    + eapply forall2_mono; [|apply F1]. intros f e (H & V). split; auto.
      intros Z. apply app_eq_nil in Z as (Z & _). auto.
    + eapply forall2_mono; [|apply F2]. intros f e (H & V). split; auto.
      intros Z. apply app_eq_nil in Z as (_ & Z). auto.
  - unfold overrides_of. cbn [overrides]. rewrite filter_app, map_app, sets_app.
    f_equal; [apply S1 | apply S2].
Qed.

Section Collected.
  Variable is_class : nat -> bool.
  Variable n : nat.
  Hypothesis plain_name : ordinary n.

  Lemma define_agrees file ns k v m at_ d l w :
    (m = n -> w = v) -> agrees n d l ->
    agrees n (define is_class file ns k v m at_ d) (l ++ [Def (ns, k) m w (file, at_)]).
  Proof.
    intros W A.
    assert (E : agrees n (mkDb [mkFact (fst (filed is_class k ns m)) (snd (filed is_class k ns m)) (file, at_) v] [])
                  [Def (ns, k) m w (file, at_)]).
    { split; intros a; [|reflexivity]. unfold facts_of. cbn [facts filter f_owner f_name].
      cbn [defs_of flat_map]. rewrite app_nil_r. unfold filed.
      destruct ((m =? initialize_name) && kind_eqb k Instance && is_class ns) eqn:Z.
      - cbn [fst snd]. rewrite !andb_true_iff in Z. destruct Z as ((Z & _) & _). apply Nat.eqb_eq in Z.
        destruct plain_name as (P1 & P2).
        assert (Q : new_name =? n = false) by (apply Nat.eqb_neq; congruence). rewrite Q, andb_false_r.
        destruct (owner_eq_dec (ns, k) a); [|constructor]. destruct (Nat.eq_dec m n); [congruence|constructor].
      - cbn [fst snd]. destruct (owner_eq_dec (ns, k) a) as [<-|Ho].
        + rewrite same_refl. cbn [andb]. destruct (Nat.eq_dec m n) as [->|Hm].
          * rewrite Nat.eqb_refl. constructor; [|constructor]. cbn. split; auto. intros _. symmetry; auto.
          * apply Nat.eqb_neq in Hm. rewrite Hm. constructor.
        + rewrite (same_neq _ _ Ho). constructor. }
    pose proof (agrees_app n _ _ _ _ A E) as R. cbn [facts overrides] in R. rewrite app_nil_r in R. exact R.
  Qed.

  Lemma set_agrees file ns k v m at_ d l : agrees n d l ->
    agrees n (set_method_visibility file ns k v m at_ d) (l ++ [Set_ (ns, k) m v (file, at_)]).
  Proof.
    intros (F & S0). split; intros a.
    - rewrite defs_app. cbn [defs_of flat_map]. rewrite !app_nil_r.
      set (g := fun f => if (f_name f =? m) && same (f_owner f) (ns, k)
                         then mkFact (f_owner f) (f_name f) (f_at f) v else f).
      assert (G : facts_of (set_method_visibility file ns k v m at_ d) a n = map g (facts_of d a n)).
      { unfold facts_of, set_method_visibility. cbn [facts]. fold g. induction (facts d) as [|f r IH]; auto.
        cbn [map filter]. rewrite IH.
        assert (H : same (f_owner (g f)) a && (f_name (g f) =? n) = same (f_owner f) a && (f_name f =? n)).
        { unfold g. destruct ((f_name f =? m) && same (f_owner f) (ns, k)); reflexivity. }
        rewrite H. destruct (same (f_owner f) a && (f_name f =? n)); reflexivity. }
      rewrite G. specialize (F a). clear G.
      assert (O : forall x, In x (facts_of d a n) -> f_owner x = a /\ f_name x = n).
      { intros x H. unfold facts_of in H. apply filter_In in H as (_ & H). apply andb_true_iff in H as (H1 & H2).
        apply same_spec in H1. now apply Nat.eqb_eq in H2. }
      assert (Z : overrides_of (set_method_visibility file ns k v m at_ d) a n = [] ->
                  overrides_of d a n = [] /\ (m = n -> (ns, k) <> a)).
      { unfold overrides_of, set_method_visibility. cbn [overrides]. rewrite filter_app. intros Z.
        apply app_eq_nil in Z as (Z1 & Z2). split; auto. intros -> <-. cbn [filter o_name o_owner] in Z2.
        rewrite Nat.eqb_refl, same_refl in Z2. discriminate. }
      clear S0. induction F as [|f e fs es (P & V) F IH]; [constructor|]. cbn [map]. constructor.
      + split.
        * rewrite <- P. unfold g. destruct ((f_name f =? m) && same (f_owner f) (ns, k)); reflexivity.
        * intros N0. destruct (Z N0) as (Z1 & Z2). rewrite <- (V Z1).
          destruct (O f (or_introl eq_refl)) as (O1 & O2). unfold g.
          destruct (f_name f =? m) eqn:E1; [|reflexivity]. apply Nat.eqb_eq in E1.
          rewrite same_neq; [reflexivity|]. rewrite O1. intros E. apply Z2; congruence.
      + apply IH. intros x Hx. apply O. now right.
    - rewrite sets_app, <- S0. unfold overrides_of, set_method_visibility. cbn [overrides].
      rewrite filter_app, map_app. f_equal. cbn [filter o_name o_owner sets_of flat_map]. rewrite app_nil_r.
      destruct (owner_eq_dec (ns, k) a) as [<-|Ho].
      + rewrite same_refl, andb_true_r. destruct (Nat.eq_dec m n) as [->|Hm].
        * now rewrite Nat.eqb_refl.
        * apply Nat.eqb_neq in Hm. now rewrite Hm.
      + now rewrite (same_neq _ _ Ho), andb_false_r.
  Qed.

  Lemma default_ordinary v m : m = n -> default_for m v = v.
  Proof.
    intros ->. unfold default_for. destruct plain_name as (P & _). apply Nat.eqb_neq in P. now rewrite P.
  Qed.

  (** Events about other names do not matter. *)
  Lemma agrees_other d l e : ~ about n e -> agrees n d l -> agrees n d (l ++ [e]).
  Proof.
    intros H (F & S0). split; intros a.
    - rewrite defs_app. assert (E : defs_of a n [e] = []).
      { destruct e as [o m v p|o m v p]; cbn in *; auto. destruct (owner_eq_dec o a); auto.
        destruct (Nat.eq_dec m n); auto. contradiction. }
      rewrite E, app_nil_r. apply F.
    - rewrite sets_app. assert (E : sets_of a n [e] = []).
      { destruct e as [o m v p|o m v p]; cbn in *; auto. destruct (owner_eq_dec o a); auto.
        destruct (Nat.eq_dec m n); auto. contradiction. }
      rewrite E, app_nil_r. apply S0.
  Qed.

  Lemma plains_agree file ns k r : forall v d l, Forall (plain_ok n) r -> agrees n d l ->
    agrees n (snd (collect_plains is_class file ns k v d r)) (l ++ plain_events file (ns, k) v r).
  Proof.
    induction r as [|s r IH]; intros v d l P A; cbn [collect_plains plain_events].
    - now rewrite app_nil_r.
    - inversion P as [|s' r' P1 P2]; subst. destruct s as [w|w m a|m a|w m a]; cbn [collect_plain].
      + now apply IH.
      + rewrite (snoc_cons l). apply IH; auto. now apply set_agrees.
      + rewrite (snoc_cons l). apply IH; auto. apply define_agrees; auto. apply default_ordinary.
      + cbn in P1. rewrite (snoc_cons l), (snoc_cons (l ++ _)). apply IH; auto.
        apply agrees_other; [cbn; auto|]. apply define_agrees; auto. apply default_ordinary.
  Qed.

  Lemma stmts_agree file ns r : forall v d l, stmts_ok n v r -> agrees n d l ->
    agrees n (snd (collect_stmts is_class file ns v d r)) (l ++ stmt_events file ns v r).
  Proof.
    induction r as [|s r IH]; intros v d l P A; cbn [collect_stmts stmt_events].
    - now rewrite app_nil_r.
    - destruct s as [[w|w m a|m a|w m a]|m a|w m a|l']; cbn [collect_stmt collect_plain]; cbn [stmts_ok plain_ok] in P.
      + now apply IH.
      + destruct P as (P1 & P2). rewrite (snoc_cons l). apply IH; auto. now apply set_agrees.
      + destruct P as (P1 & P2). rewrite (snoc_cons l). apply IH; auto. apply define_agrees; auto. apply default_ordinary.
      + destruct P as (P1 & P2). rewrite (snoc_cons l), (snoc_cons (l ++ _)). apply IH; auto.
        apply agrees_other; [cbn; auto|]. apply define_agrees; auto. apply default_ordinary.
      + destruct P as (P1 & P2). rewrite (snoc_cons l). apply IH; auto. apply define_agrees; auto.
        intros E. symmetry. auto.
      + destruct P as (P1 & P2). rewrite (snoc_cons l). apply IH; auto. apply agrees_other; auto.
      + destruct P as (P1 & P2). rewrite (app_assoc l). apply IH; auto. now apply plains_agree.
  Qed.

  Theorem collect_agrees p : written_plainly n p -> agrees n (collect is_class p) (events p).
  Proof.
    intros W. unfold collect, events. induction p as [|s p IH]; [apply agrees_nil|].
    cbn [flat_map]. apply (agrees_app n (collect_source is_class s)
      (mkDb (flat_map (fun s => facts (collect_source is_class s)) p)
            (flat_map (fun s => overrides (collect_source is_class s)) p))).
    - unfold collect_source.
      assert (H : forall bs d l, (forall b, In b bs -> stmts_ok n Public (body_stmts b)) -> agrees n d l ->
        agrees n (fold_left (collect_body is_class (fst s)) bs d)
          (l ++ flat_map (fun b => stmt_events (fst s) (body_ns b) Public (body_stmts b)) bs)).
      { induction bs as [|b bs IHb]; intros d l B A; cbn [fold_left flat_map]; [now rewrite app_nil_r|].
        rewrite app_assoc. apply IHb; [intros; apply B; now right|].
        unfold collect_body. apply stmts_agree; auto. apply B. now left. }
      apply (H (snd s) (mkDb [] []) []); [|apply agrees_nil]. intros b Hb. apply (W s b); auto. now left.
    - apply IH. intros s' b Hs. apply (W s' b). now right.
  Qed.
End Collected.

(** * The last visibility statement *)

Lemma earlier_total x y : earlier x y = true \/ earlier y x = true.
Proof. apply lexb_total. Qed.
Lemma earlier_trans x y z : earlier x y = true -> earlier y z = true -> earlier x z = true.
Proof. apply lexb_trans. Qed.
Lemma earlier_before p q : before p q -> earlier p q = true.
Proof.
  unfold before, earlier, place_key. cbn [lexb]. destruct p as [a b], q as [a' b']. cbn [fst snd].
  intros H. destruct (Nat.ltb_spec a a'); [reflexivity|]. cbn [orb].
  assert (a = a') by lia. subst a'. rewrite Nat.eqb_refl. cbn [andb].
  destruct (Nat.ltb_spec b b'); [reflexivity|]. cbn [orb]. assert (b = b') by lia. subst.
  now rewrite Nat.eqb_refl.
Qed.

Lemma insert_head {A} (leb : A -> A -> bool) x l : (forall y, In y l -> leb x y = true) -> insert leb x l = x :: l.
Proof. destruct l as [|y l]; cbn; auto. intros H. now rewrite (H y (or_introl eq_refl)). Qed.

Lemma sort_sorted_id {A} (leb : A -> A -> bool) l : StronglySorted (fun x y => leb x y = true) l -> sort leb l = l.
Proof.
  induction 1 as [|x l S0 IH F]; auto. cbn [sort]. rewrite IH. apply insert_head.
  now rewrite Forall_forall in F.
Qed.

Lemma sets_sorted n l a : ordered n l ->
  StronglySorted (fun x y => before (snd x) (snd y)) (sets_of a n l).
Proof.
  induction l as [|e l IH]; intros O; [constructor|].
  assert (O1 : ordered n l).
  { intros l1 l2 l3 o v p w q E. apply (O (e :: l1) l2 l3 o v p w q). now rewrite E. }
  specialize (IH O1). destruct e as [o m v p|o m v p]; cbn [sets_of flat_map]; auto.
  destruct (owner_eq_dec o a) as [->|]; auto. destruct (Nat.eq_dec m n) as [->|]; auto.
  cbn [app]. constructor; auto. apply Forall_forall. intros [w q] J.
  apply (sets_in a n l w q) in J. destruct (in_split _ _ J) as (l1 & l2 & E).
  cbn. apply (O [] l1 l2 a v p w q). now rewrite E.
Qed.

Lemma last_map {A B} (f : A -> B) l : last_of (map f l) = option_map f (last_of l).
Proof. unfold last_of. rewrite <- map_rev. destruct (rev l); reflexivity. Qed.

(** The override the query picks is the last visibility statement of the class. *)
Lemma picked n d l a : agrees n d l -> ordered n l ->
  match last_override (overrides_of d a n) with
  | Some x => last_of (sets_of a n l) = Some (o_vis x, o_at x) /\ o_owner x = a
  | None => sets_of a n l = []
  end.
Proof.
  intros (_ & S0) O. specialize (S0 a).
  assert (E : sort (fun x y => earlier (o_at x) (o_at y)) (overrides_of d a n) = overrides_of d a n).
  { apply sort_sorted_id. pose proof (sets_sorted n l a O) as G. rewrite <- S0 in G. clear S0.
    induction (overrides_of d a n) as [|x r IH]; [constructor|]. cbn [map] in G. inversion G as [|? ? G1 G2]; subst.
    constructor.
    - now apply IH.
    - apply Forall_forall. intros y J. rewrite Forall_forall in G2. apply earlier_before.
      exact (G2 (o_vis y, o_at y) (in_map (fun o => (o_vis o, o_at o)) _ _ J)). }
  unfold last_override. rewrite E. rewrite <- S0. change (match rev (overrides_of d a n) with
    | [] => None | x :: _ => Some x end) with (last_of (overrides_of d a n)).
  rewrite last_map. destruct (last_of (overrides_of d a n)) as [x|] eqn:L.
  - cbn. split; auto. assert (J : In x (overrides_of d a n)).
    { unfold last_of in L. destruct (rev (overrides_of d a n)) as [|y r] eqn:R; [discriminate|].
      injection L as ->. apply in_rev. rewrite R. now left. }
    unfold overrides_of in J. apply filter_In in J as (_ & J). apply andb_true_iff in J as (_ & J).
    now apply same_spec.
  - apply last_of_nil in L. now rewrite L.
Qed.
