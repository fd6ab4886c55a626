(** The call hierarchy: exactly the callers and callees, each once, and the two directions agree. *)
From Coq Require Import List Arith Bool Lia Permutation Sorted.
From Verif Require Import Sort_Lib Index_Lib References_Model References_Spec References_Proofs References_Props
  Names_Model CallHier_Model CallHier_Spec.
Import ListNotations.

(** ** Order *)
Lemma in_order_filter {A} (pos : A -> list nat) p l r : in_order pos l r -> in_order pos (filter p l) (filter p r).
Proof.
  intros H. apply in_order_sort in H. subst r.
  rewrite sort_filter by (apply key_total || apply key_trans). apply sort_in_order.
Qed.
Lemma in_order_map {A B} (f : A -> B) (pos : B -> list nat) l r :
  in_order (fun x => pos (f x)) l r -> in_order pos (map f l) (map f r).
Proof.
  intros H. apply in_order_sort in H. subst r.
  change (key_leb (fun x => pos (f x))) with (fun x y => key_leb pos (f x) (f y)).
  rewrite (sort_map f (key_leb pos)). apply sort_in_order.
Qed.

(** ** Names *)
Lemma name_eqb_eq a b : name_eqb a b = true <-> a = b.
Proof. unfold name_eqb. destruct (name_eq_dec a b); split; intros; congruence. Qed.
Lemma name_eqb_refl a : name_eqb a a = true.
Proof. now apply name_eqb_eq. Qed.

Lemma position_nth l : NoDup l -> forall n i, position_of l n = Some i <-> nth_error l i = Some n.
Proof.
  induction l as [|x r IH]; intros ND n i; cbn.
  - destruct i; split; discriminate.
  - inversion ND as [|? ? Hx Hr]; subst. destruct (name_eqb x n) eqn:E.
    + apply name_eqb_eq in E. subst. destruct i; cbn; split; intros H; auto; try discriminate.
      apply nth_error_In in H. contradiction.
    + destruct i; cbn.
      * split; intros H; [destruct (position_of r n); discriminate|].
        injection H as ->. rewrite name_eqb_refl in E. discriminate.
      * rewrite <- (IH Hr n i). destruct (position_of r n); cbn; split; intros H; congruence.
Qed.

Lemma names_inj (l : list name) i j n : NoDup l -> nth_error l i = Some n -> nth_error l j = Some n -> i = j.
Proof.
  intros ND Hi Hj. apply (proj1 (NoDup_nth_error l) ND); [apply nth_error_Some; congruence|congruence].
Qed.

(** ** Grouping *)
Definition group (l : list (name * text_range)) : list (name * list text_range) :=
  fold_left (fun g x => push_grouped g (fst x) (snd x)) l [].

Definition of_name (n : name) (x : name * text_range) : bool := name_eqb (fst x) n.

Lemma push_keys g n r : forall m, In m (map fst (push_grouped g n r)) <-> In m (map fst g) \/ m = n.
Proof.
  induction g as [|[k rs] t IH]; intros m; cbn; [intuition|].
  destruct (name_eqb k n) eqn:E; cbn.
  - apply name_eqb_eq in E. subst. intuition.
  - rewrite IH. tauto.
Qed.
Lemma push_nodup g n r : NoDup (map fst g) -> NoDup (map fst (push_grouped g n r)).
Proof.
  induction g as [|[k rs] t IH]; cbn; intros H; [constructor; auto; constructor|].
  inversion H as [|? ? Hk Ht]; subst. destruct (name_eqb k n) eqn:E; cbn; constructor; auto.
  rewrite push_keys. intros [K|K]; auto. subst. rewrite name_eqb_refl in E. discriminate.
Qed.
Lemma push_in g n r : NoDup (map fst g) -> forall m rs,
  In (m, rs) (push_grouped g n r) <->
  (m <> n /\ In (m, rs) g) \/
  (m = n /\ ((exists q, In (n, q) g /\ rs = q ++ [r]) \/ (~ In n (map fst g) /\ rs = [r]))).
Proof.
  induction g as [|[k qs] t IH]; intros H m rs.
  - cbn. split.
    + intros [E|[]]. injection E as -> ->. right. split; auto.
    + intros [[_ []]|[-> [(q & [] & _)|[_ ->]]]]. now left.
  - inversion H as [|? ? Hk Ht]; subst. cbn [push_grouped]. destruct (name_eqb k n) eqn:E.
    + apply name_eqb_eq in E. subst. cbn. split.
      * intros [E|K].
        -- injection E as -> <-. right. split; auto. left. exists qs. auto.
        -- left. split; auto. intros ->. apply Hk. now apply (in_map fst) in K.
      * intros [[N [K|K]]|[-> [(q & [K|K] & ->)|[K _]]]].
        -- congruence.
        -- auto.
        -- injection K as ->. auto.
        -- exfalso. apply Hk. now apply (in_map fst) in K.
        -- exfalso. apply K. now left.
    + assert (k <> n) as N by (intros ->; rewrite name_eqb_refl in E; discriminate).
      cbn. rewrite IH by auto. split.
      * intros [K|[[M K]|[-> [(q & K & ->)|[K ->]]]]].
        -- injection K as -> ->. left. auto.
        -- left. auto.
        -- right. split; auto. left. eauto.
        -- right. split; auto. right. split; auto. intros [L|L]; auto.
      * intros [[M [K|K]]|[-> [(q & [K|K] & ->)|[K ->]]]].
        -- now left.
        -- right. left. auto.
        -- congruence.
        -- right. right. split; auto. left. eauto.
        -- right. right. split; auto. right. split; auto.
Qed.

Lemma group_spec l : NoDup (map fst (group l)) /\
  forall n rs, In (n, rs) (group l) <-> rs = map snd (filter (of_name n) l) /\ rs <> [].
Proof.
  unfold group. induction l as [|[n r] l [ND IH]] using rev_ind.
  - cbn. split; [constructor|]. intros n rs. split; [easy|]. intros [-> H]. now elim H.
  - rewrite fold_left_app. cbn [fold_left fst snd]. split; [now apply push_nodup|]. intros m rs.
    rewrite (push_in _ n r ND). rewrite filter_app, map_app. cbn [filter]. unfold of_name at 2. cbn [fst].
    set (g := fold_left _ l []) in *.
    destruct (name_eqb n m) eqn:E.
    + apply name_eqb_eq in E. subst m. cbn [map snd]. split.
      * intros [[K _]|[_ [(q & K & ->)|[K ->]]]]; [congruence| |].
        -- apply IH in K as [-> _]. split; auto. now destruct (map snd _).
        -- split; [|discriminate]. destruct (map snd (filter (of_name n) l)) eqn:F; [reflexivity|].
           exfalso. apply K. apply (in_map_iff fst). exists (n, t :: l0). split; auto. apply IH.
           rewrite F. split; [reflexivity|discriminate].
      * intros [-> _]. right. split; auto. destruct (map snd (filter (of_name n) l)) as [|a q] eqn:F.
        -- right. split; auto. intros K. apply in_map_iff in K as ([m q] & Em & K). cbn in Em. subst m.
           apply IH in K as [-> K]. congruence.
        -- left. exists (a :: q). split; auto. apply IH. rewrite F. split; [reflexivity|discriminate].
    + cbn [map]. rewrite app_nil_r. split.
      * intros [[_ K]|[-> _]]; [now apply IH|]. rewrite name_eqb_refl in E. discriminate.
      * intros K. left. split; [|now apply IH]. intros ->. rewrite name_eqb_refl in E. discriminate.
Qed.

(** ** The presented list *)
Lemma present_in e g x : NoDup (names e) -> In x (present e g) <->
  exists i, nth_error (names e) i = Some (item x) /\ hd_error (methods e i) = Some (place_of x) /\
            In (item x, ranges x) g.
Proof.
  intros ND. unfold present. rewrite in_flat_map. split.
  - intros ([n rs] & Hin & Hx). apply sort_in in Hin. cbn [fst snd] in Hx.
    unfold call_hierarchy_method, method_facts_for, fqn_id in Hx.
    destruct (position_of (names e) n) as [i|] eqn:P; [|easy].
    destruct (methods e i) as [|r q] eqn:M; [easy|]. destruct Hx as [<-|[]]. cbn.
    exists i. rewrite M. repeat split; auto. now apply position_nth.
  - intros (i & Hn & Hm & Hg). exists (item x, ranges x). split; [now apply sort_in|]. cbn [fst snd].
    unfold call_hierarchy_method, method_facts_for, fqn_id.
    rewrite (proj2 (position_nth _ ND _ _) Hn).
    destruct (methods e i) as [|r q]; [discriminate|]. injection Hm as ->. left. now destruct x.
Qed.

Lemma present_shape e g : exists p,
  map item (present e g) = map fst (filter p (sort (key_leb (fun x : name * list text_range => print (fst x))) g)).
Proof.
  exists (fun x => match call_hierarchy_method e (fst x) with None => false | _ => true end).
  unfold present. induction (sort _ g) as [|[n rs] t IH]; auto. cbn [flat_map filter fst snd].
  unfold call_hierarchy_method in *. destruct (method_facts_for e n); cbn; [exact IH|now rewrite IH].
Qed.

Lemma nodup_map_filter {A B} (f : A -> B) p l : NoDup (map f l) -> NoDup (map f (filter p l)).
Proof.
  induction l as [|x l IH]; cbn; intros H; auto. inversion H as [|? ? Hx Hl]; subst.
  destruct (p x); cbn; auto. constructor; auto. intros K. apply Hx. apply in_map_iff in K as (y & <- & Hy).
  apply filter_In in Hy. apply in_map. tauto.
Qed.

Lemma present_once e g : NoDup (map fst g) ->
  NoDup (map item (present e g)) /\
  StronglySorted (fun a b => lexb (print a) (print b) = true) (map item (present e g)).
Proof.
  intros ND. destruct (present_shape e g) as [p ->].
  set (s := sort _ g). assert (NoDup (map fst s)) as Hs.
  { eapply Permutation_NoDup; [|exact ND]. apply Permutation_map. apply sort_perm. }
  split; [now apply nodup_map_filter|].
  assert (StronglySorted (le (key_leb (fun x : name * list text_range => print (fst x)))) (filter p s)) as S
    by (apply filter_sorted, sort_sorted; [apply key_total|apply key_trans]).
  clear -S. induction S as [|x l S IH F]; cbn; constructor; auto.
  rewrite Forall_map. eapply Forall_impl; [|exact F]. intros a H. exact H.
Qed.

(** ** Incoming *)
Definition caller_pairs (e : engine) (l : list reference) : list (name * text_range) :=
  flat_map (fun x => match caller x with
                     | None => []
                     | Some c => match fqn_for_id e c with None => [] | Some n => [(n, range x)] end
                     end) l.

Lemma fold_pairs {A} (f : A -> list (name * text_range)) (k : list (name * list text_range) -> A -> list (name * list text_range)) l :
  (forall g x, k g x = fold_left (fun g y => push_grouped g (fst y) (snd y)) (f x) g) ->
  forall g, fold_left k l g = fold_left (fun g y => push_grouped g (fst y) (snd y)) (flat_map f l) g.
Proof.
  intros H. induction l as [|x l IH]; intros g; auto. cbn [fold_left flat_map]. now rewrite fold_left_app, <- H.
Qed.

Lemma group_callers_pairs e l : group_callers e l = group (caller_pairs e l).
Proof.
  unfold group_callers, group, caller_pairs. apply fold_pairs. intros g x. destruct (caller x) as [c|]; auto.
  now destruct (fqn_for_id e c).
Qed.

Lemma caller_spots e l n c : NoDup (names e) -> nth_error (names e) c = Some n ->
  map snd (filter (of_name n) (caller_pairs e l)) = map range (filter (is_caller c) l).
Proof.
  intros ND Hn. induction l as [|x l IH]; auto. unfold caller_pairs in *. cbn [flat_map].
  rewrite filter_app, map_app, IH. cbn [filter]. unfold is_caller at 2.
  destruct (caller x) as [d|]; [|reflexivity]. unfold fqn_for_id.
  destruct (d =? c) eqn:E.
  - apply Nat.eqb_eq in E. subst d. rewrite Hn. unfold of_name. cbn. now rewrite name_eqb_refl.
  - destruct (nth_error (names e) d) as [m|] eqn:F; [|reflexivity]. unfold of_name. cbn.
    destruct (name_eqb m n) eqn:G; [|reflexivity]. apply name_eqb_eq in G. subst m.
    apply Nat.eqb_neq in E. elim E. now apply (names_inj (names e) d c n).
Qed.

Lemma incoming_eq e h n t : reached e h -> nth_error (names e) t = Some n ->
  incoming_calls e n = present e (group (caller_pairs e (facts_for (refs e) t))).
Proof.
  intros (ND & _) Hn. unfold incoming_calls, reference_facts_for, fqn_id.
  rewrite (proj2 (position_nth _ ND _ _) Hn). now rewrite group_callers_pairs.
Qed.

Lemma spots_in_order h s c t : well_formed h -> tidy h -> run h = Some s ->
  in_order place (spots (live h) c t) (map range (filter (is_caller c) (facts_for s t))).
Proof.
  intros W T R. unfold spots. apply in_order_map, in_order_filter. exact (C39_facts_for h s t W T R).
Qed.

Lemma shown_iff e h (i c t : nat) x : reached e h ->
  nth_error (names e) i = Some (item x) -> hd_error (methods e i) = Some (place_of x) ->
  (ranges x = map range (filter (is_caller c) (facts_for (refs e) t)) /\ ranges x <> []) <->
  shows e x i (spots (live h) c t).
Proof.
  intros (ND & W & T & R) Hn Hm. pose proof (spots_in_order h (refs e) c t W T R) as O. split.
  - intros [E N]. split; [exact Hn|split; [exact Hm|split; [exact N|rewrite E; exact O]]].
  - intros (_ & _ & N & O'). split; auto. now apply (in_order_unique place (spots (live h) c t)).
Qed.

(** Incoming calls: an entry for exactly the defined methods whose body refers to the method, with
    every place of it in order; each once, in the order of their texts. *)
Theorem C91_incoming e h n t : reached e h -> nth_error (names e) t = Some n ->
  (forall x, In x (incoming_calls e n) <-> exists c, shows e x c (spots (live h) c t)) /\
  NoDup (map item (incoming_calls e n)) /\
  StronglySorted (fun a b => lexb (print a) (print b) = true) (map item (incoming_calls e n)).
Proof.
  intros HR Hn. pose proof HR as (ND & W & T & R). rewrite (incoming_eq e h n t HR Hn).
  destruct (group_spec (caller_pairs e (facts_for (refs e) t))) as [GN GS].
  split; [|now apply present_once]. intros x. rewrite present_in by auto. split.
  - intros (c & Hc & Hm & Hg). exists c. apply GS in Hg as [Er Nr]. rewrite (caller_spots e _ _ c ND Hc) in Er.
    apply shown_iff; auto.
  - intros (c & S). pose proof S as (Hc & Hm & Nr & _). exists c. repeat split; auto. apply GS.
    rewrite (caller_spots e _ _ c ND Hc). now apply (shown_iff e h c c t x HR Hc Hm).
Qed.
Print Assumptions C91_incoming.

(** ** Outgoing *)
Definition callee_pairs (e : engine) (c : nat) (l : list (nat * reference)) : list (name * text_range) :=
  flat_map (fun x => if is_caller c (snd x)
                     then match fqn_for_id e (fst x) with None => [] | Some n => [(n, range (snd x))] end
                     else []) l.

Lemma group_callees_pairs e c l : group_callees e c l = group (callee_pairs e c l).
Proof.
  unfold group_callees, group, callee_pairs. apply fold_pairs. intros g x. unfold is_caller.
  destruct (caller (snd x)) as [d|]; auto. destruct (d =? c); auto. now destruct (fqn_for_id e (fst x)).
Qed.

Lemma callee_spots e l n c t : NoDup (names e) -> nth_error (names e) t = Some n ->
  map snd (filter (of_name n) (callee_pairs e c l)) =
  map range (filter (is_caller c) (map snd (filter (fun x => fst x =? t) l))).
Proof.
  intros ND Hn. induction l as [|[d x] l IH]; auto. unfold callee_pairs in *. cbn [flat_map fst snd].
  rewrite filter_app, map_app, IH. cbn [filter fst].
  destruct (d =? t) eqn:E.
  - apply Nat.eqb_eq in E. subst d. cbn [map snd filter]. destruct (is_caller c x); [|reflexivity].
    unfold fqn_for_id. rewrite Hn. unfold of_name. cbn. now rewrite name_eqb_refl.
  - destruct (is_caller c x); [|reflexivity]. unfold fqn_for_id.
    destruct (nth_error (names e) d) as [m|] eqn:F; [|reflexivity]. unfold of_name. cbn.
    destruct (name_eqb m n) eqn:G; [|reflexivity]. apply name_eqb_eq in G. subst m.
    apply Nat.eqb_neq in E. elim E. now apply (names_inj (names e) d t n).
Qed.

Lemma targets_of_bucket (m : list (nat * list reference)) t : NoDup (map fst m) ->
  map snd (filter (fun x => fst x =? t) (flat_map (fun e => map (pair (fst e)) (snd e)) m)) = getd Nat.eqb m t.
Proof.
  assert (forall k l, map snd (filter (fun x => fst x =? t) (map (pair k) l)) = if k =? t then l else @nil reference) as H.
  { intros k l. induction l as [|x l IH]; cbn; [now destruct (k =? t)|]. destruct (k =? t) eqn:E; cbn; now rewrite IH. }
  unfold getd. induction m as [|[k l] m IH]; intros ND; auto. inversion ND as [|? ? Hk Hm]; subst.
  cbn [flat_map fst snd]. rewrite filter_app, map_app, H, IH by auto. cbn [get].
  destruct (k =? t) eqn:E; [|reflexivity]. apply Nat.eqb_eq in E. subst k.
  destruct (get Nat.eqb m t) eqn:F; [|now rewrite app_nil_r].
  apply (get_in _ Nat.eqb_eq) in F. apply (in_map fst) in F. contradiction.
Qed.

(** Outgoing calls: an entry for exactly the defined methods the body refers to. *)
Theorem C91_outgoing e h n c : reached e h -> nth_error (names e) c = Some n ->
  (forall x, In x (outgoing_calls e n) <-> exists t, shows e x t (spots (live h) c t)) /\
  NoDup (map item (outgoing_calls e n)) /\
  StronglySorted (fun a b => lexb (print a) (print b) = true) (map item (outgoing_calls e n)).
Proof.
  intros HR Hn. pose proof HR as (ND & W & T & R).
  assert (outgoing_calls e n = present e (group (callee_pairs e c (facts_with_targets (refs e))))) as ->.
  { unfold outgoing_calls, fqn_id. rewrite (proj2 (position_nth _ ND _ _) Hn). now rewrite group_callees_pairs. }
  destruct (group_spec (callee_pairs e c (facts_with_targets (refs e)))) as [GN GS].
  pose proof (ok_keys _ _ _ (final h (refs e) W R)) as HK.
  assert (forall t, map snd (filter (fun x => fst x =? t) (facts_with_targets (refs e))) = facts_for (refs e) t) as HF
    by (intros t; unfold facts_with_targets, facts_for; now apply targets_of_bucket).
  split; [|now apply present_once]. intros x. rewrite present_in by auto. split.
  - intros (t & Ht & Hm & Hg). exists t. apply GS in Hg as [Er Nr]. rewrite (callee_spots e _ _ c t ND Ht), HF in Er.
    apply shown_iff; auto.
  - intros (t & S). pose proof S as (Ht & Hm & Nr & _). exists t. repeat split; auto. apply GS.
    rewrite (callee_spots e _ _ c t ND Ht), HF. now apply (shown_iff e h t c t x HR Ht Hm).
Qed.
Print Assumptions C91_outgoing.

(** The two directions agree: the callee's list shows the caller with the places at which the
    caller's list shows the callee. *)
Theorem C91_directions_agree e h caller_ callee rs : reached e h ->
  (exists r, call_hierarchy_method e caller_ = Some (caller_, r)) ->
  (exists r, call_hierarchy_method e callee = Some (callee, r)) ->
  (exists x, In x (incoming_calls e callee) /\ item x = caller_ /\ ranges x = rs) <->
  (exists x, In x (outgoing_calls e caller_) /\ item x = callee /\ ranges x = rs).
Proof.
  intros HR [r1 H1] [r2 H2]. pose proof HR as (ND & W & T & R).
  unfold call_hierarchy_method, method_facts_for, fqn_id in H1, H2.
  destruct (position_of (names e) caller_) as [c|] eqn:P1; [|discriminate].
  destruct (position_of (names e) callee) as [t|] eqn:P2; [|discriminate].
  destruct (methods e c) as [|a1 m1] eqn:M1; [discriminate|]. destruct (methods e t) as [|a2 m2] eqn:M2; [discriminate|].
  apply (position_nth _ ND) in P1, P2. injection H1 as <-. injection H2 as <-. split.
  - intros (x & Hx & Ei & Er). apply (C91_incoming e h callee t HR P2) in Hx as (c' & Hn & _ & Nr & O).
    rewrite Ei in Hn. assert (c' = c) as -> by now apply (names_inj (names e) c' c caller_).
    exists (mkEntry callee a2 rs). split; [|now split]. apply (C91_outgoing e h caller_ c HR P1). exists t.
    rewrite Er in *. split; [exact P2|split; [cbn; now rewrite M2|split; [exact Nr|exact O]]].
  - intros (x & Hx & Ei & Er). apply (C91_outgoing e h caller_ c HR P1) in Hx as (t' & Hn & _ & Nr & O).
    rewrite Ei in Hn. assert (t' = t) as -> by now apply (names_inj (names e) t' t callee).
    exists (mkEntry caller_ a1 rs). split; [|now split]. apply (C91_incoming e h callee t HR P2). exists c.
    rewrite Er in *. split; [exact P1|split; [cbn; now rewrite M1|split; [exact Nr|exact O]]].
Qed.
Print Assumptions C91_directions_agree.

(** A method that is not indexed has no calls. *)
Theorem C91_unknown e n : ~ In n (names e) -> incoming_calls e n = [] /\ outgoing_calls e n = [].
Proof.
  intros H. assert (position_of (names e) n = None) as P.
  { induction (names e) as [|x r IH]; auto. cbn. destruct (name_eqb x n) eqn:E.
    - apply name_eqb_eq in E. subst. elim H. now left.
    - rewrite IH; auto. intros K. apply H. now right. }
  unfold incoming_calls, outgoing_calls, reference_facts_for, fqn_id. now rewrite P.
Qed.
Print Assumptions C91_unknown.

(** ** Example: a calls b twice and itself once, top-level code calls b, c is not defined. *)
Definition na : name := Method [[65]] [97].
Definition nb : name := Method [[65]] [98].
Definition nc : name := Method [[66]] [99].
Definition at_ (f a b : nat) := mkRange f a b.
Definition demo_history : list op :=
  [ReplaceFile 0 [(1, mkRef (at_ 0 20 21) (Some 0) 0); (1, mkRef (at_ 0 10 11) (Some 0) 0);
                  (0, mkRef (at_ 0 30 31) (Some 0) 0); (1, mkRef (at_ 0 50 51) None 0);
                  (2, mkRef (at_ 0 40 41) (Some 0) 0)];
   ReplaceFile 1 [(1, mkRef (at_ 1 5 6) (Some 2) 0)]].
Definition demo : engine :=
  mkEngine [na; nb; nc] (fun i => match i with 0 => [at_ 0 0 1] | 1 => [at_ 0 2 3; at_ 1 9 9] | _ => [] end)
    (match run demo_history with Some s => s | None => new end).
Example C91_case : reached demo demo_history /\
  incoming_calls demo nb = [mkEntry na (at_ 0 0 1) [at_ 0 10 11; at_ 0 20 21]] /\
  outgoing_calls demo na =
    [mkEntry na (at_ 0 0 1) [at_ 0 30 31]; mkEntry nb (at_ 0 2 3) [at_ 0 10 11; at_ 0 20 21]].
Proof.
  split; [|now vm_compute]. repeat split.
  - repeat constructor; cbn; intuition discriminate.
  - intros n xs x [H|[H|[]]] K; injection H as <- <-; cbn in K; intuition (subst; reflexivity).
Qed.
