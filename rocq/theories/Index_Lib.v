(** Hash maps, slot arenas and fact indexes, shared by the models of the per-file stores. *)
From Coq Require Import List Arith NArith Lia Bool Permutation Sorted.
From Verif Require Import Lib Sort_Lib.
Import ListNotations.

(** ** Hash maps

    [std::collections::HashMap] as an association list.  The order of the entries stands for
    the unspecified iteration order. *)
Section Map.
  Context {K V : Type} (eqb : K -> K -> bool).

  Fixpoint get (m : list (K * V)) (k : K) : option V :=
    match m with
    | [] => None
    | (k', v) :: r => if eqb k' k then Some v else get r k
    end.

  (** [map.insert(k, v)], and the write-back of [entry(k)] / [get_mut(&k)]. *)
  Fixpoint put (m : list (K * V)) (k : K) (v : V) : list (K * V) :=
    match m with
    | [] => [(k, v)]
    | (k', v') :: r => if eqb k' k then (k, v) :: r else (k', v') :: put r k v
    end.

  (** [map.remove(&k)]. *)
  Definition del (m : list (K * V)) (k : K) : list (K * V) :=
    filter (fun e => negb (eqb (fst e) k)) m.

  Hypothesis eqb_eq : forall a b, eqb a b = true <-> a = b.

  Lemma eqb_sym a b : eqb a b = eqb b a.
  Proof. apply eq_iff_eq_true. rewrite !eqb_eq. split; congruence. Qed.

  Lemma eqb_refl a : eqb a a = true.
  Proof. now apply eqb_eq. Qed.

  Lemma eqb_neq a b : eqb a b = false <-> a <> b.
  Proof.
    destruct (eqb a b) eqn:E; [rewrite eqb_eq in E|]; split; intros; try congruence.
    intros ->. rewrite eqb_refl in E. discriminate.
  Qed.

  Lemma get_put m k v k' : get (put m k v) k' = if eqb k k' then Some v else get m k'.
  Proof.
    induction m as [|[a b] m IH]; simpl.
    - destruct (eqb k k'); auto.
    - destruct (eqb a k) eqn:E; simpl.
      + rewrite eqb_eq in E. subst a. destruct (eqb k k'); auto.
      + rewrite IH. destruct (eqb a k') eqn:E1; auto. rewrite eqb_eq in E1. subst a.
        rewrite eqb_sym in E. now rewrite E.
  Qed.

  Lemma get_del m k k' : get (del m k) k' = if eqb k k' then None else get m k'.
  Proof.
    induction m as [|[a b] m IH]; simpl; [now destruct (eqb k k')|].
    destruct (eqb a k) eqn:E; simpl.
    - rewrite IH. rewrite eqb_eq in E. subst a. destruct (eqb k k'); auto.
    - rewrite IH. destruct (eqb a k') eqn:E1; auto. rewrite eqb_eq in E1. subst a.
      rewrite eqb_sym in E. now rewrite E.
  Qed.

  Lemma get_in m k v : get m k = Some v -> In (k, v) m.
  Proof.
    induction m as [|[a b] m IH]; simpl; [discriminate|]. destruct (eqb a k) eqn:E.
    - rewrite eqb_eq in E. intros H. injection H as ->. subst. now left.
    - intros H. right. auto.
  Qed.

  Lemma in_get m k v : NoDup (map fst m) -> In (k, v) m -> get m k = Some v.
  Proof.
    induction m as [|[a b] m IH]; simpl; [easy|]. intros ND [H|H]; inversion ND; subst.
    - injection H as -> ->. now rewrite eqb_refl.
    - destruct (eqb a k) eqn:E; auto. rewrite eqb_eq in E. subst. exfalso.
      apply H2. apply (in_map fst) in H. exact H.
  Qed.

  Lemma put_keys m k v : NoDup (map fst m) -> NoDup (map fst (put m k v)).
  Proof.
    assert (forall m k' , In k' (map fst (put m k v)) -> k' = k \/ In k' (map fst m)) as H.
    { intros m'. induction m' as [|[a b] m' IH]; simpl; intros k' H.
      - destruct H; auto.
      - destruct (eqb a k) eqn:E; simpl in H.
        + rewrite eqb_eq in E. subst. destruct H; auto.
        + destruct H as [H|H]; auto. apply IH in H. tauto. }
    induction m as [|[a b] m IH]; simpl; intros ND.
    - constructor; [easy|constructor].
    - inversion ND; subst. destruct (eqb a k) eqn:E; simpl.
      + rewrite eqb_eq in E. subst. now constructor.
      + constructor; auto. intros H1. apply H in H1. destruct H1 as [->|H1]; auto.
        rewrite eqb_refl in E. discriminate.
  Qed.

  Lemma del_keys m k : NoDup (map fst m) -> NoDup (map fst (del m k)).
  Proof.
    induction m as [|[a b] m IH]; simpl; auto. intros ND. inversion ND; subst.
    destruct (eqb a k); simpl; auto. constructor; auto. intros H. apply H1.
    apply in_map_iff in H. destruct H as [x [<- H]]. apply filter_In in H.
    now apply in_map.
  Qed.
End Map.

(** ** Maps of vectors *)
Section Buckets.
  Context {K : Type} (eqb : K -> K -> bool) {I : Type}.

  (** [map.get(&k).unwrap_or_default()]. *)
  Definition getd (m : list (K * list I)) (k : K) : list I :=
    match get eqb m k with Some v => v | None => [] end.

  (** [map.entry(k).or_default().push(i)]. *)
  Definition push (m : list (K * list I)) (k : K) (i : I) : list (K * list I) :=
    put eqb m k (getd m k ++ [i]).

  (** [if let Some(v) = map.get_mut(&k) { v.retain(p); if v.is_empty() { map.remove(&k); } }] *)
  Definition retain (m : list (K * list I)) (k : K) (p : I -> bool) : list (K * list I) :=
    match get eqb m k with
    | None => m
    | Some v => match filter p v with
                | [] => del eqb m k
                | v' => put eqb m k v'
                end
    end.

  Hypothesis eqb_eq : forall a b, eqb a b = true <-> a = b.

  Lemma getd_put m k v k' : getd (put eqb m k v) k' = if eqb k k' then v else getd m k'.
  Proof. unfold getd. rewrite get_put by auto. now destruct (eqb k k'). Qed.

  Lemma getd_del m k k' : getd (del eqb m k) k' = if eqb k k' then [] else getd m k'.
  Proof. unfold getd. rewrite get_del by auto. now destruct (eqb k k'). Qed.

  Lemma getd_push m k i k' : getd (push m k i) k' = if eqb k k' then getd m k' ++ [i] else getd m k'.
  Proof.
    unfold push. rewrite getd_put. destruct (eqb k k') eqn:E; auto.
    rewrite eqb_eq in E. now subst.
  Qed.

  Lemma getd_retain m k p k' :
    getd (retain m k p) k' = if eqb k k' then filter p (getd m k') else getd m k'.
  Proof.
    unfold retain. destruct (get eqb m k) as [v|] eqn:G.
    - destruct (filter p v) as [|a t] eqn:F.
      + rewrite getd_del. destruct (eqb k k') eqn:E; auto. rewrite eqb_eq in E. subst.
        unfold getd. now rewrite G.
      + rewrite getd_put. destruct (eqb k k') eqn:E; auto. rewrite eqb_eq in E. subst.
        unfold getd. now rewrite G, F.
    - destruct (eqb k k') eqn:E; auto. rewrite eqb_eq in E. subst. unfold getd. now rewrite G.
  Qed.
End Buckets.

(** The contents of a map of vectors, as a multiset of pairs. *)
Lemma split_perm {A} (p : A -> bool) l : Permutation l (filter p l ++ filter (fun x => negb (p x)) l).
Proof.
  induction l as [|x l IH]; auto. simpl. destruct (p x); simpl.
  - now apply perm_skip.
  - eapply perm_trans; [apply perm_skip, IH|]. apply Permutation_middle.
Qed.

Lemma perm_of_buckets {K V} (eqb : K -> K -> bool) (eqb_eq : forall a b, eqb a b = true <-> a = b)
  (m : list (K * list V)) : forall l : list (K * V),
  NoDup (map fst m) ->
  (forall k, Permutation (getd eqb m k) (map snd (filter (fun e => eqb (fst e) k) l))) ->
  Permutation (flat_map (fun e => map (pair (fst e)) (snd e)) m) l.
Proof.
  induction m as [|[k v] m IH]; intros l ND H.
  - destruct l as [|[k v] l]; auto. specialize (H k). unfold getd in H. simpl in H.
    rewrite (eqb_refl eqb eqb_eq) in H. simpl in H. now apply Permutation_nil in H.
  - inversion ND; subst. cbn [flat_map fst snd].
    eapply perm_trans; [|symmetry; apply (split_perm (fun e => eqb (fst e) k))].
    apply Permutation_app.
    + specialize (H k). unfold getd in H. simpl in H. rewrite (eqb_refl eqb eqb_eq) in H.
      eapply perm_trans; [apply Permutation_map, H|]. rewrite map_map.
      assert (forall q : list (K * V), (forall e, In e q -> fst e = k) -> map (fun x => (k, snd x)) q = q) as E.
      { induction q as [|[a b] q IHq]; intros Hq; auto. simpl. rewrite IHq by (intros; apply Hq; now right).
        f_equal. f_equal. symmetry. apply (Hq (a, b)). now left. }
      rewrite E; auto. intros e He. apply filter_In in He. now apply eqb_eq.
    + apply IH; auto. intros k'. specialize (H k'). unfold getd in *. simpl in H.
      destruct (eqb k k') eqn:Ek.
      * apply eqb_eq in Ek. subst k'.
        assert (get eqb m k = None) as ->.
        { destruct (get eqb m k) as [w|] eqn:E; auto. apply get_in in E; auto.
          apply (in_map fst) in E. contradiction. }
        rewrite (filter_nil (fun e => eqb (fst e) k)); auto. intros e He. apply filter_In in He.
        now apply negb_true_iff.
      * eapply perm_trans; [exact H|]. apply Permutation_map.
        replace (filter (fun e => eqb (fst e) k') (filter (fun x => negb (eqb (fst x) k)) l))
          with (filter (fun e : K * V => eqb (fst e) k') l); auto.
        clear -Ek eqb_eq. induction l as [|[a b] l IHl]; auto. simpl.
        destruct (eqb a k') eqn:E1, (eqb a k) eqn:E2; simpl; rewrite ?E1; auto.
        -- apply eqb_eq in E1, E2. subst. rewrite (eqb_refl eqb eqb_eq) in Ek. discriminate.
        -- now rewrite IHl.
Qed.

(** ** Slot arenas

    [facts: Vec<Option<T>>] with the stack [free_facts] of reusable slots:
    core/symbol_store.rs 258-289, core/method_store.rs 766-799, core/graph_store.rs 605-659. *)
Section Arena.
  Context {A : Type}.

  Record arena := mkArena { slots : list (option A); free : list nat }.

  Definition no_slots : arena := mkArena [] [].

  (** insert_fact (symbol_store.rs 258-277, method_store.rs 766-785) and the slot selection of
      insert_edge (graph_store.rs 610-628).  [limit] is the number of slots an id can address
      (u32 ids for symbols and methods, none for graph edges); [None] is a panic: the free list
      points outside the arena or to an occupied slot, or the ids are exhausted. *)
  Definition insert_fact (limit : option N) (a : arena) (x : A) : option (nat * arena) :=
    match free a with
    | id :: rest =>
        match nth_error (slots a) id with
        | Some None => Some (id, mkArena (upd (slots a) id (Some x)) rest)
        | _ => None
        end
    | [] =>
        match limit with
        | Some n => if (N.of_nat (length (slots a)) <? n)%N
                    then Some (length (slots a), mkArena (slots a ++ [Some x]) [])
                    else None
        | None => Some (length (slots a), mkArena (slots a ++ [Some x]) [])
        end
    end.

  (** fact / edge (symbol_store.rs 279-281, method_store.rs 787-789, graph_store.rs 657-659). *)
  Definition fact (a : arena) (id : nat) : option A :=
    match nth_error (slots a) id with Some (Some x) => Some x | _ => None end.

  (** take_fact followed by [free_facts.push(id)] (symbol_store.rs 161-164 and 283-285,
      method_store.rs 627-630 and 791-793, graph_store.rs 643-647 and 654). *)
  Definition take_fact (a : arena) (id : nat) : option (A * arena) :=
    match nth_error (slots a) id with
    | Some (Some x) => Some (x, mkArena (upd (slots a) id None) (id :: free a))
    | _ => None
    end.

  (** clone_facts (symbol_store.rs 287-289, method_store.rs 795-799): missing ids are skipped. *)
  Fixpoint clone_facts (a : arena) (ids : list nat) : list A :=
    match ids with
    | [] => []
    | i :: r => match fact a i with
                | Some x => x :: clone_facts a r
                | None => clone_facts a r
                end
    end.

  (** The facts of [ids] with their ids; [None] when an id has no fact (the sort keys
      [expect] one). *)
  Fixpoint entries (a : arena) (ids : list nat) : option (list (nat * A)) :=
    match ids with
    | [] => Some []
    | i :: r => match fact a i, entries a r with
                | Some x, Some l => Some ((i, x) :: l)
                | _, _ => None
                end
    end.

  (** [ids.sort_by_key(|id| key(facts[id].expect(..)))] (symbol_store.rs 292-317,
      method_store.rs 922-970).  Rust evaluates the keys only of slices of two or more
      elements; here a missing fact always panics. *)
  Definition sort_ids (key : A -> list nat) (a : arena) (ids : list nat) : option (list nat) :=
    match entries a ids with
    | Some l => Some (map fst (sort (fun x y => key_leb key (snd x) (snd y)) l))
    | None => None
    end.

  (** The arena holds exactly the facts [G], each under its own id, and every other slot is
      on the free list once. *)
  Definition holds (a : arena) (G : list (nat * A)) : Prop :=
    NoDup (map fst G) /\ NoDup (free a) /\
    (forall i x, nth_error (slots a) i = Some (Some x) <-> In (i, x) G) /\
    (forall i, nth_error (slots a) i = Some None <-> In i (free a)) /\
    length (slots a) = length G + length (free a).

  Lemma holds_nil : holds no_slots [].
  Proof.
    repeat split; simpl; try constructor; try easy; destruct i; simpl; try easy.
  Qed.

  Lemma holds_fact a G i x : holds a G -> (fact a i = Some x <-> In (i, x) G).
  Proof.
    intros (_ & _ & H & _). unfold fact. rewrite <- H.
    destruct (nth_error (slots a) i) as [[y|]|]; split; congruence.
  Qed.

  Lemma holds_insert limit a G x :
    holds a G ->
    (free a = [] -> match limit with Some n => (N.of_nat (length (slots a)) < n)%N | None => True end) ->
    exists id a', insert_fact limit a x = Some (id, a') /\ holds a' (G ++ [(id, x)]) /\
                  ~ In id (map fst G) /\
                  length (slots a') <= Nat.max (length (slots a)) (S (length G)).
  Proof.
    intros (ND & NF & HS & HF & HL) HLim. unfold insert_fact.
    destruct (free a) as [|id rest] eqn:EF.
    - specialize (HLim eq_refl). exists (length (slots a)), (mkArena (slots a ++ [Some x]) []).
      assert (~ In (length (slots a)) (map fst G)) as Hn.
      { intros H. apply in_map_iff in H. destruct H as [[i y] [Hi Hy]]. simpl in Hi. subst i.
        apply HS in Hy. assert (length (slots a) < length (slots a)); [|lia].
        apply nth_error_Some. congruence. }
      split; [|split; [|split; auto]].
      3:{ cbn [slots]. rewrite app_length. simpl in *. lia. }
      + destruct limit as [n|]; auto. apply N.ltb_lt in HLim. now rewrite HLim.
      + repeat split; cbn [slots free].
        * rewrite map_app. apply (Permutation_NoDup (Permutation_app_comm [length (slots a)] _)).
          now constructor.
        * constructor.
        * intros H. apply in_or_app. destruct (Nat.lt_ge_cases i (length (slots a))) as [L|L].
          -- rewrite nth_error_app1 in H by lia. left. now apply HS.
          -- rewrite nth_error_app2 in H by lia. right.
             destruct (i - length (slots a)) as [|d] eqn:D; [|destruct d; discriminate].
             simpl in H. injection H as ->. left. f_equal. lia.
        * intros H. apply in_app_or in H. destruct H as [H|[H|[]]].
          -- apply HS in H. rewrite nth_error_app1; auto. apply nth_error_Some. congruence.
          -- injection H as <- <-. rewrite nth_error_app2 by lia. now rewrite Nat.sub_diag.
        * intros H. exfalso. destruct (Nat.lt_ge_cases i (length (slots a))) as [L|L].
          -- rewrite nth_error_app1 in H by lia. now apply HF in H.
          -- rewrite nth_error_app2 in H by lia.
             destruct (i - length (slots a)) as [|d]; [|destruct d]; discriminate.
        * easy.
        * rewrite !app_length. simpl in *. lia.
    - assert (nth_error (slots a) id = Some None) as Hid by (apply HF; now left).
      rewrite Hid. eexists id, _. split; [reflexivity|].
      assert (~ In id (map fst G)) as Hn.
      { intros H. apply in_map_iff in H. destruct H as [[i y] [Hi Hy]]. simpl in Hi. subst i.
        apply HS in Hy. congruence. }
      split; [|split; auto; cbn [slots]; rewrite upd_length; lia].
      inversion NF; subst. repeat split; cbn [slots free]; auto.
      + rewrite map_app. apply (Permutation_NoDup (Permutation_app_comm [id] _)).
        now constructor.
      + rewrite nth_upd, Hid. destruct (Nat.eqb_spec id i) as [<-|N]; intros H; apply in_or_app.
        * injection H as ->. right. now left.
        * left. now apply HS.
      + rewrite nth_upd, Hid. intros H. apply in_app_or in H.
        destruct (Nat.eqb_spec id i) as [<-|N]; destruct H as [H|[H|[]]].
        * exfalso. apply Hn. apply (in_map fst) in H. exact H.
        * congruence.
        * now apply HS.
        * congruence.
      + rewrite nth_upd, Hid. destruct (Nat.eqb_spec id i) as [<-|N]; intros H; [discriminate|].
        apply HF in H. destruct H; [congruence|auto].
      + intros H. rewrite nth_upd, Hid. destruct (Nat.eqb_spec id i) as [<-|N]; [easy|].
        apply HF. now right.
      + rewrite upd_length, app_length. simpl in *. lia.
  Qed.

  Lemma nodup_fst_filter (p : nat * A -> bool) G : NoDup (map fst G) -> NoDup (map fst (filter p G)).
  Proof.
    induction G as [|[i x] G IH]; simpl; auto. intros ND. inversion ND; subst.
    destruct (p (i, x)); simpl; auto. constructor; auto. intros H. apply H1.
    apply in_map_iff in H. destruct H as [e [<- H]]. apply filter_In in H. now apply in_map.
  Qed.

  Definition not_id (id : nat) (e : nat * A) : bool := negb (fst e =? id).

  Lemma without_length (G : list (nat * A)) id x : NoDup (map fst G) -> In (id, x) G ->
    S (length (filter (not_id id) G)) = length G.
  Proof.
    induction G as [|[j y] G IH]; simpl; [easy|]. intros ND H. inversion ND; subst.
    unfold not_id at 1. simpl. destruct (Nat.eqb_spec j id) as [->|N]; simpl.
    - f_equal. f_equal. clear -H2. induction G as [|[k z] G IH]; auto. simpl in *.
      unfold not_id at 1. simpl. destruct (Nat.eqb_spec k id) as [->|N]; simpl.
      + exfalso. apply H2. now left.
      + f_equal. apply IH. tauto.
    - destruct H as [H|H]; [congruence|]. now rewrite IH.
  Qed.

  Lemma holds_take a G id x : holds a G -> In (id, x) G ->
    exists a', take_fact a id = Some (x, a') /\ holds a' (filter (not_id id) G) /\
               free a' = id :: free a /\ length (slots a') = length (slots a).
  Proof.
    intros (ND & NF & HS & HF & HL) HIn. unfold take_fact.
    pose proof (proj2 (HS id x) HIn) as E. rewrite E. eexists. split; [reflexivity|].
    cbn [free slots]. split; [|split; [reflexivity|apply upd_length]].
    repeat split; cbn [slots free].
    - now apply nodup_fst_filter.
    - constructor; auto. intros H. apply HF in H. congruence.
    - rewrite nth_upd, E. destruct (Nat.eqb_spec id i) as [<-|N]; intros H; [discriminate|].
      apply filter_In. split; [now apply HS|]. unfold not_id. simpl.
      destruct (Nat.eqb_spec i id); [congruence|easy].
    - rewrite nth_upd, E. intros H. apply filter_In in H. destruct H as [H1 H2].
      unfold not_id in H2. simpl in H2. destruct (Nat.eqb_spec i id) as [->|N]; [discriminate|].
      destruct (Nat.eqb_spec id i); [congruence|]. now apply HS.
    - rewrite nth_upd, E. destruct (Nat.eqb_spec id i) as [<-|N]; intros H; [now left|].
      right. now apply HF.
    - rewrite nth_upd, E. intros [->|H].
      + now rewrite Nat.eqb_refl.
      + destruct (Nat.eqb_spec id i) as [<-|N]; auto. now apply HF.
    - rewrite upd_length. pose proof (without_length _ _ _ ND HIn). simpl. lia.
  Qed.

  Lemma holds_entries a G L : holds a G -> (forall e, In e L -> In e G) ->
    entries a (map fst L) = Some L.
  Proof.
    intros H. induction L as [|[i x] L IH]; intros HL; auto. simpl.
    assert (fact a i = Some x) as -> by (apply (holds_fact _ G); auto; apply HL; now left).
    rewrite IH; auto. intros; apply HL; now right.
  Qed.

  Lemma holds_clone a G L : holds a G -> (forall e, In e L -> In e G) ->
    clone_facts a (map fst L) = map snd L.
  Proof.
    intros H. induction L as [|[i x] L IH]; intros HL; auto. simpl.
    assert (fact a i = Some x) as -> by (apply (holds_fact _ G); auto; apply HL; now left).
    rewrite IH; auto. intros; apply HL; now right.
  Qed.

  (** The facts of the arena, in the order of the slots. *)
  Definition occupied (a : arena) : list A :=
    flat_map (fun o => match o with Some x => [x] | None => [] end) (slots a).

  Lemma nth_error_combine' {B} (L : list B) : forall (M : list (option A)) m b o,
    nth_error (combine L M) m = Some (b, o) <-> nth_error L m = Some b /\ nth_error M m = Some o.
  Proof.
    induction L as [|b' L IH]; intros [|o' M] [|m] b o; simpl; split; try easy;
      try (now intros [? ?]); try (intros H; injection H as -> ->; auto); try apply IH.
    intros [H1 H2]. congruence.
  Qed.

  Lemma holds_occupied a G : holds a G -> Permutation (occupied a) (map snd G).
  Proof.
    intros (ND & _ & HS & _). unfold occupied.
    assert (forall (l : list (option A)) k,
      flat_map (fun o => match o with Some x => [x] | None => [] end) l =
      map snd (flat_map (fun p => match snd p with Some x => [(fst p, x)] | None => [] end)
                (combine (seq k (length l)) l))) as E1.
    { induction l as [|[x|] l IH]; intros k; simpl; auto. now rewrite (IH (S k)). }
    rewrite (E1 _ 0). apply Permutation_map. apply NoDup_Permutation.
    - apply (NoDup_map_inv fst).
      assert (forall (l : list (option A)) k, NoDup (map fst (flat_map
        (fun p => match snd p with Some x => [(fst p, x)] | None => [] end) (combine (seq k (length l)) l))) /\
        forall i, In i (map fst (flat_map
        (fun p => match snd p with Some x => [(fst p, x)] | None => [] end) (combine (seq k (length l)) l))) -> k <= i) as H.
      { induction l as [|o l IH]; intros k; simpl; [split; [constructor|easy]|].
        destruct (IH (S k)) as [I1 I2]. destruct o as [x|]; simpl.
        - split; [constructor; auto|].
          + intros H. apply I2 in H. lia.
          + intros i [<-|H]; auto. apply I2 in H. lia.
        - split; auto. intros i H. apply I2 in H. lia. }
      apply H.
    - now apply NoDup_map_inv in ND.
    - intros [i x]. rewrite <- HS. rewrite in_flat_map. split.
      + intros ([j o] & Hp & Hin). simpl in Hin. destruct o as [y|]; [|easy].
        destruct Hin as [Hin|[]]. injection Hin as -> ->.
        apply In_nth_error in Hp. destruct Hp as [m Hm].
        apply nth_error_combine' in Hm. destruct Hm as [H2 H3].
        assert (m < length (slots a)) as Lm by (apply nth_error_Some; congruence).
        apply nth_error_nth with (d := 0) in H2. rewrite seq_nth in H2 by auto. simpl in H2. now subst m.
      + intros H. exists (i, Some x). split; [|now left].
        assert (i < length (slots a)) as L by (apply nth_error_Some; congruence).
        apply nth_error_In with (n := i). apply nth_error_combine'. split; auto.
        rewrite (nth_error_nth' _ 0) by (rewrite seq_length; auto). now rewrite seq_nth.
  Qed.
End Arena.
Arguments arena : clear implicits.

(** ** Indexes of an arena

    An index maps a key of a fact to the ids of the facts with that key.  [G] is the ghost list
    of the live facts with their ids, in the order in which they were supplied. *)
Section Index.
  Context {A K : Type} (eqb : K -> K -> bool) (kf : A -> option K) (key : A -> list nat).
  Hypothesis eqb_eq : forall a b, eqb a b = true <-> a = b.

  Definition has_key (k : K) (x : A) : bool :=
    match kf x with Some k' => eqb k' k | None => false end.

  Definition wants (k : K) (e : nat * A) : bool := has_key k (snd e).

  Definition entry_leb (x y : nat * A) : bool := key_leb key (snd x) (snd y).

  Lemma entry_total x y : entry_leb x y = true \/ entry_leb y x = true.
  Proof. apply key_total. Qed.
  Lemma entry_trans x y z : entry_leb x y = true -> entry_leb y z = true -> entry_leb x z = true.
  Proof. apply key_trans. Qed.

  Definition indexed (m : list (K * list nat)) (G : list (nat * A)) : Prop :=
    forall k, getd eqb m k = map fst (sort entry_leb (filter (wants k) G)).

  (** During a replacement: the old facts [G0] are in order, the new ones [G1] follow. *)
  Definition appended (m : list (K * list nat)) (G0 G1 : list (nat * A)) : Prop :=
    forall k, getd eqb m k = map fst (sort entry_leb (filter (wants k) G0) ++ filter (wants k) G1).

  Lemma indexed_nil : indexed [] [].
  Proof. intros k. reflexivity. Qed.

  Lemma indexed_appended m G : indexed m G <-> appended m G [].
  Proof. unfold indexed, appended. split; intros H k; rewrite H; simpl; now rewrite app_nil_r. Qed.

  Lemma filter_map_fst p (l : list (nat * A)) :
    filter p (map fst l) = map fst (filter (fun e => p (fst e)) l).
  Proof. induction l as [|[i x] l IH]; auto. simpl. destruct (p i); simpl; now rewrite IH. Qed.

  Lemma nodup_same (G : list (nat * A)) i x y : NoDup (map fst G) -> In (i, x) G -> In (i, y) G -> x = y.
  Proof.
    induction G as [|[j z] G IH]; simpl; [easy|]. intros ND H1 H2. inversion ND; subst.
    destruct H1 as [H1|H1], H2 as [H2|H2]; try congruence; auto.
    - injection H1 as -> ->. exfalso. apply H3. apply (in_map fst) in H2. exact H2.
    - injection H2 as -> ->. exfalso. apply H3. apply (in_map fst) in H1. exact H1.
  Qed.

  Lemma filter_same {B} (p q : B -> bool) l : (forall x, In x l -> p x = q x) -> filter p l = filter q l.
  Proof.
    induction l as [|x l IH]; auto. intros H. simpl. rewrite H by now left.
    rewrite IH; auto. intros; apply H; now right.
  Qed.

  Lemma filter_all {B} (p : B -> bool) l : (forall x, In x l -> p x = true) -> filter p l = l.
  Proof.
    induction l as [|x l IH]; auto. intros H. simpl. rewrite H by now left.
    rewrite IH; auto. intros; apply H; now right.
  Qed.

  Lemma sort_entry_filter p l : filter p (sort entry_leb l) = sort entry_leb (filter p l).
  Proof. apply sort_filter; [apply entry_total|apply entry_trans]. Qed.

  (** Dropping an id from the bucket of its key drops it from the index. *)
  Lemma indexed_retain m G id x k : NoDup (map fst G) -> In (id, x) G -> kf x = Some k ->
    indexed m G -> indexed (retain eqb m k (fun i => negb (i =? id))) (filter (not_id id) G).
  Proof.
    intros ND HI HK H k'. rewrite getd_retain by auto. rewrite H.
    rewrite (filter_comm (wants k')). destruct (eqb k k') eqn:E.
    - rewrite filter_map_fst. change (fun e : nat * A => negb (fst e =? id)) with (@not_id A id).
      now rewrite sort_entry_filter.
    - rewrite (filter_all (not_id id)); auto. intros [j y] Hy. apply filter_In in Hy.
      destruct Hy as [Hy Hw]. unfold not_id. simpl. destruct (Nat.eqb_spec j id) as [->|N]; auto.
      rewrite (nodup_same _ _ _ _ ND Hy HI) in Hw. unfold wants, has_key in Hw. simpl in Hw.
      rewrite HK in Hw. congruence.
  Qed.

  Lemma indexed_skip m G id x : NoDup (map fst G) -> In (id, x) G -> kf x = None ->
    indexed m G -> indexed m (filter (not_id id) G).
  Proof.
    intros ND HI HK H k'. rewrite H. rewrite (filter_comm (wants k')).
    rewrite (filter_all (not_id id)); auto. intros [j y] Hy. apply filter_In in Hy.
    destruct Hy as [Hy Hw]. unfold not_id. simpl. destruct (Nat.eqb_spec j id) as [->|N]; auto.
    rewrite (nodup_same _ _ _ _ ND Hy HI) in Hw. unfold wants, has_key in Hw. simpl in Hw.
    rewrite HK in Hw. discriminate.
  Qed.

  Lemma appended_push m G0 G1 id x k : kf x = Some k -> appended m G0 G1 ->
    appended (push eqb m k id) G0 (G1 ++ [(id, x)]).
  Proof.
    intros HK H k'. rewrite getd_push by auto. rewrite H, filter_app. cbn [filter].
    assert (wants k' (id, x) = eqb k k') as -> by (unfold wants, has_key; simpl; now rewrite HK).
    destruct (eqb k k').
    - rewrite app_assoc. now rewrite (map_app fst (_ ++ _)).
    - now rewrite app_nil_r.
  Qed.

  Lemma appended_skip m G0 G1 id x : kf x = None -> appended m G0 G1 ->
    appended m G0 (G1 ++ [(id, x)]).
  Proof.
    intros HK H k'. rewrite H, filter_app. cbn [filter].
    assert (wants k' (id, x) = false) as -> by (unfold wants, has_key; simpl; now rewrite HK).
    now rewrite app_nil_r.
  Qed.

  (** Re-sorting a bucket after appending to it. *)
  Lemma resort a G0 G1 k :
    holds a (G0 ++ G1) ->
    sort_ids key a (map fst (sort entry_leb (filter (wants k) G0) ++ filter (wants k) G1)) =
    Some (map fst (sort entry_leb (filter (wants k) (G0 ++ G1)))).
  Proof.
    intros H. unfold sort_ids. rewrite (holds_entries _ _ _ H).
    - f_equal. f_equal. change (fun x y : nat * A => key_leb key (snd x) (snd y)) with entry_leb.
      rewrite sort_sort_app by (apply entry_total || apply entry_trans). now rewrite filter_app.
    - intros e He. apply in_app_or in He. apply in_or_app. rewrite sort_in in He.
      destruct He as [He|He]; apply filter_In in He; tauto.
  Qed.

  (** Reading an index. *)
  Lemma indexed_clone a m G k : holds a G -> indexed m G ->
    clone_facts a (getd eqb m k) = sort (key_leb key) (filter (has_key k) (map snd G)).
  Proof.
    intros H1 H2. rewrite H2. rewrite (holds_clone _ G); auto.
    - unfold entry_leb. rewrite (sort_map snd (key_leb key)). f_equal.
      clear. induction G as [|[i x] G IH]; auto. simpl. unfold wants at 1. simpl.
      destruct (has_key k x); simpl; now rewrite IH.
    - intros e He. rewrite sort_in in He. now apply filter_In in He.
  Qed.
End Index.

(** ** Re-sorting the touched buckets *)
Section Resort.
  Context {A K : Type} (eqb : K -> K -> bool) (kf : A -> option K) (key : A -> list nat).
  Hypothesis eqb_eq : forall a b, eqb a b = true <-> a = b.

  (** [for k in touched { if let Some(ids) = index.get_mut(&k) { sort(ids); } }]
      (method_store.rs 686-703).  [touched] is a hash set there; its iteration order is the order
      of [ks], and the result does not depend on it ([resort_keys_ok]). *)
  Fixpoint resort_keys (a : arena A) (m : list (K * list nat)) (ks : list K)
    : option (list (K * list nat)) :=
    match ks with
    | [] => Some m
    | k :: r =>
        match get eqb m k with
        | None => resort_keys a m r
        | Some ids =>
            match sort_ids key a ids with
            | None => None
            | Some ids' => resort_keys a (put eqb m k ids') r
            end
        end
    end.

  (** Buckets list the right facts and need only be sorted. *)
  Definition sortable (m : list (K * list nat)) (G : list (nat * A)) : Prop :=
    forall k, exists L, getd eqb m k = map fst L /\ (forall e, In e L -> In e G) /\
      sort (entry_leb key) L = sort (entry_leb key) (filter (wants eqb kf k) G).

  Lemma appended_sortable m G0 G1 : appended eqb kf key m G0 G1 -> sortable m (G0 ++ G1).
  Proof.
    intros H k. eexists. split; [apply H|]. split.
    - intros e He. apply in_app_or in He. apply in_or_app. rewrite sort_in in He.
      destruct He as [He|He]; apply filter_In in He; tauto.
    - rewrite sort_sort_app by (apply entry_total || apply entry_trans). now rewrite filter_app.
  Qed.

  Lemma indexed_sortable m G : indexed eqb kf key m G -> sortable m G.
  Proof.
    intros H k. eexists. split; [apply H|]. split.
    - intros e He. rewrite sort_in in He. now apply filter_In in He.
    - apply sort_id; [apply entry_total|apply entry_trans|].
      apply sort_sorted; [apply entry_total|apply entry_trans].
  Qed.

  Lemma resort_keys_ok a G ks : holds a G -> forall m,
    sortable m G ->
    (forall k, ~ In k ks -> getd eqb m k = map fst (sort (entry_leb key) (filter (wants eqb kf k) G))) ->
    exists m', resort_keys a m ks = Some m' /\ indexed eqb kf key m' G.
  Proof.
    intros HA. induction ks as [|k ks IH]; intros m HS HR.
    - exists m. split; auto. intros k. now apply HR.
    - cbn [resort_keys]. destruct (HS k) as (L & E1 & E2 & E3). unfold getd in E1.
      destruct (get eqb m k) as [ids|] eqn:EG.
      + subst ids. unfold sort_ids. rewrite (holds_entries _ G) by auto.
        change (fun x y : nat * A => key_leb key (snd x) (snd y)) with (entry_leb key). rewrite E3.
        apply IH.
        * intros k'. rewrite getd_put by auto. destruct (eqb k k') eqn:E; [|apply HS].
          apply eqb_eq in E. subst k'. eexists. split; [reflexivity|]. split.
          -- intros e He. rewrite sort_in in He. now apply filter_In in He.
          -- apply sort_id; [apply entry_total|apply entry_trans|].
             apply sort_sorted; [apply entry_total|apply entry_trans].
        * intros k' Hk. rewrite getd_put by auto. destruct (eqb k k') eqn:E.
          -- apply eqb_eq in E. now subst k'.
          -- apply HR. intros [->|]; auto. rewrite (eqb_refl eqb eqb_eq) in E. discriminate.
      + apply IH; auto. intros k' Hk. destruct (eqb k k') eqn:E.
        * apply eqb_eq in E. subst k'. unfold getd. rewrite EG.
          symmetry in E1. apply map_eq_nil in E1. subst L. simpl in E3. now rewrite <- E3.
        * apply HR. intros [->|]; auto. rewrite (eqb_refl eqb eqb_eq) in E. discriminate.
  Qed.

  Lemma appended_untouched m G0 G1 k : appended eqb kf key m G0 G1 ->
    filter (wants eqb kf k) G1 = [] ->
    getd eqb m k = map fst (sort (entry_leb key) (filter (wants eqb kf k) (G0 ++ G1))).
  Proof. intros H E. rewrite H, filter_app, E. now rewrite !app_nil_r. Qed.
End Resort.

(** ** Removing the facts of a file, adding one fact *)
Section Steps.
  Context {A : Type}.

  Definition without (ids : list nat) (G : list (nat * A)) : list (nat * A) :=
    filter (fun e => negb (existsb (Nat.eqb (fst e)) ids)) G.

  Lemma without_nil G : without [] G = G.
  Proof. apply filter_all. auto. Qed.

  Lemma without_cons i ids G : without (i :: ids) G = without ids (filter (not_id i) G).
  Proof.
    unfold without. induction G as [|[j y] G IH]; auto. cbn [filter]. rewrite IH.
    change (not_id i (j, y)) with (negb (j =? i)). cbn [fst existsb].
    destruct (Nat.eqb_spec j i) as [->|N]; reflexivity.
  Qed.

  Lemma still_there i (L G : list (nat * A)) : ~ In i (map fst L) -> (forall e, In e L -> In e G) ->
    forall e, In e L -> In e (filter (not_id i) G).
  Proof.
    intros N H e He. apply filter_In. split; auto. unfold not_id.
    destruct (Nat.eqb_spec (fst e) i) as [<-|]; auto. exfalso. apply N. now apply in_map.
  Qed.

  Context (file_of : A -> nat) (fkey : A -> list nat).
  Let kfile (x : A) := Some (file_of x).

  Definition elsewhere (n : nat) (e : nat * A) : bool := negb (file_of (snd e) =? n).

  (** The entries of a file in its index. *)
  Definition file_entries (n : nat) (G : list (nat * A)) : list (nat * A) :=
    sort (entry_leb fkey) (filter (wants Nat.eqb kfile n) G).

  Lemma file_entries_in n G e : In e (file_entries n G) <-> In e G /\ file_of (snd e) = n.
  Proof. unfold file_entries. rewrite sort_in, filter_In. unfold wants, has_key, kfile. now rewrite Nat.eqb_eq. Qed.

  Lemma file_entries_nodup n G : NoDup (map fst G) -> NoDup (map fst (file_entries n G)).
  Proof.
    intros H. eapply Permutation_NoDup; [apply Permutation_map, sort_perm|]. now apply nodup_fst_filter.
  Qed.

  Lemma without_file n G : NoDup (map fst G) ->
    without (map fst (file_entries n G)) G = filter (elsewhere n) G.
  Proof.
    intros ND. apply filter_same. intros e He. unfold elsewhere. f_equal. apply eq_iff_eq_true.
    rewrite existsb_exists, Nat.eqb_eq. split.
    - intros (i & Hi & Hei). apply Nat.eqb_eq in Hei. subst i. apply in_map_iff in Hi.
      destruct Hi as ([j y] & Hj & Hy). apply file_entries_in in Hy. destruct e as [i x]. simpl in *. subst j.
      destruct Hy as [Hy1 Hy2]. rewrite (nodup_same G i x y); auto.
    - intros E. exists (fst e). split; [|apply Nat.eqb_refl]. apply in_map. now apply file_entries_in.
  Qed.

  Lemma elsewhere_all n G : file_entries n G = [] -> filter (elsewhere n) G = G.
  Proof.
    intros H. apply filter_all. intros e He. unfold elsewhere. apply negb_true_iff, Nat.eqb_neq.
    intros E. assert (In e (file_entries n G)) as F by (now apply file_entries_in). now rewrite H in F.
  Qed.

  Lemma del_file m n G : indexed Nat.eqb kfile fkey m G ->
    indexed Nat.eqb kfile fkey (del Nat.eqb m n) (filter (elsewhere n) G).
  Proof.
    intros H k. rewrite getd_del by apply Nat.eqb_eq. destruct (Nat.eqb_spec n k) as [<-|N].
    - rewrite (filter_nil (wants Nat.eqb kfile n)); auto. intros e He. apply filter_In in He.
      destruct He as [_ He]. unfold elsewhere in He. unfold wants, has_key, kfile.
      now apply negb_true_iff in He.
    - rewrite H. rewrite (filter_comm (wants Nat.eqb kfile k)). f_equal. f_equal.
      symmetry. apply filter_all. intros e He. apply filter_In in He. destruct He as [_ He].
      unfold wants, has_key, kfile in He. apply Nat.eqb_eq in He. unfold elsewhere. rewrite He.
      apply negb_true_iff. apply Nat.eqb_neq. congruence.
  Qed.

  Lemma snd_elsewhere n (G : list (nat * A)) :
    map snd (filter (elsewhere n) G) = filter (fun x => negb (file_of x =? n)) (map snd G).
  Proof.
    induction G as [|[i x] G IH]; auto. simpl. unfold elsewhere at 1. simpl.
    destruct (file_of x =? n); simpl; now rewrite IH.
  Qed.
End Steps.

(** Appending to a bucket and re-sorting it. *)
Lemma push_resort {A K} (eqb : K -> K -> bool) (kf : A -> option K) (key : A -> list nat)
  (eqb_eq : forall a b, eqb a b = true <-> a = b) a m G id x k :
  holds a (G ++ [(id, x)]) -> kf x = Some k -> indexed eqb kf key m G ->
  exists ids, sort_ids key a (getd eqb (push eqb m k id) k) = Some ids /\
    indexed eqb kf key (put eqb (push eqb m k id) k ids) (G ++ [(id, x)]).
Proof.
  intros HA HK H.
  pose proof (appended_push eqb kf key eqb_eq m G [] id x k HK (proj1 (indexed_appended _ _ _ _ _) H)) as AP.
  cbn [app] in AP. rewrite AP, (resort eqb kf key) by auto. eexists. split; [reflexivity|].
  intros k'. rewrite getd_put by auto. destruct (eqb k k') eqn:E.
  - apply eqb_eq in E. now subst k'.
  - apply (appended_untouched eqb kf key _ _ _ _ AP). cbn [filter].
    assert (wants eqb kf k' (id, x) = eqb k k') as -> by (unfold wants, has_key; simpl; now rewrite HK).
    now rewrite E.
Qed.

(** ** core/file_owned_index.rs *)
Section Place.
  Context {A : Type} (key : A -> list nat) (file_of : A -> nat).

  (** [slice::partition_point] on a slice that is partitioned by [p]: the number of leading
      elements satisfying [p]. *)
  Fixpoint partition_point {B} (p : B -> bool) (l : list B) : nat :=
    match l with
    | [] => 0
    | x :: t => if p x then S (partition_point p t) else 0
    end.

  (** place_appended_file_facts (file_owned_index.rs 5-33), with the closures the stores pass:
      [file_id_for] reads the fact of an id (panicking when there is none) and [sort_facts] is
      [sort_ids key].  [None] is a panic. *)
  Definition place_appended (a : arena A) (ids : list nat) (appended_count file : nat)
    : option (list nat) :=
    if (0 <? appended_count) && (appended_count <=? length ids) then
      let start := length ids - appended_count in
      match sort_ids key a (skipn start ids), entries a (firstn start ids) with
      | Some tail, Some old =>
          let insertion := partition_point (fun e => file_of (snd e) <? file) old in
          let placed := firstn insertion ids ++ tail ++ skipn insertion (firstn start ids) in
          match nth_error old insertion with
          | Some e => if file_of (snd e) =? file then None else Some placed
          | None => Some placed
          end
      | _, _ => None
      end
    else None.

  Lemma pp_firstn {B} (p : B -> bool) l x : In x (firstn (partition_point p l) l) -> p x = true.
  Proof.
    induction l as [|y l IH]; simpl; [easy|]. destruct (p y) eqn:E; simpl; [|easy].
    intros [<-|H]; auto.
  Qed.

  Lemma pp_nth {B} (p : B -> bool) l x : nth_error l (partition_point p l) = Some x -> p x = false.
  Proof.
    induction l as [|y l IH]; simpl; [easy|]. destruct (p y) eqn:E; simpl; auto.
    intros H. injection H as <-. auto.
  Qed.

  Lemma pp_le {B} (p : B -> bool) l : partition_point p l <= length l.
  Proof. induction l as [|y l IH]; simpl; auto. destruct (p y); lia. Qed.

  Hypothesis key_file : forall x y, lexb (key x) (key y) = true -> file_of x <= file_of y.
  Hypothesis file_key : forall x y, file_of x < file_of y -> lexb (key x) (key y) = true.

  Lemma skipn_sorted (l : list (nat * A)) n : StronglySorted (le (entry_leb key)) l ->
    StronglySorted (le (entry_leb key)) (skipn n l).
  Proof.
    revert l. induction n as [|n IH]; intros l S; auto. destruct S; simpl; [constructor|]. auto.
  Qed.

  Lemma firstn_sorted (l : list (nat * A)) n : StronglySorted (le (entry_leb key)) l ->
    StronglySorted (le (entry_leb key)) (firstn n l).
  Proof.
    revert l. induction n as [|n IH]; intros l S; [constructor|]. destruct S as [|x l S F]; simpl; [constructor|].
    constructor; auto. apply Forall_forall. intros y Hy. rewrite Forall_forall in F. apply F.
    rewrite <- (firstn_skipn n l). apply in_or_app. now left.
  Qed.

  Lemma place_appended_spec a G X Y n :
    holds a G -> (forall e, In e X -> In e G) -> (forall e, In e Y -> In e G) -> Y <> [] ->
    (forall e, In e X -> file_of (snd e) <> n) -> (forall e, In e Y -> file_of (snd e) = n) ->
    place_appended a (map fst (sort (entry_leb key) X ++ Y)) (length Y) n =
    Some (map fst (sort (entry_leb key) (X ++ Y))).
  Proof.
    intros HA XG YG HY HX HYn. unfold place_appended.
    set (S := sort (entry_leb key) X).
    pose proof (entry_total key) as TOT. pose proof (entry_trans key) as TR.
    assert (StronglySorted (le (entry_leb key)) S) as SS by (apply sort_sorted; auto).
    assert (forall e, In e S -> In e X) as SX by (intros e; apply sort_in).
    assert (length Y <> 0) as LY by (destruct Y; simpl; congruence).
    rewrite map_length, app_length.
    replace (0 <? length Y) with true by (symmetry; apply Nat.ltb_lt; lia).
    replace (length Y <=? length S + length Y) with true by (symmetry; apply Nat.leb_le; lia).
    cbn [andb]. replace (length S + length Y - length Y) with (length S) by lia.
    rewrite !map_app.
    rewrite skipn_app, firstn_app, !map_length, Nat.sub_diag.
    cbn [skipn firstn]. rewrite skipn_all2 by (rewrite map_length; lia).
    rewrite firstn_all2 by (rewrite map_length; lia). cbn [app]. rewrite app_nil_r.
    unfold sort_ids.
    rewrite (holds_entries _ _ Y HA) by auto.
    rewrite (holds_entries _ _ S HA) by auto.
    change (fun x y : nat * A => key_leb key (snd x) (snd y)) with (entry_leb key).
    set (p := fun e : nat * A => file_of (snd e) <? n).
    set (i := partition_point p S).
    assert (i <= length S) as Hi by apply pp_le.
    set (P := firstn i S). set (Q := skipn i S).
    assert (S = P ++ Q) as SPQ by (symmetry; apply firstn_skipn).
    assert (forall e, In e P -> file_of (snd e) < n) as HP.
    { intros e He. apply pp_firstn in He. unfold p in He. now apply Nat.ltb_lt. }
    assert (forall e, In e Q -> n < file_of (snd e)) as HQ.
    { intros e He.
      assert (StronglySorted (le (entry_leb key)) Q) as SQ by now apply skipn_sorted.
      assert (file_of (snd e) <> n) by (apply HX, SX; rewrite SPQ; apply in_or_app; auto).
      destruct Q as [|q Q'] eqn:EQ; [easy|].
      assert (nth_error S i = Some q) as Hq.
      { rewrite SPQ. rewrite nth_error_app2; unfold P; rewrite firstn_length_le by auto; [|lia].
        now rewrite Nat.sub_diag. }
      apply pp_nth in Hq. unfold p in Hq. apply Nat.ltb_ge in Hq.
      pose proof (sorted_head_min _ TOT _ _ SQ e He) as Hm.
      apply key_file in Hm. lia. }
    assert (firstn i (map fst S ++ map fst Y) = map fst P) as E1.
    { rewrite firstn_app, map_length. replace (i - length S) with 0 by lia.
      cbn [firstn]. rewrite app_nil_r. unfold P. apply firstn_map. }
    assert (skipn i (map fst S) = map fst Q) as E2 by apply skipn_map.
    assert (sort (entry_leb key) (X ++ Y) = P ++ sort (entry_leb key) Y ++ Q) as E3.
    { rewrite <- sort_sort_app, <- sort_app_sort by auto. fold S.
      set (Y' := sort (entry_leb key) Y). rewrite SPQ, <- app_assoc.
      assert (forall e, In e Y' -> file_of (snd e) = n) as HY' by (intros e He; apply HYn; now apply sort_in in He).
      rewrite sort_app_lt; auto.
      2:{ intros x y Hx Hy. apply file_key. apply HP in Hx. apply in_app_or in Hy.
          destruct Hy as [Hy|Hy]; [apply HQ in Hy|apply HY' in Hy]; lia. }
      rewrite sort_app_comm; auto.
      2:{ intros x y Hx Hy. apply HQ in Hx. apply HY' in Hy. unfold eqv.
          destruct (entry_leb key x y) eqn:E; auto. apply key_file in E. lia. }
      rewrite sort_app_lt; auto.
      2:{ intros x y Hx Hy. apply file_key. apply HQ in Hy. apply HY' in Hx. lia. }
      rewrite !(sort_id _ TOT TR); auto; try now (apply skipn_sorted || apply firstn_sorted).
      apply sort_sorted; auto. }
    rewrite E1, E2, E3, !map_app.
    destruct (nth_error S i) as [e|] eqn:E; auto.
    destruct (Nat.eqb_spec (file_of (snd e)) n) as [Ef|Ef]; auto. exfalso.
    apply nth_error_In in E. apply SX, HX in E. contradiction.
  Qed.
End Place.

(** TextRange (core/type_store.rs 18-24).  [TextRange::new] asserts start <= end; the stores never
    rely on it, so the ranges here are arbitrary. *)
Record text_range := mkRange { file_id : nat; start_byte : nat; end_byte : nat }.

(** Ids of symbol and method facts are u32 (symbol_store.rs 96-103, method_store.rs 454-461). *)
Definition u32_ids : option N := Some 4294967296%N.
