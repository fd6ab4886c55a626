(** C78 and C79: method calls, visibility and [super]. *)
From Coq Require Import List Arith Bool Lia.
From Verif Require Import Sort_Lib Dispatch_Model Dispatch_Spec Dispatch_Proofs Dispatch_Query Dispatch_Check.
Import ListNotations.

Section Theorems.
  (** Everything the answer depends on besides the source text. *)
  Variable is_class : nat -> bool.
  Variable is_signature is_library_stub : nat -> bool.
  Variable chain : owner -> list owner.
  Variable exists_ is_module : owner -> bool.
  Variable includers contexts : owner -> list owner.
  Variable basic_object : owner.

  Let answer (p : list source) := call is_signature is_library_stub chain exists_ is_module includers
    contexts basic_object (collect is_class p).

  Lemma query_ready n p t : settled chain n p -> load chain empty (events p) = Some t ->
    agrees n (collect is_class p) (events p) /\ ordered n (events p) /\ defined_once n (events p) /\
    (forall a, t a n = entry_of a n (events p)).
  Proof.
    intros (O & W & D1 & D2 & C & OR) L. split; [now apply collect_agrees|]. split; [auto|]. split; [auto|].
    apply (table_is chain); auto. now split.
  Qed.

  (** A call that runs a method leads to that method and to nothing else: whatever the form of the
      call, except that a call on [self] is only covered for methods that are not private. *)
  Theorem C78_runs p t fm caller o n a q :
    settled chain n p -> load chain empty (events p) = Some t -> exists_ o = true ->
    runs chain t fm caller o n a q ->
    (fm = OnSelf -> runs chain t OnOther caller o n a q) ->
    answer p fm caller o n = Some [mkCallee a n Exact [q]].
  Proof.
    intros S0 L X R SF. destruct (query_ready n p t S0 L) as (AG & OR & ON & TB).
    assert (G : exists ap cl, answer p fm caller o n =
        callees is_signature is_library_stub chain exists_ is_module includers contexts basic_object
          (collect is_class p) o n ap cl /\
      callee_in is_signature chain (collect is_class p) (chain o) n Exact ap cl = Some (mkCallee a n Exact [q])).
    { destruct R as (b & e & F & P & B). destruct fm.
      - exists true, None. split; [reflexivity|]. eapply callee_found; eauto. apply allowed_private.
      - exists false, caller. split; [reflexivity|]. destruct (SF eq_refl) as (b' & e' & F' & P' & B').
        eapply callee_found; eauto. now apply allowed_spec.
      - exists false, caller. split; [reflexivity|]. eapply callee_found; eauto. now apply allowed_spec.
      - exists true, None. split; [reflexivity|]. eapply callee_found; eauto. apply allowed_private. }
    destruct G as (ap & cl & -> & G). unfold callees. rewrite X. cbn [negb].
    rewrite G. destruct (is_module o); auto. unfold finish. cbn [fold_left]. unfold visit. rewrite G. reflexivity.
  Qed.

  (** A call of a method that may not be called here leads to no definition, provided the
      visibility comes from a statement naming the method, or the ancestors hold no second
      definition of it. *)
  Theorem C78_denied p t caller o n b e :
    settled chain n p -> load chain empty (events p) = Some t -> exists_ o = true ->
    denied chain t OnOther caller o n ->
    find t (chain o) n = Some (b, e) ->
    ((exists v q, In (Set_ b n v q) (events p)) \/
     (forall c q v, In c (chain o) -> t c n = Some (Body q v) -> c = b)) ->
    answer p OnOther caller o n = Some [mkCallee o n ReceiverOnly []].
  Proof.
    intros S0 L X (b' & e' & a & q & F & P & B) F' H. destruct (query_ready n p t S0 L) as (AG & OR & ON & TB).
    rewrite F in F'. injection F' as -> ->.
    assert (AL : allowed chain (entry_vis e) b false caller = false).
    { destruct (allowed chain (entry_vis e) b false caller) eqn:E; auto. now apply allowed_spec in E. }
    assert (G : callee_in is_signature chain (collect is_class p) (chain o) n Exact false caller = None).
    { eapply callee_denied; eauto. destruct H as [(v & r & H)|H]; [left|right; auto].
      apply sets_in in H. intros Z. rewrite Z in H. destruct H. }
    assert (HD : hidden_in (collect is_class p) (chain o) n = true).
    { eapply hidden_found; eauto. intros V. rewrite V in AL. discriminate. }
    unfold answer, call, callees. rewrite X. cbn [negb]. rewrite G, HD. cbn [negb andb].
    destruct (is_module o); auto. unfold finish. cbn [fold_left]. unfold visit. rewrite G, HD. reflexivity.
  Qed.

  (** A call of a method that does not exist leads to the [method_missing] that Ruby runs, if it is
      not the built-in one, and to no definition otherwise. *)
  Theorem C78_undefined p t fm caller o n :
    settled chain n p -> settled chain missing_name p -> load chain empty (events p) = Some t ->
    exists_ o = true -> is_module o = false -> contexts o = [] ->
    undefined chain t o n ->
    answer p fm caller o n =
    Some [match find_body t (chain o) missing_name with
          | Some (a, q) =>
              if owner_eq_dec a basic_object then
                if is_library_stub (fst q) then mkCallee o n ReceiverOnly []
                else mkCallee a missing_name MethodMissing [q]
              else mkCallee a missing_name MethodMissing [q]
          | None => mkCallee o n ReceiverOnly []
          end].
  Proof.
    intros S0 S1 L X M C U. destruct (query_ready n p t S0 L) as (AG & OR & ON & TB).
    destruct (query_ready missing_name p t S1 L) as (AG1 & OR1 & ON1 & TB1).
    assert (G : forall ap cl, callee_in is_signature chain (collect is_class p) (chain o) n Exact ap cl = None)
      by (intros; eapply callee_undefined; eauto).
    assert (HD : hidden_in (collect is_class p) (chain o) n = false) by (eapply hidden_none; eauto).
    set (mm := match find_body t (chain o) missing_name with
          | Some (a, q) =>
              if owner_eq_dec a basic_object then if is_library_stub (fst q) then None
                else Some (mkCallee a missing_name MethodMissing [q])
              else Some (mkCallee a missing_name MethodMissing [q])
          | None => None end).
    assert (K : missing_in is_signature is_library_stub chain basic_object (collect is_class p) (chain o) = mm).
    { unfold missing_in, mm. destruct (find_body t (chain o) missing_name) as [[a q]|] eqn:B.
      - destruct (find t (chain o) missing_name) as [[b e]|] eqn:F.
        + rewrite (callee_found is_signature chain (collect is_class p) missing_name (events p) t AG1 OR1 ON1 TB1
            (chain o) MethodMissing true None b e a q F B (allowed_private _ _ _ _)).
          unfold default_missing. cbn [c_owner c_ranges forallb]. destruct (owner_eq_dec a basic_object) as [->|NE].
          * rewrite same_refl. cbn. rewrite andb_true_r. reflexivity.
          * rewrite (same_neq _ _ NE). reflexivity.
        + rewrite (find_none_body _ _ _ F) in B. discriminate.
      - now rewrite (callee_undefined is_signature chain (collect is_class p) missing_name (events p) t AG1 OR1 ON1 TB1). }
    assert (Z : forall ap cl, finish is_signature is_library_stub chain contexts basic_object (collect is_class p) o [o] n ap cl =
      [match mm with Some c => c | None => mkCallee o n ReceiverOnly [] end]).
    { intros ap cl. unfold finish. cbn [fold_left]. unfold visit. rewrite G, HD, andb_false_r, K, C.
      destruct mm; reflexivity. }
    assert (Q : Some [match mm with Some c => c | None => mkCallee o n ReceiverOnly [] end] = answer p fm caller o n).
    { unfold answer, call, callees. rewrite X, M. cbn [negb]. destruct fm; now rewrite Z. }
    rewrite <- Q. unfold mm. destruct (find_body t (chain o) missing_name) as [[a q]|]; auto.
    destruct (owner_eq_dec a basic_object); auto. destruct (is_library_stub (fst q)); auto.
  Qed.

  (** Conversely a definition shown for a call is the one Ruby runs, provided the ancestors hold
      one definition only or the method may be called. *)
  Theorem C78_sound p t fm caller o n a ps :
    settled chain n p -> settled chain missing_name p -> load chain empty (events p) = Some t ->
    is_module o = false -> contexts o = [] -> fm <> OnSelf ->
    (fm = OnOther -> forall c c' q q' v v', In c (chain o) -> In c' (chain o) ->
       t c n = Some (Body q v) -> t c' n = Some (Body q' v') -> c = c') ->
    answer p fm caller o n = Some [mkCallee a n Exact ps] ->
    exists q, ps = [q] /\ runs chain t fm caller o n a q.
  Proof.
    intros S0 S1 L M C NS U E.
    assert (X : exists_ o = true).
    { destruct (exists_ o) eqn:X; auto. unfold answer, call, callees in E. rewrite X in E. destruct fm; discriminate. }
    destruct (find_body t (chain o) n) as [[b q]|] eqn:B.
    - destruct (find t (chain o) n) as [[c e]|] eqn:F; [|rewrite (find_none_body _ _ _ F) in B; discriminate].
      assert (D : {permitted chain fm caller c (entry_vis e)} + {~ permitted chain fm caller c (entry_vis e)}).
      { destruct fm; try (left; exact Logic.I).
        destruct (allowed chain (entry_vis e) c false caller) eqn:AL; [left|right].
        - now apply allowed_spec.
        - intros P. apply allowed_spec in P. congruence. }
      destruct D as [P|P].
      + assert (R : runs chain t fm caller o n b q) by (exists c, e; auto).
        rewrite (C78_runs p t fm caller o n b q S0 L X R) in E by (intros; contradiction).
        injection E as <- <-. eauto.
      + destruct fm; try (exfalso; apply P; exact Logic.I).
        assert (DN : denied chain t OnOther caller o n) by (exists c, e, b, q; auto).
        destruct (find_body_in _ _ _ _ _ B) as (J & v & TB).
        rewrite (C78_denied p t caller o n c e S0 L X DN F) in E.
        * discriminate.
        * destruct e as [r w|w].
          -- right. intros c' q' v' J' T'. apply (U eq_refl c' c q' r v' w J'); auto.
             ++ clear - F. induction (chain o) as [|z l IH]; [discriminate|]. cbn in F.
                destruct (t z n); [injection F as -> ->; now left|right; auto].
             ++ clear - F. induction (chain o) as [|z l IH]; [discriminate|]. cbn in F.
                destruct (t z n) eqn:T; [injection F as -> ->; auto|auto].
          -- left. assert (T : t c n = Some (Forward w)).
             { clear - F. induction (chain o) as [|z l IH]; [discriminate|]. cbn in F.
               destruct (t z n) eqn:T; [injection F as -> ->; auto|auto]. }
             destruct (query_ready n p t S0 L) as (_ & _ & _ & TE). rewrite TE in T. unfold entry_of in T.
             destruct (defs_of c n (events p)) as [|[v0 p0] r0].
             ++ destruct (last_of (sets_of c n (events p))) as [[w0 q0]|] eqn:LS; [|discriminate].
                exists w0, q0. apply sets_in. unfold last_of in LS.
                destruct (rev (sets_of c n (events p))) as [|z zs] eqn:RV; [discriminate|].
                injection LS as ->. apply in_rev. rewrite RV. now left.
             ++ destruct (last_of (sets_of c n (events p))) as [[w0 q0]|]; discriminate.
    - rewrite (C78_undefined p t fm caller o n S0 S1 L X M C B) in E.
      destruct (find_body t (chain o) missing_name) as [[a' q']|]; [|discriminate].
      destruct (owner_eq_dec a' basic_object); [destruct (is_library_stub (fst q'))|]; discriminate.
  Qed.

  (** [super] in a method written in the class [ns] leads to the method Ruby runs, for every
      receiver that has the same ancestors beyond [ns] as [ns] itself (every instance of a subclass). *)
  Theorem C79_super p t k ns r n :
    settled chain n p -> load chain empty (events p) = Some t -> exists_ (ns, k) = true ->
    beyond (ns, k) (chain r) = beyond (ns, k) (chain (ns, k)) ->
    (forall a q, super_runs chain t r (ns, k) n a q ->
       super_in is_signature chain exists_ (collect is_class p) is_class k ns n = Some (mkCallee a n Exact [q])) /\
    ((forall a q, ~ super_runs chain t r (ns, k) n a q) ->
       super_in is_signature chain exists_ (collect is_class p) is_class k ns n = None).
  Proof.
    intros S0 L X EQ. destruct (query_ready n p t S0 L) as (AG & OR & ON & TB).
    assert (FN : snd (filed is_class k ns n) = n).
    { destruct S0 as ((O & _) & _). unfold filed. apply Nat.eqb_neq in O. now rewrite O. }
    assert (E : super_in is_signature chain exists_ (collect is_class p) is_class k ns n =
      match find_body t (beyond (ns, k) (chain r)) n with
      | Some (a, q) => Some (mkCallee a n Exact [q]) | None => None end).
    { unfold super_in, super_callee. rewrite FN, X, after_beyond, <- EQ.
      exact (first_of_body is_signature chain (collect is_class p) n (events p) t AG OR ON TB _). }
    unfold super_runs. rewrite E. split.
    - intros a q ->. reflexivity.
    - intros H. destruct (find_body t (beyond (ns, k) (chain r)) n) as [[a q]|]; auto. now destruct (H a q).
  Qed.
End Theorems.

Print Assumptions C78_runs.
Print Assumptions C78_denied.
Print Assumptions C78_undefined.
Print Assumptions C78_sound.
Print Assumptions C79_super.

(** * Cases *)

(** Class 10, its subclass 11 with the module 12 included, and [Class] as 13.  [Object] is left out. *)
Definition family (o : owner) : list owner :=
  match fst o, snd o with
  | 11, Instance => [(11, Instance); (12, Instance); (10, Instance)]
  | 11, Singleton => [(11, Singleton); (10, Singleton); (13, Instance)]
  | 10, Singleton => [(10, Singleton); (13, Instance)]
  | _, _ => [o]
  end.
Definition yes {A} (_ : A) : bool := true.
Definition no {A} (_ : A) : bool := false.
Definition nobody {A B} (_ : A) : list B := [].
Definition ask (p : list source) := call no no family yes no nobody nobody (99, Instance) (collect yes p).

(** class A; def f; end; protected; def g; end; end
    class B < A; include M; private :f; def h; end; end *)
Definition sample : list source :=
  [(1, [mkBody 10 [Plain (Method 5 0); Plain (Mode Protected); Plain (Method 6 20)];
        mkBody 11 [Plain (Named Private 5 40); Plain (Method 7 60)]])].

Lemma sample_settled n : n = 5 \/ n = 6 \/ n = 7 \/ n = 8 \/ n = missing_name -> settled family n sample.
Proof.
  intros H. apply settled_sound.
  - unfold ordinary, initialize_name, new_name. unfold missing_name in H. lia.
  - intros s b [<-|[]] J. cbn in J. destruct J as [<-|[<-|[]]]; cbn; auto.
  - repeat destruct H as [->|H]; try subst n; reflexivity.
Qed.

Definition loaded (p : list source) : table := match load family empty (events p) with Some t => t | None => empty end.

Example C78_runs_case : exists t, load family empty (events sample) = Some t /\
  runs family t OnOther (Some (11, Instance)) (11, Instance) 6 (10, Instance) (1, 20) /\
  runs family t Bare None (11, Instance) 5 (10, Instance) (1, 0) /\
  ask sample OnOther (Some (11, Instance)) (11, Instance) 6 = Some [mkCallee (10, Instance) 6 Exact [(1, 20)]].
Proof.
  eexists. split; [reflexivity|]. split; [|split; [|reflexivity]].
  - exists (10, Instance), (Body (1, 20) Protected). split; [reflexivity|]. split; [|reflexivity].
    exists (11, Instance). split; [reflexivity|]. cbn. auto.
  - exists (11, Instance), (Forward Private). split; [reflexivity|]. split; [exact Logic.I|reflexivity].
Qed.

Example C78_denied_case : exists t, load family empty (events sample) = Some t /\
  denied family t OnOther None (11, Instance) 5 /\
  find t (family (11, Instance)) 5 = Some ((11, Instance), Forward Private) /\
  In (Set_ (11, Instance) 5 Private (1, 40)) (events sample).
Proof.
  eexists. split; [reflexivity|]. split; [|split; [reflexivity|cbn; auto]].
  exists (11, Instance), (Forward Private), (10, Instance), (1, 0).
  split; [reflexivity|]. split; [cbn; auto|reflexivity].
Qed.

Example C78_undefined_case : exists t, load family empty (events sample) = Some t /\
  undefined family t (11, Instance) 8 /\ settled family 8 sample /\ settled family missing_name sample.
Proof. eexists. split; [reflexivity|]. split; [reflexivity|]. split; apply sample_settled; auto. Qed.

Example C78_sound_case : ask sample OnOther None (11, Instance) 7 = Some [mkCallee (11, Instance) 7 Exact [(1, 60)]].
Proof. reflexivity. Qed.

(** class A; def f; end; end    class B < A; def f; super; end; end *)
Definition heirs : list source :=
  [(1, [mkBody 10 [Plain (Method 5 0)]; mkBody 11 [Plain (Method 5 20)]])].
Example C79_super_case : settled family 5 heirs /\
  (exists t, load family empty (events heirs) = Some t /\
     super_runs family t (11, Instance) (11, Instance) 5 (10, Instance) (1, 0)) /\
  super_in no family yes (collect yes heirs) yes Instance 11 5 = Some (mkCallee (10, Instance) 5 Exact [(1, 0)]).
Proof.
  split; [|split; [eexists; split; reflexivity|reflexivity]].
  apply settled_sound; [split; discriminate| |reflexivity].
  intros s b [<-|[]] J. cbn in J. destruct J as [<-|[<-|[]]]; cbn; auto.
Qed.

(** * Where it fails *)

(** class A; def f; end; end    class B < A; private; def f; end; end
    b.f raises NoMethodError; the call leads to the method of A. *)
Theorem C78_shadow_refuted : exists p t, settled family 5 p /\ load family empty (events p) = Some t /\
  denied family t OnOther None (11, Instance) 5 /\
  ask p OnOther None (11, Instance) 5 = Some [mkCallee (10, Instance) 5 Exact [(1, 0)]].
Proof.
  exists [(1, [mkBody 10 [Plain (Method 5 0)]; mkBody 11 [Plain (Mode Private); Plain (Method 5 20)]])].
  eexists. split; [|split; [reflexivity|split; [|reflexivity]]].
  - apply settled_sound; [split; discriminate| |reflexivity].
    intros s b [<-|[]] J. cbn in J. destruct J as [<-|[<-|[]]]; cbn; auto.
  - exists (11, Instance), (Body (1, 20) Private), (11, Instance), (1, 20).
    split; [reflexivity|]. split; [cbn; auto|reflexivity].
Qed.

(** class A; def f; end; private :f; end    and in another file    class A; def f; end; end
    The second definition is public; the call leads nowhere. *)
Theorem C78_reopened_refuted : exists p t, load family empty (events p) = Some t /\
  runs family t OnOther None (10, Instance) 5 (10, Instance) (2, 0) /\
  ask p OnOther None (10, Instance) 5 = Some [mkCallee (10, Instance) 5 ReceiverOnly []].
Proof.
  exists [(1, [mkBody 10 [Plain (Method 5 0); Plain (Named Private 5 20)]]); (2, [mkBody 10 [Plain (Method 5 0)]])].
  eexists. split; [reflexivity|]. split; [|reflexivity].
  exists (10, Instance), (Body (2, 0) Public). split; [reflexivity|]. split; [exact Logic.I|reflexivity].
Qed.

(** class A; private; def self.f; end; end      A.f is a public method; the call leads nowhere. *)
Theorem C78_self_method_refuted : exists p t, load family empty (events p) = Some t /\
  runs family t OnOther None (10, Singleton) 5 (10, Singleton) (1, 10) /\
  ask p OnOther None (10, Singleton) 5 = Some [mkCallee (10, Singleton) 5 ReceiverOnly []].
Proof.
  exists [(1, [mkBody 10 [Plain (Mode Private); SelfMethod 5 10]])].
  eexists. split; [reflexivity|]. split; [|reflexivity].
  exists (10, Singleton), (Body (1, 10) Public). split; [reflexivity|]. split; [exact Logic.I|reflexivity].
Qed.

(** class A; private def f; end; end      a.f raises NoMethodError; the call leads to f. *)
Theorem C78_private_def_refuted : exists p t, load family empty (events p) = Some t /\
  denied family t OnOther None (10, Instance) 5 /\
  ask p OnOther None (10, Instance) 5 = Some [mkCallee (10, Instance) 5 Exact [(1, 8)]].
Proof.
  exists [(1, [mkBody 10 [Plain (Wrapped Private 5 8)]])].
  eexists. split; [reflexivity|]. split; [|reflexivity].
  exists (10, Instance), (Body (1, 8) Private), (10, Instance), (1, 8).
  split; [reflexivity|]. split; [cbn; auto|reflexivity].
Qed.

(** class A; def self.f; end; private_class_method :f; end      A.f raises; the call leads to f. *)
Theorem C78_private_class_method_refuted : exists p t, load family empty (events p) = Some t /\
  denied family t OnOther None (10, Singleton) 5 /\
  ask p OnOther None (10, Singleton) 5 = Some [mkCallee (10, Singleton) 5 Exact [(1, 8)]].
Proof.
  exists [(1, [mkBody 10 [SelfMethod 5 8; ClassNamed Private 5 40]])].
  eexists. split; [reflexivity|]. split; [|reflexivity].
  exists (10, Singleton), (Body (1, 8) Private), (10, Singleton), (1, 8).
  split; [reflexivity|]. split; [cbn; auto|reflexivity].
Qed.

(** class A; def g; self.f; end; private; def f; end; end
    A private method may be called on self; the call leads nowhere. *)
Theorem C78_on_self_refuted : exists p t, settled family 5 p /\ load family empty (events p) = Some t /\
  runs family t OnSelf (Some (10, Instance)) (10, Instance) 5 (10, Instance) (1, 20) /\
  ask p OnSelf (Some (10, Instance)) (10, Instance) 5 = Some [mkCallee (10, Instance) 5 ReceiverOnly []].
Proof.
  exists [(1, [mkBody 10 [Plain (Method 6 0); Plain (Mode Private); Plain (Method 5 20)]])].
  eexists. split; [|split; [reflexivity|split; [|reflexivity]]].
  - apply settled_sound; [split; discriminate| |reflexivity].
    intros s b [<-|[]] J. cbn in J. destruct J as [<-|[]]; cbn; auto.
  - exists (10, Instance), (Body (1, 20) Private). split; [reflexivity|]. split; [exact Logic.I|reflexivity].
Qed.

(** class A; private; def initialize; end; end
    A.new is public and runs the initialize of A.  It leads to that definition, but not when
    initialize is written below [private]. *)
Definition core : source := (0, [mkBody 13 [Plain (Method new_name 0)]]).
Theorem C78_constructor_refuted :
  let written l := [core; (1, [mkBody 10 (l ++ [Plain (Method initialize_name 10)])])] in
  (forall l, l = [] \/ l = [Plain (Mode Private)] ->
   exists t, load family empty (events (written l)) = Some t /\
    runs family t OnOther None (10, Singleton) new_name (13, Instance) (0, 0) /\
    find_body t (family (10, Instance)) initialize_name = Some ((10, Instance), (1, 10))) /\
  ask (written []) OnOther None (10, Singleton) new_name =
    Some [mkCallee (10, Singleton) new_name Exact [(1, 10)]] /\
  ask (written [Plain (Mode Private)]) OnOther None (10, Singleton) new_name =
    Some [mkCallee (13, Instance) new_name Exact [(0, 0)]].
Proof.
  split; [|split; reflexivity].
  intros l [->| ->]; eexists; (split; [reflexivity|]); (split; [|reflexivity]);
    exists (13, Instance), (Body (0, 0) Public); (split; [reflexivity|]); (split; [exact Logic.I|reflexivity]).
Qed.

(** class A; def method_missing; end; private; def f; end; end
    Ruby passes a.f to method_missing; the call leads nowhere. *)
Theorem C78_method_missing_refuted : exists p t, settled family 5 p /\ settled family missing_name p /\
  load family empty (events p) = Some t /\
  denied family t OnOther None (10, Instance) 5 /\
  find_body t (family (10, Instance)) missing_name = Some ((10, Instance), (1, 0)) /\
  ask p OnOther None (10, Instance) 5 = Some [mkCallee (10, Instance) 5 ReceiverOnly []].
Proof.
  exists [(1, [mkBody 10 [Plain (Method missing_name 0); Plain (Mode Private); Plain (Method 5 20)]])].
  eexists. split; [|split; [|split; [reflexivity|split; [|split; reflexivity]]]].
  1,2: apply settled_sound; [split; discriminate| |reflexivity];
    intros s b [<-|[]] J; cbn in J; destruct J as [<-|[]]; cbn; auto.
  exists (10, Instance), (Body (1, 20) Private), (10, Instance), (1, 20).
  split; [reflexivity|]. split; [cbn; auto|reflexivity].
Qed.

(** class A; protected; def f; end; end    class B < A; protected :f; end
    The statement in B changes nothing, so that an A may call f on a B; the call leads nowhere. *)
Theorem C78_redundant_refuted : exists p t, load family empty (events p) = Some t /\
  runs family t OnOther (Some (10, Instance)) (11, Instance) 5 (10, Instance) (1, 10) /\
  ask p OnOther (Some (10, Instance)) (11, Instance) 5 = Some [mkCallee (11, Instance) 5 ReceiverOnly []].
Proof.
  exists [(1, [mkBody 10 [Plain (Mode Protected); Plain (Method 5 10)]; mkBody 11 [Plain (Named Protected 5 40)]])].
  eexists. split; [reflexivity|]. split; [|reflexivity].
  exists (10, Instance), (Body (1, 10) Protected). split; [reflexivity|]. split; [|reflexivity].
  exists (10, Instance). split; [reflexivity|cbn; auto].
Qed.

(** module M; def g; f; end; def f; end; end    class B; include M; def f; end; end
    On a B the call of f in M runs the f of B; it leads to the f of M only. *)
Theorem C78_module_refuted : exists p t,
  settled family 5 p /\ load family empty (events p) = Some t /\
  runs family t Bare None (11, Instance) 5 (11, Instance) (1, 40) /\
  call no no family yes (fun o => same o (12, Instance)) (fun _ => [(11, Instance)]) nobody (99, Instance)
    (collect yes p) Bare None (12, Instance) 5 = Some [mkCallee (12, Instance) 5 Exact [(1, 20)]].
Proof.
  exists [(1, [mkBody 12 [Plain (Method 6 0); Plain (Method 5 20)]; mkBody 11 [Plain (Method 5 40)]])].
  eexists. split; [|split; [reflexivity|split; [|reflexivity]]].
  - apply settled_sound; [split; discriminate| |reflexivity].
    intros s b [<-|[]] J. cbn in J. destruct J as [<-|[<-|[]]]; cbn; auto.
  - exists (11, Instance), (Body (1, 40) Public). split; [reflexivity|]. split; [exact Logic.I|reflexivity].
Qed.

(** class A; def f; end; end    module M; def f; super; end; end    class B < A; include M; end
    super in M runs the f of A; it leads nowhere, as M alone has no further ancestors. *)
Theorem C79_module_refuted : exists p t, settled family 5 p /\ load family empty (events p) = Some t /\
  super_runs family t (11, Instance) (12, Instance) 5 (10, Instance) (1, 0) /\
  super_in no family yes (collect yes p) yes Instance 12 5 = None.
Proof.
  exists [(1, [mkBody 10 [Plain (Method 5 0)]; mkBody 12 [Plain (Method 5 20)]])].
  eexists. split; [|split; [reflexivity|split; reflexivity]].
  apply settled_sound; [split; discriminate| |reflexivity].
  intros s b [<-|[]] J. cbn in J. destruct J as [<-|[<-|[]]]; cbn; auto.
Qed.

(** class A; def initialize; end; end    class B < A; def initialize; super; end; end
    super runs the initialize of A; it leads nowhere. *)
Theorem C79_constructor_refuted : exists p t, load family empty (events p) = Some t /\
  super_runs family t (11, Instance) (11, Instance) initialize_name (10, Instance) (1, 0) /\
  super_in no family yes (collect yes p) yes Instance 11 initialize_name = None.
Proof.
  exists [(1, [mkBody 10 [Plain (Method initialize_name 0)]; mkBody 11 [Plain (Method initialize_name 20)]])].
  eexists. split; [reflexivity|split; reflexivity].
Qed.

Print Assumptions C78_shadow_refuted.
Print Assumptions C78_reopened_refuted.
Print Assumptions C78_self_method_refuted.
Print Assumptions C78_private_def_refuted.
Print Assumptions C78_private_class_method_refuted.
Print Assumptions C78_on_self_refuted.
Print Assumptions C78_constructor_refuted.
Print Assumptions C78_method_missing_refuted.
Print Assumptions C78_redundant_refuted.
Print Assumptions C78_module_refuted.
Print Assumptions C79_module_refuted.
Print Assumptions C79_constructor_refuted.
