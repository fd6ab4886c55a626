(** C109: the warning about splats. *)
From Coq Require Import List Arith Bool Lia.
From Verif Require Import Splat_Model Splat_Spec.
Import ListNotations.

Lemma one_of_iff p l : one_of (last_name p) l = true <-> exists q n, p = q ++ [n] /\ In n l.
Proof.
  unfold last_name. destruct (rev p) as [|n r] eqn:E.
  - split; [discriminate|]. intros (q & n & -> & _). rewrite rev_app_distr in E. discriminate.
  - cbn [one_of]. assert (p = rev r ++ [n]) as -> by (rewrite <- (rev_involutive p), E; reflexivity). rewrite existsb_exists. split.
    + intros (m & M & H). apply Nat.eqb_eq in H as <-. eauto.
    + intros (q & m & H & M). apply app_inj_tail in H as [_ ->]. exists m. split; [exact M|apply Nat.eqb_refl].
Qed.
Lemma check_in typed args w : In w (check typed (Some args)) <->
  exists e, splatted args (op w) e (place w) /\ shown w = (from e, to e) /\
    match op w with Single => non_array typed e = true | Double => non_hash typed e = true end.
Proof.
  cbn [check]. rewrite in_flat_map. split.
  - intros (a & A & H). destruct a as [[e|] x y|l|]; cbn [check_arg] in H; try (now destruct H).
    + destruct (non_array typed e) eqn:N; [|destruct H]. destruct H as [<-|[]]. exists e. cbn. split; [now constructor|auto].
    + apply in_flat_map in H as (k & K & H). destruct k as [[[[e|] x] y]|]; cbn [check_keyword] in H; try (now destruct H).
      destruct (non_hash typed e) eqn:N; [|destruct H]. destruct H as [<-|[]]. exists e. cbn. split; [econstructor; eauto|auto].
  - destruct w as [o s p]. cbn [op place shown]. intros (e & S1 & -> & H). inversion S1 as [e' x y A|e' l x y A B]; subst.
    + exists (Splat (Some e) x y). split; [exact A|]. cbn [check_arg]. rewrite H. now left.
    + exists (Keywords l). split; [exact A|]. cbn [check_arg]. apply in_flat_map. exists (Some (Some e, x, y)). split; [exact B|]. cbn [check_keyword]. rewrite H. now left.
Qed.

(** A warning about two stars means that Ruby refuses the call: whatever the expression evaluates to,
    unless a local variable's class is only called like a core class, holds a class, or may be nil in a
    version that takes nil. *)
Theorem C109_double_partial : forall R named typed args w e v, unpatched R ->
  In w (check typed (Some args)) -> op w = Double -> splatted args Double e (place w) -> shown w = (from e, to e) ->
  (forall e', splatted args Double e' (place w) -> e' = e) ->
  (forall n t, what e = KLocal n -> typed n (from e) = Some t -> exists m, t = Class [m] /\ (m = nil_class -> ~ nil_is_empty R)) ->
  evaluates R named typed e v -> double_raises R v.
Proof.
  intros R named typed args w e v P W O S1 Sh U L E. apply check_in in W as (e' & S2 & _ & H). rewrite O in *. apply U in S2 as ->.
  assert (X : exists n, class_of R v = [n] /\ In n [integer; float; string; symbol; true_class; false_class; array; range; nil_class] /\ (n = nil_class -> ~ nil_is_empty R)).
  { unfold non_hash in H. destruct E as [k n K I C|n K D|K].
    - rewrite K in H. exists n. split; [exact C|]. unfold In in I. decompose [or] I; try contradiction;
        match goal with Q : (_, _) = (k, n) |- _ => injection Q as <- <- end; try discriminate H; (split; [cbn; tauto|discriminate]).
    - rewrite K in H. destruct (typed n (from e)) as [t|] eqn:T; [|discriminate]. destruct (L n t K T) as (m & -> & M). specialize (D _ eq_refl). cbn in D. exists m. split; [exact D|]. split; [|exact M].
      cbn [type_non_hash] in H. apply one_of_iff in H as (q & m' & Q & I). destruct q as [|a q]; [injection Q as ->; exact I|destruct q; discriminate].
    - rewrite K in H. discriminate. }
  destruct X as (n & C & I & Nn). split; [|split].
  - rewrite C. intros [= ->]. cbn in I. repeat (destruct I as [I|I]; [discriminate|]). exact I.
  - intros [C' N2]. rewrite C in C'. injection C' as ->. now apply Nn.
  - exact (no_to_hash R P v n I C).
Qed.
Print Assumptions C109_double_partial.
(** The literals that Ruby refuses after two stars are all reported, at the splat. *)
Theorem C109_literals : forall typed args e p, splatted args Double e p ->
  In (what e) [KInteger; KFloat; KString; KSymbol; KTrue; KFalse; KArray; KRange] -> In (mkWarning Double (from e, to e) p) (check typed (Some args)).
Proof.
  intros typed args e p S1 I. apply check_in. exists e. cbn. split; [exact S1|]. split; [reflexivity|]. unfold non_hash. cbn in I.
  repeat (destruct I as [<-|I]; [reflexivity|]). destruct I.
Qed.
Print Assumptions C109_literals.
(** So are local variables of a core class that is not a hash, and those that hold such a class itself. *)
Theorem C109_locals : forall typed args e p n m, splatted args Double e p -> what e = KLocal n ->
  typed n (from e) = Some (Class [m]) \/ typed n (from e) = Some (ClassRef [m]) ->
  In m [integer; float; string; symbol; true_class; false_class; array; range; nil_class] ->
  In (mkWarning Double (from e, to e) p) (check typed (Some args)).
Proof.
  intros typed args e p n m S1 K T I. apply check_in. exists e. cbn [op place shown]. split; [exact S1|]. split; [reflexivity|]. unfold non_hash.
  rewrite K. destruct T as [T|T]; rewrite T; cbn [type_non_hash]; apply one_of_iff; exists [], m; auto.
Qed.
Print Assumptions C109_locals.
(** After one star every literal that is neither an array nor nil is warned about, and every local variable
    of a core class that is neither (what such a warning is worth: C109_single_refuted). *)
Theorem C109_single_all : forall typed args e p, splatted args Single e p ->
  In (what e) [KInteger; KFloat; KString; KSymbol; KTrue; KFalse; KHash; KRange] \/
  (exists n m, what e = KLocal n /\ (typed n (from e) = Some (Class [m]) \/ typed n (from e) = Some (ClassRef [m])) /\
    In m [integer; float; string; symbol; true_class; false_class; hash; range; nil_class]) ->
  In (mkWarning Single (from e, to e) p) (check typed (Some args)).
Proof.
  intros typed args e p S1 H. apply check_in. exists e. cbn [op place shown]. split; [exact S1|]. split; [reflexivity|]. unfold non_array.
  destruct H as [I|(n & m & K & T & I)].
  - cbn in I. repeat (destruct I as [<-|I]; [reflexivity|]). destruct I.
  - rewrite K. destruct T as [T|T]; rewrite T; cbn [type_non_array]; apply one_of_iff; exists [], m; auto.
Qed.
Print Assumptions C109_single_all.
(** Nothing is said about an expression that is neither a literal nor a local variable, about one of a
    type that is not a class, a hash after two stars, an array or nil after one. *)
Theorem C109_silent : forall typed args w e, In w (check typed (Some args)) -> splatted args (op w) e (place w) ->
  (forall e', splatted args (op w) e' (place w) -> e' = e) ->
  what e <> KElse /\ what e <> KNil /\ (op w = Single -> what e <> KArray) /\ (op w = Double -> what e <> KHash) /\
  forall n, what e = KLocal n -> exists p, typed n (from e) = Some (Class p) \/ typed n (from e) = Some (ClassRef p).
Proof.
  intros typed args w e W S1 U. apply check_in in W as (e' & S2 & _ & H). apply U in S2 as ->.
  assert (Y : forall f : ty -> bool, (f = type_non_array \/ f = type_non_hash) -> forall o, match o with Some t => f t | None => false end = true -> exists p, o = Some (Class p) \/ o = Some (ClassRef p)).
  { intros f F o Q. destruct o as [t|]; [|discriminate]. destruct F as [-> | ->]; destruct t as [p|p| | |]; try discriminate; exists p; auto. }
  destruct (op w); [unfold non_array in H|unfold non_hash in H]; destruct (what e) eqn:K; try discriminate;
    (split; [discriminate|]); (split; [discriminate|]); (split; [try discriminate; intros _; discriminate|]); (split; [try discriminate; intros _; discriminate|]);
    intros m M; try discriminate; injection M as <-; first [exact (Y type_non_array (or_introl eq_refl) _ H)|exact (Y type_non_hash (or_intror eq_refl) _ H)].
Qed.
Print Assumptions C109_silent.

(** ** Concrete cases. *)
(** Values are numbers that are their own class; nothing has to_hash, a hash and a range have to_a. *)
Definition plain (newer : Prop) : ruby :=
  mkRuby nat (fun v => [v]) (fun _ => False) (fun v => if existsb (Nat.eqb v) [hash; range; nil_class] then Some array else None) newer.
Lemma plain_unpatched newer : unpatched (plain newer).
Proof.
  constructor; cbn [has_to_hash class_of to_a plain]; [now intros|]. intros v n w _ _ H. destruct (existsb (Nat.eqb v) [hash; range; nil_class]); [injection H as <-; reflexivity|discriminate].
Qed.
(** f( **42, **x) where x is a String *)
Definition sample : list arg :=
  [Plain; Keywords [None; Some (Some (mkExpr KInteger 4 6), 2, 6); Some (Some (mkExpr (KLocal 1) 10 11), 8, 11); Some (Some (mkExpr KHash 15 17), 13, 17)]].
Example C109_case : check (fun _ _ => Some (Class [string])) (Some sample) = [mkWarning Double (4, 6) (2, 6); mkWarning Double (10, 11) (8, 11)]
  /\ splatted sample Double (mkExpr KInteger 4 6) (2, 6)
  /\ (forall e', splatted sample Double e' (2, 6) -> e' = mkExpr KInteger 4 6)
  /\ evaluates (plain True) (fun _ _ => True) (fun _ _ => None) (mkExpr KInteger 4 6) integer.
Proof.
  split; [reflexivity|]. split; [eapply s_double; [right; left; reflexivity|right; left; reflexivity]|]. split.
  - intros e' S1. inversion S1 as [|e l a b A B]; subst. destruct A as [A|[A|[]]]; [discriminate|]. injection A as <-.
    destruct B as [B|[B|[B|[B|[]]]]]; try discriminate. now injection B as <-.
  - eapply ev_literal; [reflexivity| |reflexivity]. cbn. auto.
Qed.

(** ** What does not hold. *)
(** A warning about one star is always wrong: Ruby makes a list of whatever it is, be it a literal or a
    variable of one of the classes looked for. *)
Theorem C109_single_refuted : forall R named typed args w e v, unpatched R ->
  In w (check typed (Some args)) -> op w = Single -> splatted args Single e (place w) ->
  (forall e', splatted args Single e' (place w) -> e' = e) ->
  (forall n t, what e = KLocal n -> typed n (from e) = Some t -> exists m, t = Class [m]) ->
  evaluates R named typed e v -> ~ single_raises R v.
Proof.
  intros R named typed args w e v P W O S1 U L E. apply check_in in W as (e' & S2 & _ & H). rewrite O in *. apply U in S2 as ->.
  assert (X : exists n, class_of R v = [n] /\ In n [integer; float; string; symbol; true_class; false_class; hash; range; nil_class]).
  { unfold non_array in H. destruct E as [k n K I C|n K D|K].
    - rewrite K in H. exists n. split; [exact C|]. unfold In in I. decompose [or] I; try contradiction;
        match goal with Q : (_, _) = (k, n) |- _ => injection Q as <- <- end; try discriminate H; cbn; tauto.
    - rewrite K in H. destruct (typed n (from e)) as [t|] eqn:T; [|discriminate]. destruct (L n t K T) as (m & ->). specialize (D _ eq_refl). cbn in D. exists m. split; [exact D|].
      cbn [type_non_array] in H. apply one_of_iff in H as (q & m' & Q & I). destruct q as [|a q]; [injection Q as ->; exact I|destruct q; discriminate].
    - rewrite K in H. discriminate. }
  destruct X as (n & C & I). intros (u & _ & T & A & _). apply A. exact (good_to_a R P v n u I C T).
Qed.
(** f( *42 ) *)
Example C109_single_case : check (fun _ _ => None) (Some [Splat (Some (mkExpr KInteger 3 5)) 2 5]) = [mkWarning Single (3, 5) (2, 5)]
  /\ evaluates (plain True) (fun _ _ => True) (fun _ _ => None) (mkExpr KInteger 3 5) integer.
Proof. split; [reflexivity|]. eapply ev_literal; [reflexivity| |reflexivity]. cbn. auto. Qed.
(** Newer versions of Ruby take nil after two stars; the literal is let pass, a variable is not. *)
Theorem C109_nil_refuted : exists R named typed e v, unpatched R /\ nil_is_empty R /\
  check typed (Some [Keywords [Some (Some e, 2, 5)]]) = [mkWarning Double (4, 5) (2, 5)] /\
  evaluates R named typed e v /\ (forall n, typed n (from e) = Some (Class [nil_class])) /\ ~ double_raises R v.
Proof.
  exists (plain True), (fun _ _ => True), (fun _ _ => Some (Class [nil_class])), (mkExpr (KLocal 1) 4 5), nil_class.
  split; [apply plain_unpatched|]. split; [exact Logic.I|]. split; [reflexivity|]. split; [|split; [reflexivity|]].
  - eapply ev_local; [reflexivity|]. intros t [= <-]. reflexivity.
  - intros (_ & N1 & _). apply N1. split; [reflexivity|exact Logic.I].
Qed.
(** Only the last name of a class counts: a class of the project called Integer in a module is taken for
    Ruby's, though it may have to_hash. *)
Theorem C109_namesake_refuted : exists R named typed e v m, unpatched R /\
  check typed (Some [Keywords [Some (Some e, 2, 5)]]) = [mkWarning Double (4, 5) (2, 5)] /\
  (forall n, typed n (from e) = Some (Class [m; integer])) /\ evaluates R named typed e v /\ ~ double_raises R v.
Proof.
  exists (mkRuby nat (fun v => if v =? 0 then [50; integer] else [array]) (fun v => v = 0) (fun _ => None) True).
  exists (fun _ _ => True), (fun _ _ => Some (Class [50; integer])), (mkExpr (KLocal 1) 4 5), 0, 50.
  split; [|split; [reflexivity|split; [reflexivity|split]]].
  - constructor; cbn [class_of has_to_hash to_a]; [|discriminate]. intros v n _ C ->. discriminate.
  - eapply ev_local; [reflexivity|]. intros t [= <-]. reflexivity.
  - intros (_ & _ & N1). now apply N1.
Qed.
(** A variable that holds an array is let pass, though the array written out is not. *)
Theorem C109_array_refuted : forall R named typed e a b n v, unpatched R -> what e = KLocal n -> typed n (from e) = Some TArray ->
  evaluates R named typed e v -> double_raises R v /\ check typed (Some [Keywords [Some (Some e, a, b)]]) = [].
Proof.
  intros R named typed e a b n v P K T E.
  assert (C : class_of R v = [array]).
  { destruct E as [k m K' I C|m K' D|K'].
    - rewrite K in K'. subst k. unfold In in I. decompose [or] I; try contradiction; discriminate.
    - rewrite K in K'. injection K' as <-. exact (D _ T).
    - rewrite K in K'. discriminate. }
  split.
  - split; [rewrite C; discriminate|]. split; [rewrite C; intros [Q _]; discriminate|]. apply (no_to_hash R P v array); [cbn; tauto|exact C].
  - cbn. unfold non_hash. now rewrite K, T.
Qed.
Example C109_array_case : evaluates (plain True) (fun _ _ => True) (fun _ _ => Some TArray) (mkExpr (KLocal 1) 4 5) array.
Proof. eapply ev_local; [reflexivity|]. intros t [= <-]. reflexivity. Qed.
Print Assumptions C109_single_refuted.
Print Assumptions C109_nil_refuted.
Print Assumptions C109_namesake_refuted.
Print Assumptions C109_array_refuted.
