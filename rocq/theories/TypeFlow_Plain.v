(** Programs without loops settle at once, and without [and] and [or] nothing is tested. *)
From Coq Require Import List Bool NArith.
From Verif Require Import Types_Model Types_Spec Types_Order TypeFlow_Model TypeFlow_Spec TypeFlow_Frame TypeFlow_Tracker TypeFlow_Cover.
From Coq Require Import String.
Import ListNotations.
Local Open Scope list_scope.

Ltac ors := rewrite ?orb_true_iff in *; intuition eauto.

Definition is_loop (n : node) : option bool := match n with While _ _ _ => Some true | _ => None end.
Definition is_logic (n : node) : option bool := match n with Logic _ _ _ => Some true | _ => None end.

Section Field.
Variables (A : Type) (F : out -> list A) (hit : node -> option bool).
Hypothesis F_nothing : F nothing = [].
Hypothesis F_plus : forall a b, F (plus a b) = F a ++ F b.
Hypothesis F_unreturned : forall a, F (unreturned a) = F a.
Hypothesis F_read : forall l t, F (read_as l t) = [].
Hypothesis F_observed : forall l t, F (observed l t) = [].
Hypothesis F_returned : forall t, F (returned t) = [].
Hypothesis F_passed : forall a b, F (passed a b) = [] \/ forall u c s, hit (While u c s) = Some true.
Hypothesis F_tested : forall t, F (tested t) = [] \/ forall or a b, hit (Logic or a b) = Some true.
Hypothesis hits : forall n, hit n = None \/ hit n = Some true.

Lemma records_of T :
  (forall n p d st t, In t (F (ro (track T p d n st))) -> any hit true n = true) /\
  (forall a p d st t, In t (F (snd (track_a T p d a st))) -> any_a hit true a = true) /\
  (forall r p d st t, In t (F (ro (look T p d r st))) -> any_v hit true r = true) /\
  (forall b ps ls s, b = BBlock ps ls s -> forall p d st t, In t (F (ro (track_s T p d s st))) -> any_s hit true s = true) /\
  (forall s p d st t, In t (F (ro (track_s T p d s st))) -> any_s hit true s = true) /\
  (forall e p d st t, In t (F (ro (track_t T p d e st))) -> any_t hit true e = true) /\
  (forall w p d st t, In t (F (snd (track_w T p d w st))) -> any_w hit true w = true) /\
  (forall r p d st t, In t (F (snd (track_r T p d r st))) -> any_r hit true r = true).
Proof.
  apply tree_ind; try (intros; match goal with B : In _ _ |- _ => cbn in B; rewrite ?F_nothing in B; destruct B end).
  - (* Read *) intros l x p d st t B. cbn in B. destruct (flow st); rewrite ?F_read, ?F_nothing in B; destruct B.
  - (* Write *) intros x v IH p d st t B. cbn [any]. destruct (hits (Write x v)) as [->| ->]; [|reflexivity]. cbn [track ro] in B.
    destruct p; [rewrite !F_plus, !F_observed, app_nil_r in B|]; eauto.
  - (* Call *) intros safe r IHr f a IHa b IHb p d st t B. rewrite track_call in B. cbn [any].
    destruct (hits (Call safe r f a b)) as [->| ->]; [|reflexivity].
    destruct b as [|ps ls s].
    { apply (from_plain F) in B as [st' B]; [|assumption]. ors. }
    destruct (bang f).
    { apply (from_plain F) in B as [st' B]; [|assumption]. ors. }
    apply (from_block F) in B as [[st' B]|[[st' B]|[st' B]]]; try assumption; cbn [any_b andb]; ors.
  - (* If *) intros u q IHq s IHs e IHe p d st t B. cbn [any]. destruct (hits (If u q s e)) as [->| ->]; [|reflexivity].
    cbn [track ro] in B. rewrite !F_plus, !in_app_iff in B. ors.
  - (* Case *) intros q IHq w IHw e IHe p d st t B. cbn [any]. destruct (hits (Case q w e)) as [->| ->]; [|reflexivity]. cbn [track] in B.
    destruct (track_w T p d w (rs (track T p d q (flowing st)))) as [[k st1] o] eqn:E.
    cbn [ro] in B. rewrite !F_plus, !in_app_iff in B. destruct B as [B|[B|B]]; [ors| |ors].
    assert (X : any_w hit true w = true) by (eapply (IHw p d _ t); rewrite E; exact B). ors.
  - (* Logic *) intros or a IHa b IHb p d st t B. cbn [any]. destruct (hits (Logic or a b)) as [HN|HS]; [|rewrite HS; reflexivity].
    cbn [track] in B. destruct (F_tested (rt (track T p d a (flowing st)))) as [FT|FT]; [|rewrite FT in HN; discriminate]. rewrite HN.
    destruct (truthiness _) as [c|].
    + destruct (Bool.eqb c or); cbn [also ro] in B; rewrite !F_plus, FT, app_nil_r in B; [ors|]. apply in_app_or in B as [B|B]; ors.
    + cbn [ro] in B; rewrite !F_plus, FT, app_nil_r in B. apply in_app_or in B as [B|B]; ors.
  - (* Begin *) intros b IHb r IHr e IHe n IHn p d st t B. rewrite track_begin in B. cbv zeta in B. cbn [any].
    destruct (hits (Begin b r e n)) as [->| ->]; [|reflexivity].
    set (k := track_s T (p || protected r) d b (flowing st)) in *.
    destruct (track_r T p d r _) as [[arms st1] o] eqn:E.
    cbn [ro] in B. rewrite !F_plus, !in_app_iff in B. destruct B as [B|[B|[B|B]]]; [ors| | |ors].
    + assert (X : any_t hit true e = true).
      { destruct e as [|s]; cbn [else_of just ro] in B; [rewrite F_nothing in B; destruct B|]. destruct s; cbn [just ro] in B; [rewrite F_nothing in B; destruct B|].
        eapply (IHe p d (rs k)). cbn [track_t]. exact B. }
      ors.
    + assert (X : any_r hit true r = true) by (eapply (IHr p d _ t); rewrite E; exact B). ors.
  - (* RescueMod *) intros a IHa b IHb p d st t B. cbn [any]. destruct (hits (RescueMod a b)) as [->| ->]; [|reflexivity].
    cbn [track ro] in B. rewrite F_plus, in_app_iff in B. ors.
  - (* While *) intros u c IHc s IHs p d st t B. cbn [any]. destruct (hits (While u c s)) as [HN|HS]; [|rewrite HS; reflexivity]. rewrite HN.
    assert (FP : forall a b, F (passed a b) = []) by (intros a b; destruct (F_passed a b) as [X|X]; [exact X|rewrite X in HN; discriminate]).
    cbn [track ro] in B. rewrite !F_plus, FP, app_nil_r, in_app_iff in B. destruct B as [B|B]; [ors|].
    apply (from_again F) in B as [st' B]; try assumption. ors.
  - (* Return *) intros v IH p d st t B. cbn [any]. destruct (hits (Return v)) as [->| ->]; [|reflexivity].
    destruct v as [|n]; cbn [track ro] in B; rewrite ?F_plus, F_returned, ?app_nil_r in B; [destruct B|]. eapply (IH p d st). exact B.
  - intros s IH p d st t B. cbn [any]. destruct (hits (Paren s)) as [->| ->]; [|reflexivity]. apply (IH p d st t B).
  - intros s IH p d st t B. cbn [any]. destruct (hits (Stmts s)) as [->| ->]; [|reflexivity]. apply (IH p d st t B).
  - (* args *) intros n IHn a IHa p d st t B. cbn [track_a] in B. cbn [any_a].
    destruct (track_a T p d a (rs (track T p d n st))) as [[ts st1] o] eqn:E. cbn [snd] in B. rewrite F_plus, in_app_iff in B.
    destruct B as [B|B]; [ors|]. assert (X : any_a hit true a = true) by (eapply (IHa p d _ t); rewrite E; exact B). ors.
  - (* recv *) intros n IH p d st t B. cbn [look any_v] in *. destruct (direct n); [eapply IH; exact B|cbn [just ro] in B; rewrite F_nothing in B; destruct B].
  - (* blk *) intros ps ls E. discriminate.
  - intros ps ls s IH ps' ls' s' E. injection E as _ _ E. subst s'. exact IH.
  - (* stmts *) intros n IHn s IHs p d st t B. cbn [any_s].
    destruct s as [|n' s]; [assert (X : any hit true n = true) by (eapply IHn; exact B); ors|]. rewrite track_seq in B by discriminate.
    cbn [also ro] in B. rewrite F_plus in B. apply in_app_or in B as [B|B]; ors.
  - (* tail *) intros s IH p d st t B. apply (IH p d st t B).
  - (* whens *) intros a IHa s IHs w IHw p d st t B. cbn [track_w] in B. cbn [any_w].
    destruct (track_w T p d w _) as [[k st1] o] eqn:E. cbn [snd] in B. rewrite F_plus, in_app_iff in B.
    destruct B as [B|B]; [ors|]. assert (X : any_w hit true w = true) by (eapply (IHw p d _ t); rewrite E; exact B). ors.
  - (* rescues *) intros x s IHs r IHr p d st t B. cbn [track_r] in B. cbn [any_r].
    destruct (track_r T p d r _) as [[k st1] o] eqn:E. cbn [snd] in B. rewrite F_plus, in_app_iff in B.
    destruct B as [B|B]; [ors|]. assert (X : any_r hit true r = true) by (eapply (IHr p d _ t); rewrite E; exact B). ors.
Qed.
End Field.

Lemma loopless_settled T K p d n st : any is_loop true n = false -> settled K (ro (track T p d n st)).
Proof.
  intros A a b x J _. exfalso. assert (X : any is_loop true n = true); [|congruence].
  eapply (records_of _ passes is_loop); try reflexivity; try exact J.
  - intros. right. reflexivity.
  - intros. left. reflexivity.
  - intros []; cbn; auto.
Qed.
Lemma no_tests T p d n st t : any is_logic true n = false -> ~ In t (tests (ro (track T p d n st))).
Proof.
  intros A J. assert (X : any is_logic true n = true); [|congruence].
  eapply (records_of _ tests is_logic); try reflexivity; try exact J.
  - intros. left. reflexivity.
  - intros. right. reflexivity.
  - intros []; cbn; auto.
Qed.

(** A variable which is not mentioned keeps its type, so that loops settle if they settle on the
    variables mentioned. *)
Definition mentions (x : N) (n : node) : option bool :=
  match n with
  | Read _ y | Write y _ => if N.eqb x y then Some true else None
  | Call _ _ _ _ (BBlock ps _ _) => if member x ps then Some true else None
  | _ => None
  end.
Definition same (x : N) (e : env) (k : state) (o : out) : Prop :=
  vars k x = e x /\ (forall t, ~ In (x, t) (obs o)) /\ forall a b, In (a, b) (passes o) -> a x = b x.
Section Same.
Variables (T : facts) (x : N).
Lemma same_nothing k e : vars k x = e x -> same x e k nothing.
Proof. intros A. split; [exact A|]. split; [intros t []|intros a b []]. Qed.
Lemma same_plus e k1 o1 k2 o2 : same x e k1 o1 -> same x e k2 o2 -> same x e k2 (plus o1 o2).
Proof.
  intros (A&B&C) (A1&B1&C1). split; [congruence|]. cbn [plus obs passes]. split.
  - intros t J. apply in_app_or in J as [J|J]; [eapply B|eapply B1]; exact J.
  - intros a b J. apply in_app_or in J as [J|J]; [eapply C|eapply C1]; exact J.
Qed.
Lemma same_move e k o e' k' : same x e k o -> e' x = e x -> vars k' x = e x -> same x e' k' o.
Proof. intros (_&B&C) A D. split; [congruence|auto]. Qed.
Lemma same_seq e k1 o1 k2 o2 : same x e k1 o1 -> same x (vars k1) k2 o2 -> same x e k2 (plus o1 o2).
Proof.
  intros A B. apply same_plus with k1; [exact A|]. destruct A as (A&_), B as (B&B').
  split; [congruence|exact B'].
Qed.
Lemma same_out e k o o' : same x e k o -> obs o' = obs o -> passes o' = passes o -> same x e k o'.
Proof. unfold same. intros A -> ->. exact A. Qed.
Lemma same_unreturned e k o : same x e k o -> same x e k (unreturned o).
Proof. intros A. apply same_out with o; auto. Qed.
Lemma same_pass (e a b : env) (k : state) : a x = e x -> b x = e x -> vars k x = e x -> same x e k (passed a b).
Proof. intros A B C. split; [exact C|]. split; [intros t []|]. intros c d [J|[]]. injection J as <- <-. congruence. Qed.

Lemma merge_same (e a b : env) : a x = e x -> b x = e x -> merge a b x = e x.
Proof.
  unfold merge. intros -> ->. destruct (e x) as [t|]; [|reflexivity].
  rewrite (proj2 (Types_Order.eqb_eq t t) eq_refl). reflexivity.
Qed.
Lemma fold_same e l : forall a, a x = e x -> (forall b, In b l -> a_env b x = e x) ->
  fold_left (fun e b => merge e (a_env b)) l a x = e x.
Proof.
  induction l as [|b l IH]; intros a A B; cbn [fold_left]; [exact A|].
  apply IH; [apply merge_same; [exact A|apply B; left; reflexivity]|intros c J; apply B; right; exact J].
Qed.
Lemma join_same e l : (forall b, In b l -> a_env b x = e x) -> join_envs e l x = e x.
Proof.
  intros A. unfold join_envs.
  assert (B : forall b, In b (staying l) -> a_env b x = e x) by (intros b J; apply staying_in in J as [J _]; auto).
  destruct (staying l) as [|a k]; [reflexivity|]. apply fold_same; [apply B; left; reflexivity|intros b J; apply B; right; exact J].
Qed.
Lemma entry_same (e : env) l : (forall t, ~ In (x, t) l) -> entry e l x = e x.
Proof.
  intros A. unfold entry. rewrite (proj2 (entry_type_keys l x)); [reflexivity|].
  intros J. apply in_keys in J as [t J]. exact (A t J).
Qed.
Lemma about_mentioned : forall q, any (mentions x) true q = false -> ~ In x (about q).
Proof.
  cut ((forall q, any (mentions x) true q = false -> ~ In x (about q)) /\ (forall a : args, True) /\
    (forall r q, r = RNode q -> any (mentions x) true q = false -> ~ In x (about q)) /\
    (forall b : blk, True) /\ (forall s : stmts, True) /\ (forall e : tail, True) /\ (forall w : whens, True) /\ (forall r : rescues, True)).
  { intros G. apply G. }
  apply tree_ind; try (intros; exact Logic.I); try (intros; exact (fun J => J)).
  - intros safe r IHr f a _ b _ A. cbn [about]. destruct r as [|q]; [exact (fun J => J)|].
    assert (B : any (mentions x) true q = false).
    { cbn in A. destruct b as [|ps ls s]; [|destruct (member x ps); [discriminate|]];
      destruct (any (mentions x) true q); try reflexivity; cbn in A; discriminate. }
    specialize (IHr q eq_refl B).
    assert (C : forall g : N -> list N, (forall y, x <> y -> ~ In x (g y)) -> ~ In x (match q with Read _ y => g y | _ => [] end)).
    { intros g C. destruct q; try exact (fun J => J). apply C. intros ->. cbn in B. rewrite N.eqb_refl in B. discriminate. }
    destruct a as [|n a].
    + destruct (f =? "!")%string; [exact IHr|]. apply (C (fun y => if (f =? "nil?")%string then [y] else [])).
      intros y J. destruct (_ =? _)%string; cbn; intuition congruence.
    + destruct n; try exact (fun J => J). destruct a; [|exact (fun J => J)].
      apply (C (fun y => if ((f =? "is_a?") || (f =? "kind_of?") || (f =? "instance_of?"))%string then [y] else [])).
      intros y J. destruct (_ || _ || _)%string; cbn; intuition congruence.
  - intros q E. discriminate.
  - intros n IH q E. injection E as ->. exact IH.
Qed.

Lemma plain_same r f rc st : (forall st, same x (vars st) (rs (rc st)) (ro (rc st))) ->
  same x (vars st) (rs (plain_call T r f rc st)) (ro (plain_call T r f rc st)).
Proof.
  intros A. unfold plain_call. destruct (is_new r f); cbn; [apply same_nothing; reflexivity|].
  destruct r; cbn; [apply same_nothing; reflexivity|apply A].
Qed.
Lemma block_same r f ps j rc ar bl st :
  (forall st, same x (vars st) (rs (rc st)) (ro (rc st))) ->
  (forall st, same x (vars st) (st_of (ar st)) (snd (ar st))) ->
  (forall st, same x (vars st) (rs (bl st)) (ro (bl st))) -> ~ In x ps ->
  same x (vars st) (rs (block_call T r f ps j rc ar bl st)) (ro (block_call T r f ps j rc ar bl st)).
Proof.
  intros A B C P. unfold block_call.
  match goal with |- context [if ?c then _ else _] => destruct c end.
  { cbn [also rs ro]. eapply same_seq; [apply A|apply plain_same, A]. }
  specialize (B (rs (rc st))). destruct (ar (rs (rc st))) as [[ts st1] o]. cbn [st_of fst snd] in B.
  assert (D : same x (vars st) st1 (plus (ro (rc st)) o)) by (eapply same_seq; [apply A|exact B]).
  assert (E : forall k, vars k x = vars st1 x -> same x (vars st1) (rs (plain_call T r f rc k)) (ro (plain_call T r f rc k))).
  { intros k G. pose proof (plain_same r f rc k A) as L. eapply same_move; [exact L|auto|].
    exact (proj1 L). }
  destruct (hof T f _ ts) as [[params result]|]; [|cbn [also rs ro]; eapply same_seq; [exact D|apply E; reflexivity]].
  destruct j; [cbn [also rs ro]; eapply same_seq; [exact D|apply E; reflexivity]|].
  match goal with |- context [bl ?k] => specialize (C k); set (kk := bl k) in * end. cbn [at_ vars] in C.
  assert (F : same x (vars st1) (at_ (vars st1) (rs kk)) (unreturned (ro kk))).
  { apply same_unreturned. eapply same_move; [exact C| |]; cbn [at_ vars]; [symmetry|symmetry]; apply sets_other; intros J; apply parameters_keys in J; contradiction. }
  assert (G : same x (vars st) (at_ (vars st1) (rs kk)) (plus (plus (ro (rc st)) o) (unreturned (ro kk)))) by (eapply same_seq; [exact D|exact F]).
  destruct (result (rt kk)); cbn [rs ro also]; [exact G|].
  eapply same_seq; [exact G|]. apply (E (at_ (vars st1) (rs kk))). reflexivity.
Qed.
Lemma again_same k f : (forall st, same x (vars st) (rs (f st)) (ro (f st))) ->
  forall last st, same x (vars st) (rs (again k f last st)) (ro (again k f last st)).
Proof.
  intros A. induction k as [|k IH]; intros last st; cbn [again]; [apply same_nothing; reflexivity|].
  cbn [also rs ro]. eapply same_seq; [|apply IH]. eapply same_plus; [apply A|].
  apply same_pass; [reflexivity|exact (proj1 (A st))|exact (proj1 (A st))].
Qed.

Ltac parts A := rewrite ?orb_false_iff in A; repeat match type of A with _ /\ _ => let B := fresh "P" in destruct A as [B A] end;
  repeat match goal with B : _ /\ _ |- _ => destruct B end.
Ltac first_of IH := eapply same_move; [apply IH; assumption|reflexivity|].

Lemma track_same :
  (forall n, any (mentions x) true n = false -> forall p d st, same x (vars st) (rs (track T p d n st)) (ro (track T p d n st))) /\
  (forall a, any_a (mentions x) true a = false -> forall p d st, same x (vars st) (st_of (track_a T p d a st)) (snd (track_a T p d a st))) /\
  (forall r, any_v (mentions x) true r = false -> forall p d st, same x (vars st) (rs (look T p d r st)) (ro (look T p d r st))) /\
  (forall b ps ls s, b = BBlock ps ls s -> any_s (mentions x) true s = false -> forall p d st, same x (vars st) (rs (track_s T p d s st)) (ro (track_s T p d s st))) /\
  (forall s, any_s (mentions x) true s = false -> forall p d st, same x (vars st) (rs (track_s T p d s st)) (ro (track_s T p d s st))) /\
  (forall e, any_t (mentions x) true e = false -> forall p d st, same x (vars st) (rs (track_t T p d e st)) (ro (track_t T p d e st))) /\
  (forall w, any_w (mentions x) true w = false -> forall p d st, same x (vars st) (snd (fst (track_w T p d w st))) (snd (track_w T p d w st)) /\
     forall b, In b (fst (fst (track_w T p d w st))) -> a_env b x = vars st x) /\
  (forall r, any_r (mentions x) true r = false -> forall p d st, same x (vars st) (snd (fst (track_r T p d r st))) (snd (track_r T p d r st)) /\
     forall b, In b (fst (fst (track_r T p d r st))) -> a_env b x = vars st x).
Proof.
  apply tree_ind; try (intros; cbn; apply same_nothing; reflexivity).
  - (* Read *) intros l y A p d st. cbn. destruct (flow st); (split; [reflexivity|split; [intros t []|intros a b []]]).
  - (* Write *) intros y v IH A p d st. cbn [any mentions] in A. destruct (N.eqb_spec x y) as [->|NE]; [discriminate|].
    specialize (IH A p d st). cbn [track rs ro].
    assert (B : same x (vars st) (at_ (set (vars (rs (track T p d v st))) y (rt (track T p d v st))) (rs (track T p d v st))) (ro (track T p d v st))).
    { eapply same_move; [exact IH|reflexivity|]. cbn [at_ vars]. rewrite set_other by auto. exact (proj1 IH). }
    assert (O : forall t k, vars k x = vars st x -> same x (vars st) k (observed y t)).
    { intros t k C. split; [exact C|]. split; [intros u [J|[]]; congruence|intros a b []]. }
    destruct p; [|exact B]. eapply same_plus; [apply (O _ st); reflexivity|]. eapply same_plus; [exact B|]. apply O. exact (proj1 B).
  - (* Call *) intros safe r IHr f a IHa b IHb A p d st. rewrite track_call. cbn [any] in A.
    destruct b as [|ps ls s].
    { cbn [mentions] in A. parts A. apply plain_same. intros. apply IHr; assumption. }
    cbn [mentions any_b] in A. destruct (member x ps) eqn:M; [discriminate|]. apply member_not in M. cbn [andb] in A. parts A.
    destruct (bang f); [apply plain_same; intros; apply IHr; assumption|].
    apply block_same; [intros; apply IHr; assumption|intros; apply IHa; assumption| |exact M].
    intros. eapply IHb; [reflexivity|assumption].
  - (* If *) intros u q IHq s IHs e IHe A p d st. cbn [any mentions] in A. parts A. cbn [track rs ro].
    set (r := track T p d q (flowing st)). set (k := track_s T p d s (rs r)). set (m := track_t T p d e (at_ (vars (rs r)) (rs k))).
    assert (R1 : same x (vars st) (rs r) (ro r)) by (apply (IHq ltac:(assumption) p d (flowing st))).
    assert (R2 : same x (vars (rs r)) (rs k) (ro k)) by (apply IHs; assumption).
    assert (R3 : same x (vars (rs r)) (rs m) (ro m)) by (apply (IHe ltac:(assumption) p d (at_ (vars (rs r)) (rs k)))).
    eapply same_seq; [exact R1|]. eapply same_plus; [exact R2|]. eapply same_move; [exact R3|reflexivity|].
    cbn [at_ vars]. unfold join_if. cbn [arm_of a_gone a_env].
    assert (NB : ~ In x (about q)) by (apply about_mentioned; assumption).
    destruct (leaves_s s), (leaves_t e); rewrite ?narrow_other by exact NB; [reflexivity|exact (proj1 R3)|exact (proj1 R2)|apply merge_same; [exact (proj1 R2)|exact (proj1 R3)]].
  - (* Case *) intros q IHq w IHw e IHe A p d st. cbn [any mentions] in A. parts A. cbn [track].
    set (r := track T p d q (flowing st)).
    assert (R1 : same x (vars st) (rs r) (ro r)) by (apply (IHq ltac:(assumption) p d (flowing st))).
    destruct (IHw ltac:(assumption) p d (rs r)) as [R2 R2'].
    destruct (track_w T p d w (rs r)) as [[l st1] o]. cbn [fst snd st_of] in R2, R2'. cbn [rs ro].
    assert (R3 := IHe ltac:(assumption) p d (at_ (vars (rs r)) st1)). set (m := track_t T p d e _) in *. cbn [at_ vars] in R3.
    eapply same_seq; [exact R1|]. eapply same_plus; [exact R2|]. eapply same_move; [exact R3|reflexivity|].
    cbn [at_ vars]. apply join_same. intros b J. apply in_app_or in J as [J|[<-|[]]]; [auto|exact (proj1 R3)].
  - (* Logic *) intros or a IHa b IHb A p d st. cbn [any mentions] in A. parts A. cbn [track].
    set (r := track T p d a (flowing st)).
    assert (R1 : same x (vars st) (rs r) (ro r)) by (apply (IHa ltac:(assumption) p d (flowing st))).
    assert (R2 : same x (vars st) (rs r) (plus (ro r) (tested (rt r)))).
    { eapply same_out; [exact R1| |]; cbn; apply app_nil_r. }
    assert (R3 : same x (vars (rs r)) (rs (track T p d b (rs r))) (ro (track T p d b (rs r)))) by (apply IHb; assumption).
    destruct (truthiness _) as [c|].
    + destruct (Bool.eqb c or); cbn [also rs ro]; [exact R2|]. eapply same_seq; eassumption.
    + cbn [rs ro]. eapply same_seq; [exact R2|]. eapply same_move; [exact R3|reflexivity|]. cbn [at_ vars]. apply merge_same; [reflexivity|exact (proj1 R3)].
  - (* Begin *) intros b IHb r IHr e IHe n IHn A p d st. cbn [any mentions] in A. parts A. rewrite track_begin. cbv zeta.
    set (k := track_s T (p || protected r) d b (flowing st)).
    assert (R1 : same x (vars st) (rs k) (ro k)) by (apply (IHb ltac:(assumption) _ d (flowing st))).
    set (m := else_of T p d e k).
    assert (R2 : same x (vars (rs k)) (rs m) (ro m)).
    { subst m. unfold else_of. destruct e as [|s]; [apply same_nothing; reflexivity|]. destruct s as [|n' s]; [apply same_nothing; reflexivity|].
      apply (IHe ltac:(assumption) p d (rs k)). }
    assert (EN : entry (vars (flowing st)) (obs (ro k)) x = vars st x) by (apply entry_same, R1).
    destruct (IHr ltac:(assumption) p d (at_ (entry (vars (flowing st)) (obs (ro k))) (rs m))) as [R3 R3'].
    destruct (track_r T p d r _) as [[arms st1] o]. cbn [fst snd st_of at_ vars] in R3, R3'. cbn [rs ro].
    match goal with |- context [track_t T p d n ?q] => assert (R4 := IHn ltac:(assumption) p d q); set (z := track_t T p d n q) in * end.
    cbn [at_ vars] in R4.
    assert (J : join_envs (vars (flowing st)) (arm_of m (leaves_s b || leaves_t e) :: arms) x = vars st x).
    { apply (join_same (vars st)). intros c [<-|J]; cbn [arm_of a_env].
      - destruct R1 as [R1 _], R2 as [R2 _]. congruence.
      - rewrite (R3' c J). exact EN. }
    assert (ZV : vars (rs z) x = vars st x) by (destruct R4 as [R4 _]; congruence).
    eapply same_plus; [exact R1|]. eapply same_plus; [|eapply same_plus].
    + eapply (same_move _ _ _ (vars st) st); [exact R2|symmetry; exact (proj1 R1)|symmetry; exact (proj1 R1)].
    + eapply (same_move _ _ _ (vars st) st); [exact R3|symmetry; exact EN|symmetry; exact EN].
    + eapply same_move; [exact R4|symmetry; exact J|exact (proj1 R4)].
  - (* RescueMod *) intros a IHa b IHb A p d st. cbn [any mentions] in A. parts A. cbn [track rs ro].
    set (k := track T true d a (flowing st)).
    assert (R1 : same x (vars st) (rs k) (ro k)) by (apply (IHa ltac:(assumption) _ d (flowing st))).
    match goal with |- context [track T p d b ?q] => assert (R2 := IHb ltac:(assumption) p d q); set (m := track T p d b q) in * end.
    cbn [at_ vars] in R2.
    assert (EN : entry (vars (flowing st)) (obs (ro k)) x = vars st x) by (apply entry_same, R1).
    assert (MV : vars (rs m) x = vars st x) by (destruct R2 as [R2 _]; congruence).
    eapply same_plus; [exact R1|]. eapply same_move; [exact R2|symmetry; exact EN|]. cbn [at_ vars].
    rewrite EN. apply merge_same; [exact (proj1 R1)|exact MV].
  - (* While *) intros u c IHc s IHs A p d st. cbn [any mentions] in A. parts A. cbn [track rs ro].
    set (r := track T p d c (flowing st)).
    assert (R1 : same x (vars st) (rs r) (ro r)) by (apply (IHc ltac:(assumption) _ d (flowing st))).
    assert (R2 := again_same (pass_count d) (track_s T p true s) (fun st => IHs ltac:(assumption) p true st) nil_class (rs r)).
    set (k := again _ _ _ _) in *.
    eapply same_plus.
    + eapply same_plus; [exact R1|]. apply same_pass; [reflexivity|exact (proj1 R1)|exact (proj1 R1)].
    + eapply same_move; [exact R2|symmetry; exact (proj1 R1)|]. cbn [at_ vars]. apply merge_same; [reflexivity|exact (proj1 R2)].
  - (* Return *) intros v IH A p d st. cbn [any mentions] in A. destruct v as [|n]; cbn [track rs ro].
    + split; [reflexivity|split; [intros t []|intros a b []]].
    + specialize (IH A p d st). cbn [look] in IH. eapply same_out; [exact IH| |]; cbn; apply app_nil_r.
  - intros s IH A. exact (IH A).
  - intros s IH A. exact (IH A).
  - (* args *) intros n IHn a IHa A p d st. cbn [any_a] in A. parts A. cbn [track_a].
    specialize (IHn ltac:(assumption) p d st). specialize (IHa ltac:(assumption) p d (rs (track T p d n st))).
    destruct (track_a T p d a (rs (track T p d n st))) as [[ts st1] o]. cbn [st_of fst snd] in *. eapply same_seq; eassumption.
  - (* recv *) intros n IH A p d st. cbn [look]. destruct (direct n); [apply IH; exact A|apply same_nothing; reflexivity].
  - (* blk *) intros ps ls E. discriminate.
  - intros ps ls s IH ps' ls' s' E. injection E as _ _ E. subst s'. exact IH.
  - (* stmts *) intros n IHn s IHs A p d st. cbn [any_s] in A. parts A.
    destruct s as [|n' s]; [apply (IHn ltac:(assumption) p d st)|]. rewrite track_seq by discriminate.
    cbn [also rs ro]. eapply same_seq; [apply IHn; assumption|apply IHs; assumption].
  - (* tail *) intros s IH A. exact (IH A).
  - (* whens *) intros A p d st. split; [apply same_nothing; reflexivity|intros b []].
  - intros a _ s IHs w IHw A p d st. cbn [any_w] in A. parts A. cbn [track_w].
    specialize (IHs ltac:(assumption) p d st). set (k := track_s T p d s st) in *.
    destruct (IHw ltac:(assumption) p d (at_ (vars st) (rs k))) as [R R']. cbn [at_ vars] in R, R'.
    destruct (track_w T p d w _) as [[l st1] o]. cbn [st_of fst snd] in *. split.
    + eapply same_plus; eassumption.
    + intros b [<-|J]; [exact (proj1 IHs)|auto].
  - (* rescues *) intros A p d st. split; [apply same_nothing; reflexivity|intros b []].
  - intros y s IHs w IHw A p d st. cbn [any_r] in A. parts A. cbn [track_r].
    specialize (IHs ltac:(assumption) p d st). set (k := track_s T p d s st) in *.
    destruct (IHw ltac:(assumption) p d (at_ (vars st) (rs k))) as [R R']. cbn [at_ vars] in R, R'.
    destruct (track_r T p d w _) as [[l st1] o]. cbn [st_of fst snd] in *. split.
    + eapply same_plus; eassumption.
    + intros b [<-|J]; [exact (proj1 IHs)|auto].
Qed.
End Same.

(** Whether the passes over the loops settle, by computation: [xs] lists the variables mentioned. *)
Definition eq_type (a b : option ty) : bool :=
  match a, b with Some t, Some u => Types_Model.eqb t u | None, None => true | _, _ => false end.
Definition settles (K : vision) (xs : list N) (o : out) : bool :=
  forallb (fun q => forallb (fun x => D K x || eq_type (fst q x) (snd q x)) xs) (passes o).
Lemma settles_settled T K p d n st xs :
  (forall x, any (mentions x) true n = true -> In x xs) ->
  settles K xs (ro (track T p d n st)) = true -> settled K (ro (track T p d n st)).
Proof.
  intros A B a b x J DX. destruct (any (mentions x) true n) eqn:M.
  - unfold settles in B. rewrite forallb_forall in B. specialize (B _ J). rewrite forallb_forall in B. specialize (B _ (A x M)).
    rewrite DX in B. cbn in B. unfold eq_type in B. destruct (a x), (b x); try discriminate; [|reflexivity].
    apply Types_Order.eqb_eq in B. congruence.
  - apply (proj1 (track_same T x) n M p d st). exact J.
Qed.
