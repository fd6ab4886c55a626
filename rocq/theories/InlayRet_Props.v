(** C112: the hints "return" stand where the value of a method comes from. *)
From Coq Require Import List Arith Lia Bool Sorted.
From Verif Require Import InlayRet_Model InlayRet_Spec.
Import ListNotations.

Lemma node_parts_ind (P : node -> Prop) :
  (forall n, (forall m, In m (parts_of n) -> P m) -> P n) -> forall n, P n.
Proof.
  intros H. fix F 1. intros n. apply H.
  assert (O : forall o m, (match o with Some x => P x | None => True end) -> In m (listed o) -> P m).
  { intros [x|] m X; [intros [<-|[]]; exact X | intros []]. }
  destruct n as [s a f l|nm a f e l b|l|b r e f|t b s|b|t ws e|t b|t b s|b]; cbn [parts_of];
    intros m I; repeat (apply in_app_or in I; destruct I as [I|I]);
    try (match type of I with In _ (listed ?o) =>
           apply (O o m); [destruct o as [x|]; [apply F|exact Logic.I] | exact I] end).
  all: match type of I with In _ ?l => clear -F I; induction l as [|x r' IH];
         [destruct I | destruct I as [<-|I]; [apply F | apply IH; exact I]] end.
Qed.

Scheme ends_mind := Minimality for ends Sort Prop
  with maybe_mind := Minimality for maybe Sort Prop
  with in_turn_mind := Minimality for in_turn Sort Prop
  with tried_mind := Minimality for tried Sort Prop
  with after_mind := Minimality for after Sort Prop.
Combined Scheme ends_both from ends_mind, maybe_mind, in_turn_mind, tried_mind, after_mind.

Definition opt (lo hi : nat) (o : option node) : list nat :=
  match o with Some x => marks lo hi x | None => [] end.

Lemma marks_begin lo hi b r e f :
  marks lo hi (Begin b r e f) = opt lo hi b ++ opt lo hi r ++ opt lo hi e.
Proof. reflexivity. Qed.

Lemma marks_if lo hi t b s : marks lo hi (If t b s) = opt lo hi b ++ opt lo hi s.
Proof. reflexivity. Qed.

Lemma marks_rescue lo hi t b s : marks lo hi (Rescue t b s) = opt lo hi b ++ opt lo hi s.
Proof. reflexivity. Qed.

Lemma marks_case lo hi t ws e :
  marks lo hi (Case t ws e) = flat_map (marks lo hi) ws ++ opt lo hi e.
Proof. reflexivity. Qed.

Lemma marks_last lo hi l x : marks lo hi (Stmts (l ++ [x])) = marks lo hi x.
Proof.
  induction l as [|y l IH]; [reflexivity|].
  cbn [app]. rewrite <- IH. cbn [marks]. destruct l; reflexivity.
Qed.

Lemma marks_more lo hi x y r : marks lo hi (Stmts (x :: y :: r)) = marks lo hi (Stmts (y :: r)).
Proof. reflexivity. Qed.

Lemma in_range_iff lo hi p : in_range lo hi p = true <-> lo <= p <= hi.
Proof. unfold in_range. rewrite andb_true_iff, !Nat.leb_le. lia. Qed.

Lemma in_if lo hi a p : In p (if in_range lo hi a then [a] else []) <-> p = a /\ lo <= p <= hi.
Proof.
  destruct (in_range lo hi a) eqn:R.
  - apply in_range_iff in R. split; [intros [<-|[]]; auto | intros [-> _]; left; reflexivity].
  - split; [intros [] | intros [-> B]]. apply in_range_iff in B. congruence.
Qed.

(** ** Every place the value can come from has its hint *)
Section Complete.
Variables lo hi : nat.

Definition told (o : outcome) (l : list nat) : Prop :=
  forall p, o = Value (Some p) -> lo <= p <= hi -> In p l.

Lemma all_told :
  (forall n o, ends n o -> told o (marks lo hi n)) /\
  (forall b o, maybe b o -> told o (opt lo hi b)) /\
  (forall l o, in_turn l o -> told o (marks lo hi (Stmts l))) /\
  (forall b r e o, tried b r e o -> told o (opt lo hi b ++ opt lo hi r ++ opt lo hi e)) /\
  (forall f o o', after f o o' -> forall p, o' = Value (Some p) -> o = Value (Some p)).
Proof.
  apply ends_both; unfold told; intros; try discriminate;
    try rewrite ?marks_if, ?marks_rescue, ?marks_case, ?marks_begin, ?marks_more;
    rewrite ?in_app_iff; eauto.
  - match goal with E : Value _ = Value _ |- _ => injection E as -> end.
    destruct s; try congruence; cbn [marks]; apply in_if; auto.
  - match goal with E : Value _ = Value _ |- _ => injection E as -> end.
    cbn [marks]; apply in_if; auto.
  - rewrite <- !in_app_iff. eauto.
  - left. apply in_flat_map. eauto.
  - destruct H1 as [->| ->]; discriminate.
  - destruct H1 as [->| ->]; discriminate.
Qed.

End Complete.

(** ** Every hint stands where the value can come from *)
Scheme live_mind := Minimality for live Sort Prop
  with live_o_mind := Minimality for live_o Sort Prop.
Combined Scheme live_both from live_mind, live_o_mind.

Lemma turn_app l x o : Forall finishes l -> ends x o -> in_turn (l ++ [x]) o.
Proof.
  intros F E. induction F as [|y l [v Y] _ IH]; cbn [app].
  - now constructor.
  - destruct (l ++ [x]) as [|z r] eqn:Z; [now destruct l|].
    now apply T_more with v.
Qed.

Lemma after_fine f o : holds finishes f -> after f o o.
Proof. destruct f as [x|]; [intros [v V]; now apply A_done with v | constructor]. Qed.

Lemma all_live lo hi :
  (forall n, live n -> forall p, In p (marks lo hi n) ->
     ends n (Value (Some p)) /\ lo <= p <= hi) /\
  (forall b, live_o b -> forall p, In p (opt lo hi b) ->
     maybe b (Value (Some p)) /\ lo <= p <= hi).
Proof.
  apply live_both; intros;
    repeat match goal with
      | M : In _ (marks _ _ (Begin _ _ _ _)) |- _ => rewrite marks_begin, !in_app_iff in M
      | M : In _ (marks _ _ (If _ _ _)) |- _ => rewrite marks_if, in_app_iff in M
      | M : In _ (marks _ _ (Rescue _ _ _)) |- _ => rewrite marks_rescue, in_app_iff in M
      | M : In _ (marks _ _ (Case _ _ _)) |- _ => rewrite marks_case, in_app_iff, in_flat_map in M
      | M : In _ (marks _ _ (Stmts (_ ++ [_]))) |- _ => rewrite marks_last in M
      end.
  - destruct s; cbn [marks] in H; try (now destruct H);
      apply in_if in H; destruct H as [-> B]; (split; [constructor; discriminate | exact B]).
  - cbn [marks] in H. apply in_if in H; destruct H as [-> B]. split; [constructor | exact B].
  - destruct H.
  - apply H1 in H2. destruct H2 as [E B]. split; [|exact B].
    constructor. now apply turn_app.
  - destruct H7 as [I|[I|I]].
    + destruct H as [-> | ->]; [destruct I|]. apply H1 in I. destruct I as [E B].
      split; [|exact B]. apply E_begin with (o := Value (Some p)); [now apply B_body | now apply after_fine].
    + destruct r as [x|]; [|destruct I]. apply H3 in I. destruct I as [E B].
      split; [|exact B]. inversion E; subst.
      apply E_begin with (o := Value (Some p)); [apply B_rescued; [|eassumption] | now apply after_fine].
      destruct b; constructor; constructor.
    + destruct e as [x|]; [|destruct I]. destruct H as [-> | X]; [|discriminate].
      apply H5 in I. destruct I as [E B]. split; [|exact B].
      inversion E; subst.
      apply E_begin with (o := Value (Some p)); [eapply B_else; [constructor|eassumption] | now apply after_fine].
  - destruct H3 as [I|I]; [apply H0 in I|apply H2 in I]; destruct I; split; auto;
      [now apply E_then | now apply E_next].
  - apply H0 in H1. destruct H1; split; auto. now constructor.
  - destruct H3 as [[w [W I]]|I].
    + apply (H0 w W) in I. destruct I; split; auto. now apply E_when_of with w.
    + apply H2 in I. destruct I; split; auto. now apply E_case_else.
  - apply H0 in H1. destruct H1; split; auto. now constructor.
  - destruct H3 as [I|I].
    + apply H0 in I. destruct I; split; auto. now apply E_rescue.
    + destruct s as [x|]; [|destruct I]. apply H2 in I. destruct I as [E B]; split; auto.
      inversion E; subst. now apply E_rescue_next.
  - apply H0 in H1. destruct H1; split; auto. now constructor.
  - destruct H.
  - apply H0 in H1. destruct H1; split; auto. now constructor.
Qed.

(** ** The whole file *)
Definition own (lo hi : nat) (n : node) : list hint :=
  match n with
  | Leaf (Class name) _ fin _ => label lo hi KClass name fin
  | Leaf (Module name) _ fin _ => label lo hi KModule name fin
  | Def name _ fin _ _ body =>
      label lo hi KMethod name fin
      ++ match body with Some b => map Ret (marks lo hi b) | None => [] end
  | _ => []
  end.

Lemma visit_flat lo hi n :
  assigns_constant n \/
  forall h, In h (visit lo hi n) <->
    In h (own lo hi n) \/ In h (flat_map (visit lo hi) (parts_of n)).
Proof.
  assert (O : forall o, match o with Some x => visit lo hi x | None => [] end
                        = flat_map (visit lo hi) (listed o)).
  { intros [x|]; cbn [listed flat_map]; now rewrite ?app_nil_r. }
  assert (E : forall l, (fix each (l : list node) : list hint :=
         match l with [] => [] | x :: r => visit lo hi x ++ each r end) l
         = flat_map (visit lo hi) l) by reflexivity.
  destruct n as [s a f l|nm a f e l b|l|b r e f|t b s|b|t ws e|t b|t b s|b];
    [destruct s; [right|right|right|right|left; exact Logic.I] | right ..];
    intros h; cbn [visit own parts_of]; rewrite ?E, ?O, ?flat_map_app, ?in_app_iff;
    cbn [In]; tauto.
Qed.

Lemma visit_constant lo hi n : assigns_constant n -> visit lo hi n = [].
Proof. destruct n as [[]| | | | | | | | |]; cbn; tauto. Qed.

Lemma own_constant lo hi n : assigns_constant n -> own lo hi n = [].
Proof. destruct n as [[]| | | | | | | | |]; cbn; tauto. Qed.

Lemma constant_dec n : assigns_constant n \/ ~ assigns_constant n.
Proof. destruct n as [[]| | | | | | | | |]; cbn; tauto. Qed.

Lemma visit_seen lo hi n h :
  In h (visit lo hi n) <-> exists d, seen d n /\ In h (own lo hi d).
Proof.
  revert n. apply (node_parts_ind (fun n => In h (visit lo hi n) <->
    exists d, seen d n /\ In h (own lo hi d))).
  intros n IH. destruct (constant_dec n) as [C|C].
  - rewrite (visit_constant _ _ _ C). split; [intros [] | intros (d & D & O)].
    destruct D; [now rewrite own_constant in O by exact C | contradiction].
  - destruct (visit_flat lo hi n) as [V|V]; [contradiction|]. rewrite V, in_flat_map. split.
    + intros [O|(m & M & I)].
      * exists n. split; [constructor | exact O].
      * apply (IH m M) in I. destruct I as (d & D & O). exists d. split; [|exact O].
        now apply S_part with m.
    + intros (d & D & O). destruct D as [|n m _ M D]; [now left|]. right.
      exists m. split; [exact M|]. apply (IH m M). now exists d.
Qed.

Lemma own_label lo hi d k name fin :
  In (Label k name fin) (own lo hi d) <-> lo <= fin <= hi /\ is_def k name fin d.
Proof.
  assert (A : forall k' m f, In (Label k name fin) (label lo hi k' m f) <->
    lo <= fin <= hi /\ k = k' /\ name = m /\ fin = f).
  { intros. unfold label. destruct (in_range lo hi f) eqn:R.
    - apply in_range_iff in R. split.
      + intros [X|[]]. injection X as <- <- <-. auto.
      + intros (_ & -> & -> & ->). now left.
    - split; [intros [] | intros (B & _ & _ & ->)]. apply in_range_iff in B. congruence. }
  destruct d as [[]| | | | | | | | |]; cbn [own is_def In]; rewrite ?A; try tauto.
  rewrite in_app_iff, A. split; [intros [X|X]; [exact X|] | tauto].
  destruct body as [b|]; [|destruct X]. apply in_map_iff in X.
  destruct X as (p & X & _). discriminate.
Qed.

Lemma own_ret lo hi d p :
  In (Ret p) (own lo hi d) <-> exists b, body_of d = Some b /\ In p (marks lo hi b).
Proof.
  assert (A : forall k m f, ~ In (Ret p) (label lo hi k m f)).
  { intros. unfold label. destruct (in_range lo hi f); [intros [X|[]]; discriminate | intros []]. }
  destruct d as [[]| | | | | | | | |]; cbn [own body_of In];
    try (split; [try tauto; intros X; now apply A in X | intros (b & X & _); discriminate]).
  rewrite in_app_iff. split.
  - intros [X|X]; [now apply A in X|]. destruct body as [b|]; [|destruct X].
    apply in_map_iff in X. destruct X as (q & X & I). injection X as ->. now exists b.
  - intros (b & -> & I). right. now apply in_map.
Qed.

Lemma seen_within d n : seen d n -> within d n.
Proof. induction 1 as [|n m _ M _ IH]; [constructor | now apply W_part with m]. Qed.

Lemma within_part n m d : In m (parts_of n) -> within d m -> within d n.
Proof. intros. now apply W_part with m. Qed.

Lemma within_seen d n :
  (forall c, within c n -> ~ assigns_constant c) -> within d n -> seen d n.
Proof.
  intros C W. induction W as [|n m M W IH]; [constructor|].
  apply S_part with m; [apply C; constructor | exact M | apply IH].
  intros c D. apply C. now apply within_part with m.
Qed.

(** Wherever the value of a method can come from, the hint is shown: for every file,
    every method in it that does not stand in an assignment to a constant, every run of
    its body that ends with the value of an expression, and every range asked for. *)
Theorem C112_every_value lo hi root d b p :
  seen d root -> body_of d = Some b -> ends b (Value (Some p)) -> lo <= p <= hi ->
  In (Ret p) (visit lo hi root).
Proof.
  intros D B E R. apply visit_seen. exists d. split; [exact D|]. apply own_ret.
  exists b. split; [exact B|]. destruct (all_told lo hi) as [A _]. now apply (A b _ E).
Qed.
Print Assumptions C112_every_value.

(** Whatever place has the hint is in the range, and the value of some method of the
    file can come from there, if no method has dead code on the way to its value. *)
Theorem C112_every_hint_partial lo hi root p :
  (forall d b, within d root -> body_of d = Some b -> live b) ->
  In (Ret p) (visit lo hi root) ->
  lo <= p <= hi /\
  exists d b, within d root /\ body_of d = Some b /\ ends b (Value (Some p)).
Proof.
  intros L V. apply visit_seen in V. destruct V as (d & D & O). apply own_ret in O.
  destruct O as (b & B & I). apply seen_within in D.
  destruct (all_live lo hi) as [A _]. destruct (A b (L d b D B) p I) as [E R].
  split; [exact R|]. now exists d, b.
Qed.
Print Assumptions C112_every_hint_partial.

(** The labels after the ends: exactly the classes, modules and methods of the file
    which do not stand in an assignment to a constant and end in the range. *)
Theorem C112_labels lo hi root k name fin :
  In (Label k name fin) (visit lo hi root) <->
  lo <= fin <= hi /\ exists d, seen d root /\ is_def k name fin d.
Proof.
  rewrite visit_seen. split.
  - intros (d & D & O). apply own_label in O. destruct O as [R X]. split; [exact R|].
    now exists d.
  - intros (R & d & D & X). exists d. split; [exact D|]. now apply own_label.
Qed.
Print Assumptions C112_labels.

(** In a file without assignments to constants that is all of them. *)
Theorem C112_no_constants root d :
  (forall c, within c root -> ~ assigns_constant c) -> (seen d root <-> within d root).
Proof. intros C. split; [apply seen_within | now apply within_seen]. Qed.
Print Assumptions C112_no_constants.

(** ** The order of the hints *)
Inductive sub : list nat -> list nat -> Prop :=
| sub_nil : sub [] []
| sub_skip x l m : sub l m -> sub l (x :: m)
| sub_keep x l m : sub l m -> sub (x :: l) (x :: m).

Lemma sub_empty m : sub [] m.
Proof. induction m; constructor; auto. Qed.

Lemma sub_app a b c d : sub a b -> sub c d -> sub (a ++ c) (b ++ d).
Proof. intros A C. induction A; cbn [app]; [exact C| now constructor | now constructor]. Qed.

Lemma sub_in a b x : sub a b -> In x a -> In x b.
Proof. intros A. induction A; cbn [In]; tauto. Qed.

Lemma sub_sorted a b : sub a b -> StronglySorted lt b -> StronglySorted lt a.
Proof.
  intros A S1. induction A; [constructor| |]; inversion S1 as [|? ? S2 F]; subst; auto.
  constructor; [auto|]. rewrite Forall_forall in *. intros y Y. apply F.
  now apply sub_in with l.
Qed.

Lemma texts_app l m q : texts (l ++ m) q -> exists a b, q = a ++ b /\ texts l a /\ texts m b.
Proof.
  revert q. induction l as [|x l IH]; cbn [app]; intros q T.
  - exists [], q. repeat split; [constructor | exact T].
  - inversion T as [|? ? p r X Y]; subst. apply IH in Y. destruct Y as (a & b & -> & A & B).
    exists (p ++ a), b. rewrite app_assoc. repeat split; [now constructor | exact B].
Qed.

Lemma sub_if lo hi a : sub (if in_range lo hi a then [a] else []) [a].
Proof. destruct (in_range lo hi a); [apply sub_keep, sub_nil | apply sub_empty]. Qed.

Lemma flat_sub lo hi l : forall q,
  (forall m, In m l -> forall p, texted m p -> sub (marks lo hi m) p) ->
  texts l q -> sub (flat_map (marks lo hi) l) q.
Proof.
  induction l as [|x l IH]; intros q H T; cbn [flat_map]; [apply sub_empty|].
  inversion T as [|? ? a b A B]; subst. apply sub_app.
  - apply H; [now left | exact A].
  - apply IH; [|exact B]. intros m M. apply H. now right.
Qed.

Lemma marks_sub lo hi n : forall p, texted n p -> sub (marks lo hi n) p.
Proof.
  revert n. apply (node_parts_ind (fun n => forall p, texted n p -> sub (marks lo hi n) p)).
  intros n IH.
  assert (O : forall o q, (forall m, In m (listed o) -> In m (parts_of n)) ->
    texts (listed o) q -> sub (opt lo hi o) q).
  { intros [x|] q L T; [|apply sub_empty]. inversion T as [|? ? p r X Y]; subst.
    inversion Y; subst. rewrite app_nil_r. apply IH; [apply L; now left | exact X]. }
  intros p T. inversion T; subst; cbn [parts_of] in *;
    repeat match goal with
      | X : texts (_ ++ _) _ |- _ => apply texts_app in X; destruct X as (? & ? & -> & ? & ?) end;
    rewrite ?marks_begin, ?marks_if, ?marks_rescue, ?marks_case;
    try (cbn [marks]; apply O; [intros; rewrite ?in_app_iff; tauto | assumption]);
    repeat (apply sub_app;
      [first [apply O; [intros; rewrite ?in_app_iff; tauto | assumption] | idtac] |
       first [apply O; [intros; rewrite ?in_app_iff; tauto | assumption] | idtac]]).
  - cbn [marks]. destruct s; auto using sub_empty, sub_if.
  - cbn [marks]. apply sub_if.
  - clear O T. match goal with X : texts _ _ |- _ => revert X end. revert p.
    induction l as [|x l IHl]; intros p X.
    + apply sub_empty.
    + inversion X as [|? ? a b A B]; subst. destruct l as [|y r].
      * inversion B; subst. rewrite app_nil_r. exact (IH x (or_introl eq_refl) a A).
      * rewrite marks_more. change (marks lo hi (Stmts (y :: r))) with ([] ++ marks lo hi (Stmts (y :: r))).
        apply sub_app; [apply sub_empty|]. apply IHl; [|exact B].
        intros m M. apply IH. now right.
  - rewrite <- (app_nil_r (opt lo hi e)). apply sub_app; [|apply sub_empty].
    apply O; [intros; rewrite ?in_app_iff; tauto | assumption].
  - apply flat_sub; [|assumption]. intros m M. apply IH. rewrite !in_app_iff. tauto.
Qed.

(** The hints of one body come in the order of the text, no place twice. *)
Theorem C112_order lo hi b p :
  texted b p -> StronglySorted lt p -> StronglySorted lt (marks lo hi b).
Proof. intros T. apply sub_sorted. now apply marks_sub. Qed.
Print Assumptions C112_order.

(** ** Examples *)
Definition word (at_ : nat) : node := Leaf Plain at_ (at_ + 1) [].
Definition block (at_ : nat) : option node := Some (Stmts [word at_]).

(** def f; log; if x then 1 else begin 2 rescue 3 ensure 4 end end; end *)
Definition ex_body : node :=
  Stmts [word 10; If [word 15] (block 20)
    (Some (Else (Some (Stmts [Begin (block 30) (Some (Rescue [] (block 40) None)) None (block 50)]))))].
Definition ex_file : node :=
  Stmts [Leaf (Class 7) 0 70 [word 1; Stmts [Def 3 5 60 false [] (Some ex_body)]]].

Example ex_visit : visit 0 100 ex_file = [Label KClass 7 70; Label KMethod 3 60; Ret 20; Ret 30; Ret 40].
Proof. reflexivity. Qed.

Example ex_visit_part : visit 25 35 ex_file = [Ret 30].
Proof. reflexivity. Qed.

Lemma ex_word at_ : finishes (word at_).
Proof. exists (Some at_). constructor. discriminate. Qed.

Lemma ex_block at_ : ends (Stmts [word at_]) (Value (Some at_)).
Proof. constructor. constructor. constructor. discriminate. Qed.

Example ex_live : live ex_body.
Proof.
  apply (L_stmts [word 10]); [repeat constructor; apply ex_word|].
  assert (B : forall a, live (Stmts [word a])).
  { intros a. apply (L_stmts []); [constructor | constructor]. }
  constructor; [constructor; apply B|]. constructor. constructor. constructor.
  apply (L_stmts []); [constructor|]. constructor; [now right| | | |].
  - constructor; apply B.
  - constructor. constructor; constructor. apply B.
  - constructor.
  - exists (Some 50). apply ex_block.
Qed.

Example ex_runs : ends ex_body (Value (Some 40)).
Proof.
  constructor. apply T_more with (Some 10); [constructor; discriminate|]. constructor.
  apply E_next. constructor. constructor. constructor. constructor. constructor.
  apply E_begin with (Value (Some 40)).
  - apply B_rescued; [constructor; constructor|]. apply E_rescue. constructor. apply ex_block.
  - apply A_done with (Some 50). apply ex_block.
Qed.

Example ex_texted : texted ex_body [10; 20; 30; 40; 50].
Proof.
  assert (W : forall a, texted (Stmts [word a]) [a]).
  { intros a. constructor. apply (X_cons _ _ [a] []); constructor. }
  constructor. apply (X_cons _ _ [10] [20; 30; 40; 50]); [constructor|].
  apply (X_cons _ _ [20; 30; 40; 50] []); [|constructor]. constructor. cbn [listed block app].
  apply (X_cons _ _ [20] [30; 40; 50]); [apply W|].
  apply (X_cons _ _ [30; 40; 50] []); [|constructor]. constructor. cbn [listed].
  apply (X_cons _ _ [30; 40; 50] []); [|constructor]. constructor.
  apply (X_cons _ _ [30; 40; 50] []); [|constructor]. constructor. cbn [listed block app].
  apply (X_cons _ _ [30] [40; 50]); [apply W|].
  apply (X_cons _ _ [40] [50]); [|apply (X_cons _ _ [50] []); [apply W|constructor]].
  constructor. cbn [listed block app]. apply (X_cons _ _ [40] []); [apply W|constructor].
Qed.

(** ** Corners *)

(** begin 1 rescue 2 else 3 end: the body's last expression has the hint, but with an
    else clause its value is never the method's. *)
Definition else_body : node :=
  Begin (block 10) (Some (Rescue [] (block 20) None)) (Some (Else (block 30))) None.

Lemma block_only a v : ends (Stmts [word a]) (Value v) -> v = Some a.
Proof.
  intros E. inversion E as [| | | | |? ? T| | | | | | | | | |]; subst.
  inversion T as [|? ? W| |? ? ? W K]; subst.
  - inversion W; subst; reflexivity.
  - destruct K; discriminate.
Qed.

Theorem C112_else_refuted : exists root p,
  In (Ret p) (visit 0 100 root) /\
  (exists d b q, within d root /\ body_of d = Some b /\ ends b (Value (Some q))) /\
  forall d b, within d root -> body_of d = Some b -> ~ ends b (Value (Some p)).
Proof.
  exists (Def 0 0 50 false [] (Some else_body)), 10. split; [right; left; reflexivity|]. split.
  - exists (Def 0 0 50 false [] (Some else_body)), else_body, 30.
    split; [constructor|]. split; [reflexivity|].
    apply E_begin with (Value (Some 30)); [|constructor].
    apply B_else with (Some 10); [constructor; apply ex_block|].
    constructor. constructor. apply ex_block.
  - assert (K : forall d x, within d x -> body_of x = None ->
      (forall m, In m (parts_of x) -> forall e, within e m -> body_of e = None) -> body_of d = None).
    { intros d x W B H. destruct W as [|n m M W]; [exact B | now apply (H m M)]. }
    assert (Kw : forall a d, within d (word a) -> body_of d = None).
    { intros a d W. apply (K _ _ W); [reflexivity | intros m []]. }
    assert (Kb : forall a d, within d (Stmts [word a]) -> body_of d = None).
    { intros a d W. apply (K _ _ W); [reflexivity|]. intros m [<-|[]]. apply Kw. }
    assert (Kr : forall d, within d (Rescue [] (block 20) None) -> body_of d = None).
    { intros d W. apply (K _ _ W); [reflexivity|]. intros m [<-|[]]. apply Kb. }
    assert (Ke : forall d, within d (Else (block 30)) -> body_of d = None).
    { intros d W. apply (K _ _ W); [reflexivity|]. intros m [<-|[]]. apply Kb. }
    assert (KB : forall d, within d else_body -> body_of d = None).
    { intros d W. apply (K _ _ W); [reflexivity|].
      intros m [<-|[<-|[<-|[]]]]; [apply Kb | apply Kr | apply Ke]. }
    intros d b W B E.
    assert (b = else_body).
    { inversion W as [|n m M W']; subst; [now injection B as <-|].
      destruct M as [<-|[]]. rewrite (KB d W') in B. discriminate. }
    subst b. inversion E as [| | | | | |? ? ? ? o o' T A| | | | | | | | |]; subst.
    inversion A; subst. inversion T as [|? ? ? v ? M X| | |? ? ? ? M X]; subst.
    + inversion X as [| | | | | | | | |? ? Y| | | | | |]; subst.
      inversion Y as [| |? ? Z]; subst. apply block_only in Z. discriminate.
    + inversion X as [| | | | | | | | | | | | |? ? ? ? Y| |]; subst.
      inversion Y as [| |? ? Z]; subst. apply block_only in Z. discriminate.
Qed.
Print Assumptions C112_else_refuted.

(** X = Struct.new { def f; 1; end }: nothing in the value has hints. *)
Theorem C112_constant_refuted : exists root d b p k name fin,
  within d root /\ body_of d = Some b /\ ends b (Value (Some p)) /\ is_def k name fin d /\
  visit 0 100 root = [].
Proof.
  exists (Leaf Constant 0 40 [Def 3 5 30 false [] (block 10)]),
    (Def 3 5 30 false [] (block 10)), (Stmts [word 10]), 10, KMethod, 3, 30.
  split; [eapply W_part; [now left | constructor]|]. split; [reflexivity|].
  split; [apply ex_block|]. split; [now cbn | reflexivity].
Qed.
Print Assumptions C112_constant_refuted.

(** def f = 1: the label of an [end] that is not there. *)
Theorem C112_endless_refuted : exists root k name fin,
  In (Label k name fin) (visit 0 100 root) /\
  forall d, within d root -> is_def k name fin d -> ~ closed_by_end d.
Proof.
  exists (Def 3 0 9 true [] (block 8)), KMethod, 3, 9. split; [now left|].
  intros d W. inversion W as [|n m M W1]; subst; [cbn; congruence|].
  destruct M as [<-|[]]. inversion W1 as [|n m M W2]; subst; [intros []|].
  destruct M as [<-|[]]. inversion W2 as [|n m M W3]; subst; [intros []|]. destruct M.
Qed.
Print Assumptions C112_endless_refuted.
