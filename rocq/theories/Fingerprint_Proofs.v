(** Export fingerprints: the codes are prefix-free, the hash. *)
From Coq Require Import String Ascii List Arith NArith Bool Lia Permutation Sorted Eqdep_dec.
From Verif Require Import Sort_Lib Fingerprint_Model Fingerprint_Spec.
Import ListNotations.
Open Scope list_scope.

Lemma bounded_eq {m} (a b : bounded m) : value a = value b -> a = b.
Proof. destruct a as [x p], b as [y q]. cbn. intros ->. f_equal. apply UIP_dec, bool_dec. Qed.

Lemma value_below {m} (a : bounded m) : (value a < m)%N.
Proof. apply N.ltb_lt, within. Qed.

(** ** Fixed-width integers *)
Lemma le_length k n : length (le k n) = k.
Proof. revert n. induction k; intros n; cbn; auto. Qed.

Lemma le_inj k : forall a b, (a < 256 ^ N.of_nat k)%N -> (b < 256 ^ N.of_nat k)%N -> le k a = le k b -> a = b.
Proof.
  induction k as [|k IH]; intros a b A B E; [cbn in A, B; lia|]. cbn [le] in E. injection E as M D.
  rewrite Nat2N.inj_succ, N.pow_succ_r' in A, B.
  assert (a / 256 = b / 256)%N as Q. { apply IH; auto; apply N.div_lt_upper_bound; lia. }
  rewrite (N.div_mod a 256), (N.div_mod b 256), M, Q by lia. reflexivity.
Qed.

Lemma app_cut {A} (a b r s : list A) : length a = length b -> a ++ r = b ++ s -> a = b /\ r = s.
Proof.
  revert b. induction a as [|x a IH]; intros [|y b] L E; cbn in *; try discriminate; auto.
  injection E as -> E. destruct (IH b) as [-> ->]; auto.
Qed.

Lemma le_cut k a b r s : (a < 256 ^ N.of_nat k)%N -> (b < 256 ^ N.of_nat k)%N -> le k a ++ r = le k b ++ s -> a = b /\ r = s.
Proof.
  intros A B E. apply app_cut in E; [|now rewrite !le_length]. destruct E as [E ->]. split; auto. eauto using le_inj.
Qed.

(** ** Prefix-free codes *)
Lemma fits_cons x l : fits (x :: l) -> fits l.
Proof. unfold fits. cbn [length]. lia. Qed.
Lemma fits_app a b : fits (a ++ b) -> fits b.
Proof. unfold fits. rewrite app_length. lia. Qed.
Lemma fits_app_l a b : fits (a ++ b) -> fits a.
Proof. unfold fits. rewrite app_length. lia. Qed.

(** The code of [x] is read back, whatever follows. *)
Definition reads {A} (f : A -> stream) (x : A) : Prop :=
  forall y r s, fits (f x ++ r) -> f x ++ r = f y ++ s -> x = y /\ r = s.
Definition nonempty {A} (f : A -> stream) : Prop := forall x, 0 < length (f x).

Lemma reads_step {A} (f : A -> stream) x y r s : reads f x -> fits (f x ++ r) -> f x ++ r = f y ++ s -> x = y /\ r = s /\ fits r.
Proof. intros R F E. destruct (R _ _ _ F E) as [-> ->]. eauto using fits_app. Qed.

Lemma flat_long {A} (f : A -> stream) l : nonempty f -> length l <= length (flat_map f l).
Proof. intros H. induction l as [|x l IH]; cbn; auto. rewrite app_length. specialize (H x). lia. Qed.

Lemma reads_list {A} (f : A -> stream) l : nonempty f -> Forall (reads f) l -> reads (stable_list f) l.
Proof.
  intros NE H l' r s F E. unfold stable_list, stable_len, stable_u64 in *. rewrite <- !app_assoc in *.
  assert (fits (flat_map f l ++ r)) as F' by eauto using fits_app.
  assert (forall m t, fits (flat_map f m ++ t) -> (N.of_nat (length m) < 2 ^ 64)%N) as B.
  { intros m t H1. apply fits_app_l in H1. unfold fits in H1. pose proof (flat_long f m NE). lia. }
  assert (fits (flat_map f l' ++ s)) as F2 by (rewrite E in F; eauto using fits_app).
  apply le_cut in E; [|apply (B l r F')|apply (B l' s F2)]. destruct E as [L E]. apply Nat2N.inj in L.
  clear F F2 B NE. revert l' L r s F' E. induction H as [|x l Hx H IH]; intros [|y l'] L r s F E; cbn in L; try discriminate; cbn [flat_map] in *; auto.
  rewrite <- !app_assoc in *. destruct (reads_step f x y _ _ Hx F E) as (-> & E' & F'). destruct (IH l' (eq_add_S _ _ L) _ _ F' E') as [-> ->]. auto.
Qed.

Lemma reads_option {A} (f : A -> stream) o : (forall x, o = Some x -> reads f x) -> reads (stable_option f) o.
Proof.
  intros H [y|] r s F E; destruct o as [x|]; cbn in *; try discriminate; [|split; congruence].
  injection E as E. apply fits_cons in F. destruct (H x eq_refl _ _ _ F E) as [-> ->]. auto.
Qed.

Lemma list_nonempty {A} (f : A -> stream) : nonempty (stable_list f).
Proof. intros l. unfold stable_list, stable_len, stable_u64. rewrite app_length, le_length. lia. Qed.

Lemma reads_string x : reads stable_string x.
Proof.
  intros y r s F E. unfold stable_string, stable_len, stable_u64 in *. rewrite <- !app_assoc in *.
  assert (forall (m : str) t, fits (map value m ++ t) -> (N.of_nat (length m) < 2 ^ 64)%N) as B.
  { intros m t H1. apply fits_app_l in H1. unfold fits in H1. rewrite map_length in H1. exact H1. }
  assert (fits (map value x ++ r)) as F1 by eauto using fits_app.
  assert (fits (map value y ++ s)) as F2 by (rewrite E in F; eauto using fits_app).
  apply le_cut in E; [|apply (B x r F1)|apply (B y s F2)]. destruct E as [L E]. apply Nat2N.inj in L.
  apply app_cut in E; [|now rewrite !map_length]. destruct E as [E ->]. split; auto.
  clear - E. revert y E. induction x as [|a x IH]; intros [|b y] E; cbn in E; try discriminate; auto. injection E as E1 E2.
  f_equal; [exact (bounded_eq a b E1)|auto].
Qed.
Lemma string_nonempty : nonempty stable_string.
Proof. intros x. unfold stable_string, stable_len, stable_u64. rewrite app_length, le_length. lia. Qed.
Lemma reads_strings x : reads stable_strings x.
Proof. apply reads_list; [apply string_nonempty|]. apply Forall_forall. intros; apply reads_string. Qed.
Lemma reads_u32 x : reads stable_u32 x.
Proof. intros y r s _ E. apply le_cut in E; [|apply (value_below x)|apply (value_below y)]. destruct E as [E ->]. split; [exact (bounded_eq x y E)|reflexivity]. Qed.

(** One byte. *)
Lemma reads_byte {A} (f : A -> stream) : (forall x y r s, f x ++ r = f y ++ s -> x = y /\ r = s) -> forall x, reads f x.
Proof. intros H x y r s _ E. eauto. Qed.
Ltac byte := apply reads_byte; intros x y r s E; destruct x, y; cbn in E; try discriminate; injection E as ->; auto.
Lemma reads_bool x : reads stable_bool x. Proof. revert x. byte. Qed.
Lemma reads_symbol_kind x : reads stable_symbol_kind x. Proof. revert x. byte. Qed.
Lemma reads_param_kind x : reads stable_param_kind x. Proof. revert x. byte. Qed.
Lemma reads_visibility x : reads stable_visibility x. Proof. revert x. byte. Qed.
Lemma reads_presence x : reads stable_presence x. Proof. revert x. byte. Qed.
Lemma reads_body_kind x : reads stable_body_kind x. Proof. revert x. byte. Qed.
Lemma reads_provenance x : reads stable_provenance x. Proof. revert x. byte. Qed.
Lemma reads_node_kind x : reads stable_node_kind x. Proof. revert x. byte. Qed.
Lemma reads_edge_kind x : reads stable_edge_kind x. Proof. revert x. byte. Qed.
Lemma reads_edge_provenance x : reads stable_edge_provenance x. Proof. revert x. byte. Qed.

(** One step of reading: drop the tag, or read one field. *)
Ltac norm E F := cbn [List.app] in E, F; repeat rewrite <- app_assoc in E; repeat rewrite <- app_assoc in F; cbn [List.app] in E, F.
Ltac field L E F :=
  let e := fresh "Q" in let E' := fresh "E" in let F' := fresh "F" in
  destruct (reads_step _ _ _ _ _ L F E) as (e & E' & F'); clear E F; rename E' into E; rename F' into F; subst.
Ltac tag E F := apply (f_equal (@tl N)) in E; cbn [tl] in E; apply fits_cons in F.

Lemma reads_fqn x : reads stable_fqn x.
Proof.
  intros y r s F E. destruct x as [p k|p|p m|n|n|n|n], y as [p' k'|p'|p' m'|n'|n'|n'|n']; cbn [stable_fqn] in E, F; norm E F; try discriminate; tag E F.
  - field (reads_strings p) E F. destruct k, k'; try discriminate; injection E as ->; auto.
  - field (reads_strings p) E F. auto.
  - field (reads_strings p) E F. field (reads_string m) E F. auto.
  - field (reads_string n) E F. auto.
  - field (reads_string n) E F. auto.
  - field (reads_string n) E F. auto.
  - field (reads_string n) E F. auto.
Qed.
Lemma fqn_nonempty : nonempty stable_fqn.
Proof. intros []; cbn; lia. Qed.

Lemma reads_literal x : reads stable_literal x.
Proof. intros y r s F E. destruct x as [v|v], y as [v'|v']; cbn [stable_literal] in E, F; norm E F; try discriminate; tag E F; field (reads_string v) E F; auto. Qed.
Lemma literal_nonempty : nonempty stable_literal.
Proof. intros []; cbn; lia. Qed.

Lemma reads_availability x : reads stable_availability x.
Proof.
  intros y r s F E. destruct x as [|v|v], y as [|v'|v']; cbn [stable_availability] in E, F; norm E F; try discriminate; tag E F; auto;
    field (reads_string v) E F; auto.
Qed.

Lemma reads_subject x : reads stable_subject x.
Proof.
  intros y r s F E. destruct x as [f|i n|o n|o n|n|f|f n|[a b]], y as [f'|i' n'|o' n'|o' n'|n'|f'|f' n'|[a' b']]; cbn [stable_subject] in E, F; norm E F;
    try discriminate; tag E F.
  - field (reads_fqn f) E F. auto.
  - field (reads_u32 i) E F. field (reads_string n) E F. auto.
  - field (reads_fqn o) E F. field (reads_string n) E F. auto.
  - field (reads_fqn o) E F. field (reads_string n) E F. auto.
  - field (reads_string n) E F. auto.
  - field (reads_fqn f) E F. auto.
  - field (reads_fqn f) E F. field (reads_string n) E F. auto.
  - field (reads_u32 a) E F. field (reads_u32 b) E F. auto.
Qed.

(** ** Types *)
Section TypeInd.
Variable P : ruby_type -> Prop.
Hypothesis c1 : forall f, P (TClass f). Hypothesis c2 : forall f, P (TModule f). Hypothesis c3 : forall f, P (TClassReference f).
Hypothesis c4 : forall f, P (TModuleReference f). Hypothesis c5 : forall l, P (TLiteral l).
Hypothesis c6 : forall l, Forall P l -> P (TArray l).
Hypothesis c7 : forall k v, Forall P k -> Forall P v -> P (THash k v).
Hypothesis c8 : forall fs rest e s, Forall (fun f => P (snd f)) fs -> (forall k v, rest = Some (k, v) -> P k /\ P v) -> P (TShape fs rest e s).
Hypothesis c9 : forall l, Forall P l -> P (TUnion l).
Hypothesis c10 : P TUnknown.
Fixpoint type_ind' (t : ruby_type) : P t.
Proof.
  assert (forall l, Forall P l) as A by (induction l; constructor; [apply type_ind'|assumption]).
  assert (forall fs : list (literal * presence * ruby_type), Forall (fun f => P (snd f)) fs) as B
    by (induction fs as [|[[? ?] ?] ?]; constructor; [apply type_ind'|assumption]).
  destruct t; [apply c1|apply c2|apply c3|apply c4|apply c5|apply c6; apply A|apply c7; apply A| |apply c9; apply A|apply c10].
  apply c8; [apply B|]. intros k v E. destruct rest as [[k' v']|]; [|discriminate]. 
  assert (P k') by apply type_ind'. assert (P v') by apply type_ind'. injection E as <- <-. auto.
Defined.
End TypeInd.

Lemma type_nonempty : nonempty stable_type.
Proof. intros []; cbn; lia. Qed.

Lemma reads_shape_field k p v : reads stable_type v ->
  reads (fun f : literal * presence * ruby_type => let '(k, p, v) := f in stable_literal k ++ stable_presence p ++ stable_type v) (k, p, v).
Proof.
  intros R [[k' p'] v'] r s F E. norm E F. field (reads_literal k) E F. field (reads_presence p) E F. field R E F. auto.
Qed.

Lemma reads_type x : reads stable_type x.
Proof.
  induction x as [f|f|f|f|l|l IH|k v IHk IHv|fs rest e st IHf IHr|l IH|] using type_ind'; intros y r s F E;
    destruct y as [f'|f'|f'|f'|l'|l'|k' v'|fs' rest' e' st'|l'|]; cbn [stable_type] in E, F; norm E F; try discriminate; tag E F.
  - field (reads_fqn f) E F. auto.
  - field (reads_fqn f) E F. auto.
  - field (reads_fqn f) E F. auto.
  - field (reads_fqn f) E F. auto.
  - field (reads_literal l) E F. auto.
  - field (reads_list _ l type_nonempty IH) E F. auto.
  - field (reads_list _ k type_nonempty IHk) E F. field (reads_list _ v type_nonempty IHv) E F. auto.
  - assert (Forall (reads (fun f : literal * presence * ruby_type => let '(k, p, v) := f in stable_literal k ++ stable_presence p ++ stable_type v)) fs) as RF.
    { eapply Forall_impl; [|exact IHf]. intros [[a b] c]. apply reads_shape_field. }
    assert (nonempty (fun f : literal * presence * ruby_type => let '(k, p, v) := f in stable_literal k ++ stable_presence p ++ stable_type v)) as NF.
    { intros [[a b] c]. rewrite app_length. pose proof (literal_nonempty a). lia. }
    field (reads_list _ fs NF RF) E F.
    assert (reads (stable_option (fun r : ruby_type * ruby_type => let '(k, v) := r in stable_type k ++ stable_type v)) rest) as RR.
    { apply reads_option. intros [k v] ->. destruct (IHr k v eq_refl) as [Rk Rv]. intros [k' v'] r1 s1 F1 E1. norm E1 F1. field Rk E1 F1. field Rv E1 F1. auto. }
    field RR E F. destruct e, e'; try discriminate; destruct st, st'; try discriminate; injection E as ->; auto.
  - field (reads_list _ l type_nonempty IH) E F. auto.
  - auto.
Qed.

(** ** Templates and signatures *)
Section TemplateInd.
Variable P : template -> Prop.
Hypothesis c1 : forall t, P (Concrete t). Hypothesis c2 : P Receiver. Hypothesis c3 : forall n, P (Variable_ n).
Hypothesis c4 : forall t, P t -> P (TemplateArray t). Hypothesis c5 : forall k v, P k -> P v -> P (TemplateHash k v).
Hypothesis c6 : forall l, Forall P l -> P (TemplateUnion l). Hypothesis c7 : P Unconstrained.
Fixpoint template_ind' (t : template) : P t.
Proof.
  assert (forall l, Forall P l) as A by (induction l; constructor; [apply template_ind'|assumption]).
  destruct t; [apply c1|apply c2|apply c3|apply c4; apply template_ind'|apply c5; apply template_ind'|apply c6; apply A|apply c7].
Defined.
End TemplateInd.

Lemma template_nonempty : nonempty stable_template.
Proof. intros []; cbn; lia. Qed.
Lemma reads_template x : reads stable_template x.
Proof.
  induction x as [t| |n|t IH|k v IHk IHv|l IH|] using template_ind'; intros y r s F E;
    destruct y as [t'| |n'|t'|k' v'|l'|]; cbn [stable_template] in E, F; norm E F; try discriminate; tag E F; auto.
  - field (reads_type t) E F. auto.
  - field (reads_string n) E F. auto.
  - field IH E F. auto.
  - field IHk E F. field IHv E F. auto.
  - field (reads_list _ l template_nonempty IH) E F. auto.
Qed.

Lemma reads_all {A} (f : A -> stream) : nonempty f -> (forall x, reads f x) -> forall l, reads (stable_list f) l.
Proof. intros N R l. apply reads_list; auto. apply Forall_forall. auto. Qed.
Lemma reads_opt {A} (f : A -> stream) : (forall x, reads f x) -> forall o, reads (stable_option f) o.
Proof. intros R o. apply reads_option. auto. Qed.

Lemma signature_nonempty : nonempty stable_signature.
Proof. intros x. unfold stable_signature. rewrite app_length. pose proof (list_nonempty stable_string (receiver_parameters x)). unfold stable_strings. lia. Qed.
Lemma reads_signature x : reads stable_signature x.
Proof.
  intros y r s F E. destruct x as [a b c d e f g], y as [a' b' c' d' e' f' g']. unfold stable_signature in E, F.
  cbn [receiver_parameters type_parameters parameters block_parameters block_return block_required return_type] in E, F. norm E F.
  assert (forall l, reads (stable_list (fun p => stable_param_kind (fst p) ++ stable_template (snd p))) l) as RP.
  { apply reads_all; [intros [k t]; rewrite app_length; cbn; lia|]. intros [k t] [k' t'] r1 s1 F1 E1. cbn [fst snd] in E1, F1. norm E1 F1.
    field (reads_param_kind k) E1 F1. field (reads_template t) E1 F1. auto. }
  field (reads_strings a) E F. field (reads_strings b) E F. field (RP c) E F. field (reads_all _ template_nonempty reads_template d) E F.
  field (reads_template e) E F. field (reads_bool f) E F. field (reads_template g) E F. auto.
Qed.
Lemma reads_signatures x : reads stable_signatures x.
Proof. exact (reads_all _ signature_nonempty reads_signature x). Qed.

(** ** Callable bodies *)
Section BodyInd.
Variable P : body -> Prop.
Hypothesis c1 : forall t, P (BLiteral t). Hypothesis c2 : forall i, P (BParameter i). Hypothesis c3 : forall n, P (BCapture n).
Hypothesis c4 : forall l, Forall P l -> P (BArray l). Hypothesis c5 : forall l, Forall (fun f => P (snd f)) l -> P (BShape l).
Hypothesis c6 : forall r m a ks, P r -> Forall P a -> P (BCall r m a ks). Hypothesis c7 : forall l, Forall P l -> P (BUnion l).
Fixpoint body_ind' (t : body) : P t.
Proof.
  assert (forall l, Forall P l) as A by (induction l; constructor; [apply body_ind'|assumption]).
  assert (forall fs : list (literal * body), Forall (fun f => P (snd f)) fs) as B
    by (induction fs as [|[? ?] ?]; constructor; [apply body_ind'|assumption]).
  destruct t; [apply c1|apply c2|apply c3|apply c4; apply A|apply c5; apply B|apply c6; [apply body_ind'|apply A]|apply c7; apply A].
Defined.
End BodyInd.

Lemma body_nonempty : nonempty stable_body.
Proof. intros []; cbn; lia. Qed.
Lemma option_nonempty {A} (f : A -> stream) : nonempty (stable_option f).
Proof. intros []; cbn; lia. Qed.
Lemma reads_body x : reads stable_body x.
Proof.
  induction x as [t|i|n|l IH|l IH|rc m a ks IHr IHa|l IH] using body_ind'; intros y r s F E;
    destruct y as [t'|i'|n'|l'|l'|rc' m' a' ks'|l']; cbn [stable_body] in E, F; norm E F; try discriminate; tag E F.
  - field (reads_type t) E F. auto.
  - unfold stable_u64 in E. apply le_cut in E; [|apply (value_below i)|apply (value_below i')]. destruct E as [E ->]. apply bounded_eq in E. subst. auto.
  - field (reads_string n) E F. auto.
  - field (reads_list _ l body_nonempty IH) E F. auto.
  - assert (Forall (reads (fun f : literal * body => let '(k, v) := f in stable_literal k ++ stable_body v)) l) as RF.
    { eapply Forall_impl; [|exact IH]. intros [k v] R [k' v'] r1 s1 F1 E1. norm E1 F1. field (reads_literal k) E1 F1. field R E1 F1. auto. }
    assert (nonempty (fun f : literal * body => let '(k, v) := f in stable_literal k ++ stable_body v)) as NF.
    { intros [a b]. rewrite app_length. pose proof (literal_nonempty a). lia. }
    field (reads_list _ l NF RF) E F. auto.
  - field IHr E F. field (reads_string m) E F. field (reads_list _ a body_nonempty IHa) E F.
    field (reads_all _ (option_nonempty stable_literal) (reads_opt _ reads_literal) ks) E F. auto.
  - field (reads_list _ l body_nonempty IH) E F. auto.
Qed.

Lemma reads_summary x : reads stable_summary x.
Proof.
  intros y r s F E. destruct x as [a b c d e], y as [a' b' c' d' e']. unfold stable_summary in E, F.
  cbn [strict_arity b_params captures result node_count] in E, F. norm E F.
  assert (forall l, reads (stable_list (fun p : str * body_kind * option body => let '(n, k, d) := p in stable_string n ++ stable_body_kind k ++ stable_option stable_body d)) l) as RP.
  { apply reads_all; [intros [[n k] o]; rewrite app_length; pose proof (string_nonempty n); lia|]. intros [[n k] o] [[n' k'] o'] r1 s1 F1 E1. norm E1 F1.
    field (reads_string n) E1 F1. field (reads_body_kind k) E1 F1. field (reads_opt _ reads_body o) E1 F1. auto. }
  field (reads_bool a) E F. field (RP b) E F. field (reads_strings c) E F. field (reads_body d) E F. injection E as E ->. apply bounded_eq in E. subst. auto.
Qed.

(** ** The facts *)
Lemma reads_forwarded x : reads stable_forwarded x.
Proof.
  revert x. apply reads_opt. intros [a b] [a' b'] r s F E. cbn [fst snd] in E, F. norm E F. field (reads_string a) E F. field (reads_string b) E F. auto.
Qed.
Lemma reads_yield x : reads stable_yield x.
Proof. revert x. apply reads_opt, reads_strings. Qed.

Definition all_reasons : list reason := [NoReachingAssignment; UnresolvedAssignmentValue; AmbiguousReachingAssignment; UnknownReceiver; InvalidMethodName;
  UnresolvedMethodReturn; IncompleteUnionMember; UnprovenRecursiveCycle; ShapeBoundExceeded; MutableShapeInvalidated;
  UnsupportedCallable; IncompleteBlockInput; IncompleteBlockResult; IncompleteGenericSubstitution; AmbiguousCallableOverload;
  HigherOrderBoundExceeded; UnsupportedBlockFlow; UnsupportedCallableBody; IncompleteCallableInput; IncompleteCallableCapture;
  AmbiguousCallableValue; EscapedCallableValue; CallableBodyBoundExceeded; CallableRecursionUnsupported; UnsupportedCallableFlow].
Fixpoint same_values (a b : list N) : bool :=
  match a, b with [], [] => true | x :: a', y :: b' => (x =? y)%N && same_values a' b' | _, _ => false end.
Definition decode (s : list N) : option reason := find (fun r => same_values (map value (code r)) s) all_reasons.
Lemma code_inj a b : code a = code b -> a = b.
Proof.
  assert (forall r, decode (map value (code r)) = Some r) as D by (intros []; reflexivity).
  intros E. apply (f_equal (fun s => decode (map value s))) in E. rewrite !D in E. congruence.
Qed.

Lemma reads_base x : reads stable_base x.
Proof.
  intros y r s F E. destruct x as [|t|q], y as [|t'|q']; cbn [stable_base] in E, F; norm E F; try discriminate; tag E F; auto.
  - field (reads_type t) E F. auto.
  - destruct (reads_step _ _ _ _ _ (reads_string (code q)) F E) as (Q & -> & _). apply code_inj in Q. subst. auto.
Qed.

Lemma param_nonempty : nonempty stable_param.
Proof. intros x. unfold stable_param. rewrite app_length. pose proof (string_nonempty (p_name x)). lia. Qed.
Lemma reads_param x : reads stable_param x.
Proof.
  intros y r s F E. destruct x as [a b c d], y as [a' b' c' d']. unfold stable_param in E, F. cbn [p_name p_kind p_label p_doc] in E, F. norm E F.
  field (reads_string a) E F. field (reads_param_kind b) E F. field (reads_opt _ reads_string c) E F. field (reads_opt _ reads_string d) E F. auto.
Qed.

Lemma stream_reads f g r s : fits (stream_of f ++ r) -> stream_of f ++ r = stream_of g ++ s -> covered f = covered g /\ r = s.
Proof.
  intros F E. destruct f as [x|x|x|x|x|x|x|x|x], g as [y|y|y|y|y|y|y|y|y]; destruct x, y; cbn [stream_of] in E, F; try discriminate E;
    unfold symbol_stream, method_stream, override_stream, type_stream, equation_stream, callable_stream, node_stream, edge_stream, unresolved_stream in E, F;
    cbn [Fingerprint_Model.s_fqn Fingerprint_Model.s_kind Fingerprint_Model.m_fqn Fingerprint_Model.m_owner Fingerprint_Model.m_params Fingerprint_Model.m_param_facts Fingerprint_Model.m_delegate Fingerprint_Model.m_visibility Fingerprint_Model.m_availability Fingerprint_Model.m_documentation Fingerprint_Model.m_return_label Fingerprint_Model.m_signatures Fingerprint_Model.m_forwarded Fingerprint_Model.m_yield
      Fingerprint_Model.o_owner Fingerprint_Model.o_method Fingerprint_Model.o_visibility Fingerprint_Model.t_subject Fingerprint_Model.t_type Fingerprint_Model.t_provenance Fingerprint_Model.q_method Fingerprint_Model.q_base Fingerprint_Model.q_dependencies Fingerprint_Model.k_constant Fingerprint_Model.k_summary Fingerprint_Model.n_fqn Fingerprint_Model.n_kind
      Fingerprint_Model.e_source Fingerprint_Model.e_target Fingerprint_Model.e_kind Fingerprint_Model.e_provenance Fingerprint_Model.u_source Fingerprint_Model.u_parts Fingerprint_Model.u_absolute Fingerprint_Model.u_context Fingerprint_Model.u_kind Fingerprint_Model.u_provenance] in E, F; norm E F; tag E F.
  - field (reads_fqn s_fqn) E F. field (reads_symbol_kind s_kind) E F. auto.
  - field (reads_fqn m_fqn) E F. field (reads_fqn m_owner) E F. field (reads_strings m_params) E F. field (reads_all _ param_nonempty reads_param m_param_facts) E F.
    field (reads_opt _ reads_string m_delegate) E F. field (reads_visibility m_visibility) E F. field (reads_availability m_availability) E F.
    field (reads_opt _ reads_string m_documentation) E F. field (reads_opt _ reads_string m_return_label) E F. field (reads_signatures m_signatures) E F.
    field (reads_forwarded m_forwarded) E F. field (reads_yield m_yield) E F. auto.
  - field (reads_fqn o_owner) E F. field (reads_string o_method) E F. field (reads_visibility o_visibility) E F. auto.
  - field (reads_subject t_subject) E F. field (reads_type t_type) E F. field (reads_provenance t_provenance) E F. auto.
  - field (reads_fqn q_method) E F. field (reads_base q_base) E F. field (reads_all _ fqn_nonempty reads_fqn q_dependencies) E F. auto.
  - field (reads_fqn k_constant) E F. field (reads_summary k_summary) E F. auto.
  - field (reads_fqn n_fqn) E F. field (reads_node_kind n_kind) E F. auto.
  - field (reads_fqn e_source) E F. field (reads_fqn e_target) E F. field (reads_edge_kind e_kind) E F. field (reads_edge_provenance e_provenance) E F. auto.
  - field (reads_fqn u_source) E F. field (reads_strings u_parts) E F. field (reads_bool u_absolute) E F. field (reads_fqn u_context) E F.
    field (reads_edge_kind u_kind) E F. field (reads_edge_provenance u_provenance) E F. auto.
Qed.

(** The stream of a fact is that of what it covers. *)
Lemma stream_covered f : stream_of f = stream_of (covered f).
Proof. destruct f; reflexivity. Qed.

(** ** The hash *)
Definition inverse : N := 14886173955864302971.
Lemma mul_back x : (x < 2 ^ 64)%N -> ((x * prime mod 2 ^ 64) * inverse mod 2 ^ 64 = x)%N.
Proof.
  intros B. rewrite N.mul_mod_idemp_l by discriminate. rewrite <- N.mul_assoc. rewrite <- N.mul_mod_idemp_r by discriminate.
  assert (prime * inverse mod 2 ^ 64 = 1)%N as -> by reflexivity. rewrite N.mul_1_r. now apply N.mod_small.
Qed.

Lemma xor_back a b : N.lxor (N.lxor a b) b = a.
Proof. now rewrite N.lxor_assoc, N.lxor_nilpotent, N.lxor_0_r. Qed.

Lemma xor_below a b : (a < 2 ^ 64)%N -> (b < 2 ^ 64)%N -> (N.lxor a b < 2 ^ 64)%N.
Proof.
  intros A B. destruct (N.eq_dec (N.lxor a b) 0) as [->|NZ]; [reflexivity|].
  apply N.log2_lt_pow2; [lia|]. pose proof (N.log2_lxor a b) as L.
  assert (forall x, (x < 2 ^ 64)%N -> (N.log2 x < 64)%N) as Q.
  { intros x X. destruct (N.eq_dec x 0) as [->|]; [reflexivity|]. apply N.log2_lt_pow2; lia. }
  pose proof (Q a A). pose proof (Q b B). lia.
Qed.

Lemma mix_below s b : (mix s b < 2 ^ 64)%N.
Proof. apply N.mod_lt. discriminate. Qed.

Lemma mix_inj s b t c : (s < 2 ^ 64)%N -> (t < 2 ^ 64)%N -> (b < 256)%N -> (c < 256)%N -> mix s b = mix t c -> N.lxor s b = N.lxor t c.
Proof.
  intros S T B C E. unfold mix in E. apply (f_equal (fun x => (x * inverse mod 2 ^ 64)%N)) in E.
  assert (forall x, (x < 256)%N -> (x < 2 ^ 64)%N) as Q by (intros x X; eapply N.lt_trans; [exact X|reflexivity]).
  rewrite !mul_back in E by (apply xor_below; auto). exact E.
Qed.

Lemma lane_below seed s : (seed < 2 ^ 64)%N -> (lane seed s < 2 ^ 64)%N.
Proof. revert seed. induction s as [|b s IH]; intros seed B; cbn; auto. apply IH, mix_below. Qed.

Lemma lane_inj q : Forall (fun b => (b < 256)%N) q -> forall s t, (s < 2 ^ 64)%N -> (t < 2 ^ 64)%N -> lane s q = lane t q -> s = t.
Proof.
  induction 1 as [|b q B F IH]; intros s t HS HT E; auto. cbn in E. apply IH in E; try apply mix_below.
  apply mix_inj in E; auto. rewrite <- (xor_back s b), <- (xor_back t b), E. reflexivity.
Qed.

Lemma lane_change p a b q : forall seed, (seed < 2 ^ 64)%N -> (a < 256)%N -> (b < 256)%N -> Forall (fun b => (b < 256)%N) q -> a <> b ->
  lane seed (p ++ a :: q) <> lane seed (p ++ b :: q).
Proof.
  intros seed HS A B Q N E. unfold lane in E. rewrite !fold_left_app in E. cbn [fold_left] in E.
  apply (lane_inj q Q) in E; try apply mix_below. assert (fold_left mix p seed < 2 ^ 64)%N as L by now apply lane_below.
  apply mix_inj in E; auto. apply N. rewrite (N.lxor_comm _ a), (N.lxor_comm _ b) in E.
  rewrite <- (xor_back a (fold_left mix p seed)), <- (xor_back b (fold_left mix p seed)), E. reflexivity.
Qed.

(** ** Sorting and the final stream *)
Lemma pair_total a b : pair_le a b = true \/ pair_le b a = true.
Proof. unfold pair_le. rewrite !orb_true_iff, !andb_true_iff, !N.ltb_lt, !N.eqb_eq, !N.leb_le. lia. Qed.
Lemma pair_trans a b c : pair_le a b = true -> pair_le b c = true -> pair_le a c = true.
Proof. unfold pair_le. rewrite !orb_true_iff, !andb_true_iff, !N.ltb_lt, !N.eqb_eq, !N.leb_le. lia. Qed.
Lemma pair_antisym a b : pair_le a b = true -> pair_le b a = true -> a = b.
Proof.
  unfold pair_le. rewrite !orb_true_iff, !andb_true_iff, !N.ltb_lt, !N.eqb_eq, !N.leb_le. destruct a, b. cbn. intros. f_equal; lia.
Qed.

Lemma sort_same l l' : Permutation l l' -> sort pair_le l = sort pair_le l'.
Proof.
  intros P. apply sort_perm_eq; auto using pair_total. { exact pair_trans. }
  intros x y _ _ E. unfold eqv in E. apply andb_true_iff in E. destruct E. now apply pair_antisym.
Qed.

Lemma export_below s : (fst (export_hash s) < 2 ^ 64)%N /\ (snd (export_hash s) < 2 ^ 64)%N.
Proof. split; apply lane_below; reflexivity. Qed.

Definition lanes (h : N * N) : stream := stable_u64 (fst h) ++ stable_u64 (snd h).
Lemma lanes_length h : length (lanes h) = 16.
Proof. unfold lanes, stable_u64. rewrite app_length, !le_length. reflexivity. Qed.

Lemma lanes_list_inj l : forall l' , length l = length l' -> Forall (fun h => fst h < 2 ^ 64 /\ snd h < 2 ^ 64)%N l ->
  Forall (fun h => fst h < 2 ^ 64 /\ snd h < 2 ^ 64)%N l' -> flat_map lanes l = flat_map lanes l' -> l = l'.
Proof.
  induction l as [|[a b] l IH]; intros [|[c d] l'] L F F' E; cbn [length] in L; try discriminate; auto.
  cbn [flat_map] in E. apply app_cut in E; [|now rewrite !lanes_length]. destruct E as [E1 E2].
  inversion F as [|? ? [A B] F1]. inversion F' as [|? ? [C D] F2]. subst. cbn [fst snd] in *.
  unfold lanes, stable_u64 in E1. cbn [fst snd] in E1. apply app_cut in E1; [|now rewrite !le_length]. destruct E1 as [E1 E3].
  apply le_inj in E1; auto. apply le_inj in E3; auto. subst. f_equal. auto.
Qed.

Lemma final_inj l l' : fits (final_stream l) -> Forall (fun h => fst h < 2 ^ 64 /\ snd h < 2 ^ 64)%N l ->
  Forall (fun h => fst h < 2 ^ 64 /\ snd h < 2 ^ 64)%N l' -> final_stream l = final_stream l' -> Permutation l l'.
Proof.
  intros F B B' E.
  assert (sort pair_le l = sort pair_le l') as Q.
  { unfold final_stream, stable_list in *. fold lanes in *.
    change (fun h : N * N => stable_u64 (fst h) ++ stable_u64 (snd h)) with lanes in *.
    assert (forall x, length x <= length (flat_map lanes x)) as FL by (intros x; apply flat_long; intros h; rewrite lanes_length; lia).
    assert (forall x y, fits (x ++ flat_map lanes y) -> (N.of_nat (length y) < 2 ^ 64)%N) as G.
    { intros x y H. apply fits_app in H. unfold fits in H. specialize (FL y). lia. }
    pose proof (G _ _ F) as L1. rewrite E in F. pose proof (G _ _ F) as L2. unfold stable_len, stable_u64 in E. apply le_cut in E; [|exact L1|exact L2].
    destruct E as [L E]. apply Nat2N.inj in L. apply lanes_list_inj; auto.
    - eapply Permutation_Forall; [apply sort_perm|]. exact B.
    - eapply Permutation_Forall; [apply sort_perm|]. exact B'. }
  eapply perm_trans; [apply (sort_perm pair_le)|]. rewrite Q. apply Permutation_sym, sort_perm.
Qed.

(** ** Streams and exports *)
Lemma streams_exports {X Y} (f : file_facts X Y) : export_streams f = map stream_of (map covered (exports f)).
Proof.
  rewrite map_map. rewrite (map_ext _ stream_of) by (intros a; symmetry; apply stream_covered).
  unfold export_streams, exports. rewrite !map_app, !map_map. reflexivity.
Qed.

(** A list is recovered up to order from its image, if the function tells the members apart. *)
Lemma perm_unmap {A B} (f : A -> B) l : forall l', (forall x y, In x (l ++ l') -> In y (l ++ l') -> f x = f y -> x = y) ->
  Permutation (map f l) (map f l') -> Permutation l l'.
Proof.
  induction l as [|x l IH]; intros l' H P.
  - apply Permutation_nil in P. destruct l'; [constructor|discriminate].
  - cbn [map] in P. assert (In (f x) (map f l')) as I by (eapply Permutation_in; [exact P|left; reflexivity]).
    apply in_map_iff in I. destruct I as (y & E & I).
    assert (y = x) as -> by (apply H; auto; [apply in_or_app; right; auto|left; reflexivity]).
    apply in_split in I. destruct I as (a & b & ->). rewrite map_app in P. cbn [map] in P. apply Permutation_cons_app_inv in P. rewrite <- map_app in P.
    apply Permutation_cons_app. apply IH; auto. intros u v U V. apply H.
    + cbn. rewrite in_app_iff in *. rewrite in_app_iff in *. cbn. tauto.
    + cbn. rewrite in_app_iff in *. rewrite in_app_iff in *. cbn. tauto.
Qed.
