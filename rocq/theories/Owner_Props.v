(** C48: generated owners. *)
From Coq Require Import List Arith NArith ZArith Lia Bool.
From Verif Require Import Text_Lib Owner_Model.
Import ListNotations.

Lemma some_inj {A} (a b : A) : Some a = Some b -> a = b.
Proof. congruence. Qed.

(** ** Decimal numbers *)

Definition digit (c : N) : Prop := (48 <= c <= 57)%N.
Definition number (l : list N) : N := fold_left (fun a c => a * 10 + (c - 48))%N l 0%N.

Lemma digits_from_spec fuel : forall n, (N.to_nat n < fuel) -> Forall digit (digits_from fuel n) /\ digits_from fuel n <> [] /\ number (digits_from fuel n) = n.
Proof.
  induction fuel as [|f IH]; intros n L; [lia|]. cbn [digits_from]. destruct (N.ltb_spec n 10) as [H|H].
  - repeat split; [constructor; [unfold digit; lia|constructor]|discriminate|]. unfold number. cbn [fold_left]. lia.
  - assert (n / 10 < n)%N as D by (apply N.div_lt; [|reflexivity]; lia). destruct (IH (n / 10)%N) as (A & B & C); [clear - L D; revert D; generalize (n / 10)%N; intros q D; lia|].
    pose proof (N.mod_lt n 10 ltac:(discriminate)) as M. repeat split.
    + apply Forall_app. split; auto. constructor; [|constructor]. unfold digit. revert M. generalize (n mod 10)%N. intros m M. lia.
    + now destruct (digits_from f (n / 10)%N).
    + unfold number in *. rewrite fold_left_app, C. cbn [fold_left]. pose proof (N.div_mod n 10 ltac:(discriminate)) as Q. revert M Q. generalize (n mod 10)%N (n / 10)%N. intros m q M Q. lia.
Qed.
Lemma digits_spec n : Forall digit (digits n) /\ digits n <> [] /\ number (digits n) = N.of_nat n.
Proof. apply digits_from_spec. lia. Qed.
Lemma digits_no_colon n : ~ In COLON (digits n).
Proof. intros H. destruct (digits_spec n) as (A & _). rewrite Forall_forall in A. specialize (A _ H). unfold digit, COLON in A. lia. Qed.
Lemma digits_inj n m : digits n = digits m -> n = m.
Proof. intros E. destruct (digits_spec n) as (_ & _ & A), (digits_spec m) as (_ & _ & B). rewrite E in A. lia. Qed.

Lemma fold_ge l : forall a, Forall digit l -> (a <= fold_left (fun a c => a * 10 + (c - 48)) l a)%N.
Proof. induction l as [|c l IH]; intros a H; cbn [fold_left]; [lia|]. pose proof (IH (a * 10 + (c - 48))%N (Forall_inv_tail H)). lia. Qed.
Lemma value_ok l : forall a, Forall digit l -> (fold_left (fun a c => a * 10 + (c - 48)) l a <= 18446744073709551615)%N ->
  value a l = Some (fold_left (fun a c => a * 10 + (c - 48))%N l a).
Proof.
  induction l as [|c l IH]; intros a H L; cbn [value fold_left] in *; auto. pose proof (Forall_inv H) as D. unfold digit in D.
  destruct (N.leb_spec 48 c); [|lia]. destruct (N.leb_spec c 57); [|lia]. cbn [andb].
  pose proof (fold_ge l (a * 10 + (c - 48))%N (Forall_inv_tail H)).
  destruct (N.leb_spec (a * 10 + (c - 48))%N 18446744073709551615); [|lia]. apply IH; auto. apply (Forall_inv_tail H).
Qed.
Lemma parse_digits n : (N.of_nat n <= 4096)%N -> parse_usize (digits n) = Some (N.of_nat n).
Proof.
  intros L. destruct (digits_spec n) as (A & B & C). unfold parse_usize. destruct (digits n) as [|c l]; [easy|].
  pose proof (Forall_inv A) as D. unfold digit in D. destruct (N.eqb_spec c 43); [lia|]. unfold number in C.
  rewrite value_ok; auto; rewrite C; [reflexivity|lia].
Qed.

Lemma until_colon_here d r : ~ In COLON d -> until_colon (d ++ COLON :: r) = Some (d, r).
Proof.
  induction d as [|c d IH]; intros H; [reflexivity|]. cbn. destruct (N.eqb_spec c COLON) as [->|]; [exfalso; apply H; now left|].
  rewrite IH; auto. intros K. apply H. now right.
Qed.

(** ** Components *)

Lemma component_ok_iff c : component_ok c = true <-> c <> [] /\ (N.of_nat (length c) <= 4096)%N.
Proof.
  unfold component_ok. destruct c as [|x c].
  - cbn. split; [discriminate|]. intros [H _]. now exfalso.
  - cbn [negb andb]. rewrite N.leb_le. split; [intros H; split; [discriminate|auto]|tauto].
Qed.
Lemma part_app c d r s : part c ++ r = part d ++ s -> c = d /\ r = s.
Proof.
  unfold part. rewrite <- !app_assoc. cbn [app]. intros E.
  assert (until_colon (digits (length c) ++ COLON :: c ++ r) = until_colon (digits (length d) ++ COLON :: d ++ s)) as U by now rewrite E.
  rewrite !until_colon_here in U by apply digits_no_colon. injection U as U1 U2. apply digits_inj in U1.
  clear E. revert d U1 U2. induction c as [|x c IH]; intros [|y d] L U; try discriminate; auto. cbn in *. injection U as -> U. apply Nat.succ_inj in L.
  destruct (IH _ L U) as [-> ->]. auto.
Qed.

(** A new identity exists exactly for three non-empty components of at most 4096 bytes. *)
Theorem C48_valid : forall e s l, owner_id e s l <> None <->
  Forall (fun c => c <> [] /\ (N.of_nat (length c) <= 4096)%N) [e; s; l].
Proof.
  intros e s l. unfold owner_id. rewrite !Forall_cons_iff, <- !component_ok_iff.
  destruct (component_ok e), (component_ok s), (component_ok l); cbn [andb]; split; intros H; auto; try easy; try (now exfalso; apply H);
    repeat split; auto.
Qed.
Print Assumptions C48_valid.

(** C48: two identities are equal exactly when all components are. *)
Theorem C48_injective : forall e s l e' s' l' k k', owner_id e s l = Some k -> owner_id e' s' l' = Some k' ->
  (k = k' <-> e = e' /\ s = s' /\ l = l').
Proof.
  intros e s l e' s' l' k k'. unfold owner_id. destruct (_ && _); [|discriminate]. destruct (_ && _); [|discriminate].
  intros A B. apply some_inj in A, B. subst k k'. split; [|intros (-> & -> & ->); reflexivity].
  intros E. apply app_inv_head in E. apply part_app in E. destruct E as [-> E]. apply part_app in E. destruct E as [-> E].
  rewrite <- (app_nil_r (part l)), <- (app_nil_r (part l')) in E. apply part_app in E. tauto.
Qed.
Print Assumptions C48_injective.

Lemma strip_here p r : strip_prefix p (p ++ r) = Some r.
Proof. induction p as [|x p IH]; cbn; auto. now rewrite N.eqb_refl. Qed.
Lemma strip_some p l r : strip_prefix p l = Some r -> l = p ++ r.
Proof.
  revert l. induction p as [|x p IH]; intros l E; cbn in E; [cbn; congruence|]. destruct l as [|y l]; [discriminate|].
  destruct (N.eqb_spec x y) as [->|]; [|discriminate]. cbn. f_equal. auto.
Qed.

(** C48: a source constant is never a generated owner. *)
Theorem C48_no_constant : forall xid_start xid_continue uppercase name c e s l k,
  xid_start 0%N = false -> constant xid_start xid_continue uppercase name = Some c -> owner_id e s l = Some k ->
  generated_owner k = Some k /\ c <> k /\ is_generated c = false.
Proof.
  intros xs xc up name c e s l k H0 C K.
  assert (is_generated k = true) as G.
  { unfold owner_id in K. destruct (_ && _); [|discriminate]. apply some_inj in K. subst k. unfold is_generated. now rewrite strip_here. }
  assert (is_generated c = false) as NC.
  { destruct name as [|x r]; [discriminate|]. cbn [constant] in C. destruct (xs x) eqn:X; [|discriminate]. cbn [andb] in C.
    destruct (up x && forallb xc r); [|discriminate]. injection C as <-. change (bytes (x :: r)) with (enc x ++ bytes r). unfold is_generated.
    destruct (N.ltb_spec x 128) as [L|L].
    - rewrite (enc_ascii x L). cbn [app prefix strip_prefix]. destruct (N.eqb_spec 0 x) as [<-|]; [congruence|reflexivity].
    - pose proof (enc_wide x L) as W. pose proof (enc_length x) as EL. pose proof (u8_pos x).
      destruct (enc x) as [|y t]; [cbn in EL; lia|]. specialize (W y (or_introl eq_refl)). cbn [app prefix strip_prefix].
      destruct (N.eqb_spec 0 y) as [<-|]; [lia|reflexivity]. }
  split; [unfold generated_owner; now rewrite G|]. split; [intros ->; congruence|exact NC].
Qed.
Print Assumptions C48_no_constant.

Lemma take_part c r : component_ok c = true -> char_boundary (c ++ r) (length c) = true -> take_component (part c ++ r) = Some (c, r).
Proof.
  intros H B. apply component_ok_iff in H. destruct H as [H1 H2]. unfold take_component, part. rewrite <- app_assoc. cbn [app].
  rewrite until_colon_here by apply digits_no_colon. rewrite parse_digits by auto.
  destruct (N.eqb_spec (N.of_nat (length c)) 0) as [E|_]; [destruct c; [easy|cbn in E; lia]|].
  destruct (N.ltb_spec 4096 (N.of_nat (length c))); [lia|]. cbn [orb]. rewrite Nat2N.id.
  destruct (Nat.ltb_spec (length (c ++ r)) (length c)) as [L|_]; [rewrite app_length in L; lia|]. rewrite B. cbn [orb negb].
  rewrite firstn_app, skipn_app, Nat.sub_diag, firstn_all, skipn_all. cbn. now rewrite app_nil_r.
Qed.
Lemma boundary_end c : char_boundary c (length c) = true.
Proof. unfold char_boundary. rewrite (proj2 (nth_error_None c (length c))) by auto. apply Nat.eqb_refl. Qed.
Lemma boundary_part c d r : char_boundary (c ++ part d ++ r) (length c) = true.
Proof.
  unfold char_boundary. rewrite nth_error_app2, Nat.sub_diag by lia. unfold part. destruct (digits_spec (length d)) as (A & B & _).
  destruct (digits (length d)) as [|x l]; [easy|]. cbn. pose proof (Forall_inv A) as D. unfold digit in D.
  destruct (N.leb_spec 128 x); [lia|]. reflexivity.
Qed.

(** C48: the canonical parser recovers the components of an identity, and accepts nothing else. *)
Theorem C48_recovered : forall e s l k, owner_id e s l = Some k ->
  (exists r, strip_prefix prefix k = Some r /\ take_components r = Some (e, s, l, [])) /\ from_canonical k = Some k.
Proof.
  intros e s l k K. assert (component_ok e = true /\ component_ok s = true /\ component_ok l = true /\ k = prefix ++ part e ++ part s ++ part l) as (A & B & C & E).
  { unfold owner_id in K. destruct (component_ok e), (component_ok s), (component_ok l); try discriminate. apply some_inj in K. auto. }
  assert (take_components (part e ++ part s ++ part l) = Some (e, s, l, [])) as T.
  { unfold take_components. rewrite take_part by (auto; apply boundary_part). rewrite take_part.
    - rewrite <- (app_nil_r (part l)). rewrite take_part; auto. rewrite app_nil_r. apply boundary_end.
    - auto.
    - rewrite <- (app_nil_r (part l)). apply boundary_part. }
  split.
  - exists (part e ++ part s ++ part l). rewrite E, strip_here. auto.
  - unfold from_canonical. rewrite E at 1. rewrite strip_here, T, K. destruct (list_eq_dec N.eq_dec k k); easy.
Qed.
Print Assumptions C48_recovered.
Theorem C48_canonical_only : forall i k, from_canonical i = Some k -> i = k /\ exists e s l, owner_id e s l = Some k.
Proof.
  intros i k. unfold from_canonical. destruct (strip_prefix prefix i) as [r|]; [|discriminate].
  destruct (take_components r) as [[[[a b] c] [|]]|]; try discriminate. destruct (owner_id a b c) as [k'|] eqn:K; [|discriminate].
  destruct (list_eq_dec N.eq_dec k' i) as [<-|]; [|discriminate]. intros E. injection E as <-. eauto.
Qed.
Print Assumptions C48_canonical_only.

(** ** Witness: ("a", "bc", "d") and ("ab", "c", "d"). *)
Example C48_sample : owner_id [97]%N [98; 99]%N [100]%N = Some (prefix ++ [49; 58; 97; 50; 58; 98; 99; 49; 58; 100])%N /\
  owner_id [97; 98]%N [99]%N [100]%N = Some (prefix ++ [50; 58; 97; 98; 49; 58; 99; 49; 58; 100])%N /\
  digits 4096 = [52; 48; 57; 54]%N.
Proof. repeat split; vm_compute; reflexivity. Qed.
(** Lengths written otherwise are refused: [+1:a1:b1:c]. *)
Example C48_refused : take_components ([43; 49; 58; 97; 49; 58; 98; 49; 58; 99])%N = Some ([97], [98], [99], [])%N /\
  from_canonical (prefix ++ [43; 49; 58; 97; 49; 58; 98; 49; 58; 99])%N = None.
Proof. split; vm_compute; reflexivity. Qed.
