(** UTF-8 text as Rust's [str] sees it, shared by the models of positions, templates and tokens.

    A text is a list of Unicode scalar values.  [u8 c] and [u16 c] are char::len_utf8 and
    char::len_utf16, [enc] is the UTF-8 encoding; byte offsets and slices follow [str]. *)
From Coq Require Import List Arith NArith Lia Bool.
Import ListNotations.

Definition text := list N.
Local Open Scope N_scope.
(** A Unicode scalar value (Rust's [char]). *)
Definition scalar (c : N) : Prop := c < 55296 \/ 57344 <= c < 1114112.
Definition u8 (c : N) : nat := if c <? 128 then 1 else if c <? 2048 then 2 else if c <? 65536 then 3 else 4.
Definition u16 (c : N) : nat := if c <? 65536 then 1 else 2.
Definition enc (c : N) : list N :=
  if c <? 128 then [c]
  else if c <? 2048 then [192 + c / 64; 128 + c mod 64]
  else if c <? 65536 then [224 + c / 4096; 128 + (c / 64) mod 64; 128 + c mod 64]
  else [240 + c / 262144; 128 + (c / 4096) mod 64; 128 + (c / 64) mod 64; 128 + c mod 64].
Definition nl : N := 10.
Definition cr : N := 13.
Local Close Scope N_scope.

Fixpoint sum (l : list nat) : nat := match l with [] => 0 | x :: r => x + sum r end.
(** str::len and the number of UTF-16 units. *)
Definition size (t : text) : nat := sum (map u8 t).
Definition units (t : text) : nat := sum (map u16 t).
Definition bytes (t : text) : list N := flat_map enc t.

Lemma sum_app l m : sum (l ++ m) = sum l + sum m.
Proof. induction l; cbn; lia. Qed.
Lemma size_app a b : size (a ++ b) = size a + size b.
Proof. unfold size. now rewrite map_app, sum_app. Qed.
Lemma units_app a b : units (a ++ b) = units a + units b.
Proof. unfold units. now rewrite map_app, sum_app. Qed.
Lemma size_cons c t : size (c :: t) = u8 c + size t.
Proof. reflexivity. Qed.
Lemma units_cons c t : units (c :: t) = u16 c + units t.
Proof. reflexivity. Qed.
Lemma u8_pos c : 1 <= u8 c <= 4.
Proof. unfold u8. destruct (c <? 128)%N, (c <? 2048)%N, (c <? 65536)%N; lia. Qed.
Lemma u16_pos c : 1 <= u16 c <= 2.
Proof. unfold u16. destruct (c <? 65536)%N; lia. Qed.
Lemma u16_le_u8 c : u16 c <= u8 c.
Proof.
  unfold u16. destruct (N.ltb_spec c 65536) as [|H]; [apply u8_pos|].
  assert (u8 c = 4) as ->; [|lia]. unfold u8.
  destruct (N.ltb_spec c 128); [lia|]. destruct (N.ltb_spec c 2048); [lia|]. destruct (N.ltb_spec c 65536); [lia|auto].
Qed.
Lemma units_le_size t : units t <= size t.
Proof. induction t as [|c t IH]; [auto|]. rewrite units_cons, size_cons. pose proof (u16_le_u8 c). lia. Qed.
Lemma size_0 t : size t = 0 -> t = [].
Proof. destruct t as [|c t]; auto. rewrite size_cons. pose proof (u8_pos c). lia. Qed.
Lemma enc_length c : length (enc c) = u8 c.
Proof. unfold enc, u8. destruct (c <? 128)%N; [auto|]. destruct (c <? 2048)%N; [auto|]. now destruct (c <? 65536)%N. Qed.
Lemma bytes_length t : length (bytes t) = size t.
Proof. induction t as [|c t IH]; auto. unfold bytes in *. cbn [flat_map]. now rewrite app_length, IH, enc_length. Qed.
Lemma bytes_app a b : bytes (a ++ b) = bytes a ++ bytes b.
Proof. apply flat_map_app. Qed.
Lemma enc_ascii c : (c < 128)%N -> enc c = [c].
Proof. intros H. unfold enc. apply N.ltb_lt in H. now rewrite H. Qed.
Lemma enc_wide c : (128 <= c)%N -> forall b, In b (enc c) -> (128 <= b)%N.
Proof.
  intros H b. assert (forall k x, (128 <= k)%N -> (128 <= k + x)%N) as L by (intros; lia).
  unfold enc. destruct (N.ltb_spec c 128); [lia|].
  destruct (N.ltb_spec c 2048); [|destruct (N.ltb_spec c 65536)]; cbn [In].
  - intros [<-|[<-|[]]]; now apply L.
  - intros [<-|[<-|[<-|[]]]]; now apply L.
  - intros [<-|[<-|[<-|[<-|[]]]]]; now apply L.
Qed.

(** ** Slices: [&t[n..]] and [&t[..n]]; [None] is Rust's panic outside a character boundary. *)
Fixpoint from (t : text) (n : nat) : option text :=
  match n with
  | 0 => Some t
  | S _ => match t with [] => None | c :: r => if u8 c <=? n then from r (n - u8 c) else None end
  end.
Fixpoint upto (t : text) (n : nat) : option text :=
  match n with
  | 0 => Some []
  | S _ =>
      match t with
      | [] => None
      | c :: r => if u8 c <=? n then option_map (cons c) (upto r (n - u8 c)) else None
      end
  end.
Definition slice (t : text) (a b : nat) : option text :=
  match from t a with Some r => if a <=? b then upto r (b - a) else None | None => None end.
(** str::is_char_boundary. *)
Definition boundary (t : text) (n : nat) : bool := match from t n with Some _ => true | None => false end.

Lemma from_app a b : from (a ++ b) (size a) = Some b.
Proof.
  induction a as [|c a IH]; [now destruct b|]. rewrite size_cons. cbn [app]. pose proof (u8_pos c).
  destruct (u8 c + size a) as [|n] eqn:E; [lia|]. cbn [from]. destruct (Nat.leb_spec (u8 c) (S n)); [|lia].
  replace (S n - u8 c) with (size a) by lia. apply IH.
Qed.
Lemma from_some t : forall n r, from t n = Some r -> exists a, t = a ++ r /\ size a = n.
Proof.
  induction t as [|c t IH]; intros n r E; destruct n as [|n]; cbn [from] in E.
  - injection E as <-. now exists [].
  - discriminate.
  - injection E as <-. now exists [].
  - destruct (Nat.leb_spec (u8 c) (S n)); [|easy]. destruct (IH _ _ E) as (a & -> & Ha). exists (c :: a). split; auto.
    rewrite size_cons. lia.
Qed.
Lemma upto_app a b : upto (a ++ b) (size a) = Some a.
Proof.
  induction a as [|c a IH]; [now destruct b|]. rewrite size_cons. cbn [app]. pose proof (u8_pos c).
  destruct (u8 c + size a) as [|n] eqn:E; [lia|]. cbn [upto]. destruct (Nat.leb_spec (u8 c) (S n)); [|lia].
  replace (S n - u8 c) with (size a) by lia. now rewrite IH.
Qed.
Lemma slice_app a b c : slice (a ++ b ++ c) (size a) (size (a ++ b)) = Some b.
Proof.
  unfold slice. rewrite from_app, size_app. destruct (Nat.leb_spec (size a) (size a + size b)); [|lia].
  replace (size a + size b - size a) with (size b) by lia. apply upto_app.
Qed.
Lemma boundary_spec t n : boundary t n = true <-> exists a b, t = a ++ b /\ size a = n.
Proof.
  unfold boundary. split.
  - destruct (from t n) as [r|] eqn:E; [|easy]. intros _. destruct (from_some _ _ _ E) as (a & H1 & H2). eauto.
  - intros (a & b & -> & <-). now rewrite from_app.
Qed.
Lemma boundary_app a b : boundary (a ++ b) (size a) = true.
Proof. apply boundary_spec. eauto. Qed.

(** Two cuts of a text at the same offset are the same cut; the smaller offset is the shorter one. *)
Lemma cut_le t a b a' b' : t = a ++ b -> t = a' ++ b' -> size a <= size a' -> exists m, a' = a ++ m /\ b = m ++ b'.
Proof.
  revert t a'. induction a as [|c a IH]; intros t a' E E' H.
  - exists a'. cbn in *. split; auto. congruence.
  - destruct a' as [|c' a'].
    + rewrite size_cons in H. pose proof (u8_pos c). cbn in H. lia.
    + cbn in E, E'. subst t. injection E' as -> E'. rewrite !size_cons in H.
      destruct (IH (a ++ b) a' eq_refl E') as (m & -> & ->); [lia|]. now exists m.
Qed.
Lemma cut_eq t a b a' b' : t = a ++ b -> t = a' ++ b' -> size a = size a' -> a = a' /\ b = b'.
Proof.
  intros E E' H. destruct (cut_le t a b a' b' E E') as (m & -> & ->); [lia|].
  rewrite size_app in H. rewrite (size_0 m) by lia. now rewrite app_nil_r.
Qed.
