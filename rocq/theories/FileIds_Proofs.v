(** Proofs about file ids. *)
From Coq Require Import List Arith NArith Lia Bool.
From Verif Require Import FileIds_Model FileIds_Spec.
Import ListNotations.

Lemma split_nonempty p : split p <> [].
Proof. destruct p as [|c p]; cbn; [easy|]. destruct (c =? SLASH)%N; [easy|]. destruct (split p); easy. Qed.
Lemma split_whole s : ~ In SLASH s -> split s = [s].
Proof.
  induction s as [|c s IHs]; intros Hs; auto. cbn. destruct (N.eqb_spec c SLASH) as [->|]; [exfalso; apply Hs; now left|].
  rewrite IHs; auto. intros H. apply Hs. now right.
Qed.
Lemma split_slash s p : ~ In SLASH s -> split (s ++ SLASH :: p) = s :: split p.
Proof.
  induction s as [|c s IHs]; intros Hs; auto. cbn. destruct (N.eqb_spec c SLASH) as [->|]; [exfalso; apply Hs; now left|].
  rewrite IHs; auto. intros H. apply Hs. now right.
Qed.
Lemma split_flat s ss : ~ In SLASH s -> Forall (fun t => ~ In SLASH t) ss ->
  split (s ++ flat_map (fun t => SLASH :: t) ss) = s :: ss.
Proof.
  revert s. induction ss as [|t ss IH]; intros s Hs HF; cbn [flat_map].
  - rewrite app_nil_r. now apply split_whole.
  - change ((SLASH :: t) ++ flat_map (fun t0 => SLASH :: t0) ss) with (SLASH :: t ++ flat_map (fun t0 => SLASH :: t0) ss).
    rewrite split_slash by auto. f_equal. apply IH; [apply (Forall_inv HF)|apply (Forall_inv_tail HF)].
Qed.
Lemma split_clean p : Forall (fun t => ~ In SLASH t) (split p).
Proof.
  induction p as [|c p IH]; cbn; [constructor; auto|]. destruct (N.eqb_spec c SLASH) as [->|E]; [constructor; auto|].
  destruct (split p) as [|s ss]; [constructor; auto; cbn; intros [H|H]; auto|]. inversion IH; subst. constructor; auto.
  intros [H|H]; auto.
Qed.
Lemma split_join p : exists s ss, split p = s :: ss /\ p = s ++ flat_map (fun t => SLASH :: t) ss.
Proof.
  induction p as [|c p IH]; [exists [], []; auto|]. destruct IH as (s & ss & E & ->). cbn [split].
  destruct (N.eqb_spec c SLASH) as [->|H].
  - exists [], (s :: ss). now rewrite E.
  - rewrite E. exists (c :: s), ss. auto.
Qed.

(** Components that are not the first. *)
Definition proper (c : component) : Prop :=
  match c with
  | ParentDir => True
  | Normal s => s <> [] /\ s <> [DOT] /\ s <> [DOT; DOT] /\ ~ In SLASH s
  | _ => False
  end.
Lemma body_proper p : Forall proper (flat_map body (split p)).
Proof.
  pose proof (split_clean p) as H. induction H as [|s ss H1 H2 IH]; [constructor|]. cbn [flat_map]. apply Forall_app. split; auto.
  unfold body. destruct (bytes_dec s []); [constructor|]. destruct (bytes_dec s [DOT]); [constructor|].
  destruct (bytes_dec s [DOT; DOT]); constructor; cbn; auto.
Qed.
Lemma proper_text c : proper c -> as_os_str c <> [] /\ ~ In SLASH (as_os_str c) /\ body (as_os_str c) = [c] /\ (hd 0 (as_os_str c) =? SLASH)%N = false /\
  as_os_str c <> [DOT].
Proof.
  assert (forall s, s <> [] -> ~ In SLASH s -> (hd 0 s =? SLASH)%N = false) as HH.
  { intros [|x s] N1 N2; [easy|]. cbn [hd]; apply N.eqb_neq. intros ->. apply N2. now left. }
  destruct c as [| | |s]; cbn [proper as_os_str]; [easy|easy| |].
  - intros _. repeat split; try discriminate. intros [E|[E|[]]]; discriminate.
  - intros (A & B & C & D). repeat split; auto. unfold body. destruct (bytes_dec s []); [easy|]. destruct (bytes_dec s [DOT]); [easy|].
    destruct (bytes_dec s [DOT; DOT]); easy.
Qed.
Lemma last_clean (a s : list N) : s <> [] -> ~ In SLASH s -> (last (a ++ s) 0 =? SLASH)%N = false.
Proof.
  intros N1 N2. destruct s as [|x s _] using rev_ind; [easy|]. rewrite app_assoc, last_last. apply N.eqb_neq. intros ->. apply N2.
  apply in_or_app. right. now left.
Qed.
Lemma push_all cs : Forall proper cs -> forall buf, buf <> [] -> (last buf 0 =? SLASH)%N = false ->
  fold_left push cs buf = buf ++ flat_map (fun t => SLASH :: t) (List.map as_os_str cs).
Proof.
  intros H. induction H as [|c cs H1 H2 IH]; intros buf NB HL; [symmetry; apply app_nil_r|].
  destruct (proper_text c H1) as (A & B & _ & D & _). cbn [fold_left List.map flat_map].
  assert (push buf c = buf ++ SLASH :: as_os_str c) as ->.
  { unfold push. rewrite D. destruct buf; [easy|]. now rewrite HL. }
  rewrite IH, <- app_assoc; auto.
  - now destruct buf.
  - change (buf ++ SLASH :: as_os_str c) with (buf ++ [SLASH] ++ as_os_str c). rewrite app_assoc. now apply last_clean.
Qed.
Lemma body_all cs : Forall proper cs -> flat_map body (List.map as_os_str cs) = cs.
Proof. intros H. induction H as [|c cs H1 H2 IH]; auto. cbn. rewrite IH. destruct (proper_text c H1) as (_ & _ & -> & _). reflexivity. Qed.
Lemma text_clean cs : Forall proper cs -> Forall (fun t => ~ In SLASH t) (List.map as_os_str cs).
Proof. intros H. induction H as [|c cs H1 H2 IH]; constructor; auto. apply (proper_text c H1). Qed.

Lemma head_cases p : head p = [] \/ head p = [RootDir] \/ head p = [CurDir].
Proof. unfold head. destruct p; auto. destruct (_ =? _)%N; auto. destruct (bytes_dec _ _); auto. Qed.

(** Reading a normalized path gives the components it was made of. *)
Lemma components_normalize p : components (normalize p) = components p.
Proof.
  unfold normalize. unfold components at 2 3. pose proof (body_proper p) as HP. set (cs := flat_map body (split p)) in *. clearbody cs.
  destruct (head_cases p) as [-> | [-> | ->]]; cbn [app fold_left].
  - destruct HP as [|c cs H1 H2]; [reflexivity|]. destruct (proper_text c H1) as (A & B & C & D & F). cbn [fold_left].
    assert (push [] c = as_os_str c) as -> by (unfold push; now rewrite D).
    rewrite push_all; auto; [|now apply (last_clean [])]. unfold components. rewrite split_flat by (auto using text_clean).
    cbn [flat_map]. rewrite C, body_all by auto. enough (head (as_os_str c ++ flat_map (fun t => SLASH :: t) (List.map as_os_str cs)) = []) as -> by reflexivity.
    unfold head. destruct (as_os_str c) as [|x s] eqn:E; [easy|]. cbn [app]. cbn [hd] in D. rewrite D.
    change (x :: s ++ flat_map (fun t => SLASH :: t) (List.map as_os_str cs)) with ((x :: s) ++ flat_map (fun t => SLASH :: t) (List.map as_os_str cs)).
    rewrite split_flat by (auto using text_clean). cbn [hd]. destruct (bytes_dec (x :: s) [DOT]); [congruence|reflexivity].
  - change (push [] RootDir) with [SLASH]. destruct HP as [|c cs H1 H2]; [reflexivity|]. destruct (proper_text c H1) as (A & B & C & D & F). cbn [fold_left].
    assert (push [SLASH] c = SLASH :: as_os_str c) as -> by (unfold push; now rewrite D).
    rewrite push_all; auto; [|discriminate|now apply (last_clean [SLASH])].
    unfold components. unfold head. cbn [app]. rewrite N.eqb_refl. cbn [split]. rewrite N.eqb_refl.
    rewrite split_flat by (auto using text_clean). cbn [flat_map]. rewrite C, body_all by auto. reflexivity.
  - change (push [] CurDir) with [DOT]. rewrite push_all; auto; [|discriminate].
    unfold components. rewrite split_flat by (auto using text_clean; intros [E|[]]; discriminate). cbn [flat_map]. rewrite body_all by auto.
    enough (head ([DOT] ++ flat_map (fun t => SLASH :: t) (List.map as_os_str cs)) = [CurDir]) as -> by reflexivity.
    unfold head. cbn [app]. change (DOT =? SLASH)%N with false. cbn iota.
    change (DOT :: flat_map (fun t => SLASH :: t) (List.map as_os_str cs)) with ([DOT] ++ flat_map (fun t => SLASH :: t) (List.map as_os_str cs)).
    rewrite split_flat by (auto using text_clean; intros [E|[]]; discriminate). reflexivity.
Qed.

Lemma same_path_iff p q : same_path p q = true <-> components p = components q.
Proof. unfold same_path. destruct (list_eq_dec component_dec (components p) (components q)); split; auto; easy. Qed.

(** ** The map *)

Definition sound (m : map) (h : list (list N)) : Prop :=
  (forall p i, find_path m p = Some i -> exists q, path m i = Some q /\ components q = components p) /\
  (forall i q, path m i = Some q -> find_path m q = Some i) /\
  (forall i q, path m i = Some q -> (i < next_id m)%N) /\
  (forall p, (exists i, find_path m p = Some i) <-> exists q, In q h /\ components q = components p) /\
  next_id m = N.of_nat (length (by_path m)).

Lemma find_path_ext m p q : components p = components q -> find_path m p = find_path m q.
Proof.
  intros E. unfold find_path. f_equal. induction (by_path m) as [|e l IH]; auto. cbn.
  assert (same_path (fst e) p = same_path (fst e) q) as ->.
  { apply eq_true_iff_eq. rewrite !same_path_iff, E. reflexivity. }
  now rewrite IH.
Qed.

Lemma sound_new : sound new [].
Proof. repeat split; cbn; try discriminate. - intros (i & H). discriminate. - intros (q & [] & _). Qed.

Lemma sound_step m h p i m' : sound m h -> get_or_insert m p = Some (i, m') ->
  sound m' (h ++ [p]) /\ find_path m' p = Some i /\ (forall q j, find_path m q = Some j -> find_path m' q = Some j).
Proof.
  intros (S1 & S2 & S3 & S4 & S5) E. unfold get_or_insert in E.
  destruct (find_path m (normalize p)) as [j|] eqn:F.
  - injection E as <- <-. assert (find_path m p = Some j) as Fp by (rewrite <- F; symmetry; apply find_path_ext, components_normalize).
    split; [|auto]. split; [exact S1|]. split; [exact S2|]. split; [exact S3|]. split; [|exact S5]. intros q. rewrite S4. split.
    + intros (r & Hr & Er). exists r. split; auto. apply in_or_app. auto.
    + intros (r & Hr & Er). apply in_app_or in Hr. destruct Hr as [Hr|[<-|[]]]; [eauto|]. apply S4. exists j. now rewrite (find_path_ext m q p).
  - destruct (next_id m + 1 <=? 4294967295)%N; [|discriminate]. injection E as <- <-.
    assert (forall q, find_path (mkMap ((normalize p, next_id m) :: by_path m) ((next_id m, normalize p) :: by_id m) (next_id m + 1)) q =
              if list_eq_dec component_dec (components p) (components q) then Some (next_id m) else find_path m q) as FP.
    { intros q. unfold find_path. cbn [by_path find fst]. destruct (same_path (normalize p) q) eqn:SP.
      - apply same_path_iff in SP. rewrite components_normalize in SP. destruct (list_eq_dec _ _ _); easy.
      - destruct (list_eq_dec component_dec (components p) (components q)) as [e|]; auto.
        rewrite <- components_normalize in e. apply same_path_iff in e. congruence. }
    assert (forall j, path (mkMap ((normalize p, next_id m) :: by_path m) ((next_id m, normalize p) :: by_id m) (next_id m + 1)) j =
              if (next_id m =? j)%N then Some (normalize p) else path m j) as PP.
    { intros j. unfold path. cbn [by_id find fst]. now destruct (next_id m =? j)%N. }
    assert (find_path m p = None) as Fp by (rewrite <- F; symmetry; apply find_path_ext, components_normalize).
    split; [split; [|split; [|split; [|split]]]|split].
    + intros q j. rewrite FP, PP. destruct (list_eq_dec component_dec (components p) (components q)) as [e|ne].
      * intros H. injection H as <-. rewrite N.eqb_refl. exists (normalize p). rewrite components_normalize. auto.
      * intros H. destruct (S1 _ _ H) as (r & Hr & Er). specialize (S3 _ _ Hr). destruct (N.eqb_spec (next_id m) j); [lia|]. eauto.
    + intros j q. rewrite PP, FP. destruct (N.eqb_spec (next_id m) j) as [<-|NE].
      * intros H. injection H as <-. rewrite components_normalize. destruct (list_eq_dec _ _ _); easy.
      * intros H. specialize (S2 _ _ H). destruct (list_eq_dec component_dec (components p) (components q)) as [e|]; auto.
        rewrite (find_path_ext m q p) in S2 by auto. congruence.
    + intros j q. rewrite PP. cbn [next_id]. destruct (N.eqb_spec (next_id m) j) as [<-|NE]; [lia|]. intros H. specialize (S3 _ _ H). lia.
    + intros q. rewrite FP. destruct (list_eq_dec component_dec (components p) (components q)) as [e|ne].
      * split; [|eauto]. intros _. exists p. split; auto. apply in_or_app. right. now left.
      * rewrite S4. split; intros (r & Hr & Er); exists r; (split; [|exact Er]).
        -- apply in_or_app. auto.
        -- apply in_app_or in Hr. destruct Hr as [Hr|[<-|[]]]; congruence.
    + cbn [next_id by_path length]. lia.
    + rewrite FP. destruct (list_eq_dec _ _ _); easy.
    + intros q j H. rewrite FP. destruct (list_eq_dec component_dec (components p) (components q)) as [e|]; auto.
      rewrite (find_path_ext m q p) in H by auto. congruence.
Qed.

Lemma sound_run h2 : forall m h m', sound m h -> run m h2 = Some m' ->
  sound m' (h ++ h2) /\ (forall q j, find_path m q = Some j -> find_path m' q = Some j).
Proof.
  induction h2 as [|p h2 IH]; intros m h m' HS E; cbn in E.
  - injection E as <-. rewrite app_nil_r. auto.
  - destruct (get_or_insert m p) as [[i m1]|] eqn:G; [|discriminate]. destruct (sound_step _ _ _ _ _ HS G) as (A & _ & C).
    destruct (IH _ _ _ A E) as (D & F). rewrite <- app_assoc in D. auto.
Qed.

(** ** Spelling *)

Lemma written_flat p ss : written p ss -> exists s r, ss = s :: r /\ p = s ++ flat_map (fun t => SLASH :: t) r /\
  ~ In SLASH s /\ Forall (fun t => ~ In SLASH t) r.
Proof.
  intros H. induction H as [s N1|s p ss N1 H (t & r & -> & -> & N2 & N3)].
  - exists s, []. cbn. rewrite app_nil_r. auto.
  - exists s, (t :: r). cbn. auto.
Qed.
Lemma written_split p ss : written p ss <-> split p = ss.
Proof.
  split.
  - intros H. destruct (written_flat _ _ H) as (s & r & -> & -> & A & B). now apply split_flat.
  - intros <-. induction p as [|c p IH]; [constructor; auto|]. cbn. destruct (N.eqb_spec c SLASH) as [->|E].
    + apply (more [] p); auto.
    + assert (forall ss, written p ss -> match ss with s :: r => written (c :: p) ((c :: s) :: r) | [] => False end) as W; [|now apply W in IH; destruct (split p)].
      intros ss [s H|s q r H H']; [constructor|apply (more (c :: s)); auto]; intros [H1|H1]; auto.
Qed.
Lemma names_body ss ns : names ss ns -> forall ts, names ts ns -> flat_map body ss = flat_map body ts.
Proof.
  assert (forall ss ns, names ss ns -> flat_map body ss = flat_map body ns) as H.
  { intros a b H. induction H as [|s a b I H IH|s a b I H IH]; auto; cbn; rewrite IH; auto. unfold body.
    destruct I as [->| ->]; reflexivity. }
  intros A ts B. now rewrite (H _ _ A), (H _ _ B).
Qed.
Lemma names_exist ss : exists ns, names ss ns.
Proof.
  induction ss as [|s ss (ns & H)]; [exists []; constructor|].
  destruct (bytes_dec s []) as [->|A]; [exists ns; constructor; [now left|auto]|].
  destruct (bytes_dec s [DOT]) as [->|B]; [exists ns; constructor; [now right|auto]|].
  exists (s :: ns). apply keep; auto. intros [H1|H1]; auto.
Qed.
Lemma names_text ss ns : Forall (fun t => ~ In SLASH t) ss -> names ss ns -> ns = List.map as_os_str (flat_map body ss).
Proof.
  intros HF H. induction H as [|s a b I H IH|s a b I H IH]; auto; pose proof (Forall_inv_tail HF); cbn; rewrite map_app, <- IH by auto.
  - unfold body. destruct I as [->| ->]; reflexivity.
  - unfold body. destruct (bytes_dec s []) as [->|]; [exfalso; apply I; now left|]. destruct (bytes_dec s [DOT]) as [->|]; [exfalso; apply I; now right|].
    destruct (bytes_dec s [DOT; DOT]) as [->|]; reflexivity.
Qed.
Lemma components_split p q : components p = components q <-> head p = head q /\ flat_map body (split p) = flat_map body (split q).
Proof.
  unfold components. split; [|intros [-> ->]; reflexivity]. intros E.
  pose proof (body_proper p) as A. pose proof (body_proper q) as B.
  assert (forall l c r, Forall proper l -> l = c :: r -> c <> RootDir /\ c <> CurDir) as NP.
  { intros l c r F ->. apply Forall_inv in F. split; intros ->; exact F. }
  destruct (head_cases p) as [P|[P|P]], (head_cases q) as [Q|[Q|Q]]; rewrite P, Q in *; cbn [app] in E;
    try (injection E as ->; auto); auto; try discriminate;
    try (apply NP in E; [|assumption]; easy); try (symmetry in E; apply NP in E; [|assumption]; easy).
Qed.
Lemma head_same p q : head p = head q <-> (hd 0%N p = SLASH <-> hd 0%N q = SLASH) /\ (hd [] (split p) = [DOT] <-> hd [] (split q) = [DOT]).
Proof.
  assert (forall p, head p = if (hd 0 p =? SLASH)%N then [RootDir] else if bytes_dec (hd [] (split p)) [DOT] then [CurDir] else []) as H.
  { intros [|c r]; auto. }
  assert (forall p, hd 0%N p = SLASH -> hd [] (split p) <> [DOT]) as X.
  { intros [|c r]; cbn [hd]; [discriminate|]. intros ->. cbn. discriminate. }
  rewrite !H. specialize (X p) as Xp. specialize (X q) as Xq.
  destruct (N.eqb_spec (hd 0%N p) SLASH), (N.eqb_spec (hd 0%N q) SLASH);
    destruct (bytes_dec (hd [] (split p)) [DOT]), (bytes_dec (hd [] (split q)) [DOT]); split; intros; try discriminate; try tauto;
    try (exfalso; tauto); repeat split; tauto.
Qed.
Lemma same_file_iff p q : same_file p q <-> components p = components q.
Proof.
  rewrite components_split, head_same. split.
  - intros (ss & ts & ns & A & B & C & D & E & F). apply written_split in A, B. subst ss ts. split; [split; auto|].
    eapply names_body; eauto.
  - intros ((A & B) & C). destruct (names_exist (split p)) as (ns & N1). destruct (names_exist (split q)) as (ms & N2).
    exists (split p), (split q), ns. rewrite !written_split. split; auto. split; auto. split; auto. split; [|auto].
    assert (ns = ms) as ->; auto. rewrite (names_text _ _ (split_clean p) N1), (names_text _ _ (split_clean q) N2). now rewrite C.
Qed.
