From Coq Require Import List Bool Arith Lia.
From Verif Require Import Sort_Lib Projects_Model Projects_Spec Projects_Proofs Projects_Props Requires_Model Requires_Spec.
Import ListNotations.

(** * Names *)
Definition kept_part (c : component) : list name := match c with CNormal n => [n] | CParent => [[46; 46]] | _ => [] end.
Lemma parts_kept l : flat_map kept_part (flat_map component_of l) = filter kept l.
Proof.
  induction l as [|n l IH]; [reflexivity|]. cbn [flat_map filter]. rewrite flat_map_app, IH.
  destruct (component_cases n) as [[-> ->]|[[-> ->]|[[-> ->]|(N1 & N2 & N3 & ->)]]]; try reflexivity.
  replace (kept n) with true by (symmetry; now apply kept_spec). reflexivity.
Qed.
Lemma names_of_eq s : names_of s = filter kept (pieces [] s).
Proof.
  unfold names_of. change (flat_map kept_part (components s) = filter kept (pieces [] s)).
  destruct (list_eq_dec Nat.eq_dec s []) as [->|Hs]; [reflexivity|].
  rewrite (components_eq s Hs). pose proof (first_piece s Hs) as HF.
  destruct (pieces [] s) as [|first rest] eqn:P; [reflexivity|]. cbn [hd] in HF.
  rewrite flat_map_app, parts_kept.
  change (first :: rest) with ([first] ++ rest). rewrite filter_app. f_equal.
  destruct (hd 0 s =? 47) eqn:E.
  - apply Nat.eqb_eq in E. rewrite (proj2 HF E). reflexivity.
  - destruct (list_eq_dec Nat.eq_dec first [46]) as [->|N]; [reflexivity|].
    change (component_of first) with (component_of first). rewrite <- (app_nil_r (component_of first)).
    exact (parts_kept [first]).
Qed.
Lemma absolute_eq s : absolute s = (hd 0 s =? 47).
Proof.
  destruct s as [|c s]; [reflexivity|]. cbn [hd]. destruct (c =? 47) eqn:E.
  - apply Nat.eqb_eq in E as ->. reflexivity.
  - apply Nat.eqb_neq in E. unfold absolute. do 48 (destruct c as [|c]; [try reflexivity; congruence|]). reflexivity.
Qed.
Lemma join_eq s root : s <> [] -> hd [] (pieces [] s) <> [] -> join root s = root ++ filter kept (pieces [] s).
Proof.
  intros Hs H. unfold join. rewrite names_of_eq, absolute_eq.
  destruct (hd 0 s =? 47) eqn:E; [|reflexivity]. apply Nat.eqb_eq in E. exfalso. apply H. now apply first_piece.
Qed.
Lemma filter_all {A} (f : A -> bool) l : (forall x, In x l -> f x = true) -> filter f l = l.
Proof.
  induction l as [|a l IH]; intros H; [reflexivity|]. cbn [filter]. rewrite (H a (or_introl eq_refl)). f_equal.
  apply IH. intros x Hx. apply H. now right.
Qed.
Lemma plain_join s dirs base root : plain s dirs base -> s <> [] /\ join root s = root ++ dirs ++ [base].
Proof.
  intros [HP HN]. assert (Hs : s <> []).
  { intros ->. cbn in HP. destruct dirs as [|d dirs].
    - injection HP as <-. destruct (HN [] (or_introl eq_refl)) as [H _]. congruence.
    - injection HP as _ H. now destruct dirs. }
  split; [exact Hs|]. rewrite join_eq; [|exact Hs|].
  - rewrite HP. f_equal. apply filter_all. intros n Hn. apply kept_spec. now destruct (HN n Hn) as (A & B & _).
  - rewrite HP. destruct dirs as [|d dirs]; cbn [hd app]; apply HN; now left.
Qed.
Lemma leading_join s dirs base root : leading s dirs base -> s <> [] /\ join root s = root ++ dirs ++ [base].
Proof.
  intros (ps & HP & H0 & B0 & B1 & B2 & ->). assert (Hs : s <> []).
  { intros ->. cbn in HP. destruct ps as [|d ps]; [injection HP as HB; congruence|]. injection HP as _ H. now destruct ps. }
  split; [exact Hs|]. rewrite join_eq; [|exact Hs|].
  - rewrite HP, filter_app. f_equal. f_equal.
    + clear HP. induction ps as [|n ps IH]; [reflexivity|]. cbn [filter].
      rewrite IH by (intros H; apply H0; now right).
      assert (Hn : n <> []) by (intros ->; apply H0; now left).
      destruct (name_eqb n [46]) eqn:E.
      * apply name_eqb_spec in E as ->. reflexivity.
      * replace (kept n) with true; [reflexivity|]. symmetry. apply kept_spec. split; [exact Hn|].
        intros ->. discriminate.
    + cbn [filter]. replace (kept base) with true; [reflexivity|]. symmetry. now apply kept_spec.
  - rewrite HP. destruct ps as [|d ps]; cbn [hd app]; [exact B0|]. intros ->. apply H0. now left.
Qed.

(** * Extensions *)
Lemma after_last_dot_some n e : after_last_dot n = Some e -> exists stem, n = stem ++ 46 :: e /\ ~ In 46 e.
Proof.
  revert e. induction n as [|c r IH]; intros e; [discriminate|]. cbn [after_last_dot].
  destruct (after_last_dot r) as [e'|] eqn:E.
  - intros H. injection H as <-. destruct (IH e' eq_refl) as (stem & -> & Hn). exists (c :: stem). now split.
  - destruct (c =? 46) eqn:Ec; [|discriminate]. apply Nat.eqb_eq in Ec as ->. intros H. injection H as <-.
    exists []. split; [reflexivity|]. intros Hi. clear IH. induction r as [|a r IH]; [contradiction|].
    cbn [after_last_dot] in E. destruct (after_last_dot r) eqn:E'; [discriminate|].
    destruct (a =? 46) eqn:Ea; [discriminate|]. destruct Hi as [->|Hi]; [discriminate|]. now apply IH.
Qed.
Lemma after_last_dot_none n : ~ In 46 n -> after_last_dot n = None.
Proof.
  induction n as [|c r IH]; intros H; [reflexivity|]. cbn [after_last_dot]. rewrite IH by (intros Hi; apply H; now right).
  destruct (c =? 46) eqn:E; [|reflexivity]. apply Nat.eqb_eq in E as ->. exfalso. apply H. now left.
Qed.
Lemma after_last_dot_app stem e : ~ In 46 e -> after_last_dot (stem ++ 46 :: e) = Some e.
Proof.
  intros H. induction stem as [|c stem IH]; cbn [app after_last_dot]; [now rewrite (after_last_dot_none e H)|].
  now rewrite IH.
Qed.
Lemma lower_is c k : 97 <= k -> k <= 122 -> (lower c = k <-> c = k \/ c = k - 32).
Proof.
  intros H1 H2. unfold lower. destruct ((65 <=? c) && (c <=? 90)) eqn:E.
  - apply andb_true_iff in E as [E1 E2]. apply Nat.leb_le in E1, E2. lia.
  - apply andb_false_iff in E as [E|E]; apply Nat.leb_gt in E; lia.
Qed.
Lemma is_rb_spec p n : n <> [46; 46] -> (is_rb (p ++ [n]) = true <-> rb_named n).
Proof.
  intros Hn. unfold is_rb. rewrite rev_app_distr. cbn [rev app].
  destruct (name_eqb n [46; 46]) eqn:E; [apply name_eqb_spec in E; congruence|]. clear E.
  unfold rb_named, extension. split.
  - destruct n as [|c r]; [discriminate|]. destruct (after_last_dot r) as [e|] eqn:E; [|discriminate].
    intros H. apply name_eqb_spec in H. destruct (after_last_dot_some r e E) as (stem & -> & Hd).
    destruct e as [|a [|b [|x e]]]; try discriminate. injection H as Ha Hb.
    apply (lower_is a 114) in Ha; [|lia|lia]. apply (lower_is b 98) in Hb; [|lia|lia].
    exists (c :: stem), a, b. split; [reflexivity|]. split; [discriminate|]. cbn in Ha, Hb. split; assumption.
  - intros (stem & a & b & -> & Hs & Ha & Hb). destruct stem as [|c stem]; [congruence|]. cbn [app].
    assert (Hd : ~ In 46 [a; b]).
    { intros [H|[H|[]]]; subst; destruct Ha, Hb; discriminate. }
    rewrite (after_last_dot_app stem [a; b] Hd). apply name_eqb_spec. destruct Ha as [->| ->], Hb as [->| ->]; reflexivity.
Qed.
Lemma with_rb_plain p n : n <> [46; 46] -> ~ rb_named n -> with_rb (p ++ [n]) = p ++ [n ++ dot_rb].
Proof.
  intros H2 Hn. unfold with_rb. destruct (is_rb (p ++ [n])) eqn:E; [now apply is_rb_spec in E|].
  rewrite rev_app_distr. cbn [rev app]. destruct (name_eqb n [46; 46]) eqn:E2; [apply name_eqb_spec in E2; congruence|].
  now rewrite rev_involutive.
Qed.
Lemma with_rb_named p n : n <> [46; 46] -> rb_named n -> with_rb (p ++ [n]) = p ++ [n].
Proof. intros H2 Hn. unfold with_rb. now rewrite (proj2 (is_rb_spec p n H2) Hn). Qed.

(** * The directories searched *)
Definition any_disk : disk := mkDisk (fun p => Some p) (fun _ => true).
Lemma load_dir_explicit w s : load_dir w s = match explicit_root any_disk w s with Some p => [p] | None => [] end.
Proof.
  unfold load_dir, explicit_root. destruct s as [|c s]; [reflexivity|].
  destruct (forallb normal (components (c :: s))); [|reflexivity]. cbn [canonicalize is_dir any_disk andb].
  rewrite (proj2 (starts_with_inside _ _)); [reflexivity|]. unfold inside. eexists. reflexivity.
Qed.
Lemma load_dirs_configured w l dirs : configured l dirs -> flat_map (load_dir w) l = map (app w) dirs.
Proof.
  induction 1 as [|s names l dirs Hr Hc IH|s l dirs Hr Hc IH]; [reflexivity| |]; cbn [flat_map map]; rewrite IH, load_dir_explicit.
  - assert (H : explicit_root any_disk w s = Some (w ++ names)).
    { apply explicit_root_spec. exists names. split; [exact Hr|]. split; [reflexivity|]. split; [reflexivity|].
      unfold inside. eexists. reflexivity. }
    now rewrite H.
  - destruct (explicit_root any_disk w s) as [p|] eqn:E; [|reflexivity]. apply explicit_root_spec in E.
    destruct E as (names & Hn & _). exfalso. exact (Hr names Hn).
Qed.
Lemma search_roots_eq w l dirs deps : configured l dirs -> ~ In [] deps -> search_roots w l deps = load_path w dirs deps.
Proof.
  intros Hc Hd. unfold search_roots, load_path. rewrite (load_dirs_configured w l dirs Hc). f_equal.
  cbn [app]. do 2 f_equal. apply filter_all. intros x Hx. destruct x; [contradiction|reflexivity].
Qed.

(** * Searching *)
Section Search.
  Variables is_file known : path -> bool.
  Hypothesis synced : forall p, known p = true -> is_file p = true.

  Lemma known_file p : is_file p || known p = is_file p.
  Proof. destruct (is_file p) eqn:E; [reflexivity|]. cbn. destruct (known p) eqn:K; [|reflexivity]. rewrite (synced p K) in E. discriminate. Qed.
  Lemma exists_plain p n : n <> [46; 46] -> ~ rb_named n -> is_file (p ++ [n]) = false ->
    exists_at is_file known (p ++ [n]) = if is_file (p ++ [n ++ dot_rb]) then Some (p ++ [n ++ dot_rb]) else None.
  Proof.
    intros H2 Hn Hf. unfold exists_at. rewrite (with_rb_plain p n H2 Hn), !known_file, Hf. reflexivity.
  Qed.
  Lemma exists_named p n : n <> [46; 46] -> rb_named n ->
    exists_at is_file known (p ++ [n]) = if is_file (p ++ [n]) then Some (p ++ [n]) else None.
  Proof.
    intros H2 Hn. unfold exists_at. rewrite (with_rb_named p n H2 Hn), !known_file. destruct (is_file (p ++ [n])); reflexivity.
  Qed.
  Lemma first_loads file cand roots p :
    (forall root, In root roots -> exists_at is_file known (cand root) = if is_file (root ++ file) then Some (root ++ file) else None) ->
    (first_of is_file known (map cand roots) = Some p <-> loads is_file file roots p).
  Proof.
    induction roots as [|r roots IH]; intros H; cbn [map first_of].
    - split; [discriminate|]. intros L. inversion L.
    - rewrite (H r (or_introl eq_refl)). destruct (is_file (r ++ file)) eqn:E.
      + split.
        * intros X. injection X as <-. now constructor.
        * intros L. inversion L; subst; congruence.
      + rewrite IH by (intros x Hx; apply H; now right). split.
        * intros L. now constructor.
        * intros L. inversion L; subst; [congruence|assumption].
  Qed.
End Search.

(** * The calls *)
Lemma ast_ind_strong (P : ast -> Prop) :
  (forall k r args below, Forall P below -> P (Call k r args below)) ->
  (forall below, Forall P below -> P (Other below)) -> forall t, P t.
Proof.
  intros HC HO. fix self 1. intros [k r args below|below].
  - apply HC. induction below as [|x l IH]; constructor; [apply self|exact IH].
  - apply HO. induction below as [|x l IH]; constructor; [apply self|exact IH].
Qed.
Lemma static_requires k r args below x : static_target k r args = Some x <->
  requires (Call k r args below) (tkind x) (targument x) (tspan x).
Proof.
  unfold requires. split.
  - destruct k as [k|]; [|discriminate]. destruct r; try discriminate; destruct args as [|[v s|] [|]]; try discriminate;
      cbn; intros H; injection H as <-; eexists _, _; (split; [reflexivity|discriminate]).
  - intros (r' & below' & E & Hr). injection E as -> -> -> ->. destruct x. destruct r'; [reflexivity|reflexivity|congruence].
Qed.
Lemma find_all_in t x : In x (find_all t) <-> exists c, within c t /\ requires c (tkind x) (targument x) (tspan x).
Proof.
  induction t as [k r args below IH|below IH] using ast_ind_strong.
  - cbn [find_all]. rewrite in_app_iff, in_flat_map. split.
    + intros [H|(t & Ht & H)].
      * exists (Call k r args below). split; [constructor|]. apply static_requires.
        destruct (static_target k r args) as [y|]; [|contradiction]. destruct H as [->|[]]. reflexivity.
      * pose proof (proj1 (Forall_forall _ _) IH t Ht) as IHt. apply (proj1 IHt) in H as (c & Hc & Hr).
        exists c. split; [|exact Hr]. now apply (within_call c t).
    + intros (c & Hc & Hr). inversion Hc; subst.
      * left. apply static_requires in Hr. rewrite Hr. now left.
      * right. exists t. split; [assumption|]. match goal with I : In t below |- _ => apply (proj2 (proj1 (Forall_forall _ _) IH t I)) end. now exists c.
  - cbn [find_all]. rewrite in_flat_map. split.
    + intros (t & Ht & H). apply (proj1 (proj1 (Forall_forall _ _) IH t Ht)) in H as (c & Hc & Hr).
      exists c. split; [|exact Hr]. now apply (within_other c t).
    + intros (c & Hc & Hr). inversion Hc; subst.
      * destruct Hr as (r & b & E & _). discriminate.
      * exists t. split; [assumption|]. match goal with I : In t below |- _ => apply (proj2 (proj1 (Forall_forall _ _) IH t I)) end. now exists c.
Qed.
Lemma find_at_sound o t x : In x (find_at_list o t) -> In x (find_all t) /\ covers o x = true.
Proof.
  induction t as [k r args below IH|below IH] using ast_ind_strong.
  - cbn [find_at_list find_all]. rewrite in_app_iff, in_flat_map.
    assert (HB : In x (flat_map (find_at_list o) below) -> (exists t, In t below /\ In x (find_all t)) /\ covers o x = true).
    { intros H. apply in_flat_map in H as (t & Ht & H). apply (proj1 (Forall_forall _ _) IH t Ht) in H as [A B].
      split; [now exists t|exact B]. }
    destruct (static_target k r args) as [y|]; [|intros H; apply HB in H; tauto].
    destruct (covers o y) eqn:E; [|intros H; apply HB in H; tauto].
    intros [->|[]]. split; [left; now left|exact E].
  - cbn [find_at_list find_all]. rewrite !in_flat_map. intros (t & Ht & H).
    apply (proj1 (Forall_forall _ _) IH t Ht) in H as [A B]. split; [now exists t|exact B].
Qed.
Lemma find_at_some o t x : In x (find_all t) -> covers o x = true -> find_at_list o t <> [].
Proof.
  assert (HL : forall below y, Forall (fun t => forall x, In x (find_all t) -> covers o x = true -> find_at_list o t <> []) below ->
    In y (flat_map find_all below) -> covers o y = true -> flat_map (find_at_list o) below <> []).
  { intros below y IH H C. apply in_flat_map in H as (u & Ht & H).
    pose proof (proj1 (Forall_forall _ _) IH u Ht y H C) as N. intros E. apply N.
    destruct (find_at_list o u) as [|z l] eqn:Z; [reflexivity|].
    exfalso. assert (I : In z (flat_map (find_at_list o) below)) by (apply in_flat_map; exists u; rewrite Z; split; [exact Ht|now left]).
    rewrite E in I. exact I. }
  revert x. induction t as [k r args below IH|below IH] using ast_ind_strong; intros x.
  - cbn [find_at_list find_all]. rewrite in_app_iff. intros [H|H] C.
    + destruct (static_target k r args) as [y|]; [|contradiction]. destruct H as [->|[]]. rewrite C. discriminate.
    + destruct (static_target k r args) as [y|]; [|exact (HL below x IH H C)].
      destruct (covers o y); [discriminate|exact (HL below x IH H C)].
  - cbn [find_at_list find_all]. exact (HL below x IH).
Qed.
Lemma content_underlined byte x : underlined byte (tspan x) (content_range byte x).
Proof.
  unfold underlined, content_range. destruct (tspan x) as [a b]. cbn [fst snd].
  destruct ((a + 2 <=? b) && ((byte a =? 39) || (byte a =? 34)) && (byte a =? byte (b - 1))) eqn:E.
  - left. rewrite !andb_true_iff, orb_true_iff, Nat.leb_le, !Nat.eqb_eq in E. tauto.
  - right. split; [|reflexivity]. intros (A & B & C). assert (X : (a + 2 <=? b) && ((byte a =? 39) || (byte a =? 34)) && (byte a =? byte (b - 1)) = true).
    { rewrite !andb_true_iff, orb_true_iff, Nat.leb_le, !Nat.eqb_eq. tauto. }
    congruence.
Qed.
Lemma underlined_unique byte s u v : underlined byte s u -> underlined byte s v -> u = v.
Proof. unfold underlined. intros [[A ->]|[A ->]] [[B ->]|[B ->]]; tauto. Qed.
