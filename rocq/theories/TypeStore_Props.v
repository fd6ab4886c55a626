(** Properties of the type index (C63, C64, C65). *)
From Coq Require Import List Arith NArith Lia Bool Permutation Sorted.
From Verif Require Import Lib Sort_Lib Index_Lib TypeStore_Model TypeStore_Spec TypeStore_Proofs.
Import ListNotations.

(** * What the reported lists are *)

Lemma updated_subj o x : subj (updated o x) = subj x.
Proof.
  destruct o as [y|n|n xs|n us|q r t|name r t]; cbn [updated]; auto.
  - revert x. induction us as [|[m t] us IH]; intros x; auto. cbn [new_return]. rewrite IH.
    destruct (_ && _); auto.
  - destruct (_ && _); auto.
  - destruct (_ && _); auto.
Qed.
Lemma updated_range o x : range (updated o x) = range x.
Proof.
  destruct o as [y|n|n xs|n us|q r t|name r t]; cbn [updated]; auto.
  - revert x. induction us as [|[m t] us IH]; intros x; auto. cbn [new_return]. rewrite IH.
    destruct (_ && _); auto.
  - destruct (_ && _); auto.
  - destruct (_ && _); auto.
Qed.
Lemma updated_prov o x : prov (updated o x) = prov x.
Proof.
  destruct o as [y|n|n xs|n us|q r t|name r t]; cbn [updated]; auto.
  - revert x. induction us as [|[m t] us IH]; intros x; auto. cbn [new_return]. rewrite IH.
    destruct (_ && _); auto.
  - destruct (_ && _); auto.
  - destruct (_ && _); auto.
Qed.

Lemma filter_map_same {A} (f : A -> A) (p : A -> bool) l : (forall x, p (f x) = p x) ->
  filter p (map f l) = map f (filter p l).
Proof. intros H. induction l as [|x l IH]; auto. cbn. rewrite H. destruct (p x); cbn; now rewrite IH. Qed.

Lemma about_updated q o x : about q (updated o x) = about q x.
Proof. unfold about. now rewrite updated_subj. Qed.
Lemma in_file_updated n o x : in_file n (updated o x) = in_file n x.
Proof. unfold in_file. now rewrite updated_range. Qed.

Lemma subject_facts_perm q h : Permutation (subject_facts q h) (filter (about q) (live h)).
Proof.
  unfold subject_facts, live. induction h as [|o h IH] using rev_ind; [constructor|]. rewrite !fold_left_app. cbn [fold_left].
  set (l := fold_left (subject_after q) h []) in *. set (L := fold_left after h []) in *.
  destruct o as [x|n|n xs|n us|q' r t|name r t]; cbn [subject_after after];
    try (rewrite filter_map_same by (intros; apply about_updated); now apply Permutation_map).
  - rewrite filter_app. cbn [filter]. destruct (about q x).
    + now apply Permutation_app_tail.
    + now rewrite app_nil_r.
  - rewrite filter_comm. now apply filter_perm.
  - rewrite filter_app, filter_comm. destruct (filter (about q) xs) as [|y ys].
    + rewrite app_nil_r. now apply filter_perm.
    + eapply perm_trans; [symmetry; apply sort_perm|]. apply Permutation_app_tail. now apply filter_perm.
Qed.

(** Without single additions the facts of a subject are ordered by position, equal positions in the
    order of supply. *)
Lemma subject_facts_order q h : (forall x, ~ In (Add x) h) ->
  in_order position (filter (about q) (live h)) (subject_facts q h).
Proof.
  intros H. enough (subject_facts q h = sort (key_leb position) (filter (about q) (live h))) as -> by apply sort_in_order.
  unfold subject_facts, live. induction h as [|o h IH] using rev_ind; [reflexivity|]. rewrite !fold_left_app. cbn [fold_left].
  rewrite IH by (intros x Hx; apply (H x), in_or_app; now left).
  set (L := fold_left after h []).
  pose proof (key_total position) as T. pose proof (key_trans position) as TR.
  assert (forall o l, (forall x, updated o x = updated o x) ->
    map (updated o) (sort (key_leb position) l) = sort (key_leb position) (map (updated o) l)) as MU.
  { intros o' l' _. rewrite <- (sort_map (updated o') (key_leb position)). f_equal. apply sort_ext.
    intros x y _ _. unfold key_leb, position. now rewrite !updated_range, !updated_prov. }
  destruct o as [x|n|n xs|n us|q' r t|name r t]; cbn [subject_after after];
    try (rewrite filter_map_same by (intros; apply about_updated); now apply MU).
  - exfalso. apply (H x). apply in_or_app. right. now left.
  - rewrite sort_filter by auto. now rewrite filter_comm.
  - rewrite sort_filter by auto. rewrite filter_app, (filter_comm (about q)).
    destruct (filter (about q) xs) as [|y ys]; [now rewrite app_nil_r|]. now rewrite sort_sort_app by auto.
Qed.

(** Additions alone keep the order of supply. *)
Lemma subject_facts_added q h : (forall o, In o h -> exists x, o = Add x) ->
  subject_facts q h = filter (about q) (live h).
Proof.
  intros H. unfold subject_facts, live. induction h as [|o h IH] using rev_ind; [reflexivity|].
  rewrite !fold_left_app. cbn [fold_left]. rewrite IH by (intros o' Ho; apply H, in_or_app; now left).
  destruct (H o) as [x ->]; [apply in_or_app; right; now left|]. cbn [subject_after after].
  rewrite filter_app. cbn [filter]. destruct (about q x); auto. now rewrite app_nil_r.
Qed.

(** A replacement that concerns the subject restores the order. *)
Lemma subject_facts_restored q h n xs : filter (about q) xs <> [] ->
  StronglySorted (le (key_leb position)) (subject_facts q (h ++ [ReplaceFile n xs])).
Proof.
  intros H. unfold subject_facts. rewrite fold_left_app. cbn [fold_left subject_after].
  destruct (filter (about q) xs); [congruence|]. apply sort_sorted; [apply key_total|apply key_trans].
Qed.

Lemma file_facts_perm n h : well_formed h -> Permutation (file_facts n h) (filter (in_file n) (live h)).
Proof.
  unfold file_facts, live. induction h as [|o h IH] using rev_ind; [constructor|]. intros W.
  rewrite !fold_left_app. cbn [fold_left].
  assert (well_formed h) as W' by (intros o' Ho; apply W, in_or_app; now left). specialize (IH W').
  assert (proper o) as HP by (apply W, in_or_app; right; now left).
  set (l := fold_left (file_after n) h []) in *. set (L := fold_left after h []) in *.
  destruct o as [x|m|m xs|m us|q' r t|name r t]; cbn [file_after after];
    try (rewrite filter_map_same by (intros; apply in_file_updated); now apply Permutation_map).
  - rewrite filter_app. cbn [filter]. destruct (in_file n x).
    + now apply Permutation_app_tail.
    + now rewrite app_nil_r.
  - destruct (Nat.eqb_spec m n) as [->|N].
    + rewrite filter_nil; auto. intros x Hx. apply filter_In in Hx. destruct Hx as [_ Hx].
      now apply negb_true_iff in Hx.
    + rewrite filter_comm, (filter_all (fun x => negb (in_file m x))); auto.
      intros x Hx. apply filter_In in Hx. destruct Hx as [_ Hx]. unfold in_file in *. apply Nat.eqb_eq in Hx.
      rewrite Hx. destruct (Nat.eqb_spec n m); [congruence|reflexivity].
  - cbn [proper] in HP. rewrite filter_app. destruct (Nat.eqb_spec m n) as [->|N].
    + rewrite filter_nil.
      2:{ intros x Hx. apply filter_In in Hx. destruct Hx as [_ Hx]. now apply negb_true_iff in Hx. }
      rewrite (filter_all (in_file n)); [symmetry; apply sort_perm|].
      intros x Hx. unfold in_file. apply Nat.eqb_eq. now apply HP.
    + rewrite (filter_nil _ xs).
      2:{ intros x Hx. unfold in_file. apply HP in Hx. destruct Hx as [-> _]. now apply Nat.eqb_neq. }
      rewrite app_nil_r, filter_comm, (filter_all (fun x => negb (in_file m x))); auto.
      intros x Hx. apply filter_In in Hx. destruct Hx as [_ Hx]. unfold in_file in *. apply Nat.eqb_eq in Hx.
      rewrite Hx. destruct (Nat.eqb_spec n m); [congruence|reflexivity].
Qed.

(** * C63 *)

Theorem C63_never_panics h : well_formed h -> fits h -> exists s, run h = Some s.
Proof. intros W F. destruct (run_ok h W F) as (s & _ & _ & _ & E & _). eauto. Qed.

Theorem C63_facts_for h s q : well_formed h -> fits h -> run h = Some s ->
  facts_for s q = Some (reported q h).
Proof.
  intros W F E. destruct (run_ok h W F) as (s' & G & Q & FF & E' & K & R).
  assert (s' = s) as -> by congruence. exact (facts_for_ok _ _ _ _ _ _ _ K R q).
Qed.

(** Whatever the history, these are the facts in force about the subject. *)
Theorem C63_facts_for_in_force h s q l : well_formed h -> fits h -> run h = Some s ->
  facts_for s q = Some l -> Permutation l (filter (about q) (live h)).
Proof.
  intros W F E El. rewrite (C63_facts_for h s q W F E) in El. injection El as <-.
  assert (forall q, Permutation (subject_facts q h) (filter (about q) (live h))) as P by (intros; apply subject_facts_perm).
  destruct q as [| | | | | | |r]; try apply P.
  cbn [reported]. rewrite (filter_perm _ _ _ (file_facts_perm (file_id r) h W)).
  destruct (run_ok h W F) as (s' & G & Q & FF & E' & K & R). rewrite filter_comm.
  rewrite (filter_all (in_file (file_id r))); auto. intros x Hx. apply filter_In in Hx. destruct Hx as [Hx Ha].
  apply (in_live _ _ _ _ _ _ _ R) in Hx. destruct Hx as (e & He & <-). unfold about in Ha. apply same_subject_eq in Ha.
  apply (subj_expression _ _ _ _ K) in Ha; auto. destruct Ha as [_ <-]. apply Nat.eqb_refl.
Qed.

Theorem C63_facts_for_order h s q l : well_formed h -> fits h -> run h = Some s -> (forall x, ~ In (Add x) h) ->
  (forall r, q <> Expression r) ->
  facts_for s q = Some l -> in_order position (filter (about q) (live h)) l.
Proof.
  intros W F E NA NE El. rewrite (C63_facts_for h s q W F E) in El. injection El as <-.
  destruct q as [| | | | | | |r]; try now apply subject_facts_order. now destruct (NE r).
Qed.

Theorem C63_facts_for_added h s q l : well_formed h -> fits h -> run h = Some s ->
  (forall o, In o h -> exists x, o = Add x) -> (forall r, q <> Expression r) ->
  facts_for s q = Some l -> l = filter (about q) (live h).
Proof.
  intros W F E NA NE El. rewrite (C63_facts_for h s q W F E) in El. injection El as <-.
  destruct q as [| | | | | | |r]; try now apply subject_facts_added. now destruct (NE r).
Qed.

(** After additions a replacement restores the order of every subject it concerns. *)
Theorem C63_order_restored h n xs s q l :
  well_formed (h ++ [ReplaceFile n xs]) -> fits (h ++ [ReplaceFile n xs]) -> run (h ++ [ReplaceFile n xs]) = Some s ->
  (forall r, q <> Expression r) -> (exists x, In x xs /\ subj x = q) -> facts_for s q = Some l ->
  StronglySorted (fun x y => lexb (position x) (position y) = true) l.
Proof.
  intros W F E NE (x & Hx & Ex) El. rewrite (C63_facts_for _ s q W F E) in El. injection El as <-.
  assert (filter (about q) xs <> []) as NX.
  { intros H. assert (In x (filter (about q) xs)) as Hi; [|rewrite H in Hi; easy].
    apply filter_In. split; auto. unfold about. now apply same_subject_eq. }
  destruct q as [| | | | | | |r]; try exact (subject_facts_restored _ h n xs NX). now destruct (NE r).
Qed.

Theorem C63_facts_in_file h s n : well_formed h -> fits h -> run h = Some s ->
  facts_in_file s n = Some (file_facts n h) /\ Permutation (file_facts n h) (filter (in_file n) (live h)) /\
  ruby_types_in_file s n = Some (map ty (file_facts n h)).
Proof.
  intros W F E. destruct (run_ok h W F) as (s' & G & Q & FF & E' & K & R).
  assert (s' = s) as -> by congruence.
  assert (facts_in_file s n = Some (file_facts n h)) as EF by exact (facts_in_file_ok _ _ _ _ _ _ _ K R n).
  split; [exact EF|]. split; [now apply file_facts_perm|]. unfold ruby_types_in_file. now rewrite EF.
Qed.

Theorem C63_all_facts h s : well_formed h -> fits h -> run h = Some s ->
  (exists l, all_facts s = Some l /\ Permutation l (live h)) /\ fact_count s = length (live h) /\
  (exists l, method_return_types s = Some l /\ Permutation l (flat_map returned (live h))).
Proof.
  intros W F E. destruct (run_ok h W F) as (s' & G & Q & FF & E' & K & R).
  assert (s' = s) as -> by congruence. split; [|split].
  - exact (all_facts_ok _ _ _ _ _ _ _ K R).
  - exact (fact_count_ok _ _ _ _ _ _ _ K R).
  - exact (method_return_types_ok _ _ _ _ _ _ _ K R).
Qed.

(** Replacing a file leaves exactly the supplied facts in it, whatever was there before. *)
Theorem C63_last_replacement h n xs s : well_formed (h ++ [ReplaceFile n xs]) -> fits (h ++ [ReplaceFile n xs]) ->
  run (h ++ [ReplaceFile n xs]) = Some s ->
  exists l, facts_in_file s n = Some l /\ in_order position xs l.
Proof.
  intros W F E. destruct (C63_facts_in_file _ s n W F E) as [E1 _]. eexists. split; [exact E1|].
  unfold file_facts. rewrite fold_left_app. cbn [fold_left file_after]. rewrite Nat.eqb_refl. apply sort_in_order.
Qed.

(** A fact supplied for another file, or about an expression at another range, panics. *)
Theorem C63_foreign_fact_panics s n xs : (exists x, In x xs /\ file_id (range x) <> n) -> replace_file s n xs = None.
Proof.
  intros (x & Hx & N). unfold replace_file.
  assert (forall s t, insert_all n s t xs = None) as ->; auto.
  clear s. induction xs as [|y xs IH]; [easy|]. intros s t. cbn [insert_all]. destruct Hx as [->|Hx].
  - apply Nat.eqb_neq in N. now rewrite N.
  - destruct (_ =? n); auto. destruct (insert_one s y) as [[s' q]|]; auto.
Qed.

(** * C64 *)

Theorem C64_type_at h s show q n offset : well_formed h -> fits h -> run h = Some s ->
  exists r, type_at show s q n offset = Some r /\ answers_at h q n offset r.
Proof.
  intros W F E. destruct (run_ok h W F) as (s' & G & Q & FF & E' & K & R).
  assert (s' = s) as -> by congruence.
  destruct (type_at_ok _ _ _ _ _ _ _ K R show q n offset) as (r & E1 & E2).
  exists r. split; auto. destruct r as [x|l|]; [exact E2|exact (proj1 E2)|exact E2].
Qed.

(** When no two types print alike, an ambiguous answer lists each type and origin once, ordered by
    the printed type and the rank of the origin. *)
Theorem C64_ambiguous_once h s show q n offset l : well_formed h -> fits h -> run h = Some s ->
  (forall t u, show t = show u -> t = u) -> type_at show s q n offset = Some (Ambiguous l) ->
  StronglySorted (fun a b => lexb (text_key show b) (text_key show a) = false) l.
Proof.
  intros W F E HS E0. destruct (run_ok h W F) as (s' & G & Q & FF & E' & K & R).
  assert (s' = s) as -> by congruence.
  destruct (type_at_ok _ _ _ _ _ _ _ K R show q n offset) as (r & E1 & E2).
  assert (r = Ambiguous l) as -> by congruence. exact (proj2 E2 HS).
Qed.

(** The three answers exclude each other: the specification determines the kind of the answer, the
    resolved type and its origin. *)
Theorem C64_type_at_determined h q n offset r1 r2 : answers_at h q n offset r1 -> answers_at h q n offset r2 ->
  match r1, r2 with
  | Unresolved, Unresolved => True
  | Resolved x, Resolved y => ty x = ty y /\ prov x = prov y
  | Ambiguous _, Ambiguous _ => True
  | _, _ => False
  end.
Proof.
  assert (forall x l, answers_at h q n offset (Resolved x) -> answers_at h q n offset (Ambiguous l) -> False) as RA.
  { intros x l [_ H] (H1 & _ & (a & b & Ha & Hb & N)). apply N.
    destruct (H a (H1 a Ha)), (H b (H1 b Hb)). split; congruence. }
  destruct r1 as [x|l|], r2 as [y|m|]; intros H1 H2; auto.
  - destruct H1 as [L1 H1], H2 as [L2 H2]. now apply H2.
  - now apply (RA x m).
  - exact (H2 x (proj1 (proj1 H1))).
  - now apply (RA y l).
  - destruct H1 as (H1 & _ & (a & b & Ha & _)). exact (H2 a (proj1 (H1 a Ha))).
  - exact (H1 y (proj1 (proj1 H2))).
  - destruct H2 as (H2 & _ & (a & b & Ha & _)). exact (H1 a (proj1 (H2 a Ha))).
Qed.

Theorem C64_named_type h s n offset p : well_formed h -> fits h -> run h = Some s ->
  exists r, named_type_before s n offset p = Some r /\ answers_named h p n offset r.
Proof.
  intros W F E. destruct (run_ok h W F) as (s' & G & Q & FF & E' & K & R).
  assert (s' = s) as -> by congruence.
  destruct (named_type_ok _ _ _ _ _ _ _ K R p n offset) as (r & E1 & E2).
  exists r. split; auto.
Qed.

Theorem C64_named_determined h p n offset r1 r2 : answers_named h p n offset r1 -> answers_named h p n offset r2 ->
  r1 = r2.
Proof.
  assert (forall t, answers_named h p n offset (NResolved t) -> answers_named h p n offset NAmbiguous -> False) as RA.
  { intros t (x & _ & _ & H) (a & b & Ha & Hb & N). apply N. rewrite (H a Ha), (H b Hb). reflexivity. }
  destruct r1 as [t| |], r2 as [u| |]; intros H1 H2; auto.
  - destruct H1 as (x & L1 & E1 & H1), H2 as (y & L2 & E2 & H2). f_equal. rewrite <- E1. auto.
  - destruct (RA t H1 H2).
  - destruct H1 as (x & L1 & _). destruct (H2 x (proj1 L1)).
  - destruct (RA u H2 H1).
  - destruct H1 as (x & y & L1 & _). destruct (H2 x (proj1 L1)).
  - destruct H2 as (x & L1 & _). destruct (H1 x (proj1 L1)).
  - destruct H2 as (x & y & L1 & _). destruct (H1 x (proj1 L1)).
Qed.

(** The latest known type of a subject: the last reported of the facts with the greatest place whose
    type is not Unknown. *)
Theorem C64_latest_known h s q : well_formed h -> fits h -> run h = Some s ->
  exists r, latest_non_unknown s q = Some r /\
    match r with
    | None => forall x, In x (live h) -> subj x = q -> ty x = unknown
    | Some (t, rg) => exists x, last_greatest (filter (fun x => negb (ty x =? unknown)) (reported q h)) x /\
        ty x = t /\ range x = rg
    end.
Proof.
  intros W F E. destruct (run_ok h W F) as (s' & G & Q & FF & E' & K & R).
  assert (s' = s) as -> by congruence.
  destruct (latest_ok _ _ _ _ _ _ _ K R q) as (r & E1 & E2). exists r. split; auto.
  destruct r as [[t rg]|]; auto. intros x Hx Es.
  assert (In x (report (fun q => subject_facts q h) (fun n => file_facts n h) q)) as Hr
    by (apply (reported_in _ _ _ _ _ _ _ K R); auto).
  destruct (Nat.eqb_spec (ty x) unknown) as [|N]; auto. exfalso.
  assert (In x (filter (fun x => negb (ty x =? unknown)) (report (fun q => subject_facts q h) (fun n => file_facts n h) q))) as Hf.
  { apply filter_In. split; auto. apply Nat.eqb_neq in N. now rewrite N. }
  rewrite E2 in Hf. easy.
Qed.

(** * C65 *)

(** An update changes the types of exactly the facts it concerns ([live] applies [updated] to each
    fact and nothing else), reports how many, and every later answer reflects it (C63, C64). *)
Theorem C65_update h o s : well_formed (h ++ [o]) -> fits (h ++ [o]) -> run h = Some s ->
  match o with
  | UpdateReturns n us => exists s', update_returns s n us = Some (s', concerned o (live h)) /\
      run (h ++ [o]) = Some s' /\ live (h ++ [o]) = map (new_return n us) (live h)
  | UpdateTarget q r t => exists s', update_target s q r t = Some (s', concerned o (live h)) /\
      run (h ++ [o]) = Some s' /\
      live (h ++ [o]) = map (fun x => if negb (is_expression q) && about q x && same_range (range x) r
                                      then with_type t x else x) (live h)
  | UpdateLocal name r t => exists s', update_local s name r t = Some (s', concerned o (live h)) /\
      run (h ++ [o]) = Some s' /\
      live (h ++ [o]) = map (fun x => if is_local name (subj x) && same_range (range x) r
                                      then with_type t x else x) (live h)
  | _ => True
  end.
Proof.
  intros W F E. pose proof (update_count h o s W F E) as C.
  assert (forall s0 h1 h2, run_from s0 (h1 ++ h2) = match run_from s0 h1 with Some s => run_from s h2 | None => None end) as RA.
  { intros s0 h1. revert s0. induction h1 as [|a h1 IH]; intros s0 h2; auto. cbn [app run_from]. destruct (step s0 a); auto. }
  assert (run (h ++ [o]) = step s o) as ER.
  { unfold run in *. rewrite RA, E. cbn [run_from]. destruct (step s o); auto. }
  assert (live (h ++ [o]) = after (live h) o) as EL by (unfold live; now rewrite fold_left_app).
  destruct o as [x|n|n xs|n us|q r t|name r t]; auto; destruct C as (s' & C); exists s'; rewrite ER, EL; cbn [step];
    rewrite C; auto.
Qed.

(** Subject, range and origin never change. *)
Theorem C65_only_types h o :
  match o with Add _ | RemoveFile _ | ReplaceFile _ _ => True | _ =>
    map (fun x => (subj x, range x, prov x)) (live (h ++ [o])) = map (fun x => (subj x, range x, prov x)) (live h) end.
Proof.
  destruct o; auto; unfold live; rewrite fold_left_app; cbn [fold_left after]; rewrite map_map;
    apply map_ext; intros x; now rewrite updated_subj, updated_range, updated_prov.
Qed.

(** Types of facts that are not inferred method returns of the file survive a return update. *)
Theorem C65_declared_returns_survive n us x : prov x <> Inferred \/ file_id (range x) <> n \/
  (forall m, subj x <> MethodReturn m) -> new_return n us x = x.
Proof.
  intros H. induction us as [|[m t] us IH]; auto. cbn [new_return].
  assert (about (MethodReturn m) x && in_file n x && same_prov (prov x) Inferred = false) as ->; [|exact IH].
  apply not_true_is_false. rewrite !andb_true_iff. unfold about, in_file. rewrite same_subject_eq, same_prov_eq, Nat.eqb_eq.
  intros [[H1 H2] H3]. destruct H as [H|[H|H]]; congruence.
Qed.

(** * A concrete history *)

Definition rng (f a b : nat) : text_range := mkRange f a b.
Definition demo : list op :=
  [ Add (mkFact (LocalVariable 1 2) 5 (rng 1 40 41) Assignment);
    ReplaceFile 0 [mkFact (MethodReturn 7) 3 (rng 0 20 30) Inferred; mkFact (MethodReturn 7) 4 (rng 0 5 9) Yard;
                   mkFact (Expression (rng 0 1 2)) 6 (rng 0 1 2) Literal];
    Add (mkFact (LocalVariable 1 2) 6 (rng 1 10 11) Assignment);
    ReplaceFile 2 [mkFact (LocalVariable 1 2) 5 (rng 2 3 4) Flow; mkFact (LocalVariable 1 2) 8 (rng 2 3 5) Flow];
    UpdateReturns 0 [(7, 9)]; UpdateLocal 2 (rng 1 10 11) 0; RemoveFile 5 ].

Example demo_meets : well_formed demo /\ fits demo.
Proof.
  split.
  - intros o Ho. cbn in Ho.
    repeat (destruct Ho as [<-|Ho]; [cbn [proper]; try exact Logic.I; unfold proper_fact; cbn [subj range];
      try (intros r E; discriminate);
      intros x Hx; cbn in Hx; repeat (destruct Hx as [<-|Hx]; [split; [reflexivity|intros r E; cbn in *; congruence]|]); easy|]).
    easy.
  - split; [|split].
    + intros h1 h2 E. unfold demo in E. destruct h1 as [|o1 [|o2 [|o3 [|o4 [|o5 [|o6 [|o7 h1]]]]]]];
        [cbn; lia|cbn in E; injection E; intros; subst; cbn; lia..|].
      cbn in E. injection E as <- <- <- <- <- <- <- E. symmetry in E. apply app_eq_nil in E. destruct E as [-> ->]. cbn. lia.
    + intros l ND H.
      assert (length l <= 7); [|lia].
      apply (NoDup_incl_length ND (l' := map subj (flat_map seen_facts demo))). intros q Hq. now apply H.
    + intros l ND H. assert (length l <= 9); [|lia].
      apply (NoDup_incl_length ND (l' := flat_map seen_types demo)). exact H.
Qed.

Example demo_answers :
  match run demo with
  | Some s =>
      facts_for s (LocalVariable 1 2) =
        Some [mkFact (LocalVariable 1 2) 0 (rng 1 10 11) Assignment; mkFact (LocalVariable 1 2) 5 (rng 1 40 41) Assignment;
              mkFact (LocalVariable 1 2) 5 (rng 2 3 4) Flow; mkFact (LocalVariable 1 2) 8 (rng 2 3 5) Flow] /\
      facts_for s (MethodReturn 7) =
        Some [mkFact (MethodReturn 7) 4 (rng 0 5 9) Yard; mkFact (MethodReturn 7) 9 (rng 0 20 30) Inferred] /\
      type_at (fun t => [t]) s (MethodReturn 7) 0 10 = Some (Resolved (mkFact (MethodReturn 7) 4 (rng 0 5 9) Yard)) /\
      type_at (fun t => [t]) s (LocalVariable 1 2) 2 9 =
        Some (Ambiguous [mkFact (LocalVariable 1 2) 5 (rng 2 3 4) Flow; mkFact (LocalVariable 1 2) 8 (rng 2 3 5) Flow]) /\
      named_type_before s 1 50 (fun _ _ => true) = Some (NResolved 5) /\
      named_type_before s 2 50 (fun _ _ => true) = Some NAmbiguous /\
      latest_non_unknown s (LocalVariable 1 2) = Some (Some (8, rng 2 3 5))
  | None => False
  end.
Proof. vm_compute. repeat split. Qed.

Print Assumptions C63_never_panics.
Print Assumptions C63_facts_for.
Print Assumptions C63_facts_for_in_force.
Print Assumptions C63_facts_for_order.
Print Assumptions C63_facts_for_added.
Print Assumptions C63_order_restored.
Print Assumptions C63_facts_in_file.
Print Assumptions C63_all_facts.
Print Assumptions C63_last_replacement.
Print Assumptions C63_foreign_fact_panics.
Print Assumptions C64_type_at.
Print Assumptions C64_ambiguous_once.
Print Assumptions C64_type_at_determined.
Print Assumptions C64_named_type.
Print Assumptions C64_named_determined.
Print Assumptions C64_latest_known.
Print Assumptions C65_update.
Print Assumptions C65_only_types.
Print Assumptions C65_declared_returns_survive.
