(** C94 Ruby projects of a folder. *)
From Coq Require Import List Bool Arith Lia Sorted Permutation.
From Verif Require Import Sort_Lib Projects_Model Projects_Spec Projects_Proofs.
Import ListNotations.

(** The projects of a folder are the outermost directories with a Gemfile, in order and each once; a folder
    without any is a project itself. *)
Theorem C94_projects root t rs : discover root t = Some rs ->
  ascending rs /\
  ((exists q, project_at t q) -> forall x, In x rs <-> exists q, x = root ++ q /\ project_at t q) /\
  (~ (exists q, project_at t q) -> rs = [root]).
Proof.
  unfold discover. destruct (has_gemfile t) eqn:G.
  - intros E. injection E as <-. split; [repeat constructor|]. apply gemfile_dec in G. split.
    + intros _ x. split.
      * intros [<-|[]]. exists []. split; [now rewrite app_nil_r|]. exists t. split; [constructor|exact G].
      * intros (q & -> & d & Hs & _). rewrite (searched_gemfile t q d Hs G), app_nil_r. now left.
    + reflexivity.
  - destruct (nested root t) as [roots|] eqn:N; [|discriminate]. intros E.
    pose proof (nested_some t root roots G N) as HN.
    assert (HI : forall x, In x (dedup (sort path_leb roots)) <-> In x roots)
      by (intros x; rewrite dedup_in; apply sort_in).
    pose proof (dedup_ascending _ (path_sort_sorted roots)) as HA.
    destruct (dedup (sort path_leb roots)) as [|a l] eqn:D; injection E as <-.
    + split; [repeat constructor|]. split; [|reflexivity].
      intros [q Hq]. exfalso. apply (proj2 (HI (root ++ q))). apply HN. eauto.
    + split; [exact HA|]. split; [|].
      * intros _ x. rewrite (HI x). apply HN.
      * intros Hno. exfalso. apply Hno. destruct (proj1 (HN a) (proj1 (HI a) (or_introl eq_refl))) as (q & _ & Hq). eauto.
Qed.
Print Assumptions C94_projects.

(** The search fails exactly if it comes to a directory it cannot read. *)
Theorem C94_fails root t : discover root t = None <-> blocked t.
Proof.
  unfold discover. destruct (has_gemfile t) eqn:G.
  - split; [discriminate|]. intros (q & d & Hs & Hn & _). exfalso. apply gemfile_dec in G.
    pose proof (searched_gemfile t q d Hs G) as ->. inversion Hs; subst; contradiction.
  - rewrite <- (nested_none t root G). destruct (nested root t); split; congruence.
Qed.
Print Assumptions C94_fails.

Lemma entry_unique {A} (l : list (name * A)) n x y : NoDup (map fst l) -> In (n, x) l -> In (n, y) l -> x = y.
Proof.
  induction l as [|[m z] l IH]; intros H Hx Hy; [contradiction|]. inversion H as [|? ? H1 H2]; subst.
  destruct Hx as [Hx|Hx]; destruct Hy as [Hy|Hy]; try congruence.
  - injection Hx as -> ->. exfalso. apply H1. apply in_map_iff. now exists (n, y).
  - injection Hy as -> ->. exfalso. apply H1. apply in_map_iff. now exists (n, x).
  - auto.
Qed.
Lemma searched_prefix t q1 d1 : searched t q1 d1 -> forall q2 d2, distinct_names t -> searched t (q1 ++ q2) d2 ->
  searched d1 q2 d2.
Proof.
  induction 1 as [t|r l n t q d Hin Hp Hs IH]; intros q2 d2 Hd H; [exact H|].
  inversion H as [|r0 l0 n0 t0 q0 d0 Hin' Hp' Hs']; subst.
  assert (t0 = t) as -> by (eapply entry_unique; [apply (Hd [] r false l); constructor|exact Hin'|exact Hin]).
  apply IH; [|exact Hs']. intros q' r' g' l' Hl. apply (Hd (n :: q') r' g' l'). econstructor; eauto.
Qed.
(** No project lies in another. *)
Theorem C94_disjoint root t rs : distinct_names t -> discover root t = Some rs -> disjoint rs.
Proof.
  intros Hd H. destruct (C94_projects root t rs H) as (_ & H1 & H2).
  intros x y Hx Hy Hi.
  assert (Hex : (exists q, project_at t q) \/ rs = [root]).
  { revert H. unfold discover. destruct (has_gemfile t); [intros E; injection E as <-; now right|].
    destruct (nested root t) as [roots|] eqn:N; [|discriminate].
    intros E. destruct (dedup (sort path_leb roots)) as [|a l] eqn:D; injection E as <-; [now right|].
    left. destruct (has_gemfile t) eqn:G.
    - exists []. exists t. split; [constructor|now apply gemfile_dec].
    - assert (Ha : In a roots) by (apply (sort_in path_leb); apply dedup_in; rewrite D; now left).
      destruct (proj1 (nested_some t root roots G N a) Ha) as (q & _ & Hq). now exists q. }
  destruct Hex as [Hex| ->].
  - apply (H1 Hex) in Hx as (q1 & -> & d1 & Hs1 & Hg1). apply (H1 Hex) in Hy as (q2 & -> & d2 & Hs2 & Hg2).
    destruct Hi as [r E]. rewrite <- app_assoc in E. apply app_inv_head in E as ->.
    pose proof (searched_prefix t q2 d2 Hs2 r d1 Hd Hs1) as Hs.
    rewrite (searched_gemfile d2 r d1 Hs Hg2), app_nil_r. reflexivity.
  - destruct Hx as [<-|[]]. destruct Hy as [<-|[]]. reflexivity.
Qed.
Print Assumptions C94_disjoint.

(** What is found lies in the folder. *)
Theorem C94_inside root t rs : discover root t = Some rs -> Forall (fun r => inside r root) rs.
Proof.
  intros H. unfold discover in H. destruct (has_gemfile t) eqn:G.
  - injection H as <-. repeat constructor. apply inside_refl.
  - destruct (nested root t) as [roots|] eqn:N; [|discriminate].
    destruct (dedup (sort path_leb roots)) as [|a l] eqn:D; injection H as <-; [repeat constructor; apply inside_refl|].
    apply Forall_forall. intros x Hx. rewrite <- D in Hx. apply (proj1 (dedup_in _ _)) in Hx. apply sort_in in Hx.
    apply (nested_some t root roots G N) in Hx as (q & -> & _). now exists q.
Qed.
Print Assumptions C94_inside.

(** ** Configured roots *)
Lemma pieces_nonnil s : forall p, pieces p s <> [].
Proof. induction s as [|c s IH]; intros p; cbn; [discriminate|]. destruct (c =? 47); [discriminate|apply IH]. Qed.
Lemma pieces_grow s : forall p, p <> [] -> hd [] (pieces p s) <> [].
Proof.
  induction s as [|c s IH]; intros p Hp; cbn; [exact Hp|]. destruct (c =? 47); [exact Hp|]. apply IH. now destruct p.
Qed.
Lemma first_piece s : s <> [] -> (hd [] (pieces [] s) = [] <-> hd 0 s = 47).
Proof.
  destruct s as [|c s]; [congruence|]. intros _. cbn [pieces hd]. destruct (c =? 47) eqn:E.
  - apply Nat.eqb_eq in E. cbn. tauto.
  - apply Nat.eqb_neq in E. split; [|tauto]. intros H. exfalso. apply (pieces_grow s ([] ++ [c])); [discriminate|exact H].
Qed.
Definition kept (n : name) : bool := match n with [] => false | [46] => false | _ => true end.
Lemma component_cases n :
  (n = [] /\ component_of n = []) \/ (n = [46] /\ component_of n = []) \/ (n = [46; 46] /\ component_of n = [CParent]) \/
  (n <> [] /\ n <> [46] /\ n <> [46; 46] /\ component_of n = [CNormal n]).
Proof.
  destruct n as [|a n]; [now left|].
  destruct (Nat.eq_dec a 46) as [->|Na].
  - destruct n as [|b n]; [now right; left|].
    destruct (Nat.eq_dec b 46) as [->|Nb].
    + destruct n as [|c n]; [now right; right; left|]. right. right. right. repeat split; discriminate.
    + right. right. right. split; [discriminate|]. split; [congruence|]. split; [congruence|].
      unfold component_of. do 47 (destruct b as [|b]; [try reflexivity; congruence|]). reflexivity.
  - right. right. right. split; [discriminate|]. split; [congruence|]. split; [congruence|].
    unfold component_of. do 47 (destruct a as [|a]; [try reflexivity; congruence|]). reflexivity.
Qed.
Lemma kept_spec n : kept n = true <-> n <> [] /\ n <> [46].
Proof.
  destruct n as [|a n]; [split; [discriminate|intros [H _]; congruence]|].
  destruct (Nat.eq_dec a 46) as [->|Na].
  - destruct n as [|b n]; [split; [discriminate|intros [_ H]; congruence]|].
    split; [intros _; split; discriminate|reflexivity].
  - split; [intros _; split; [discriminate|congruence]|intros _].
    unfold kept. do 47 (destruct a as [|a]; [try reflexivity; congruence|]). reflexivity.
Qed.
Lemma parts_names l : ~ In [46; 46] l -> forallb normal (flat_map component_of l) = true /\
  flat_map name_of (flat_map component_of l) = filter kept l.
Proof.
  induction l as [|n l IH]; intros H; [now split|].
  destruct IH as [IH1 IH2]; [intros Hi; apply H; now right|]. cbn [flat_map filter].
  rewrite forallb_app, flat_map_app, IH1, IH2.
  destruct (component_cases n) as [[-> ->]|[[-> ->]|[[-> ->]|(N1 & N2 & N3 & ->)]]]; try (now split).
  - exfalso. apply H. now left.
  - replace (kept n) with true by (symmetry; now apply kept_spec). now split.
Qed.
Lemma parts_parent l : In [46; 46] l -> forallb normal (flat_map component_of l) = false.
Proof.
  induction l as [|n l IH]; intros H; [contradiction|]. cbn [flat_map]. rewrite forallb_app.
  destruct H as [->|H]; [reflexivity|]. rewrite (IH H). apply andb_false_r.
Qed.
Lemma components_eq s : s <> [] -> components s =
  match pieces [] s with
  | [] => []
  | first :: rest => (if hd 0 s =? 47 then [CRoot] else if list_eq_dec Nat.eq_dec first [46] then [CCur] else component_of first)
      ++ flat_map component_of rest
  end.
Proof.
  intros Hs. unfold components. destruct (pieces [] s) as [|first rest]; [reflexivity|]. f_equal.
  destruct s as [|c s]; [congruence|]. cbn [hd].
  assert (HF : (match first with [46] => [CCur] | _ => component_of first end) =
               (if list_eq_dec Nat.eq_dec first [46] then [CCur] else component_of first)).
  { destruct (list_eq_dec Nat.eq_dec first [46]) as [->|N]; [reflexivity|].
    destruct first as [|a first]; [reflexivity|].
    destruct (Nat.eq_dec a 46) as [->|Na]; [destruct first; [congruence|reflexivity]|].
    do 47 (destruct a as [|a]; [try reflexivity; congruence|]). reflexivity. }
  destruct (c =? 47) eqn:E.
  - apply Nat.eqb_eq in E as ->. reflexivity.
  - apply Nat.eqb_neq in E. rewrite <- HF. do 48 (destruct c as [|c]; [try reflexivity; congruence|]). reflexivity.
Qed.
Lemma explicit_root_spec d w s p : explicit_root d w s = Some p <-> stands_for d w s p.
Proof.
  unfold stands_for, relative.
  destruct (list_eq_dec Nat.eq_dec s []) as [->|Hs].
  { split; [discriminate|]. intros (names & [H _] & _). congruence. }
  assert (E1 : explicit_root d w s = if forallb normal (components s) then
        match canonicalize d (w ++ flat_map name_of (components s)) with
        | None => None
        | Some p => if is_dir d p && starts_with p w then Some p else None
        end
      else None) by (destruct s; [congruence|reflexivity]).
  rewrite E1, (components_eq s Hs). clear E1.
  destruct (pieces [] s) as [|first rest] eqn:P; [now apply pieces_nonnil in P|].
  pose proof (first_piece s Hs) as HF. rewrite P in HF. cbn [hd] in *.
  destruct (hd 0 s =? 47) eqn:E.
  { apply Nat.eqb_eq in E. cbn. split; [discriminate|]. intros (names & (_ & H & _) & _). exfalso. apply H. now apply HF. }
  apply Nat.eqb_neq in E. assert (N0 : first <> []) by (intros ->; apply E; now apply HF).
  destruct (list_eq_dec Nat.eq_dec first [46]) as [->|N1].
  { cbn. split; [discriminate|]. intros (names & (_ & _ & H & _) & _). congruence. }
  change (component_of first ++ flat_map component_of rest) with (flat_map component_of (first :: rest)).
  destruct (in_dec (list_eq_dec Nat.eq_dec) [46; 46] (first :: rest)) as [Hp|Hp].
  { rewrite (parts_parent _ Hp). split; [discriminate|]. intros (names & (_ & _ & _ & H & _) & _). contradiction. }
  destruct (parts_names _ Hp) as [H1 H2]. rewrite H1, H2. split.
  - destruct (canonicalize d (w ++ filter kept (first :: rest))) as [p'|] eqn:C; [|discriminate].
    destruct (is_dir d p' && starts_with p' w) eqn:D; [|discriminate]. intros X. injection X as ->.
    apply andb_true_iff in D as [D1 D2]. apply starts_with_inside in D2.
    exists (filter kept (first :: rest)). repeat (split; [assumption|]). split; [|now split; [|split]]. 
    repeat (split; [assumption|]). reflexivity.
  - intros (names & (_ & _ & _ & _ & ->) & C & D1 & D2).
    change (canonicalize d (w ++ filter kept (first :: rest)) = Some p) in C.
    rewrite C, D1. apply starts_with_inside in D2. now rewrite D2.
Qed.
Lemma explicit_roots_some d w l : forall rs, explicit_roots d w l = Some rs ->
  forall p, In p rs <-> exists s, In s l /\ stands_for d w s p.
Proof.
  induction l as [|s l IH]; intros rs; cbn [explicit_roots].
  - intros E. injection E as <-. intros p. split; [intros []|intros (s & [] & _)].
  - destruct (explicit_root d w s) as [q|] eqn:E; [|discriminate].
    destruct (explicit_roots d w l) as [r|]; [|discriminate]. intros X. injection X as <-. intros p.
    cbn [In]. rewrite (IH r eq_refl p). split.
    + intros [<-|(s' & H1 & H2)]; [exists s; split; [now left|now apply explicit_root_spec]|exists s'; auto].
    + intros (s' & [<-|H1] & H2); [|right; eauto]. left. apply explicit_root_spec in H2. congruence.
Qed.
Lemma explicit_roots_none d w l : explicit_roots d w l = None <-> exists s, In s l /\ forall p, ~ stands_for d w s p.
Proof.
  induction l as [|s l IH]; cbn [explicit_roots].
  - split; [discriminate|intros (s & [] & _)].
  - destruct (explicit_root d w s) as [q|] eqn:E.
    + destruct (explicit_roots d w l) as [r|].
      * split; [discriminate|]. intros (s' & [<-|H1] & H2); [exfalso; apply (H2 q); now apply explicit_root_spec|].
        exfalso. assert (Some r = None) as X by (apply IH; eauto). discriminate.
      * split; [|reflexivity]. intros _. destruct (proj1 IH eq_refl) as (s' & H1 & H2). exists s'. split; [now right|exact H2].
    + split; [|reflexivity]. intros _. exists s. split; [now left|]. intros p H. apply explicit_root_spec in H. congruence.
Qed.

(** With roots configured the projects are exactly the directories these stand for, in order and each once;
    if one stands for no directory of the folder, or one lies in another, none is accepted. *)
Theorem C94_configured d root t configured rs : configured <> [] ->
  (discover_with d root t configured = Some rs <->
   exists folder, canonicalize d root = Some folder /\
     (forall s, In s configured -> exists p, stands_for d folder s p) /\
     (forall p, In p rs <-> exists s, In s configured /\ stands_for d folder s p) /\
     ascending rs /\ disjoint rs).
Proof.
  intros Hc. unfold discover_with. destruct configured as [|c0 cs]; [congruence|]. set (l := c0 :: cs) in *. clearbody l.
  destruct (canonicalize d root) as [w|]; [|split; [discriminate|intros (f & H & _); discriminate]].
  destruct (explicit_roots d w l) as [roots|] eqn:E.
  - pose proof (explicit_roots_some d w l roots E) as HS.
    assert (HI : forall x, In x (dedup (sort path_leb roots)) <-> In x roots)
      by (intros x; rewrite dedup_in; apply sort_in).
    pose proof (dedup_ascending _ (path_sort_sorted roots)) as HA.
    assert (Hall : forall s, In s l -> exists p, stands_for d w s p).
    { intros s Hs. destruct (explicit_root d w s) as [p|] eqn:Es; [exists p; now apply explicit_root_spec|].
      exfalso. enough (explicit_roots d w l = None) by congruence. apply explicit_roots_none. exists s. split; [exact Hs|].
      intros p H. apply explicit_root_spec in H. congruence. }
    pose proof (no_overlap_disjoint _ HA) as HO.
    split.
    + destruct (no_overlap (dedup (sort path_leb roots))) eqn:O; [|discriminate]. intros X. injection X as <-.
      exists w. split; [reflexivity|]. split; [exact Hall|]. split; [intros p; rewrite (HI p); apply HS|].
      split; [exact HA|now apply HO].
    + intros (f & X & _ & Hin & Ha & Hd). injection X as <-.
      assert (dedup (sort path_leb roots) = rs) as Er.
      { apply ascending_unique; auto. intros p. rewrite (HI p), (HS p). symmetry. apply Hin. }
      rewrite Er in *. now rewrite (proj2 HO Hd).
  - split; [discriminate|]. intros (f & X & Hall & _). injection X as <-. exfalso.
    apply explicit_roots_none in E as (s & Hs & Hno). destruct (Hall s Hs) as [p Hp]. now apply (Hno p).
Qed.
Print Assumptions C94_configured.
(** Without configured roots the search decides. *)
Theorem C94_unconfigured d root t : discover_with d root t [] = discover root t.
Proof. reflexivity. Qed.
Print Assumptions C94_unconfigured.

(** A check of the names, for the examples. *)
Fixpoint once (l : list name) : bool := match l with [] => true | n :: t => negb (existsb (name_eqb n) t) && once t end.
Lemma once_nodup l : once l = true -> NoDup l.
Proof.
  induction l as [|n l IH]; intros H; [constructor|]. cbn in H. apply andb_true_iff in H as [H1 H2]. constructor; [|auto].
  intros Hi. apply negb_true_iff in H1. enough (existsb (name_eqb n) l = true) by congruence.
  apply existsb_exists. exists n. split; [exact Hi|now apply name_eqb_spec].
Qed.
Fixpoint well (t : tree) : bool :=
  match t with
  | TDir _ _ l => once (map fst l) && forallb (fun e => well (snd e)) l
  | _ => true
  end.
Lemma well_distinct t : well t = true -> distinct_names t.
Proof.
  intros H q r g l Hl. remember (TDir r g l) as d eqn:E. revert H. induction Hl as [t|r' g' l' n t q d Hin Hl IH]; intros H; subst.
  - cbn in H. apply andb_true_iff in H as [H _]. now apply once_nodup.
  - apply IH; [reflexivity|]. cbn [well] in H. apply andb_true_iff in H as [_ H].
    exact (proj1 (forallb_forall _ _) H _ Hin).
Qed.

(** ** Example: a folder with projects in [b], in [a] below [x] with one more inside, and in [vendor]. *)
Definition n_a : name := [97]. Definition n_b : name := [98]. Definition n_x : name := [120].
Definition gem (l : list (name * tree)) : tree := TDir true true l.
Definition plain (l : list (name * tree)) : tree := TDir true false l.
Definition container : tree :=
  plain [(n_x, plain [(n_a, gem [(n_b, gem [])])]); (n_b, gem []); (s_vendor, plain [(n_a, gem [])]); ([103], TFile)].
Definition ws : path := [[119]].
Example C94_case :
  discover ws container = Some [ws ++ [n_b]; ws ++ [n_x; n_a]] /\ distinct_names container /\
  project_at container [n_x; n_a] /\
  discover ws (gem [(n_a, gem [])]) = Some [ws] /\ discover ws (plain [(n_a, TFile)]) = Some [ws] /\
  blocked (plain [(n_a, TDir false false [])]).
Proof.
  split; [reflexivity|]. split.
  { apply well_distinct. reflexivity. }
  split.
  { exists (gem [(n_b, gem [])]). split; [|now eexists _, _].
    econstructor; [now left|cbn; intuition discriminate|]. econstructor; [now left|cbn; intuition discriminate|]. constructor. }
  do 2 (split; [reflexivity|]).
  exists [n_a], (TDir false false []). split; [|split; [intros (a & b & E); discriminate|left; now exists []]].
  econstructor; [now left|cbn; intuition discriminate|]. constructor.
Qed.
(** A disk where everything is what it is called. *)
Definition plain_disk : disk := mkDisk Some (fun _ => true).
Example C94_configured_case :
  discover_with plain_disk ws container [[98]; [120; 47; 97]] = Some [ws ++ [n_b]; ws ++ [n_x; n_a]] /\
  discover_with plain_disk ws container [[98]; [120; 47; 97]; [120]] = None /\
  discover_with plain_disk ws container [[46; 46; 47; 97]] = None /\
  stands_for plain_disk ws [120; 47; 46; 47; 97; 47] (ws ++ [n_x; n_a]).
Proof. do 3 (split; [reflexivity|]). now apply explicit_root_spec. Qed.

(** ** Refuted: an open folder always has a project.  One directory that cannot be listed, say the data of a
    database in a container, and none of the projects beside it is found. *)
Theorem C94_always_a_project_refuted : exists t, discover ws t = None /\ project_at t [n_b] /\ distinct_names t.
Proof.
  exists (plain [(n_a, TDir false false []); (n_b, gem [])]). split; [reflexivity|]. split.
  - exists (gem []). split; [|now eexists _, _]. econstructor; [now right; left|cbn; intuition discriminate|]. constructor.
  - apply well_distinct. reflexivity.
Qed.
Print Assumptions C94_always_a_project_refuted.

(** ** Refuted: every file of an open folder belongs to a project.  A file beside the projects of a folder
    belongs to none. *)
Theorem C94_every_file_refuted : exists t rs q, discover ws t = Some rs /\ leads t q TFile /\
  forall r, In r rs -> ~ inside (ws ++ q) r.
Proof.
  exists container, [ws ++ [n_b]; ws ++ [n_x; n_a]], [[103]]. split; [reflexivity|]. split.
  - econstructor; [do 3 right; now left|constructor].
  - intros r [<-|[<-|[]]] [q E]; discriminate.
Qed.
Print Assumptions C94_every_file_refuted.

(** ** Refuted: configured roots lie in the folder as the editor names it.  Opened through a link [w], the
    roots are found where the link leads, so no document the editor opens below [w] belongs to them. *)
Theorem C94_link_refuted : exists d rs, discover_with d ws container [[98]] = Some rs /\
  forall r q, In r rs -> ~ inside (ws ++ q) r.
Proof.
  exists (mkDisk (fun p => Some (match p with [119] :: q => [114] :: q | _ => p end)) (fun _ => true)), [[[114]; n_b]].
  split; [reflexivity|]. intros r q [<-|[]] [q' E]. discriminate.
Qed.
Print Assumptions C94_link_refuted.
