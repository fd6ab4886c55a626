(** C96: where [require] leads, and which of them are reported. *)
From Coq Require Import List Bool Arith Lia.
From Verif Require Import Sort_Lib Projects_Model Projects_Spec Projects_Proofs Projects_Props Requires_Model Requires_Spec Requires_Proofs.
Import ListNotations.

(** ** require *)
(** A feature without extension leads to the first Ruby file of that name on the load path, and to nothing when there
    is none, provided that no file of the bare name lies on it and that the engine knows of no file gone from the disk.
    Missing: what Ruby does when these fail, native libraries, and arguments with dots or doubled slashes. *)
Theorem C96_require_partial is_file known argument dirs base current project settings configured_dirs gems :
  plain argument dirs base -> ~ rb_named base -> configured settings configured_dirs -> ~ In [] gems ->
  (forall p, known p = true -> is_file p = true) ->
  (forall root, In root (load_path project configured_dirs gems) -> is_file (root ++ dirs ++ [base]) = false) ->
  forall p, resolve is_file known Require argument current project settings gems = Some p <->
    loads is_file (dirs ++ [base ++ dot_rb]) (load_path project configured_dirs gems) p.
Proof.
  intros HP HB HC HG HK HN p.
  assert (E : resolve is_file known Require argument current project settings gems =
              first_of is_file known (map (fun root => join root argument) (load_path project configured_dirs gems))).
  { unfold resolve. rewrite (search_roots_eq project settings configured_dirs gems HC HG).
    destruct argument; [|reflexivity]. exfalso. now apply (plain_join [] dirs base [] HP). }
  rewrite E. apply (first_loads is_file known). intros root Hr.
  rewrite (proj2 (plain_join argument dirs base root HP)), !app_assoc.
  assert (H2 : base <> [46; 46]) by (apply (proj2 HP); apply in_or_app; right; now left).
  apply (exists_plain is_file known HK (root ++ dirs) base H2 HB). rewrite <- app_assoc. now apply HN.
Qed.
Print Assumptions C96_require_partial.

(** A feature written with its extension leads to the first file of exactly that name on the load path. *)
Theorem C96_require_rb is_file known argument dirs base current project settings configured_dirs gems :
  plain argument dirs base -> rb_named base -> configured settings configured_dirs -> ~ In [] gems ->
  (forall p, known p = true -> is_file p = true) ->
  forall p, resolve is_file known Require argument current project settings gems = Some p <->
    loads is_file (dirs ++ [base]) (load_path project configured_dirs gems) p.
Proof.
  intros HP HB HC HG HK p.
  assert (E : resolve is_file known Require argument current project settings gems =
              first_of is_file known (map (fun root => join root argument) (load_path project configured_dirs gems))).
  { unfold resolve. rewrite (search_roots_eq project settings configured_dirs gems HC HG).
    destruct argument; [|reflexivity]. exfalso. now apply (plain_join [] dirs base [] HP). }
  rewrite E. apply (first_loads is_file known). intros root Hr.
  rewrite (proj2 (plain_join argument dirs base root HP)), !app_assoc.
  assert (H2 : base <> [46; 46]) by (apply (proj2 HP); apply in_or_app; right; now left).
  exact (exists_named is_file known HK (root ++ dirs) base H2 HB).
Qed.
Print Assumptions C96_require_rb.

(** ** require_relative *)
(** It leads to the Ruby file of that name next to the file it stands in, under the same conditions; the settings, the
    project and its gems make no difference. *)
Theorem C96_relative_partial is_file known argument dirs base dir file project settings gems :
  leading argument dirs base -> (forall p, known p = true -> is_file p = true) ->
  (~ rb_named base -> is_file (dir ++ dirs ++ [base]) = false) ->
  forall p, resolve is_file known RequireRelative argument (dir ++ [file]) project settings gems = Some p <->
    is_file p = true /\
    ((rb_named base /\ p = dir ++ dirs ++ [base]) \/ (~ rb_named base /\ p = dir ++ dirs ++ [base ++ dot_rb])).
Proof.
  intros HL HK HN p.
  assert (E : resolve is_file known RequireRelative argument (dir ++ [file]) project settings gems =
              exists_at is_file known (join dir argument)).
  { unfold resolve. destruct argument as [|c a]; [exfalso; now apply (leading_join [] dirs base [] HL)|].
    destruct (dir ++ [file]) eqn:D; [now apply app_eq_nil in D|]. rewrite <- D, removelast_last. cbn [first_of].
    destruct (exists_at _ _ _); reflexivity. }
  rewrite E, (proj2 (leading_join argument dirs base dir HL)), !app_assoc. clear E. rewrite app_assoc in HN.
  assert (H2 : base <> [46; 46]) by (destruct HL as (ps & _ & _ & _ & _ & H & _); exact H).
  destruct (is_rb ((dir ++ dirs) ++ [base])) eqn:R.
  - apply (proj1 (is_rb_spec _ _ H2)) in R. rewrite (exists_named is_file known HK _ base H2 R). unfold path, name in *.
    destruct (is_file ((dir ++ dirs) ++ [base])) eqn:F.
    + split; [intros X; injection X as <-; split; [exact F|left; now split]|].
      intros [_ [[_ ->]|[N _]]]; [reflexivity|contradiction].
    + split; [discriminate|]. intros [A [[_ ->]|[N _]]]; [exfalso; exact (eq_true_false_abs _ A F)|contradiction].
  - assert (HB : ~ rb_named base) by (intros X; apply (proj2 (is_rb_spec (dir ++ dirs) base H2)) in X; exact (eq_true_false_abs _ X R)).
    pose proof (exists_plain is_file known HK _ base H2 HB (HN HB)) as EP. unfold path, name in *. rewrite EP. clear EP.
    destruct (is_file ((dir ++ dirs) ++ [base ++ dot_rb])) eqn:F.
    + split; [intros X; injection X as <-; split; [exact F|right; now split]|].
      intros [_ [[N _]|[_ ->]]]; [contradiction|reflexivity].
    + split; [discriminate|]. intros [A [[N _]|[_ ->]]]; [contradiction|exfalso; exact (eq_true_false_abs _ A F)].
Qed.
Print Assumptions C96_relative_partial.

(** Whatever is found is on the disk or known to the engine, and an empty argument finds nothing. *)
Theorem C96_found is_file known k argument current project settings gems p :
  resolve is_file known k argument current project settings gems = Some p ->
  argument <> [] /\ (is_file p = true \/ known p = true).
Proof.
  assert (HF : forall l q, first_of is_file known l = Some q -> is_file q = true \/ known q = true).
  { intros l. induction l as [|r l IH]; intros q; [discriminate|]. cbn [first_of].
    destruct (exists_at is_file known r) as [q'|] eqn:E; [|apply IH]. intros H. injection H as <-.
    unfold exists_at in E. destruct (is_file r || known r) eqn:X.
    - injection E as <-. now apply orb_true_iff in X.
    - destruct (is_file (with_rb r) || known (with_rb r)) eqn:Y; [|discriminate]. injection E as <-. now apply orb_true_iff in Y. }
  unfold resolve. destruct argument as [|c a]; [discriminate|]. intros H. split; [discriminate|].
  destruct k; [exact (HF _ _ H)|]. destruct current; [discriminate|exact (HF _ _ H)].
Qed.
Print Assumptions C96_found.

(** ** Reports and the cursor *)
(** Reported are exactly the calls with a literal argument that lead nowhere, at what stands between their quotes. *)
Theorem C96_reported is_file known byte t current project settings gems k text place :
  In (k, text, place) (unresolved is_file known byte t current project settings gems) <->
  exists c at_, within c t /\ requires c k text at_ /\ underlined byte at_ place /\
    resolve is_file known k text current project settings gems = None.
Proof.
  unfold unresolved. rewrite in_flat_map. split.
  - intros (x & Hx & H). destruct (resolve is_file known (tkind x) (targument x) current project settings gems) eqn:E; [contradiction|].
    destruct H as [H|[]]. injection H as <- <- <-. apply (proj1 (find_all_in t x)) in Hx as (c & Hc & Hr).
    exists c, (tspan x). split; [exact Hc|]. split; [exact Hr|]. split; [apply content_underlined|exact E].
  - intros (c & at_ & Hc & Hr & Hu & E). exists (mkTarget k text at_). cbn [tkind targument]. rewrite E. split.
    + apply find_all_in. now exists c.
    + left. f_equal. exact (underlined_unique byte at_ _ _ (content_underlined byte (mkTarget k text at_)) Hu).
Qed.
Print Assumptions C96_reported.

(** The call at the cursor: one whose literal contains it, quotes and both ends included, and none only if there is none. *)
Theorem C96_at_cursor offset t :
  (forall k text at_, find_at offset t = Some (mkTarget k text at_) ->
     (exists c, within c t /\ requires c k text at_) /\ fst at_ <= offset <= snd at_) /\
  (find_at offset t = None <->
   forall c k text at_, within c t -> requires c k text at_ -> ~ fst at_ <= offset <= snd at_).
Proof.
  assert (HC : forall x, covers offset x = true <-> fst (tspan x) <= offset <= snd (tspan x)).
  { intros x. unfold covers. now rewrite andb_true_iff, !Nat.leb_le. }
  unfold find_at. split; [|split].
  - intros k text at_ H. assert (I : In (mkTarget k text at_) (find_at_list offset t)).
    { destruct (find_at_list offset t); [discriminate|]. injection H as <-. now left. }
    apply find_at_sound in I as [A B]. apply (proj1 (find_all_in _ _)) in A. apply HC in B. now split.
  - intros H c k text at_ Hc Hr B. apply (find_at_some offset t (mkTarget k text at_)).
    + apply find_all_in. now exists c.
    + now apply HC.
    + destruct (find_at_list offset t); [reflexivity|discriminate].
  - intros H. destruct (find_at_list offset t) as [|[k text at_] l] eqn:E; [reflexivity|]. exfalso.
    assert (I : In (mkTarget k text at_) (find_at_list offset t)) by (rewrite E; now left).
    apply find_at_sound in I as [A B]. apply (proj1 (find_all_in _ _)) in A as (c & Hc & Hr). apply HC in B.
    exact (H c k text at_ Hc Hr B).
Qed.
Print Assumptions C96_at_cursor.

(** ** Where this is not what Ruby does *)
Definition has (l : list path) (p : path) : bool := existsb (fun q => if list_eq_dec (list_eq_dec Nat.eq_dec) p q then true else false) l.
Definition n_p : name := [112]. Definition n_run : name := [114; 117; 110].
Definition n_json : name := [106; 115; 111; 110]. Definition dot_so : name := [46; 115; 111].
Definition nothing (p : path) : bool := false.

(** A file without extension hides the Ruby file of that name: [require_relative "run"] in [/p/main.rb] leads to the
    script [/p/run] although [/p/run.rb] is there, which is the one Ruby loads. *)
Theorem C96_bare_name_refuted : exists files argument dirs base dir file,
  leading argument dirs base /\ ~ rb_named base /\ has files (dir ++ dirs ++ [base ++ dot_rb]) = true /\
  resolve (has files) nothing RequireRelative argument (dir ++ [file]) dir [] [] = Some (dir ++ dirs ++ [base]).
Proof.
  exists [[n_p; n_run]; [n_p; n_run ++ dot_rb]], n_run, [], n_run, [n_p], [109; 46; 114; 98].
  split; [exists []; repeat split; try discriminate; intros []|]. split.
  { intros (stem & a & b & E & Hs & _). apply (f_equal (@length nat)) in E. rewrite app_length in E.
    destruct stem as [|x stem]; [congruence|]. cbn in E. lia. }
  split; reflexivity.
Qed.
Print Assumptions C96_bare_name_refuted.

(** A feature that exists as a native library only is reported, although Ruby loads it. *)
Theorem C96_native_refuted : exists files argument dirs base current project gems root,
  plain argument dirs base /\ In root (load_path project [] gems) /\ has files (root ++ dirs ++ [base ++ dot_so]) = true /\
  resolve (has files) nothing Require argument current project [] gems = None.
Proof.
  exists [[n_run; n_json ++ dot_so]], n_json, [], n_json, [n_p; n_run], [n_p], [[n_run]], [n_run].
  split; [split; [reflexivity|]; intros n [<-|[]]; repeat split; discriminate|].
  split; [right; right; now left|]. split; reflexivity.
Qed.
Print Assumptions C96_native_refuted.

(** A file the engine still knows is found although it is gone from the disk. *)
Theorem C96_gone_refuted : exists known argument current project,
  resolve nothing known Require argument current project [] [] <> None.
Proof. exists (has [[n_p; n_run ++ dot_rb]]), n_run, [n_p; n_json], [n_p]. discriminate. Qed.
Print Assumptions C96_gone_refuted.

(** [require "./run"] names a file of the working directory, the project; the editor prefers the one in its [lib]. *)
Theorem C96_dot_refuted : exists files current,
  has files [n_p; n_run ++ dot_rb] = true /\
  resolve (has files) nothing Require (46 :: 47 :: n_run) current [n_p] [] [] = Some [n_p; [108; 105; 98]; n_run ++ dot_rb].
Proof. exists [[n_p; n_run ++ dot_rb]; [n_p; [108; 105; 98]; n_run ++ dot_rb]], [n_p; n_json]. split; reflexivity. Qed.
Print Assumptions C96_dot_refuted.

(** ** A case *)
(** A project with a configured directory [app], a bad setting [../x] and one gem; [a/run] is in [lib] and in the gem. *)
Definition case_files : list path :=
  [[n_p; [108; 105; 98]; [97]; n_run ++ dot_rb]; [n_json; [97]; n_run ++ dot_rb]; [n_p; [109]]].
Example C96_case :
  let argument := [97; 47] ++ n_run in
  let settings := [[97; 112; 112]; [46; 46; 47; 120]] in
  plain argument [[97]] n_run /\ configured settings [[[97; 112; 112]]] /\
  (forall root, In root (load_path [n_p] [[[97; 112; 112]]] [[n_json]]) -> has case_files (root ++ [[97]] ++ [n_run]) = false) /\
  resolve (has case_files) nothing Require argument [n_p; [109]] [n_p] settings [[n_json]] =
    Some [n_p; [108; 105; 98]; [97]; n_run ++ dot_rb] /\
  loads (has case_files) ([[97]] ++ [n_run ++ dot_rb]) (load_path [n_p] [[[97; 112; 112]]] [[n_json]])
    [n_p; [108; 105; 98]; [97]; n_run ++ dot_rb] /\
  let t := Other [Call None RNone [] [Call (Some Require) RKernel [ALiteral argument (10, 17)] []];
                  Call (Some RequireRelative) RNone [ALiteral n_json (30, 36)] [];
                  Call (Some Require) ROther [ALiteral n_json (40, 46)] []] in
  unresolved (has case_files) nothing (fun _ => 34) t [n_p; [109]] [n_p] settings [[n_json]] =
    [(RequireRelative, n_json, (31, 35))] /\
  find_at 17 t = Some (mkTarget Require argument (10, 17)) /\ find_at 41 t = None.
Proof.
  cbv zeta. split; [split; [reflexivity|]; intros n [<-|[<-|[]]]; repeat split; discriminate|]. split.
  { apply configured_dir; [|apply configured_bad; [|constructor]].
    - split; [discriminate|]. split; [discriminate|]. split; [discriminate|]. split; [|reflexivity].
      intros [H|[]]; discriminate.
    - intros names (_ & _ & _ & H & _). apply H. now left. }
  split; [intros root [<-|[<-|[<-|[<-|[]]]]]; reflexivity|]. split; [reflexivity|]. split.
  { apply loads_later; [reflexivity|]. now apply (loads_here _ _ [n_p; [108; 105; 98]]). }
  split; [reflexivity|]. split; reflexivity.
Qed.
