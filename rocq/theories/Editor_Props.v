(** C82, C83 and C86: open documents, closed files and the nil-call diagnostic, over every run of the server. *)
From Coq Require Import List Bool ZArith String Sorted Lia.
From Verif Require Import Editor_Model Editor_Spec Editor_Core Editor_Steps Editor_Proofs Editor_Run Editor_Closed Editor_Play.
Import ListNotations.
Open Scope string_scope.
Open Scope list_scope.

(** ** C82: at rest the server holds, of every document, exactly what the editor shows *)

(** Whatever the notifications, their interleaving with analyses on the pool and with watched-file work, and whatever
    analyses fail: when nothing is left to do, the open documents and their versions and texts are the editor's. *)
Theorem C82_open_documents : forall W s es x,
  indexed s -> run W (State s [] []) es x -> protocol (notes es) -> at_rest x ->
  forall u, option_map (fun d => (dversion d, dtext d)) (docs (srv x) u) = option_map fst (shown (notes es) u).
Proof.
  intros W s es x Ix R Pr Re u. destruct (rest_docs W s es x Ix R Pr Re) as [g [V _]]. rewrite <- (V u). unfold view.
  destruct (docs (srv x) u); reflexivity.
Qed.

(** And the index holds the facts of the text shown: for an edited document always, for one only opened if no
    watched-file notification named it. *)
Theorem C82_index_partial : forall W s es x u t,
  indexed s -> run W (State s [] []) es x -> protocol (notes es) -> at_rest x ->
  shows (notes es) u t -> own_file W s u -> ~ may_fail W u t ->
  edited (notes es) u \/ (~ watched u (notes es) /\ broken W t = false) ->
  facts (srv x) u = if broken W t then Nothing else Full t.
Proof.
  intros W s es x u t Ix R Pr Re [k [f Sh]] [Sg Ow] Mf Ed.
  destruct (rest_docs W s es x Ix R Pr Re) as [g [V C]]. specialize (V u). rewrite Sh in V. unfold view in V.
  destruct (docs (srv x) u) as [d|] eqn:D; [|discriminate]. injection V as <- <- <-.
  assert (K : is_dependency (source_kind (srv x) u) = false).
  { apply (ours_run W (State s [] []) es x u R Sg). unfold ours, source_kind, file_kind. cbn.
    destruct (files s u) as [[kd y]|]; [|reflexivity]. destruct (Ow kd y eq_refl); subst; reflexivity. }
  assert (Rl : relied W (fun w => watched w (notes es)) g u (dtext d)).
  { destruct Ed as [[k' [t' E]]|E]; [left; congruence|right; auto]. }
  destruct (c_facts _ _ _ _ _ _ _ C u d D Mf K Rl) as [[P|[[j [[] _]]|[[] _]]]|[[_ [j [[] _]]] _]]. exact P.
Qed.

(** The scopes of locals of an edited document are those of its text. *)
Theorem C82_scopes_partial : forall W s es x u t,
  indexed s -> run W (State s [] []) es x -> protocol (notes es) -> at_rest x ->
  shows (notes es) u t -> edited (notes es) u -> ~ may_fail W u t -> broken W t = false ->
  exists d, docs (srv x) u = Some d /\ dscopes d = Some t.
Proof.
  intros W s es x u t Ix R Pr Re [k [f Sh]] [k' [t' E]] Mf B.
  destruct (rest_docs W s es x Ix R Pr Re) as [g [V C]]. specialize (V u). rewrite Sh in V. unfold view in V.
  destruct (docs (srv x) u) as [d|] eqn:D; [|discriminate]. injection V as <- <- <-. exists d. split; auto.
  destruct (c_scope _ _ _ _ _ _ _ C u d D Mf) as [P|[[j [[] _]]|[_ [j [[] _]]]]]; auto. congruence.
Qed.

(** ** C83: a file that is not open has, in the index, the content of the disk *)

(** From any state at rest: if the disk content of a file does not change any more, no editor notification is about it,
    it is named by a watched-file notification, and none calls it deleted while it exists, then the index ends up with
    that content, whatever else happens meanwhile. *)
Theorem C83_closed_file_partial : forall W x es y u,
  at_rest x -> docs (srv x) u = None -> run W x es y -> at_rest y ->
  inside W u = true -> included W u = true -> signature W u = false ->
  (forall t, ~ In (Wrote u t) es) ->
  (forall n, In (Arrive n) es -> locks n <> Some u) ->
  (forall cs, In (Arrive (Watched cs)) es -> In (u, Deleted) cs -> disk (srv x) u = None) ->
  watched u (notes es) ->
  match disk (srv x) u with
  | Some t => files (srv y) u = Some (Project, t) /\ facts (srv y) u = Full t
  | None => forall t, files (srv y) u = Some (Project, t) -> facts (srv y) u = Nothing
  end.
Proof.
  intros W x es y u Rx Dn R [Rb Rh] H1 H2 H3 H4 H5 H6 H7.
  assert (Q : quiet u (disk (srv x) u) y es).
  { eapply quiet_run; eauto. intros n i. split; auto. intros cs -> k. eapply H6; eauto. }
  destruct Q as [_ [_ [_ [_ [_ Q]]]]]. destruct (Q H7) as [A|[[n [p [i _]]]|[c [t i]]]].
  - exact A.
  - rewrite Rh in i. destruct i.
  - rewrite Rb in i. destruct i.
Qed.

(** ** C86: the nil-call diagnostic *)

(** extract_nil_call_diagnostics (src/capabilities/diagnostics.rs:41-57) returns nothing when the document has no
    scopes; [said] lists the scopes of every document generate_diagnostics was called with. *)
Lemma start_said : forall W s n, (forall u o, In (u, o) (said s) -> o = None) ->
  forall u o, In (u, o) (said (fst (start W s n))) -> o = None.
Proof.
  intros W s n H u o. destruct n as [w v t|w v ts|w|w|cs]; cbn [start]; try (apply H).
  - unfold start_open. set (k := match file_kind s w with Some k => k | None => new_kind W w end).
    destruct (match file_kind s w with Some k0 => is_dependency k0 | None => false end || matches s w t).
    + destruct (is_project k), (matches s w t); cbn; rewrite ?set_eq; cbn;
        try (intros [E|i]; [injection E as _ <-; destruct (docs s w); reflexivity|eauto]); eauto.
    + apply H.
  - unfold start_change. destruct (rev ts); apply H.
  - unfold start_save. destruct (ends_rb w); [destruct (docs s w)|]; apply H.
  - unfold start_close, clear_if. cbn. destruct (files s w) as [[k y]|]; [destruct (is_excluded k)|]; cbn; apply H.
Qed.
Lemma job_said : forall W s j, (forall u o, In (u, o) (said s) -> o = None) ->
  forall u o, In (u, o) (said (fst (job_step W s j))) -> o = None.
Proof.
  intros W s [w t fo p v] H u o. destruct p; cbn; try apply H.
  - intros [E|i]; [injection E as _ <-; reflexivity|eauto].
  - intros [E|i]; [injection E as _ <-; reflexivity|eauto].
  - destruct (docs s w); apply H.
Qed.
Lemma clear_said : forall p s w, said (fst (clear_if p s w)) = said s.
Proof. intros p s w. unfold clear_if. destruct (files s w) as [[k y]|]; [destruct (p k)|]; reflexivity. Qed.

(** Never, in any run, are diagnostics generated for a document that has scopes: no nil-call diagnostic is ever
    published to the editor. *)
Theorem C86_nil_call_refuted : forall W s es x,
  indexed s -> run W (State s [] []) es x -> forall u o, In (u, o) (said (srv x)) -> o = None.
Proof.
  intros W s es x [_ [_ Sd]] R. remember (State s [] []) as x0 eqn:E0. induction R; subst.
  - cbn. rewrite Sd. intros u o [].
  - specialize (IHR eq_refl). destruct H; cbn [srv] in *; auto.
    + now apply start_said.
    + now apply job_said.
    + destruct k as [j|w t c]; cbn [task_step fst]; [now apply job_said|]. destruct c; exact IHR.
    + now rewrite clear_said.
    + now rewrite clear_said.
Qed.

(** ** Runs that show the hypotheses can be met, and the corners where the claims fail *)

Definition u0 : uri := "u.rb".
Definition initial (t : text) : server :=
  Server (fun _ => None) (fun w => if String.eqb w u0 then Some (Project, t) else None)
         (fun w => if String.eqb w u0 then Full t else Nothing) (fun w => if String.eqb w u0 then Some t else None) [].
Definition plain : world := World (fun t => String.eqb t "bad") (fun _ => true) (fun _ => true) (fun _ => false) (fun _ _ => False).
Definition shaky : world :=
  World (fun t => String.eqb t "bad") (fun _ => true) (fun _ => true) (fun _ => false) (fun _ t => t = "new").

Lemma initial_indexed : forall t, indexed (initial t).
Proof.
  intro t. split; [reflexivity|]. split; [|reflexivity]. intros u y. cbn. destruct (String.eqb u u0); [|discriminate].
  intro E. now injection E as ->.
Qed.
Lemma initial_own : forall W t, signature W u0 = false -> own_file W (initial t) u0.
Proof. intros W t Sg. split; auto. intros k y E. vm_compute in E. injection E as <- _. auto. Qed.

Definition never (j : job) : bool := false.
Definition outcome (W : world) (f : job -> bool) (x : state) (ms : list move) : list event * state :=
  match plays W f x ms with Some r => r | None => ([], x) end.
Lemma outcome_run : forall W f x ms, (forall j, f j = true -> may_fail W (ju j) (jt j)) ->
  (if plays W f x ms then true else false) = true -> dues W f x ms ->
  run W x (fst (outcome W f x ms)) (snd (outcome W f x ms)).
Proof.
  intros W f x ms Fo E D. unfold outcome. destruct (plays W f x ms) as [[es y]|] eqn:P; [|discriminate].
  eapply plays_run; eauto.
Qed.

Definition endless (ms : list move) : bool := forallb (fun m => match m with Ends _ _ => false | _ => true end) ms.
Lemma endless_dues : forall W f ms x, endless ms = true -> dues W f x ms.
Proof.
  intros W f ms. induction ms as [|m r IH]; intros x E; cbn; auto. cbn in E. apply andb_true_iff in E. destruct E as [E1 E2].
  split; [destruct m; try discriminate; exact Logic.I|]. destruct (play W f x m) as [[e y]|]; auto.
Qed.

Lemma dues_app : forall W f a b x, dues W f x a -> (forall es y, plays W f x a = Some (es, y) -> dues W f y b) ->
  dues W f x (a ++ b).
Proof.
  intros W f a b. induction a as [|m a IH]; intros x D E; cbn [app].
  - apply (E [] x). reflexivity.
  - cbn in *. destruct D as [D1 D2]. split; auto. destruct (play W f x m) as [[e y]|]; auto. apply IH; auto.
    intros es z P. apply (E (e :: es)). now rewrite P.
Qed.

(** Only [u0] is spoken about: nothing else gets opened. *)
Definition about_u0 (e : event) : bool :=
  match e with
  | Arrive (Watched cs) => forallb (fun p => negb (is_deleted (snd p))) cs
  | Arrive n => match locks n with Some w => String.eqb w u0 | None => false end
  | Wrote w _ => String.eqb w u0
  | Tau => true
  end.
Lemma sole : forall t es y w, run plain (State (initial t) [] []) es y -> forallb about_u0 es = true -> w <> u0 ->
  docs (srv y) w = None.
Proof.
  intros t es y w R A N. rewrite forallb_forall in A.
  refine (proj1 (quiet_run plain w None eq_refl eq_refl eq_refl (State (initial t) [] []) es y _ _ _ R _ _)).
  - split; reflexivity.
  - reflexivity.
  - cbn. destruct (String.eqb_spec w u0); [contradiction|reflexivity].
  - intros n i. specialize (A _ i). split.
    + destruct n; cbn in *; try discriminate; apply String.eqb_eq in A; intro X; injection X as <-; exact (N A).
    + reflexivity.
  - intros t' i. specialize (A _ i). cbn in A. apply String.eqb_eq in A. contradiction.
Qed.

(** The end of a watched-file handler, when [u0] is closed, or open. *)
Definition over (i : nat) (y : state) : bool :=
  match nth_error (hs y) i with Some (Watched _, Looping [] true) => true | _ => false end.
Definition held (y : state) : bool :=
  match docs (srv y) u0, file_kind (srv y) u0 with Some _, Some Project => true | _, _ => false end.
Lemma due_end : forall i y us, (forall w, w <> u0 -> docs (srv y) w = None) -> over i y = true ->
  us = (if held y then [u0] else []) -> due y (Ends i us).
Proof.
  intros i y us Dn O E. unfold over in O. cbn. destruct (nth_error (hs y) i) as [[n p]|]; [|auto].
  destruct n; try discriminate. destruct p as [| |[|] [|]| |]; try discriminate. subst us.
  assert (P : forall w, In w (if held y then [u0] else []) <-> all_after_watch (srv y) w).
  { intro w. unfold all_after_watch, is_open, project_file, held. destruct (uri_dec w u0) as [->|N].
    - destruct (docs (srv y) u0); [|cbn; split; [tauto|intros [X _]; now apply X]].
      destruct (file_kind (srv y) u0) as [[]|]; cbn; split; try tauto; try (intros [_ X]; discriminate); auto.
      intros _. split; [discriminate|reflexivity].
    - rewrite (Dn w N). split; [|tauto]. destruct (docs (srv y) u0); [|easy]. destruct (file_kind (srv y) u0) as [[]|]; try easy.
      intros [X|[]]. congruence. }
  split; [split; [|exact P]|].
  - destruct (held y); repeat constructor. easy.
  - unfold in_order. destruct (held y); repeat constructor.
Qed.

Lemma dues_end : forall t a i us, dues plain never (State (initial t) [] []) a ->
  (let r := outcome plain never (State (initial t) [] []) a in
   forallb about_u0 (fst r) && over i (snd r) && (if held (snd r) then (match us with [w] => String.eqb w u0 | _ => false end)
                                                  else match us with [] => true | _ => false end)) = true ->
  dues plain never (State (initial t) [] []) (a ++ [Ends i us]).
Proof.
  intros t a i us D E. apply dues_app; auto. intros es y P. unfold outcome in E. rewrite P in E. cbn [fst snd] in E.
  apply andb_true_iff in E. destruct E as [E E3]. apply andb_true_iff in E. destruct E as [E1 E2].
  assert (R : run plain (State (initial t) [] []) es y) by (eapply plays_run; eauto; discriminate).
  cbn [dues]. split.
  - apply due_end; auto; [intros w N; eapply sole; eauto|]. destruct (held y).
    + destruct us as [|w [|]]; try discriminate. apply String.eqb_eq in E3. now rewrite E3.
    + destruct us; [auto|discriminate].
  - destruct (play plain never y (Ends i us)) as [[e z]|]; exact Logic.I.
Qed.

Ltac runs := apply outcome_run; [try discriminate|vm_compute; reflexivity|].
Ltac plain_run := runs; apply endless_dues; reflexivity.
Ltac respects := let u := fresh "u" in let N := fresh "N" in intro u; destruct (uri_dec u u0) as [->|N];
  [vm_compute; repeat (split || intro || eexists); try discriminate; reflexivity
  |let n := fresh "n" in let i := fresh "i" in let X := fresh "X" in
   apply legal_others; intros n i X; vm_compute in i;
   repeat (destruct i as [<-|i]; [cbn in X; try discriminate X; injection X as X; exact (N (eq_sym X))|]); destruct i].

(** A document is opened and edited while a watched-file notification reads and collects it in parallel. *)
Definition race : list move :=
  [Gets (Watched [(u0, Changed)]); Goes 0; Gets (DidOpen u0 1 "b"); Goes 1; Gets (DidChange u0 2 ["a0"; "a"]); Goes 1;
   Goes 1; Goes 1; Goes 1; Goes 0; Goes 0; Main; Main; Main; Goes 1; Goes 1; Goes 1; Goes 1; Goes 1].
Definition race_end : list event * state :=
  outcome plain never (State (initial "b") [] []) (race ++ [Ends 0 [u0]] ++ repeat Main 7).
Example race_run : run plain (State (initial "b") [] []) (fst race_end) (snd race_end) /\
  protocol (notes (fst race_end)) /\ at_rest (snd race_end) /\ edited (notes (fst race_end)) u0 /\
  shows (notes (fst race_end)) u0 "a" /\ own_file plain (initial "b") u0 /\ watched u0 (notes (fst race_end)) /\
  facts (srv (snd race_end)) u0 = Full "a".
Proof.
  split; [|split; [|split; [|split; [|split; [|split; [|split]]]]]].
  - runs. rewrite app_assoc. apply dues_app; [apply dues_end; [apply endless_dues|vm_compute]; reflexivity|].
    intros es y _. apply endless_dues. reflexivity.
  - respects.
  - vm_compute. auto.
  - exists 2%Z, "a". vm_compute. reflexivity.
  - exists 2%Z, true. vm_compute. reflexivity.
  - now apply initial_own.
  - exists [(u0, Changed)], Changed. vm_compute. auto.
  - vm_compute. reflexivity.
Qed.

(** *** C82, refuted corners *)

(** The file is closed between the collection and the refresh of the same race; reopened with the content of the disk,
    it keeps the facts of the discarded edit. *)
Definition race_close : list event * state :=
  outcome plain never (State (initial "b") [] [])
    (((race ++ [Gets (DidClose u0); Goes 1]) ++ [Ends 0 []]) ++ [Gets (DidOpen u0 1 "b"); Goes 0]).
Theorem C82_watched_reopen_refuted : exists W s es x u,
  indexed s /\ run W (State s [] []) es x /\ protocol (notes es) /\ at_rest x /\
  shows (notes es) u "b" /\ own_file W s u /\ (forall t, ~ may_fail W u t) /\ broken W "b" = false /\
  disk (srv x) u = Some "b" /\ facts (srv x) u = Full "a".
Proof.
  exists plain, (initial "b"), (fst race_close), (snd race_close), u0.
  split; [apply initial_indexed|]. split; [|split; [|split; [|split; [|split; [|split; [|split; [|split]]]]]]].
  - runs. apply dues_app; [apply dues_end; [apply endless_dues|vm_compute]; reflexivity|].
    intros es y _. apply endless_dues. reflexivity.
  - respects.
  - vm_compute. auto.
  - exists 1%Z, false. vm_compute. reflexivity.
  - now apply initial_own.
  - intros t [].
  - reflexivity.
  - vm_compute. reflexivity.
  - vm_compute. reflexivity.
Qed.

(** An analysis fails once; the text is then saved, and the file closed and reopened when nothing fails any more: the
    facts of the old text stay. *)
Definition failed_first : list event * state :=
  outcome shaky (fun j => String.eqb (jt j) "new") (State (initial "old") [] [])
    [Gets (DidOpen u0 1 "old"); Goes 0; Gets (DidChange u0 2 ["new"]); Goes 0; Fails 0; Goes 0;
     Gets (DidClose u0); Goes 0; Writes u0 (Some "new")].
Definition then_well : list event * state :=
  outcome plain never (snd failed_first) [Gets (DidOpen u0 1 "new"); Goes 0].
Theorem C82_not_retried_refuted : exists W W' s es es' x y u,
  indexed s /\ run W (State s [] []) es x /\ at_rest x /\ (forall w t, ~ may_fail W' w t) /\ run W' x es' y /\ at_rest y /\
  protocol (notes (es ++ es')) /\ shows (notes (es ++ es')) u "new" /\ ~ watched u (notes (es ++ es')) /\
  broken W' "new" = false /\ own_file W' s u /\ facts (srv y) u = Full "old".
Proof.
  exists shaky, plain, (initial "old"), (fst failed_first), (fst then_well), (snd failed_first), (snd then_well), u0.
  split; [apply initial_indexed|]. split.
  - apply outcome_run; [|vm_compute; reflexivity|apply endless_dues; reflexivity].
    intros j E. apply String.eqb_eq in E. exact E.
  - split; [vm_compute; auto|]. split; [intros w t []|]. split.
    + plain_run.
    + split; [vm_compute; auto|]. split; [respects|]. split; [exists 1%Z, false; vm_compute; reflexivity|]. split.
      * intros [cs [c [i _]]]. vm_compute in i. intuition discriminate.
      * split; [reflexivity|]. split; [now apply initial_own|]. vm_compute. reflexivity.
Qed.

(** What the index holds for a text with more than ten syntax errors depends on how it came to it. *)
Definition bad_opened : list event * state :=
  outcome plain never (State (initial "bad") [] []) [Gets (DidOpen u0 1 "bad"); Goes 0].
Definition bad_edited : list event * state :=
  outcome plain never (State (initial "bad") [] [])
    ([Gets (DidOpen u0 1 "bad"); Goes 0; Gets (DidChange u0 2 ["bad"])] ++ repeat (Goes 0) 6).
Theorem C82_broken_text_refuted : exists W s es x es' x' u t,
  indexed s /\ run W (State s [] []) es x /\ run W (State s [] []) es' x' /\
  protocol (notes es) /\ protocol (notes es') /\ at_rest x /\ at_rest x' /\ (forall w y, ~ may_fail W w y) /\
  shows (notes es) u t /\ shows (notes es') u t /\ disk (srv x) u = disk (srv x') u /\
  facts (srv x) u = Full t /\ facts (srv x') u = Nothing.
Proof.
  exists plain, (initial "bad"), (fst bad_opened), (snd bad_opened), (fst bad_edited), (snd bad_edited), u0, "bad".
  split; [apply initial_indexed|]. split; [plain_run|]. split; [plain_run|].
  split; [respects|]. split; [respects|]. split; [vm_compute; auto|]. split; [vm_compute; auto|].
  split; [intros w y []|]. split; [exists 1%Z, false; vm_compute; reflexivity|].
  split; [exists 2%Z, true; vm_compute; reflexivity|]. vm_compute. auto.
Qed.

(** A document opened with the text already indexed has no scopes of locals, until it is edited. *)
Definition just_opened : list event * state :=
  outcome plain never (State (initial "old") [] []) [Gets (DidOpen u0 1 "old"); Goes 0].
Theorem C82_scopes_after_open_refuted : exists W s es x u t d,
  indexed s /\ run W (State s [] []) es x /\ protocol (notes es) /\ at_rest x /\ shows (notes es) u t /\
  (forall w y, ~ may_fail W w y) /\ broken W t = false /\ own_file W s u /\
  docs (srv x) u = Some d /\ dscopes d = None.
Proof.
  exists plain, (initial "old"), (fst just_opened), (snd just_opened), u0, "old", (Doc "old" 1 (Some 1%Z) None).
  split; [apply initial_indexed|]. split; [plain_run|]. split; [respects|].
  split; [vm_compute; auto|]. split; [exists 1%Z, false; vm_compute; reflexivity|]. split; [intros w y []|].
  split; [reflexivity|]. split; [now apply initial_own|]. vm_compute. auto.
Qed.

(** Opened, never changed, never watched: the second case of [C82_index_partial]. *)
Example just_opened_index : ~ watched u0 (notes (fst just_opened)) /\ facts (srv (snd just_opened)) u0 = Full "old".
Proof. split; [intros [cs [c [i _]]]; vm_compute in i; intuition discriminate|vm_compute; reflexivity]. Qed.

(** *** C83, an example and the refuted corners *)

Definition noticed : list move := [Gets (Watched [(u0, Changed)]); Goes 0; Goes 0; Goes 0; Main; Main; Main].
Definition noticed_end : list event * state :=
  outcome plain never (State (initial "old") [] []) ((Writes u0 (Some "new") :: noticed) ++ [Ends 0 []]).
Example noticed_run : exists x es, srv x = set_disk (initial "old") u0 (Some "new") /\ at_rest x /\
  run plain x es (snd noticed_end) /\ at_rest (snd noticed_end) /\ watched u0 (notes es) /\
  facts (srv (snd noticed_end)) u0 = Full "new".
Proof.
  exists (State (set_disk (initial "old") u0 (Some "new")) [] []), (tl (fst noticed_end)).
  split; [reflexivity|]. split; [split; reflexivity|].
  split; [|split; [vm_compute; auto|split; [exists [(u0, Changed)], Changed; vm_compute; auto|vm_compute; reflexivity]]].
  assert (D : dues plain never (State (initial "old") [] []) ((Writes u0 (Some "new") :: noticed) ++ [Ends 0 []]))
    by (apply dues_end; [apply endless_dues|vm_compute]; reflexivity).
  apply (plays_run plain never ltac:(discriminate) (noticed ++ [Ends 0 []])); [vm_compute; reflexivity|]. apply D.
Qed.

(** An edit that is closed without saving stays in the index. *)
Definition discarded : list event * state :=
  outcome plain never (State (initial "old") [] [])
    ([Gets (DidOpen u0 1 "old"); Goes 0; Gets (DidChange u0 2 ["new"])] ++ repeat (Goes 0) 9 ++ [Gets (DidClose u0); Goes 0]).
Theorem C83_discarded_edit_refuted : exists W s es x u,
  indexed s /\ run W (State s [] []) es x /\ protocol (notes es) /\ at_rest x /\ (forall w y, ~ may_fail W w y) /\
  shown (notes es) u = None /\ own_file W s u /\
  disk (srv x) u = Some "old" /\ disk s u = Some "old" /\ facts (srv x) u = Full "new".
Proof.
  exists plain, (initial "old"), (fst discarded), (snd discarded), u0.
  split; [apply initial_indexed|]. split; [plain_run|]. split; [respects|].
  split; [vm_compute; auto|]. split; [intros w y []|]. split; [vm_compute; reflexivity|].
  split; [now apply initial_own|]. vm_compute. auto.
Qed.

(** The disk changes while the file is open; the notification is skipped; after the file is closed nothing brings the
    new content in. *)
Definition missed : list event * state :=
  outcome plain never (State (initial "old") [] [])
    [Gets (DidOpen u0 1 "old"); Goes 0; Writes u0 (Some "new"); Gets (Watched [(u0, Changed)]); Goes 0; Goes 0;
     Gets (DidClose u0); Goes 0].
Theorem C83_skipped_while_open_refuted : exists W s es x u,
  indexed s /\ run W (State s [] []) es x /\ protocol (notes es) /\ at_rest x /\ (forall w y, ~ may_fail W w y) /\
  shown (notes es) u = None /\ own_file W s u /\ watched u (notes es) /\
  disk (srv x) u = Some "new" /\ facts (srv x) u = Full "old".
Proof.
  exists plain, (initial "old"), (fst missed), (snd missed), u0.
  split; [apply initial_indexed|]. split; [plain_run|]. split; [respects|].
  split; [vm_compute; auto|]. split; [intros w y []|]. split; [vm_compute; reflexivity|].
  split; [now apply initial_own|]. split; [exists [(u0, Changed)], Changed; vm_compute; auto|].
  vm_compute. auto.
Qed.

(** Two notifications about the same file, the second one handled while the first one has read the older content: the
    older content wins.  The file is never opened. *)
Definition overtaken : list event * state :=
  outcome plain never (State (initial "old") [] [])
    ((([Gets (Watched [(u0, Changed)]); Goes 0; Goes 0; Writes u0 (Some "new"); Gets (Watched [(u0, Changed)]);
        Goes 1; Goes 1; Goes 1; Main; Main; Main] ++ [Ends 1 []]) ++ [Goes 0; Main; Main; Main]) ++ [Ends 0 []]).
Theorem C83_overtaken_refuted : exists W s es x u,
  indexed s /\ run W (State s [] []) es x /\ protocol (notes es) /\ at_rest x /\ (forall w y, ~ may_fail W w y) /\
  (forall w, shown (notes es) w = None) /\ own_file W s u /\
  es = app [Arrive (Watched [(u, Changed)]); Tau; Tau; Wrote u (Some "new"); Arrive (Watched [(u, Changed)])] (repeat Tau 12) /\
  disk (srv x) u = Some "new" /\ facts (srv x) u = Full "old".
Proof.
  exists plain, (initial "old"), (fst overtaken), (snd overtaken), u0.
  split; [apply initial_indexed|]. split; [runs|].
  - apply dues_end; [|vm_compute; reflexivity]. apply dues_app; [apply dues_end; [apply endless_dues|vm_compute]; reflexivity|].
    intros es y _. apply endless_dues. reflexivity.
  - split; [respects|]. split; [vm_compute; auto|]. split; [intros w y []|]. split; [reflexivity|].
    split; [now apply initial_own|]. split; [vm_compute; reflexivity|]. vm_compute. auto.
Qed.

(** Diagnostics are generated in such runs: C86 is not about an empty list. *)
Example something_said : said (srv (snd discarded)) <> [].
Proof. vm_compute. discriminate. Qed.

Print Assumptions C82_open_documents.
Print Assumptions C82_index_partial.
Print Assumptions C82_scopes_partial.
Print Assumptions C82_watched_reopen_refuted.
Print Assumptions C82_not_retried_refuted.
Print Assumptions C82_broken_text_refuted.
Print Assumptions C82_scopes_after_open_refuted.
Print Assumptions C83_closed_file_partial.
Print Assumptions C83_discarded_edit_refuted.
Print Assumptions C83_skipped_while_open_refuted.
Print Assumptions C83_overtaken_refuted.
Print Assumptions C86_nil_call_refuted.
