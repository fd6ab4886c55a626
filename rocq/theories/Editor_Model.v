(** The life of a document between the editor, the index and the disk: didOpen, didChange, didSave,
    didClose and watched-file notifications, as they run concurrently in the server.

    Code: src/capabilities/indexing.rs, src/indexer/file_processor.rs (process_file*, collect_file_facts),
    src/server.rs (document_semantic_lock, open_or_update_analysis_file_with_kind),
    crates/ruby-analysis/src/indexer/ruby_document.rs.

    Granularity.  The message handlers are futures polled by one task (tower_lsp::Server::serve, main.rs:100-108),
    so code between two awaits is not interrupted by another handler; the semantic analysis of the notified file runs
    on a pool thread (process_interactive_file, indexing.rs:35-91) in parallel with everything else, and so does the
    file read of the watched-file handler.  Every access to the docs map or the engine is one step.
    A watched-file notification stands for a batch handed on by the debounce queue (Queues_Model.v).
    Not modelled: initial indexing running at the same time (C45), several engines, configuration changes, requests,
    the linter and the publication of diagnostics (C85 covers the queue). *)
From Coq Require Import List Bool ZArith String Sorted.
Import ListNotations.
Open Scope string_scope.

Definition uri := string.
Definition text := string.

(** SourceKind (crates/ruby-analysis/src/core/source_file.rs:6-23) *)
Inductive kind := Project | Excluded | Signature | External | Stub | Stdlib | Gem.
(** SourceKind::is_dependency_source (source_file.rs:93-102) *)
Definition is_dependency (k : kind) : bool :=
  match k with Signature | External | Stub | Stdlib | Gem => true | Project | Excluded => false end.
Definition is_project (k : kind) : bool := match k with Project => true | _ => false end.
Definition is_excluded (k : kind) : bool := match k with Excluded => true | _ => false end.

(** RubyDocument (ruby_document.rs:9-20): text, version, indexed_version, and the text its variable_scopes were
    collected from ([None]: VariableScopes::new()). *)
Record doc := Doc { dtext : text; dversion : Z; dindexed : option Z; dscopes : option text }.

(** What the index holds for a file: FileFacts::default(), the direct facts of a text (the seed stage), or all facts
    of a text.  Facts are taken to be a function of path and text; what they borrow from other files is not
    modelled. *)
Inductive held := Nothing | Seed (t : text) | Full (t : text).

(** RubyLanguageServer.docs, the engine's registered sources and facts, the file system, and, for every
    call of generate_diagnostics, the scopes of the document it was given. *)
Record server := Server {
  docs : uri -> option doc;
  files : uri -> option (kind * text);
  facts : uri -> held;
  disk : uri -> option text;
  said : list (uri * option text) }.

Definition set {A} (f : uri -> A) (u : uri) (a : A) : uri -> A := fun w => if String.eqb w u then a else f w.
Definition set_docs (s : server) u d := Server (set (docs s) u d) (files s) (facts s) (disk s) (said s).
Definition set_files (s : server) u f := Server (docs s) (set (files s) u f) (facts s) (disk s) (said s).
Definition set_facts (s : server) u f := Server (docs s) (files s) (set (facts s) u f) (disk s) (said s).
Definition set_disk (s : server) u t := Server (docs s) (files s) (facts s) (set (disk s) u t) (said s).
Definition say (s : server) u sc := Server (docs s) (files s) (facts s) (disk s) ((u, sc) :: said s).

(** What the environment decides: whether a text has more than ten syntax errors (file_processor.rs:416), whether a
    path lies in a workspace and is selected by the project file policy, and which analyses may fail
    (ensure_jruby_navigation_inputs and run_with_resources return errors). *)
Record world := World {
  broken : text -> bool;
  inside : uri -> bool;
  included : uri -> bool;
  signature : uri -> bool;
  may_fail : uri -> text -> Prop }.

Section Run.
Variable W : world.

(** RubyDocument::with_analysis_file_id (ruby_document.rs:29-50) *)
Definition fresh (t : text) (v : Z) : doc := Doc t v None None.
(** RubyDocument::update (ruby_document.rs:78-88): indexed_version stays. *)
Definition update (d : doc) (t : text) (v : Z) : doc := Doc t v (dindexed d) None.

(** AnalysisEngine::register_file (state.rs:1461-1470, 1521-1553) *)
Definition register (s : server) (u : uri) (k : kind) (t : text) : server := set_files s u (Some (k, t)).
(** analysis_file_kind (indexing.rs:362-373) *)
Definition file_kind (s : server) (u : uri) : option kind := option_map fst (files s u).
(** analysis_source_kind_for_uri (file_processor.rs:1576-1588) *)
Definition source_kind (s : server) (u : uri) : kind :=
  match file_kind s u with Some k => k | None => Project end.
(** source_kind_for_new_open_file (indexing.rs:340-360), with at least one workspace registered *)
Definition new_kind (u : uri) : kind := if inside W u && included W u then Project else Excluded.

(** ** Analysis of one file *)

(** Where process_file_with_resolution_forced (file_processor.rs:336-606) stands. *)
Inductive stage :=
| PCheck       (* 344-352: was this version already indexed? *)
| PTouch       (* 354-381: yes; register, syntax diagnostics only *)
| PRegister    (* 388-395: no; register *)
| PVersion     (* 396-412: read the version, diagnostics on a fresh document *)
| PEmpty       (* 415-428: more than ten errors, default facts, return *)
| PSeed        (* 432-446: direct facts *)
| PFacts       (* 527-560: all facts *)
| PInsert      (* 575-581: put the visited document into docs *)
| PMark.       (* 583-587: its version is indexed *)
Record job := Job { ju : uri; jt : text; jforced : bool; jstage : stage; jver : Z }.
Definition at_stage (j : job) (p : stage) : job := Job (ju j) (jt j) (jforced j) p (jver j).

(** already_indexed (file_processor.rs:345-353) *)
Definition current (s : server) (u : uri) : bool :=
  match docs s u with
  | Some d => match dindexed d with Some v => (v =? dversion d)%Z | None => false end
  | None => false
  end.

Definition job_step (s : server) (j : job) : server * option job :=
  let u := ju j in
  match jstage j with
  | PCheck => (s, Some (at_stage j (if negb (jforced j) && current s u then PTouch else PRegister)))
  | PTouch => (say (register s u (source_kind s u) (jt j)) u (dscopes (fresh (jt j) 0)), None)
  | PRegister => (register s u (source_kind s u) (jt j), Some (at_stage j PVersion))
  | PVersion =>
      let v := match docs s u with Some d => dversion d | None => 0%Z end in
      (say s u (dscopes (fresh (jt j) v)),
       Some (Job u (jt j) (jforced j) (if broken W (jt j) then PEmpty else PSeed) v))
  | PEmpty => (set_facts s u Nothing, None)
  | PSeed => (set_facts s u (Seed (jt j)), Some (at_stage j PFacts))
  | PFacts => (set_facts s u (Full (jt j)), Some (at_stage j PInsert))
  | PInsert => (set_docs s u (Some (Doc (jt j) (jver j) None (Some (jt j)))), Some (at_stage j PMark))
  | PMark =>
      (match docs s u with
       | Some d => set_docs s u (Some (Doc (dtext d) (dversion d) (Some (dversion d)) (dscopes d)))
       | None => s
       end, None)
  end.

(** The points where an analysis can still fail: before it registers the text (file_processor.rs:387). *)
Definition failing (j : job) : bool :=
  match jstage j with PCheck | PRegister => true | _ => false end.

(** collect_file_facts (file_processor.rs:884-914, 1282-1566) of a watched file: register as a project file, seed,
    facts.  It does not look at the number of syntax errors, nor at docs. *)
Inductive cstage := CRegister | CSeed | CFacts.
Inductive task := Process (j : job) | Collect (u : uri) (t : text) (c : cstage).
Definition task_step (s : server) (k : task) : server * option task :=
  match k with
  | Process j => let r := job_step s j in (fst r, option_map Process (snd r))
  | Collect u t CRegister => (register s u Project t, Some (Collect u t CSeed))
  | Collect u t CSeed => (set_facts s u (Seed t), Some (Collect u t CFacts))
  | Collect u t CFacts => (set_facts s u (Full t), None)
  end.

(** clear_file_facts_if_kind (indexing.rs:842-870) *)
Definition clear_if (p : kind -> bool) (s : server) (u : uri) : server * bool :=
  match files s u with
  | Some (k, _) => if p k then (set_facts (register s u k "") u Nothing, true) else (s, false)
  | None => (s, false)
  end.

(** ** Handlers *)

Inductive change := Created | Changed | Deleted.
Inductive note :=
| DidOpen (u : uri) (v : Z) (t : text)
| DidChange (u : uri) (v : Z) (ts : list text)
| DidSave (u : uri)
| DidClose (u : uri)
| Watched (cs : list (uri * change)).

(** Where a handler stands: waiting for the document lock, waiting for the analysis on the pool ([None]: it has
    returned), or, for watched files, between two changes, waiting for a read, or having it.  The flag is
    analysis_changed (indexing.rs:695). *)
Inductive phase :=
| Waiting
| Analysing (j : option job)
| Looping (cs : list (uri * change)) (flag : bool)
| Reading (u : uri) (cs : list (uri * change)) (flag : bool)
| HasRead (u : uri) (r : option text) (cs : list (uri * change)) (flag : bool).
Definition handler := (note * phase)%type.

(** The document whose document_semantic_lock (server.rs:555-564) a handler takes. *)
Definition locks (n : note) : option uri :=
  match n with
  | DidOpen u _ _ | DidChange u _ _ | DidSave u | DidClose u => Some u
  | Watched _ => None
  end.
Definition on (u : uri) (h : handler) : Prop := locks (fst h) = Some u.

(** indexed_disk_content_matches (indexing.rs:289-302), content_hash equality being text equality, and
    indexed_content_matches (147-148) *)
Definition matches (s : server) (u : uri) (t : text) : bool :=
  match files s u, disk s u with
  | Some (k, r), Some c => is_project k && String.eqb c t && String.eqb r t
  | _, _ => false
  end.

(** docs update or insertion (indexing.rs:163-181, 394-409) *)
Definition put_doc (s : server) (u : uri) (v : Z) (t : text) : server :=
  set_docs s u (Some match docs s u with Some d => update d t v | None => fresh t v end).

Definition analyse (u : uri) (t : text) : job := Job u t false PCheck 0.

(** handle_did_open up to the analysis (indexing.rs:140-228) *)
Definition start_open (s : server) (u : uri) (v : Z) (t : text) : server * option phase :=
  let same := matches s u t in
  let k := match file_kind s u with Some k => k | None => new_kind u end in
  let skip := match file_kind s u with Some k => is_dependency k | None => false end || same in
  let s1 := put_doc (register s u k t) u v t in
  if skip then
    let s2 := if is_project k then say s1 u (match docs s1 u with Some d => dscopes d | None => None end) else s1 in
    (if same
     then match docs s2 u with
          | Some d => set_docs s2 u (Some (Doc (dtext d) (dversion d) (Some v) (dscopes d)))
          | None => s2
          end
     else s2, None)
  else (s1, Some (Analysing (Some (analyse u t)))).

(** handle_did_change up to the analysis (indexing.rs:375-432): the last content change counts. *)
Definition start_change (s : server) (u : uri) (v : Z) (ts : list text) : server * option phase :=
  match rev ts with
  | [] => (s, None)
  | t :: _ =>
      let k := match file_kind s u with Some k => k | None => new_kind u end in
      (put_doc (register s u k t) u v t, Some (Analysing (Some (analyse u t))))
  end.

(** uri.path().ends_with(".rb") *)
Fixpoint ends_rb (u : string) : bool :=
  match u with
  | EmptyString => false
  | String _ r => String.eqb u ".rb" || ends_rb r
  end.

(** handle_did_save (indexing.rs:549-587) *)
Definition start_save (s : server) (u : uri) : server * option phase :=
  if ends_rb u then
    match docs s u with
    | Some d => (s, Some (Analysing (Some (analyse u (dtext d)))))
    | None => (s, None)
    end
  else (s, None).

(** handle_did_close (indexing.rs:656-684): the facts stay, unless the file is excluded. *)
Definition start_close (s : server) (u : uri) : server * option phase :=
  (fst (clear_if is_excluded (set_docs s u None) u), None).

Definition start (s : server) (n : note) : server * option phase :=
  match n with
  | DidOpen u v t => start_open s u v t
  | DidChange u v ts => start_change s u v ts
  | DidSave u => start_save s u
  | DidClose u => start_close s u
  | Watched _ => (s, None)
  end.

(** ** The three refresh passes over open documents *)

Definition text_of (s : server) (u : uri) : text := match docs s u with Some d => dtext d | None => "" end.
Definition refresh (s : server) (us : list uri) : list task :=
  map (fun u => Process (Job u (text_of s u) true PCheck 0)) us.
Definition enumerates (us : list uri) (P : uri -> Prop) : Prop := NoDup us /\ forall u, In u us <-> P u.
Definition in_order (us : list uri) : Prop := Sorted (fun a b => String.leb a b = true) us.

Definition is_open (s : server) (u : uri) : Prop := docs s u <> None.
Definition project_file (s : server) (u : uri) : Prop := file_kind s u = Some Project.
(** refresh_open_project_files_after_dependency_open (indexing.rs:304-327), in the order of a hash map;
    SourceKind::is_external is "not Project". *)
Definition others_after_open (s : server) (u w : uri) : Prop :=
  w <> u /\ is_open s w /\ (file_kind s w = None \/ project_file s w).
(** bounded_open_diagnostic_refresh_targets (indexing.rs:525-547) *)
Definition others_after_change (s : server) (u w : uri) : Prop := w <> u /\ is_open s w /\ project_file s w.
Definition max_refresh := 8.
(** refresh_open_project_files_for_dependency_engines (indexing.rs:785-825), one engine *)
Definition all_after_watch (s : server) (w : uri) : Prop := is_open s w /\ project_file s w.

(** ** Steps *)

(** Handlers in the order of their notifications, and the analyses the polling task itself is busy with. *)
Record state := State { srv : server; busy : list task; hs : list handler }.

Definition kept (n : note) (p : option phase) : list handler := match p with Some p => [(n, p)] | None => [] end.
Definition first_phase (n : note) : phase := match n with Watched cs => Looping cs false | _ => Waiting end.
Definition pushed (k : option task) (r : list task) : list task := match k with Some k => k :: r | None => r end.

Inductive event := Arrive (n : note) | Wrote (u : uri) (t : option text) | Tau.

(** The document lock is fair (tokio::sync::Mutex): a handler gets it when no earlier handler of the
    document is left. *)
Definition lock_free (n : note) (before : list handler) : Prop :=
  forall h u, In h before -> on u h -> locks n <> Some u.

Inductive step : state -> event -> state -> Prop :=
| s_arrive s b l n : step (State s b l) (Arrive n) (State s b (l ++ [(n, first_phase n)]))
| s_disk s b l u t : step (State s b l) (Wrote u t) (State (set_disk s u t) b l)
| s_start s l1 n l2 :
    lock_free n l1 ->
    step (State s [] (l1 ++ (n, Waiting) :: l2)) Tau
         (State (fst (start s n)) [] (l1 ++ kept n (snd (start s n)) ++ l2))
| s_work s b l1 n j l2 :
    step (State s b (l1 ++ (n, Analysing (Some j)) :: l2)) Tau
         (State (fst (job_step s j)) b (l1 ++ (n, Analysing (snd (job_step s j))) :: l2))
| s_fail s b l1 n j l2 :
    failing j = true -> may_fail W (ju j) (jt j) ->
    step (State s b (l1 ++ (n, Analysing (Some j)) :: l2)) Tau
         (State s b (l1 ++ (n, Analysing None) :: l2))
| s_main s k r l :
    step (State s (k :: r) l) Tau (State (fst (task_step s k)) (pushed (snd (task_step s k)) r) l)
| s_main_fail s j r l :
    failing j = true -> may_fail W (ju j) (jt j) ->
    step (State s (Process j :: r) l) Tau (State s r l)
(* indexing.rs:237-239 *)
| s_opened s l1 u v t l2 us :
    enumerates us (others_after_open s u) ->
    step (State s [] (l1 ++ (DidOpen u v t, Analysing None) :: l2)) Tau
         (State s (refresh s us) (l1 ++ l2))
(* indexing.rs:466-471 *)
| s_changed s l1 u v ts l2 us :
    enumerates us (others_after_change s u) -> in_order us ->
    step (State s [] (l1 ++ (DidChange u v ts, Analysing None) :: l2)) Tau
         (State s (refresh s (firstn max_refresh us)) (l1 ++ l2))
| s_unchanged s l1 u v ts l2 :
    step (State s [] (l1 ++ (DidChange u v ts, Analysing None) :: l2)) Tau (State s [] (l1 ++ l2))
| s_saved s l1 u l2 :
    step (State s [] (l1 ++ (DidSave u, Analysing None) :: l2)) Tau (State s [] (l1 ++ l2))
(* handle_watched_files_changed (indexing.rs:686-783): outside any workspace, or open *)
| s_skip s l1 n u c cs f l2 :
    inside W u = false \/ is_open s u ->
    step (State s [] (l1 ++ (n, Looping ((u, c) :: cs) f) :: l2)) Tau
         (State s [] (l1 ++ (n, Looping cs f) :: l2))
(* 713-749: an .rbs file; whatever it does to that file *)
| s_rbs s l1 n u c cs f l2 t h g :
    inside W u = true -> ~ is_open s u -> signature W u = true ->
    step (State s [] (l1 ++ (n, Looping ((u, c) :: cs) f) :: l2)) Tau
         (State (set_facts (register s u Signature t) u h) [] (l1 ++ (n, Looping cs (f || g)) :: l2))
(* 751-759: deleted, or not selected *)
| s_gone s l1 n u c cs f l2 :
    inside W u = true -> ~ is_open s u -> signature W u = false ->
    c = Deleted \/ included W u = false ->
    step (State s [] (l1 ++ (n, Looping ((u, c) :: cs) f) :: l2)) Tau
         (State (fst (clear_if is_project s u)) []
                (l1 ++ (n, Looping cs (f || snd (clear_if is_project s u))) :: l2))
(* 761: start to read *)
| s_read s l1 n u c cs f l2 :
    inside W u = true -> ~ is_open s u -> signature W u = false -> c <> Deleted -> included W u = true ->
    step (State s [] (l1 ++ (n, Looping ((u, c) :: cs) f) :: l2)) Tau
         (State s [] (l1 ++ (n, Reading u cs f) :: l2))
| s_bytes s b l1 n u cs f l2 :
    step (State s b (l1 ++ (n, Reading u cs f) :: l2)) Tau
         (State s b (l1 ++ (n, HasRead u (disk s u) cs f) :: l2))
(* 762-767 *)
| s_collect s l1 n u t cs f l2 :
    step (State s [] (l1 ++ (n, HasRead u (Some t) cs f) :: l2)) Tau
         (State s [Collect u t CRegister] (l1 ++ (n, Looping cs true) :: l2))
(* 768-775 *)
| s_missing s l1 n u cs f l2 :
    step (State s [] (l1 ++ (n, HasRead u None cs f) :: l2)) Tau
         (State (fst (clear_if is_project s u)) []
                (l1 ++ (n, Looping cs (f || snd (clear_if is_project s u))) :: l2))
(* 778-783 *)
| s_watched s l1 n l2 us :
    enumerates us (all_after_watch s) -> in_order us ->
    step (State s [] (l1 ++ (n, Looping [] true) :: l2)) Tau (State s (refresh s us) (l1 ++ l2))
| s_watched_nothing s l1 n l2 :
    step (State s [] (l1 ++ (n, Looping [] false) :: l2)) Tau (State s [] (l1 ++ l2)).

Inductive run : state -> list event -> state -> Prop :=
| run_nil x : run x [] x
| run_snoc x es y e z : run x es y -> step y e z -> run x (es ++ [e]) z.

End Run.
