(** The check command: src/check.rs and its command line (src/main.rs).

    A text is the list of its bytes; a path is whether it is absolute and its components.  Running the indexing is not
    modelled: the workspaces are given with their files, the diagnostics of the syntax of each and the diagnostic facts
    of the engine, all with positions already turned into lines and columns from zero (Position_Model does that part). *)
From Coq Require Import List Arith Bool.
From Verif Require Import Sort_Lib.
Import ListNotations.

Definition text := list nat.
Record path := mkPath { absolute : bool; components : list text }.

(** CheckSeverity (28-35), CheckPosition, CheckRange (37-49), CheckDiagnostic (51-58). *)
Inductive severity := Error | Warning | Information | Hint.
Definition position : Type := nat * nat.
Record diagnostic := mkDiagnostic {
  d_path : path; d_start : position; d_end : position; d_severity : severity; d_code : option text; d_message : text }.

(** * The order of the report *)
(** [Ord] of the standard library and as derived. *)
Definition then_cmp (c d : comparison) : comparison := match c with Eq => d | _ => c end.
Fixpoint list_cmp {A} (f : A -> A -> comparison) (a b : list A) : comparison :=
  match a, b with
  | [], [] => Eq
  | [], _ => Lt
  | _, [] => Gt
  | x :: a', y :: b' => then_cmp (f x y) (list_cmp f a' b')
  end.
Definition option_cmp {A} (f : A -> A -> comparison) (a b : option A) : comparison :=
  match a, b with None, None => Eq | None, Some _ => Lt | Some _, None => Gt | Some x, Some y => f x y end.
Definition pair_cmp {A B} (f : A -> A -> comparison) (g : B -> B -> comparison) (a b : A * B) : comparison :=
  then_cmp (f (fst a) (fst b)) (g (snd a) (snd b)).
Definition severity_rank (s : severity) : nat := match s with Error => 0 | Warning => 1 | Information => 2 | Hint => 3 end.
(** The root component comes before the names. *)
Definition path_key (p : path) : nat * list text := (if absolute p then 0 else 1, components p).
Definition path_cmp (a b : path) : comparison := pair_cmp Nat.compare (list_cmp (list_cmp Nat.compare)) (path_key a) (path_key b).
Definition position_cmp : position -> position -> comparison := pair_cmp Nat.compare Nat.compare.
(** The comparison in normalize_diagnostics (674-692). *)
Definition diagnostic_cmp (l r : diagnostic) : comparison :=
  then_cmp (path_cmp (d_path l) (d_path r))
  (then_cmp (position_cmp (d_start l) (d_start r))
  (then_cmp (position_cmp (d_end l) (d_end r))
  (then_cmp (Nat.compare (severity_rank (d_severity l)) (severity_rank (d_severity r)))
  (then_cmp (option_cmp (list_cmp Nat.compare) (d_code l) (d_code r))
  (list_cmp Nat.compare (d_message l) (d_message r)))))).
Definition leb_of {A} (cmp : A -> A -> comparison) (a b : A) : bool := match cmp a b with Gt => false | _ => true end.
(** [Vec::dedup]: an element equal to the last one kept is dropped. *)
Fixpoint dedup_from {A} (eqb : A -> A -> bool) (last : A) (l : list A) : list A :=
  match l with
  | [] => []
  | x :: r => if eqb x last then dedup_from eqb last r else x :: dedup_from eqb x r
  end.
Definition dedup {A} (eqb : A -> A -> bool) (l : list A) : list A :=
  match l with [] => [] | x :: r => x :: dedup_from eqb x r end.
(** [PartialEq] as derived: equal fields. *)
Definition eqb_of {A} (cmp : A -> A -> comparison) (a b : A) : bool := match cmp a b with Eq => true | _ => false end.
(** normalize_diagnostics (673-693). *)
Definition normalize (l : list diagnostic) : list diagnostic :=
  dedup (eqb_of diagnostic_cmp) (sort (leb_of diagnostic_cmp) l).

(** CheckSummary and summarize (88-94, 695-706). *)
Record summary := mkSummary { errors : nat; warnings : nat; information : nat; hints : nat }.
Definition count (s : summary) (d : diagnostic) : summary :=
  match d_severity d with
  | Error => mkSummary (errors s + 1) (warnings s) (information s) (hints s)
  | Warning => mkSummary (errors s) (warnings s + 1) (information s) (hints s)
  | Information => mkSummary (errors s) (warnings s) (information s + 1) (hints s)
  | Hint => mkSummary (errors s) (warnings s) (information s) (hints s + 1)
  end.
Definition summarize (l : list diagnostic) : summary := fold_left count l (mkSummary 0 0 0 0).
(** has_failures (140-142) and the exit code (main.rs 205). *)
Definition has_failures (s : summary) : bool := (0 <? errors s) || (0 <? warnings s).
Definition exit_code (s : summary) : nat := if has_failures s then 1 else 0.

(** * Paths *)
Fixpoint name_eqb (a b : text) : bool :=
  match a, b with [], [] => true | x :: a', y :: b' => (x =? y) && name_eqb a' b' | _, _ => false end.
Fixpoint strip_names (p l : list text) : option (list text) :=
  match p, l with
  | [], _ => Some l
  | x :: p', y :: l' => if name_eqb x y then strip_names p' l' else None
  | _ :: _, [] => None
  end.
(** [Path::strip_prefix], of paths that are both absolute or both relative. *)
Definition strip_path (p l : path) : option path :=
  if Bool.eqb (absolute p) (absolute l)
  then match strip_names (components p) (components l) with Some r => Some (mkPath false r) | None => None end
  else None.
(** report_path (632-636). *)
Definition report_path (root p : path) : path := match strip_path root p with Some r => r | None => p end.
Definition path_eqb (a b : path) : bool := match path_cmp a b with Eq => true | _ => false end.
(** source_is_selected (570-572). *)
Definition selected_source (p : path) (selected : option path) (root : path) : bool :=
  match selected with
  | Some s => path_eqb p s
  | None => match strip_path root p with Some _ => true | None => false end
  end.
(** nearest_project_root (558-568): [gemfile] tells the directories that hold a Gemfile; the ancestors of a directory are
    itself and those above it. *)
Fixpoint ancestors (dir : list text) : list (list text) :=
  match dir with [] => [[]] | x :: r => map (cons x) (ancestors r) ++ [[]] end.
Definition nearest_root (gemfile : list text -> bool) (source : path) : option path :=
  match components source with
  | [] => None
  | _ => let parent := removelast (components source) in
         match find gemfile (ancestors parent) with
         | Some a => Some (mkPath (absolute source) a)
         | None => Some (mkPath (absolute source) parent)
         end
  end.

(** * The report *)
Inductive kind := Project | Signature | Other.
(** A diagnostic before it is shown: positions from zero, and perhaps no severity, as the protocol allows. *)
Record raw := mkRaw { r_start : position; r_end : position; r_severity : option severity; r_code : option text; r_message : text }.
Record file := mkFile { f_path : path; f_kind : kind; f_syntax : list raw }.
Record fact := mkFact { at_file : path; said : raw }.
Record workspace := mkWorkspace { files : list file; facts : list fact }.
(** one_based_position (638-651); running out of u32 is not modelled. *)
Definition one_based (p : position) : position := (fst p + 1, snd p + 1).
(** lsp_diagnostic, lsp_severity (607-630, 662-676) and the same for facts (592-603). *)
Definition shown (root p : path) (r : raw) : diagnostic :=
  mkDiagnostic (report_path root p) (one_based (r_start r)) (one_based (r_end r))
    (match r_severity r with Some s => s | None => Error end) (r_code r) (r_message r).
Definition checked (root : path) (selected : option path) (f : file) : bool :=
  match f_kind f with Other => false | _ => selected_source (f_path f) selected root end.
(** The part of check_path that collects (307-361). *)
Definition syntax_of (root : path) (selected : option path) (f : file) : list diagnostic :=
  if checked root selected f then match f_kind f with Project => map (shown root (f_path f)) (f_syntax f) | _ => [] end else [].
(** domain_diagnostics (574-605). *)
Definition domain_of (root : path) (selected : option path) (f : fact) : list diagnostic :=
  if match selected with Some s => negb (path_eqb (at_file f) s) | None => false end then [] else [shown root (at_file f) (said f)].
Definition collect (root : path) (selected : option path) (w : workspace) : list diagnostic :=
  flat_map (syntax_of root selected) (files w) ++ flat_map (domain_of root selected) (facts w).
Record report := mkReport { files_checked : nat; diagnostics : list diagnostic; totals : summary }.
(** check_path (300-390): a file that was to be checked must have been indexed once. *)
Definition check (root : path) (selected : option path) (ws : list workspace) : option report :=
  let n := length (filter (checked root selected) (flat_map files ws)) in
  let l := normalize (flat_map (collect root selected) ws) in
  if match selected with Some _ => negb (n =? 1) | None => false end then None
  else Some (mkReport n l (summarize l)).

(** * The command line (main.rs 170-206) *)
Inductive format := Human | Json.
Definition a_format : text := [45; 45; 102; 111; 114; 109; 97; 116].
Definition a_human : text := [104; 117; 109; 97; 110].
Definition a_json : text := [106; 115; 111; 110].
(** CheckOutputFormat::parse (122-136). *)
Definition parse_format (t : text) : option format :=
  if name_eqb t a_human then Some Human else if name_eqb t a_json then Some Json else None.
Fixpoint strip_text (p t : text) : option text :=
  match p, t with
  | [], _ => Some t
  | x :: p', y :: t' => if x =? y then strip_text p' t' else None
  | _ :: _, [] => None
  end.
Fixpoint arguments (args : list text) (p : option text) (f : format) : option (option text * format) :=
  match args with
  | [] => Some (p, f)
  | a :: rest =>
      if name_eqb a a_format then
        match rest with
        | [] => None
        | v :: rest' => match parse_format v with Some g => arguments rest' p g | None => None end
        end
      else match strip_text (a_format ++ [61]) a with
      | Some v => match parse_format v with Some g => arguments rest p g | None => None end
      | None =>
          if match a with c :: _ => c =? 45 | [] => false end then None
          else match p with Some _ => None | None => arguments rest (Some a) f end
      end
  end.
Definition parse_arguments (args : list text) : option (option text * format) := arguments args None Human.
(** The path to check (202): the current directory is asked for in any case. *)
Definition target (args : list text) (current : option text) : option (text * format) :=
  match parse_arguments args with
  | Some (p, f) => match current with
                   | Some dir => Some (match p with Some x => x | None => dir end, f)
                   | None => None
                   end
  | None => None
  end.
