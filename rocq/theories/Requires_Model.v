(** Resolution of [require] and [require_relative] and the report of those that lead nowhere.
    /repo/src/indexer/require_paths.rs. *)
From Coq Require Import List Bool Arith.
From Verif Require Import Sort_Lib Projects_Model.
Import ListNotations.

(** A path is the list of its names, [..] among them; the disk decides what that means.  Simplification: a
    slash at the end of an argument is not kept. *)
Definition dot_rb : name := [46; 114; 98].
Inductive require_kind := Require | RequireRelative.

(** The names [Path::components] gives of a text, without the root; [.] counts for nothing once joined. *)
Definition names_of (s : list nat) : path :=
  flat_map (fun c => match c with CNormal n => [n] | CParent => [[46; 46]] | _ => [] end) (components s).
Definition absolute (s : list nat) : bool := match s with 47 :: _ => true | _ => false end.
(** [Path::join]. *)
Definition join (base : path) (s : list nat) : path := if absolute s then names_of s else base ++ names_of s.

(** [Path::extension] of a file name: what follows the last dot, unless that is the first character. *)
Fixpoint after_last_dot (n : name) : option name :=
  match n with
  | [] => None
  | c :: r => match after_last_dot r with Some e => Some e | None => if c =? 46 then Some r else None end
  end.
Definition extension (n : name) : option name := match n with [] => None | _ :: r => after_last_dot r end.
Definition lower (c : nat) : nat := if (65 <=? c) && (c <=? 90) then c + 32 else c.
(** with_rb_extension (325-340). *)
Definition is_rb (p : path) : bool :=
  match rev p with
  | n :: _ => if name_eqb n [46; 46] then false
              else match extension n with Some e => name_eqb (map lower e) [114; 98] | None => false end
  | [] => false
  end.
Definition with_rb (p : path) : path :=
  if is_rb p then p
  else match rev p with
       | [] => [dot_rb]
       | n :: r => if name_eqb n [46; 46] then p ++ [dot_rb] else rev r ++ [n ++ dot_rb]
       end.

Section Resolve.
  (** [Path::is_file], and whether the engine has an identity for a path. *)
  Variable is_file known : path -> bool.

  (** existing_require_candidate (308-323). *)
  Definition exists_at (candidate : path) : option path :=
    if is_file candidate || known candidate then Some candidate
    else if is_file (with_rb candidate) || known (with_rb candidate) then Some (with_rb candidate) else None.
  Fixpoint first_of (l : list path) : option path :=
    match l with
    | [] => None
    | p :: t => match exists_at p with Some q => Some q | None => first_of t end
    end.

  (** validated_project_relative_dir (292-306). *)
  Definition load_dir (project : path) (s : list nat) : list path :=
    match s with
    | [] => []
    | _ => if forallb normal (components s) then [project ++ flat_map name_of (components s)] else []
    end.
  Definition s_lib : name := [108; 105; 98].
  (** The directories [require] searches (207-222). *)
  Definition search_roots (project : path) (load_paths : list (list nat)) (dependencies : list path) : list path :=
    flat_map (load_dir project) load_paths ++ [project ++ [s_lib]; project] ++
    filter (fun d => match d with [] => false | _ => true end) dependencies.

  (** resolve_require_path (188-231); [current] is the file the call stands in. *)
  Definition resolve (k : require_kind) (argument : list nat) (current project : path)
      (load_paths : list (list nat)) (dependencies : list path) : option path :=
    match argument with
    | [] => None
    | _ =>
        match k with
        | RequireRelative => match current with [] => None | _ => first_of [join (removelast current) argument] end
        | Require => first_of (map (fun root => join root argument) (search_roots project load_paths dependencies))
        end
    end.
End Resolve.

(** * The calls of a file (343-392) *)
Definition span := (nat * nat)%type.
Inductive receiver := RNone | RKernel | ROther.
(** An argument: a literal string with its value and place, or anything else. *)
Inductive argument := ALiteral (value : list nat) (at_ : span) | AOther.
Inductive ast :=
  | Call (kind : option require_kind) (r : receiver) (args : list argument) (below : list ast)
  | Other (below : list ast).
Record target := mkTarget { tkind : require_kind; targument : list nat; tspan : span }.
(** static_require_target. *)
Definition static_target (kind : option require_kind) (r : receiver) (args : list argument) : option target :=
  match kind, r, args with
  | Some k, (RNone | RKernel), [ALiteral v s] => Some (mkTarget k v s)
  | _, _, _ => None
  end.
(** visit_call_node, first without and then with an offset. *)
Fixpoint find_all (t : ast) : list target :=
  match t with
  | Call k r args below =>
      (match static_target k r args with Some x => [x] | None => [] end) ++ flat_map find_all below
  | Other below => flat_map find_all below
  end.
Definition covers (offset : nat) (x : target) : bool := (fst (tspan x) <=? offset) && (offset <=? snd (tspan x)).
Fixpoint find_at_list (offset : nat) (t : ast) : list target :=
  match t with
  | Call k r args below =>
      match static_target k r args with
      | Some x => if covers offset x then [x] else flat_map (find_at_list offset) below
      | None => flat_map (find_at_list offset) below
      end
  | Other below => flat_map (find_at_list offset) below
  end.
Definition find_at (offset : nat) (t : ast) : option target := hd_error (find_at_list offset t).

(** content_byte_range (68-94); [byte] reads the source; 39 and 34 are the single and the double quote. *)
Definition content_range (byte : nat -> nat) (x : target) : span :=
  let (a, b) := tspan x in
  if (a + 2 <=? b) && ((byte a =? 39) || (byte a =? 34)) && (byte a =? byte (b - 1)) then (a + 1, b - 1) else (a, b).
(** unresolved_require_diagnostics (129-176): kind, argument and range of each. *)
Definition unresolved (is_file known : path -> bool) (byte : nat -> nat) (t : ast) (current project : path)
    (load_paths : list (list nat)) (dependencies : list path) : list (require_kind * list nat * span) :=
  flat_map (fun x =>
    match resolve is_file known (tkind x) (targument x) current project load_paths dependencies with
    | Some _ => []
    | None => [(tkind x, targument x, content_range byte x)]
    end) (find_all t).
