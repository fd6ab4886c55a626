(** Ruby projects in the folders an editor has open: which directories are projects, which project a
    document belongs to, and what opening and closing folders does.
    /repo/src/indexer/project_roots.rs, /repo/src/server.rs, /repo/src/handlers/notification.rs. *)
From Coq Require Import List Bool Arith.
From Verif Require Import Sort_Lib.
Import ListNotations.

(** A file name is a list of bytes, an absolute path the list of its names.
    Simplification: names are valid UTF-8 and paths are in the form [Path::components] gives them. *)
Definition name := list nat.
Definition path := list name.
Definition name_eqb (a b : name) : bool := if list_eq_dec Nat.eq_dec a b then true else false.
Definition path_eqb (a b : path) : bool := if list_eq_dec (list_eq_dec Nat.eq_dec) a b then true else false.

(** [Path::starts_with]: name by name. *)
Fixpoint starts_with (p root : path) : bool :=
  match root, p with
  | [], _ => true
  | r :: root', n :: p' => name_eqb r n && starts_with p' root'
  | _ :: _, [] => false
  end.

(** The order of [PathBuf]: name by name, each by its bytes. *)
Fixpoint path_leb (a b : path) : bool :=
  match a, b with
  | [], _ => true
  | _, [] => false
  | x :: a', y :: b' => if list_eq_dec Nat.eq_dec x y then path_leb a' b' else lexb x y
  end.
(** [Vec::dedup]: of equal neighbours the first stays. *)
Fixpoint dedup (l : list path) : list path :=
  match l with
  | [] => []
  | x :: t => match dedup t with [] => [x] | y :: t' => if path_eqb x y then y :: t' else x :: y :: t' end
  end.

(** * Discovery (project_roots.rs 6-132) *)
(** What a directory entry is: a file, a symbolic link, something whose type cannot be read, or a
    directory.  Of a directory: whether it can be listed, whether [Gemfile] in it is a file (a link to a
    file counts, [Path::is_file] follows links), and its entries. *)
Inductive tree :=
  | TFile | TLink | TUnknown
  | TDir (readable gemfile : bool) (entries : list (name * tree)).

(** project_roots.rs 6-16. *)
Definition s_bundle : name := [46; 98; 117; 110; 100; 108; 101].
Definition s_git : name := [46; 103; 105; 116].
Definition s_fast_lsp : name := [46; 114; 117; 98; 121; 45; 102; 97; 115; 116; 45; 108; 115; 112].
Definition s_ruby_lsp : name := [46; 114; 117; 98; 121; 45; 108; 115; 112].
Definition s_coverage : name := [99; 111; 118; 101; 114; 97; 103; 101].
Definition s_log : name := [108; 111; 103].
Definition s_node_modules : name := [110; 111; 100; 101; 95; 109; 111; 100; 117; 108; 101; 115].
Definition s_tmp : name := [116; 109; 112].
Definition s_vendor : name := [118; 101; 110; 100; 111; 114].
Definition pruned_names : list name :=
  [s_bundle; s_git; s_fast_lsp; s_ruby_lsp; s_coverage; s_log; s_node_modules; s_tmp; s_vendor].
Definition pruned (n : name) : bool := existsb (name_eqb n) pruned_names.

(** The results of the children, in order; the first failure ends it. *)
Fixpoint collect (l : list (name * option (list path))) : option (list path) :=
  match l with
  | [] => Some []
  | (_, None) :: _ => None
  | (_, Some a) :: t => match collect t with Some b => Some (a ++ b) | None => None end
  end.
Definition by_name (x y : name * option (list path)) : bool := lexb (fst x) (fst y).

(** project_roots.rs 91-131, [discover_nested_project_roots].  The children are sorted by name; here their
    results are, which is the same except for which failure is reported. *)
Fixpoint nested (p : path) (t : tree) : option (list path) :=
  match t with
  | TDir true _ entries =>
      let visit := fun e : name * tree =>
        let here := p ++ [fst e] in
        (fst e,
         match snd e with
         | TUnknown => None
         | TFile | TLink => Some []
         | TDir _ gemfile _ =>
             if pruned (fst e) then Some []
             else if gemfile then Some [here]
             else nested here (snd e)
         end) in
      collect (sort by_name (map visit entries))
  | _ => None
  end.

Definition has_gemfile (t : tree) : bool := match t with TDir _ g _ => g | _ => false end.

(** project_roots.rs 24-37, [discover_project_roots]. *)
Definition discover (root : path) (t : tree) : option (list path) :=
  if has_gemfile t then Some [root]
  else match nested root t with
       | None => None
       | Some roots =>
           let roots := dedup (sort path_leb roots) in
           Some (match roots with [] => [root] | _ => roots end)
       end.

(** [Path::components] of a configured text (project_roots.rs 56-64).  [/] is 47, [.] is 46. *)
Inductive component := CRoot | CCur | CParent | CNormal (n : name).
Fixpoint pieces (piece : name) (s : list nat) : list name :=
  match s with
  | [] => [piece]
  | c :: s' => if c =? 47 then piece :: pieces [] s' else pieces (piece ++ [c]) s'
  end.
Definition component_of (n : name) : list component :=
  match n with
  | [] => []
  | [46] => []
  | [46; 46] => [CParent]
  | _ => [CNormal n]
  end.
Definition components (s : list nat) : list component :=
  match pieces [] s with
  | [] => []
  | first :: rest =>
      (match s with
       | 47 :: _ => [CRoot]
       | _ => match first with [46] => [CCur] | _ => component_of first end
       end) ++ flat_map component_of rest
  end.
Definition normal (c : component) : bool := match c with CNormal _ => true | _ => false end.
Definition name_of (c : component) : list name := match c with CNormal n => [n] | _ => [] end.

(** What the file system answers: [fs::canonicalize], [Path::is_dir]. *)
Record disk := mkDisk { canonicalize : path -> option path; is_dir : path -> bool }.

(** One entry of indexing.projectRoots (project_roots.rs 54-79). *)
Definition explicit_root (d : disk) (workspace : path) (s : list nat) : option path :=
  match s with
  | [] => None
  | _ =>
      if forallb normal (components s) then
        match canonicalize d (workspace ++ flat_map name_of (components s)) with
        | None => None
        | Some p => if is_dir d p && starts_with p workspace then Some p else None
        end
      else None
  end.
Fixpoint explicit_roots (d : disk) (workspace : path) (l : list (list nat)) : option (list path) :=
  match l with
  | [] => Some []
  | s :: t =>
      match explicit_root d workspace s with
      | None => None
      | Some p => match explicit_roots d workspace t with Some r => Some (p :: r) | None => None end
      end
  end.
(** [windows(2)] (project_roots.rs 82-89). *)
Fixpoint no_overlap (l : list path) : bool :=
  match l with
  | a :: ((b :: _) as t) => negb (starts_with b a) && no_overlap t
  | _ => true
  end.
(** project_roots.rs 39-89, [discover_project_roots_with_explicit]. *)
Definition discover_with (d : disk) (root : path) (t : tree) (configured : list (list nat)) : option (list path) :=
  match configured with
  | [] => discover root t
  | _ =>
      match canonicalize d root with
      | None => None
      | Some workspace =>
          match explicit_roots d workspace configured with
          | None => None
          | Some roots =>
              let roots := dedup (sort path_leb roots) in
              if no_overlap roots then Some roots else None
          end
      end
  end.

(** * Registered projects (server.rs 302-345, 1187-1262) *)
(** A registered project: its root, its own engine (a number), and the folders it was found in.  The root
    URI is [Url::from_directory_path] of the root, so it is not kept beside it; folder URIs are identified
    with the path they denote. *)
Record project := mkProject { proot : path; pengine : nat; pfolders : list path }.
(** [retained]: external documents and the project they were reached from (server.rs
    external_document_projects), the entries in any order, at most one per document. *)
Record server := mkServer { projects : list project; retained : list (path * path); next_engine : nat }.
Definition empty_server : server := mkServer [] [] 0.

(** [HashSet::insert] and [HashSet::remove]. *)
Definition insert_folder (f : path) (l : list path) : list path := if existsb (path_eqb f) l then l else l ++ [f].
Definition remove_folder_from (f : path) (l : list path) : list path := filter (fun g => negb (path_eqb f g)) l.

(** server.rs 1220-1236, [add_project]. *)
Fixpoint own (r f : path) (l : list project) : list project :=
  match l with
  | [] => []
  | p :: t => if path_eqb (proot p) r then mkProject (proot p) (pengine p) (insert_folder f (pfolders p)) :: t
              else p :: own r f t
  end.
Definition add_project (f : path) (s : server) (r : path) : server :=
  if existsb (fun p => path_eqb (proot p) r) (projects s) then
    mkServer (own r f (projects s)) (retained s) (next_engine s)
  else mkServer (projects s ++ [mkProject r (next_engine s) [f]]) (retained s) (S (next_engine s)).
(** server.rs 1195-1218, [add_workspace_folder]; [found] is what the discovery answered. *)
Definition add_folder (s : server) (f : path) (found : option (list path)) : server :=
  match found with None => s | Some roots => fold_left (add_project f) roots s end.
(** server.rs 1248-1259, [remove_workspace_folder]. *)
Definition remove_folder (s : server) (f : path) : server :=
  let strip := fun p => mkProject (proot p) (pengine p) (remove_folder_from f (pfolders p)) in
  mkServer (filter (fun p => match pfolders p with [] => false | _ => true end) (map strip (projects s)))
    (retained s) (next_engine s).

(** * Routing (server.rs 814-838, 1076-1130) *)
(** The length of the path as text: a slash before every name and, since the root comes from the URI of a
    directory, one at the end. *)
Definition text_length (p : path) : nat := S (list_sum (map (fun n => S (length n)) p)).
(** server.rs 814-829, [workspace_for_uri]. *)
Fixpoint scan (doc : path) (best : option project) (best_len : nat) (l : list project) : option project :=
  match l with
  | [] => best
  | p :: t =>
      if starts_with doc (proot p) then
        let len := text_length (proot p) in
        if best_len <=? len then scan doc (Some p) len t else scan doc best best_len t
      else scan doc best best_len t
  end.
Definition workspace_for (s : server) (doc : path) : option project := scan doc None 0 (projects s).

Fixpoint lookup (doc : path) (l : list (path * path)) : option path :=
  match l with
  | [] => None
  | (d, r) :: t => if path_eqb d doc then Some r else lookup doc t
  end.
Definition forget (doc : path) (l : list (path * path)) : list (path * path) :=
  filter (fun e => negb (path_eqb (fst e) doc)) l.
(** server.rs 1095-1105: the only project whose engine knows the file. *)
Fixpoint only_owner (knows : nat -> path -> bool) (doc : path) (owner : option project) (l : list project) : option project :=
  match l with
  | [] => owner
  | p :: t =>
      if negb (knows (pengine p) doc) then only_owner knows doc owner t
      else match owner with Some _ => None | None => only_owner knows doc (Some p) t end
  end.
(** server.rs 1076-1107, [analysis_workspace_for_uri]: the project and the server afterwards.  [knows e d]:
    engine [e] has a file identity for [d]. *)
Definition context_for (knows : nat -> path -> bool) (s : server) (doc : path) : option project * server :=
  match workspace_for s doc with
  | Some p => (Some p, s)
  | None =>
      let unique := fun s' => (only_owner knows doc None (projects s'), s') in
      match lookup doc (retained s) with
      | None => unique s
      | Some root =>
          match find (fun p => path_eqb (proot p) root) (projects s) with
          | Some p => (Some p, s)
          | None => unique (mkServer (projects s) (forget doc (retained s)) (next_engine s))
          end
      end
  end.
(** server.rs 1112-1118. *)
Definition retain (s : server) (doc : path) (p : project) : server :=
  match workspace_for s doc with
  | None => mkServer (projects s) ((doc, proot p) :: forget doc (retained s)) (next_engine s)
  | Some _ => s
  end.
(** server.rs 1120-1122. *)
Definition release (s : server) (doc : path) : server :=
  mkServer (projects s) (forget doc (retained s)) (next_engine s).
(** server.rs 1124-1128. *)
Definition release_project (s : server) (root : path) : server :=
  mkServer (projects s) (filter (fun e => negb (path_eqb (snd e) root)) (retained s)) (next_engine s).

(** * Changing the folders (notification.rs 627-693) *)
(** Which open documents are opened anew. *)
Definition to_rehome (docs removed : list path) (added : list (path * option (list path))) : list path :=
  filter (fun d => existsb (starts_with d) (removed ++ map fst added)) docs.
Definition change_folders (s : server) (removed : list path) (added : list (path * option (list path))) : server :=
  fold_left (fun s' e => add_folder s' (fst e) (snd e)) added (fold_left remove_folder removed s).

(** * Histories *)
(** Everything that touches these tables.  A folder is added with what the discovery found at that time. *)
Inductive event :=
  | Add (f : path) (found : option (list path))
  | Remove (f : path)
  | Ask (knows : nat -> path -> bool) (doc : path)
  | Navigate (doc : path) (from : path)
  | Close (doc : path)
  | Rebuild (root : path).
Definition apply (s : server) (e : event) : server :=
  match e with
  | Add f found => add_folder s f found
  | Remove f => remove_folder s f
  | Ask knows doc => snd (context_for knows s doc)
  | Navigate doc from =>
      match find (fun p => path_eqb (proot p) from) (projects s) with Some p => retain s doc p | None => s end
  | Close doc => release s doc
  | Rebuild root => release_project s root
  end.
Definition run (h : list event) : server := fold_left apply h empty_server.
