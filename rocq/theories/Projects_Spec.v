(** What a user expects of projects and folders, without the model's search, sort and tables. *)
From Coq Require Import List Bool Arith.
From Verif Require Import Sort_Lib Projects_Model.
Import ListNotations.

(** A path lies in a directory. *)
Definition inside (p root : path) : Prop := exists q, p = root ++ q.

(** The entry a relative path leads to, through directories only. *)
Inductive leads : tree -> path -> tree -> Prop :=
  | leads_here t : leads t [] t
  | leads_down r g l n t q d : In (n, t) l -> leads t q d -> leads (TDir r g l) (n :: q) d.
(** A directory has one entry of a name. *)
Definition distinct_names (t : tree) : Prop :=
  forall q r g l, leads t q (TDir r g l) -> NoDup (map fst l).
Definition gemfile_in (t : tree) : Prop := exists r l, t = TDir r true l.
Definition never_searched : list name :=
  [s_bundle; s_git; s_fast_lsp; s_ruby_lsp; s_coverage; s_log; s_node_modules; s_tmp; s_vendor].
(** A directory below that the search comes to: no name on the way is one of those left out, and no
    directory before it has a Gemfile. *)
Inductive searched : tree -> path -> tree -> Prop :=
  | searched_here t : searched t [] t
  | searched_down r l n t q d : In (n, t) l -> ~ In n never_searched -> searched t q d ->
      searched (TDir r false l) (n :: q) d.
(** The directories with a Gemfile of their own that no other project encloses. *)
Definition project_at (t : tree) (q : path) : Prop := exists d, searched t q d /\ gemfile_in d.
(** A directory that must be listed but cannot be. *)
Definition blocked (t : tree) : Prop :=
  exists q d, searched t q d /\ ~ gemfile_in d /\
    ((exists l, d = TDir false false l) \/ (q = [] /\ forall r g l, d <> TDir r g l) \/
     (exists r l n, d = TDir r false l /\ In (n, TUnknown) l)).

(** Strictly ascending by names. *)
Fixpoint ascending (l : list path) : Prop :=
  match l with
  | [] => True
  | x :: t => Forall (fun y => path_leb x y = true /\ x <> y) t /\ ascending t
  end.
(** No project encloses another. *)
Definition disjoint (l : list path) : Prop := forall x y, In x l -> In y l -> inside x y -> x = y.

(** A configured root: names between slashes, where empty ones and single dots count for nothing, but the
    text does not begin with either, and no name is a double dot. *)
Definition relative (s : list nat) (names : path) : Prop :=
  s <> [] /\ hd [] (pieces [] s) <> [] /\ hd [] (pieces [] s) <> [46] /\ ~ In [46; 46] (pieces [] s) /\
  names = filter (fun n => match n with [] => false | [46] => false | _ => true end) (pieces [] s).
(** What a configured root stands for: an existing directory of the folder. *)
Definition stands_for (d : disk) (folder : path) (s : list nat) (p : path) : Prop :=
  exists names, relative s names /\ canonicalize d (folder ++ names) = Some p /\ is_dir d p = true /\ inside p folder.

(** Folder [f] is open and the project at [r] was found in it: it was added with [r] among what was found,
    and not removed since. *)
Definition held (h : list event) (f r : path) : Prop :=
  exists h1 found h2, h = h1 ++ Add f (Some found) :: h2 /\ In r found /\ ~ In (Remove f) h2.
(** The projects found in a folder lie in it. *)
Definition found_inside (e : event) : Prop :=
  match e with Add f (Some l) => Forall (fun r => inside r f) l | _ => True end.
(** Nothing that changes where the document was last reached from: it is not reached again, not closed, and
    the project it was reached from is not rebuilt. *)
Definition keeps (doc from : path) (e : event) : Prop :=
  match e with Navigate d _ | Close d => d <> doc | Rebuild r => r <> from | _ => True end.
(** The document was never reached from a project, or not since it was closed. *)
Definition not_reached (h : list event) (doc : path) : Prop :=
  exists h1 h2, (h = h2 \/ h = h1 ++ Close doc :: h2) /\ forall from, ~ In (Navigate doc from) h2.
(** The project a document lies in: of those it lies in, the one that lies in all others. *)
Definition nearest (l : list project) (doc : path) (p : project) : Prop :=
  In p l /\ inside doc (proot p) /\ forall q, In q l -> inside doc (proot q) -> inside (proot p) (proot q).
