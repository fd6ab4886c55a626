(** What Ruby does with [require] and [require_relative]. *)
From Coq Require Import List Bool Arith.
From Verif Require Import Sort_Lib Projects_Model Projects_Spec Requires_Model.
Import ListNotations.

(** A name whose extension is [rb], in capitals or not. *)
Definition rb_named (n : name) : Prop :=
  exists stem a b, n = stem ++ [46; a; b] /\ stem <> [] /\ (a = 114 \/ a = 82) /\ (b = 98 \/ b = 66).
(** The argument is names between single slashes, none of them empty, a dot or two; [dirs] and [base] are these. *)
Definition plain (s : list nat) (dirs : path) (base : name) : Prop :=
  pieces [] s = dirs ++ [base] /\ forall n, In n (dirs ++ [base]) -> n <> [] /\ n <> [46] /\ n <> [46; 46].
(** The same for [require_relative], where single and double dots may lead up to the name. *)
Definition leading (s : list nat) (dirs : path) (base : name) : Prop :=
  exists ps, pieces [] s = ps ++ [base] /\ ~ In [] ps /\ base <> [] /\ base <> [46] /\ base <> [46; 46] /\
             dirs = filter (fun n => negb (name_eqb n [46])) ps.

(** [require] loads the file of that name below the first directory of the load path that has one. *)
Inductive loads (is_file : path -> bool) (file : path) : list path -> path -> Prop :=
  | loads_here root l : is_file (root ++ file) = true -> loads is_file file (root :: l) (root ++ file)
  | loads_later root l p : is_file (root ++ file) = false -> loads is_file file l p -> loads is_file file (root :: l) p.
(** The directories configured in the settings, relative to the project; the others are passed over. *)
Inductive configured : list (list nat) -> list path -> Prop :=
  | configured_nil : configured [] []
  | configured_dir s names l dirs : relative s names -> configured l dirs -> configured (s :: l) (names :: dirs)
  | configured_bad s l dirs : (forall names, ~ relative s names) -> configured l dirs -> configured (s :: l) dirs.
(** The load path the editor assumes: the configured directories of the project, its [lib], itself, then those of
    its gems. *)
Definition load_path (project : path) (dirs gems : list path) : list path :=
  map (app project) dirs ++ (project ++ [[108; 105; 98]]) :: project :: gems.

(** A part of the file. *)
Inductive within : ast -> ast -> Prop :=
  | within_here t : within t t
  | within_call x t k r args below : In t below -> within x t -> within x (Call k r args below)
  | within_other x t below : In t below -> within x t -> within x (Other below).
(** A call of [require] or [require_relative] with one literal string, on no receiver or on [Kernel]. *)
Definition requires (t : ast) (k : require_kind) (text : list nat) (at_ : span) : Prop :=
  exists r below, t = Call (Some k) r [ALiteral text at_] below /\ r <> ROther.
(** The place of what stands between the quotes; other literals are underlined whole. *)
Definition underlined (byte : nat -> nat) (s u : span) : Prop :=
  let quoted := fst s + 2 <= snd s /\ byte (fst s) = byte (snd s - 1) /\ (byte (fst s) = 39 \/ byte (fst s) = 34) in
  (quoted /\ u = (fst s + 1, snd s - 1)) \/ (~ quoted /\ u = s).
