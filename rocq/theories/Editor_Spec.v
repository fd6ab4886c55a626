(** What the editor shows, and when the server is at rest: the terms of C82, C83 and C86. *)
From Coq Require Import List Bool ZArith String.
From Verif Require Import Editor_Model.
Import ListNotations.

(** The notifications among the events of a run, in the order they arrived. *)
Definition notes (es : list event) : list note :=
  flat_map (fun e => match e with Arrive n => [n] | _ => [] end) es.

(** What the editor shows of document [u]: version, text, and whether the text was sent by a change rather
    than by the opening. *)
Definition upd (u : uri) (v : option (Z * text * bool)) (n : note) : option (Z * text * bool) :=
  match n with
  | DidOpen w k t => if String.eqb w u then Some (k, t, false) else v
  | DidChange w k ts =>
      if String.eqb w u then match ts with [] => v | _ => Some (k, last ts EmptyString, true) end else v
  | DidClose w => if String.eqb w u then None else v
  | DidSave _ | Watched _ => v
  end.
Definition shown (ns : list note) (u : uri) : option (Z * text * bool) := fold_left (upd u) ns None.

(** The language server protocol: a document is opened when it is not open, changed when it is, and every change
    raises its version. *)
Definition legal_note (u : uri) (v : option (Z * text * bool)) (n : note) : Prop :=
  match n with
  | DidOpen w _ _ => w = u -> v = None
  | DidChange w k ts => w = u -> ts <> [] -> exists k0 t f, v = Some (k0, t, f) /\ (k0 < k)%Z
  | _ => True
  end.
Fixpoint legal (u : uri) (v : option (Z * text * bool)) (ns : list note) : Prop :=
  match ns with
  | [] => True
  | n :: r => legal_note u v n /\ legal u (upd u v n) r
  end.
Definition protocol (ns : list note) : Prop := forall u, legal u None ns.

(** A watched-file notification names the file. *)
Definition watched (u : uri) (ns : list note) : Prop := exists cs c, In (Watched cs) ns /\ In (u, c) cs.

(** No handler is running or waiting. *)
Definition at_rest (x : state) : Prop := busy x = [] /\ hs x = [].

(** A server that has finished indexing: no document is open, and the facts of every project file are those of the
    text registered for it. *)
Definition indexed (s : server) : Prop :=
  (forall u, docs s u = None) /\ (forall u t, files s u = Some (Project, t) -> facts s u = Full t) /\ said s = [].

(** The editor has the document open with this text. *)
Definition shows (ns : list note) (u : uri) (t : text) : Prop := exists k f, shown ns u = Some (k, t, f).
Definition edited (ns : list note) (u : uri) : Prop := exists k t, shown ns u = Some (k, t, true).
(** Not a file of a dependency: not known yet, or known as a project or an excluded file, and no signature file. *)
Definition own_file (W : world) (s : server) (u : uri) : Prop :=
  signature W u = false /\ forall k t, files s u = Some (k, t) -> k = Project \/ k = Excluded.
