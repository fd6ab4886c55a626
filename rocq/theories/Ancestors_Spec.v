(** What ancestry queries should answer, in terms of the edges of the graph only. *)
From Coq Require Import List Arith Bool Relations.
From Verif Require Import Ancestors_Model.
Import ListNotations.

(** The core classes any program may reopen: the top level, BasicObject, Object, Kernel, Module, Class
    ([universal] by C34_open_roots). *)
Definition open_root (f : ns) : Prop :=
  path f = [] \/ exists c, path f = [c] /\ In c [BasicObject; Object; Kernel; ModuleC; ClassC].

(** From the open core classes only edges of Ruby's own stubs are followed, unless [allow]. *)
Definition followed (allow : bool) (f : ns) (e : edge) : Prop :=
  universal f = true -> allow = true \/ owned e = true.

Definition has_edge (w : world) (f : ns) (k : edge_kind) (e : edge) : Prop :=
  In e (edges w) /\ source e = f /\ kind e = k.

(** The superclass declarations that count: the explicit ones if there are any. *)
Definition declared (w : world) (f : ns) (e : edge) : Prop :=
  has_edge w f Superclass e /\
  (explicit e = true \/ forall d, has_edge w f Superclass d -> explicit d = false).
(** No explicit superclass of the class waits to be resolved. *)
Definition settled (w : world) (f : ns) : Prop :=
  forall u, In u (unresolved w) -> psource u = instance f -> pkind u = Superclass -> pexplicit u = false.
(** The superclass is proven: all declarations that count agree; [e] is the first of them. *)
Definition proven_by (w : world) (f : ns) (e : edge) : Prop :=
  settled w f /\ (forall d, declared w f d -> target d = target e) /\
  exists l1 l2, edges w = l1 ++ e :: l2 /\ declared w f e /\ forall d, In d l1 -> ~ declared w f d.
Definition torn (w : world) (f : ns) : Prop :=
  exists d e, declared w f d /\ declared w f e /\ target d <> target e.

(** One step of ancestry. *)
Inductive parent (w : world) (allow : bool) : ns -> ns -> Prop :=
| by_mixin f e : has_edge w f Prepend e \/ has_edge w f Include e -> followed allow f e ->
    parent w allow f (target e)
| by_hook f e h : singleton f = true ->
    has_edge w (instance f) Include e \/ has_edge w (instance f) Prepend e -> followed allow f e ->
    has_edge w (target e) Extend h -> followed allow f h ->
    parent w allow f (target h)
| by_superclass f e : proven_by w f e -> followed allow f e -> parent w allow f (target e).

Definition ancestor (w : world) (allow : bool) : ns -> ns -> Prop := clos_refl_trans_1n ns (parent w allow).

(** Some namespace met on the way up, over all edges, has no proven superclass or a declaration
    that waits to be resolved. *)
Definition up (w : world) (f g : ns) : Prop :=
  exists e k, has_edge w f k e /\ k <> Application /\ target e = g.
Definition waiting (w : world) (f : ns) : Prop :=
  exists u, In u (unresolved w) /\ pexplicit u = true /\ psource u = instance f.
Definition unproven (w : world) (f : ns) : Prop :=
  exists g, clos_refl_trans_1n ns (up w) f g /\ (torn w g \/ waiting w g).

Definition defined (w : world) (f : ns) : Prop := exists k, In (f, k) (nodes w).
Definition module_namespace (w : world) (f : ns) : Prop := singleton f = false /\ In (f, Module) (nodes w).
(** The class of a class or module object: Class or Module, by its first definition, if defined. *)
Definition object_class (w : world) (f m : ns) : Prop :=
  singleton f = true /\ defined w m /\
  exists k, first_kind w f = Some k /\ m = mkNs [match k with Class => ClassC | Module => ModuleC end] false.

(** The members of a method lookup chain. *)
Inductive looked_up (w : world) (f : ns) : ns -> Prop :=
| own x : defined w f -> ancestor w (universal f) f x -> looked_up w f x
| core x : defined w f -> ~ ancestor w (universal f) f root -> path f <> [] ->
    module_namespace w f \/ singleton f = true -> ~ unproven w f ->
    defined w object -> ancestor w false object x -> looked_up w f x
| meta m x : object_class w f m -> ancestor w false m x -> looked_up w f x
| unknown : ~ defined w f -> path f <> [] -> looked_up w f f
| top x : ~ defined w f -> path f = [] ->
    ancestor w true root x \/ (defined w object /\ ancestor w true object x) -> looked_up w f x.

(** ** Order *)

(** The edges of a kind from [g] that are followed on behalf of [f], in the order of the graph. *)
Definition edges_followed (w : world) (allow : bool) (f g : ns) (k : edge_kind) : list edge :=
  filter (fun e => same (source e) g && same_kind (kind e) k && (negb (universal f) || allow || owned e))
         (edges w).
(** The modules mixed into [f] by a kind, the latest first. *)
Definition latest_first (w : world) (allow : bool) (f : ns) (k : edge_kind) : list ns :=
  rev (map target (edges_followed w allow f f k)).
(** The modules the mixins of a class extend it by, the latest first. *)
Definition hooked (w : world) (allow : bool) (f : ns) : list ns :=
  if singleton f then
    rev (map target (flat_map (fun e => edges_followed w allow f (target e) Extend)
                       (edges_followed w allow f (instance f) Include ++
                        edges_followed w allow f (instance f) Prepend)))
  else [].

(** The order of lookup with every namespace repeated wherever it is mixed in: prepended modules,
    the namespace, included modules, modules extended by hooks, the superclass. *)
Inductive unfolds (w : world) (allow : bool) : ns -> list ns -> Prop :=
| unfold f up bs cs :
    match up with
    | [] => forall e, proven_by w f e -> ~ followed allow f e
    | [t] => exists e, proven_by w f e /\ followed allow f e /\ target e = t
    | _ => False
    end ->
    Forall2 (unfolds w allow) (latest_first w allow f Prepend) bs ->
    Forall2 (unfolds w allow) (latest_first w allow f Include ++ hooked w allow f ++ up) cs ->
    unfolds w allow f (concat bs ++ f :: concat cs).

(** The first occurrences. *)
Fixpoint firsts (seen l : list ns) : list ns :=
  match l with
  | [] => []
  | x :: r => if mem x seen then firsts seen r else x :: firsts (x :: seen) r
  end.

(** ** Implementors *)

Inductive implements (w : world) : ns -> ns -> Prop :=
| subclass e : In e (edges w) -> kind e = Superclass -> implements w (target e) (source e)
| mixer e : In e (edges w) -> kind e = Extend \/ ((kind e = Include \/ kind e = Prepend) /\ singleton (source e) = false) ->
    implements w (target e) (source e).
(** Ruby's typing of the graph: what has a superclass is a class and is never mixed in. *)
Definition classes_not_mixed_in (w : world) : Prop :=
  forall e d, In e (edges w) -> kind e = Superclass -> In d (edges w) ->
    kind d = Extend \/ kind d = Include \/ kind d = Prepend -> target d <> source e.

(** A class or module that includes or prepends [m], directly or through modules. *)
Inductive includes (w : world) (m : ns) : ns -> Prop :=
| directly e : In e (edges w) -> kind e = Include \/ kind e = Prepend -> target e = m -> includes w m (source e)
| through x e : includes w m x -> first_kind w x = Some Module ->
    In e (edges w) -> kind e = Include \/ kind e = Prepend -> target e = x -> includes w m (source e).

(** ** Constants *)

(** [n] is the innermost level of [context] at which the name is found. *)
Definition innermost {A} (look : list nat -> option A) (parts context : list nat) (r : option A) : Prop :=
  match r with
  | Some a => exists n, n <= length context /\ look (firstn n context ++ parts) = Some a /\
      forall m, n < m <= length context -> look (firstn m context ++ parts) = None
  | None => forall n, n <= length context -> look (firstn n context ++ parts) = None
  end.
