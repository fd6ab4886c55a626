(** What a type means: the set of Ruby values it describes.
    The meaning of class, module and reference names is arbitrary ([named]); the only thing assumed
    of it, where a theorem needs it, is that symbols are instances of Symbol and strings of String. *)
From Coq Require Import List Arith Bool.
From Verif Require Import Types_Model.
Import ListNotations.

Inductive val :=
| VObj (n : nat)
| VSym (n : nat)
| VStr (n : nat)
| VArr (l : list val)
| VHash (entries : list (val * val)).

Inductive name_kind := InstanceOfClass | InstanceOfModule | ClassItself | ModuleItself.
Definition litval (l : lit) : val := match l with LSym n => VSym n | LStr n => VStr n end.

Definition meaning : Type := name_kind -> fqn -> val -> Prop.
(** some of the listed sets contains the value *)
Definition ors (l : list (val -> Prop)) (v : val) : Prop := exists P, In P l /\ P v.

Fixpoint den (named : meaning) (t : ty) : val -> Prop :=
  match t with
  | TClass f => named InstanceOfClass f
  | TModule f => named InstanceOfModule f
  | TClassRef f => named ClassItself f
  | TModuleRef f => named ModuleItself f
  | TLit l => fun v => v = litval l
  | TArray l => fun v => exists vs, v = VArr vs /\ forall x, In x vs -> ors (map (den named) l) x
  | THash k w => fun v => exists es, v = VHash es /\
      forall x y, In (x, y) es -> ors (map (den named) k) x /\ ors (map (den named) w) y
  | TShape fs rest ex _ _ => fun v => exists es, v = VHash es /\
      (* a required key is present *)
      (forall k, In k (map (fun f => fst f) (filter (fun f => snd f) (map (fun f => match f with (k, _, r) => (k, r) end) fs))) ->
         exists y, In (litval k, y) es) /\
      (* an entry at a listed key has that key's type *)
      (forall x y, In (x, y) es ->
         forall k P, In (k, P) (map (fun f => match f with (k, t, _) => (k, den named t) end) fs) ->
         x = litval k -> P y) /\
      (* any other entry is allowed by the rest type, or by openness when there is none *)
      (forall x y, In (x, y) es ->
         ~ In x (map (fun f => match f with (k, _, _) => litval k end) fs) ->
         match rest with
         | Some (a, b) => den named a x /\ den named b y
         | None => ex = false
         end)
  | TUnion l => ors (map (den named) l)
  | TUnknown => fun _ => True
  end.

(** [b] describes every value that [a] describes *)
Definition included (named : meaning) (a b : ty) : Prop := forall v, den named a v -> den named b v.
(** symbols are Symbols and strings are Strings *)
Definition core_classes (named : meaning) : Prop :=
  (forall n, named InstanceOfClass (const_name symbol_text) (VSym n)) /\
  (forall n, named InstanceOfClass (const_name string_text) (VStr n)).
Definition described_by_some (named : meaning) (l : list ty) (v : val) : Prop :=
  exists t, In t l /\ den named t v.

(** no union is a direct member of another union *)
Definition is_union (t : ty) : bool := match t with TUnion _ => true | _ => false end.
Definition flat (t : ty) : Prop := match t with TUnion l => forall x, In x l -> is_union x = false | _ => True end.

(** [x] is [t] or occurs somewhere inside it. *)
Inductive occurs (x : ty) : ty -> Prop :=
| Occ_self : occurs x x
| Occ_array l t : In t l -> occurs x t -> occurs x (TArray l)
| Occ_key k v t : In t k -> occurs x t -> occurs x (THash k v)
| Occ_value k v t : In t v -> occurs x t -> occurs x (THash k v)
| Occ_union l t : In t l -> occurs x t -> occurs x (TUnion l)
| Occ_field fs r e z d f : In f fs -> occurs x (fval f) -> occurs x (TShape fs r e z d)
| Occ_rest_key fs a b e z d : occurs x a -> occurs x (TShape fs (Some (a, b)) e z d)
| Occ_rest_value fs a b e z d : occurs x b -> occurs x (TShape fs (Some (a, b)) e z d).

(** How deeply shapes are nested in a type, counted on the type itself. *)
Fixpoint nesting (t : ty) : nat :=
  match t with
  | TArray l | TUnion l => maxl (map nesting l)
  | THash k v => Nat.max (maxl (map nesting k)) (maxl (map nesting v))
  | TShape fs rest _ _ _ =>
      S (Nat.max (maxl (map (fun f => match f with (_, v, _) => nesting v end) fs))
                 (match rest with Some (a, b) => Nat.max (nesting a) (nesting b) | None => 0 end))
  | _ => 0
  end.

(** The types the public interface can build: RubyType's variants are public, but a ShapeType only
    comes from its checked constructor. *)
Inductive built : ty -> Prop :=
| B_class f : built (TClass f)
| B_module f : built (TModule f)
| B_class_ref f : built (TClassRef f)
| B_module_ref f : built (TModuleRef f)
| B_lit l : built (TLit l)
| B_array l : Forall built l -> built (TArray l)
| B_hash k v : Forall built k -> Forall built v -> built (THash k v)
| B_union l : Forall built l -> built (TUnion l)
| B_unknown : built TUnknown
| B_shape fs rest ex fr t :
    Forall (fun f => built (fval f)) fs ->
    (forall a b, rest = Some (a, b) -> built a /\ built b) ->
    try_new fs rest ex fr = inl t -> built t.

(** at most eight different shapes among the listed alternatives *)
Definition few_shapes (l : list ty) : Prop :=
  forall ks, NoDup ks -> (forall x, In x ks -> is_shape x = true /\ In x (flatten l)) -> length ks <= 8.
(** Well-formed types: collections and unions are not empty and have at most eight different shapes
    among their alternatives, unions are flat, shapes come from the checked constructor. *)
Inductive well_formed : ty -> Prop :=
| W_class f : well_formed (TClass f)
| W_module f : well_formed (TModule f)
| W_class_ref f : well_formed (TClassRef f)
| W_module_ref f : well_formed (TModuleRef f)
| W_lit l : well_formed (TLit l)
| W_unknown : well_formed TUnknown
| W_array l : l <> [] -> few_shapes l -> Forall well_formed l -> well_formed (TArray l)
| W_hash k v : k <> [] -> v <> [] -> few_shapes k -> few_shapes v ->
    Forall well_formed k -> Forall well_formed v -> well_formed (THash k v)
| W_union l : l <> [] -> few_shapes l -> (forall x, In x l -> is_union x = false) ->
    Forall well_formed l -> well_formed (TUnion l)
| W_shape fs rest ex fr t :
    Forall (fun f => well_formed (fval f)) fs ->
    (forall a b, rest = Some (a, b) -> well_formed a /\ well_formed b) ->
    try_new fs rest ex fr = inl t -> well_formed t.

(** [p] holds of every shape inside a type *)
Definition every_shape (p : list field -> option (ty * ty) -> bool -> Prop) (t : ty) : Prop :=
  forall fs rest ex fr d, occurs (TShape fs rest ex fr d) t -> p fs rest ex.
Definition required_only : ty -> Prop := every_shape (fun fs _ _ => forall f, In f fs -> freq f = true).
Definition exact_required_only : ty -> Prop := every_shape (fun fs _ ex => ex = true -> forall f, In f fs -> freq f = true).
Definition rest_free : ty -> Prop := every_shape (fun _ rest _ => rest = None).
Definition shape_free : ty -> Prop := every_shape (fun _ _ _ => False).
