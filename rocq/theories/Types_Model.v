(** Model of the type algebra: /repo/crates/ruby-analysis/src/core/ruby_type.rs and shape_type.rs.
    Names: a FullyQualifiedName is its variant and the text it is displayed as, both numbers, so that
    two different names can display alike (as Namespace(NilClass) and Constant(NilClass) do).
    Strings are numbers; only their equality and total order matter.  A panic is [None]. *)
From Coq Require Import List Arith Bool.
Import ListNotations.

Record fqn := mkF { fvariant : nat; ftext : nat }.
Inductive lit := LSym (n : nat) | LStr (n : nat).        (* LiteralValue and LiteralKey, shape_type.rs 24-28, 59-63 *)

(** RubyType, ruby_type.rs 8-34; ShapeType, shape_type.rs 190-197.  A field is its key, its type and
    whether it is required; [ex] is ShapeExactness::Exact, [fr] ShapeStability::Frozen. *)
Inductive ty :=
| TClass (f : fqn)
| TModule (f : fqn)
| TClassRef (f : fqn)
| TModuleRef (f : fqn)
| TLit (l : lit)
| TArray (l : list ty)
| THash (k v : list ty)
| TShape (fs : list (lit * ty * bool)) (rest : option (ty * ty)) (ex fr : bool) (depth : nat)
| TUnion (l : list ty)
| TUnknown.
Definition field : Type := lit * ty * bool.
Definition fkey (f : field) : lit := fst (fst f).
Definition fval (f : field) : ty := snd (fst f).
Definition freq (f : field) : bool := snd f.

(** FullyQualifiedName::try_from (fully_qualified_name.rs 338-360) makes a Constant (variant 1). *)
Definition const_name (text : nat) : fqn := mkF 1 text.
Definition nil_text := 0. Definition symbol_text := 1. Definition string_text := 2.
Definition integer_text := 3. Definition false_text := 4. Definition true_text := 5. Definition float_text := 6.
Definition nil_class := TClass (const_name nil_text).         (* 49-51 *)
Definition symbol := TClass (const_name symbol_text).         (* 53-55 *)
Definition string := TClass (const_name string_text).         (* 37-39 *)
Definition integer := TClass (const_name integer_text).       (* 41-43 *)
Definition boolean := TUnion [TClass (const_name false_text); TClass (const_name true_text)].   (* 65-70 *)

(** LiteralValue::widened_type and LiteralKey::generic_type, shape_type.rs 40-45, 73-78 *)
Definition widened (l : lit) : ty := match l with LSym _ => symbol | LStr _ => string end.

(** *** The derived order *)
(** derive(PartialOrd, Ord) compares the variant, then the fields in order; a Vec compares
    lexicographically.  All this is the lexicographic order on trees. *)
Inductive tree := Node (n : nat) (l : list tree).
Fixpoint tcmp (a b : tree) : comparison :=
  match a, b with
  | Node n l, Node m k =>
      match Nat.compare n m with
      | Eq => (fix lcmp (l k : list tree) : comparison :=
                 match l, k with
                 | [], [] => Eq
                 | [], _ => Lt
                 | _, [] => Gt
                 | x :: l, y :: k => match tcmp x y with Eq => lcmp l k | c => c end
                 end) l k
      | c => c
      end
  end.
Definition leaf (n : nat) : tree := Node n [].
Definition enc_fqn (f : fqn) : tree := Node 0 [leaf (fvariant f); leaf (ftext f)].
Definition enc_lit (l : lit) : tree := match l with LSym n => Node 0 [leaf n] | LStr n => Node 1 [leaf n] end.
Definition enc_bool (b : bool) : tree := leaf (if b then 0 else 1).    (* Required < Optional, Exact < Open *)
Definition enc_frozen (b : bool) : tree := leaf (if b then 1 else 0).  (* TrackedMutable < Frozen *)
Fixpoint enc (t : ty) : tree :=
  match t with
  | TClass f => Node 0 [enc_fqn f]
  | TModule f => Node 1 [enc_fqn f]
  | TClassRef f => Node 2 [enc_fqn f]
  | TModuleRef f => Node 3 [enc_fqn f]
  | TLit l => Node 4 [enc_lit l]
  | TArray l => Node 5 [Node 0 (map enc l)]
  | THash k v => Node 6 [Node 0 (map enc k); Node 0 (map enc v)]
  | TShape fs rest ex fr d =>
      Node 7 [Node 0 (map (fun f => match f with (k, v, r) => Node 0 [enc_lit k; enc v; enc_bool r] end) fs);
              match rest with None => Node 0 [] | Some (a, b) => Node 1 [enc a; enc b] end;
              enc_bool ex; enc_frozen fr; leaf d]
  | TUnion l => Node 8 [Node 0 (map enc l)]
  | TUnknown => Node 9 []
  end.
Definition cmp (a b : ty) : comparison := tcmp (enc a) (enc b).
Definition eqb (a b : ty) : bool := match cmp a b with Eq => true | _ => false end.
Definition ltb (a b : ty) : bool := match cmp a b with Lt => true | _ => false end.
Definition leb (a b : ty) : bool := match cmp a b with Gt => false | _ => true end.
Definition lit_cmp (a b : lit) : comparison := tcmp (enc_lit a) (enc_lit b).
Definition lit_eqb (a b : lit) : bool := match lit_cmp a b with Eq => true | _ => false end.

(** *** Unions *)
Fixpoint insert (x : ty) (l : list ty) : list ty :=
  match l with [] => [x] | y :: r => if leb x y then x :: l else y :: insert x r end.
Fixpoint sort (l : list ty) : list ty := match l with [] => [] | x :: r => insert x (sort r) end.
Fixpoint dedup (l : list ty) : list ty :=
  match l with
  | [] => []
  | x :: r => match r with
              | [] => [x]
              | y :: _ => if eqb x y then dedup r else x :: dedup r
              end
  end.
Definition is_unknown (t : ty) : bool := match t with TUnknown => true | _ => false end.
Definition is_shape (t : ty) : bool := match t with TShape _ _ _ _ _ => true | _ => false end.
Definition flatten (l : list ty) : list ty :=
  flat_map (fun t => match t with TUnion l => l | t => [t] end) l.
Definition max_variants := 8.                                (* shape_type.rs 16 *)
(** union 255-294 *)
Definition union (l : list ty) : ty :=
  let v := flatten l in
  if existsb is_unknown v then TUnknown
  else
    let v := dedup (sort v) in
    if max_variants <? length (filter is_shape v) then TUnknown
    else match v with
         | [] => TUnknown
         | [x] => x
         | _ => TUnion v
         end.
(** optional 76-95 *)
Definition optional (t : ty) : ty :=
  match t with
  | TUnknown => TUnknown
  | TUnion l => union (l ++ [nil_class])
  | t => if eqb t nil_class then t
         else if ltb t nil_class then TUnion [t; nil_class] else TUnion [nil_class; t]
  end.
(** union_with 417-444 *)
Definition union_with (a b : ty) : ty :=
  if eqb a b then a
  else match a, b with
       | TUnknown, _ => TUnknown
       | _, TUnknown => TUnknown
       | TUnion l, TUnion k => union (l ++ k)
       | TUnion l, _ => union (l ++ [b])
       | _, TUnion k => union (k ++ [a])
       | _, _ => union [a; b]
       end.
(** canonical_union_members 111-137 *)
Definition members (t : ty) : list ty := match t with TUnion l => l | t => [t] end.
Definition canonical_members (l : list ty) : list ty :=
  match l with
  | [] => [TUnknown]
  | [x] => match x with TUnion _ => members (union [x]) | _ => [x] end
  | _ => members (union l)
  end.
(** is_nilable 384-390, make_nilable 393-399, remove_nil 402-413, subtract 448-458 *)
Definition is_nil_class (t : ty) : bool := match t with TClass f => ftext f =? nil_text | _ => false end.
Fixpoint is_nilable (t : ty) : bool :=
  match t with
  | TClass f => ftext f =? nil_text
  | TUnion l => existsb is_nilable l
  | _ => false
  end.
Definition make_nilable (t : ty) : ty := if is_nilable t then t else optional t.
Definition remove_nil (t : ty) : ty :=
  match t with
  | TUnion l => union (filter (fun x => negb (is_nil_class x)) l)
  | t => if is_nil_class t then TUnknown else t
  end.
Definition subtract (t o : ty) : ty :=
  match t with
  | TUnion l => union (filter (fun x => negb (eqb x o)) l)
  | t => if eqb t o then TUnknown else t
  end.
(** union_from_proven 236-252, on already resolved alternatives *)
Fixpoint all_proven (l : list (option ty)) : option (list ty) :=
  match l with
  | [] => Some []
  | None :: _ => None
  | Some t :: r => if is_unknown t then None else option_map (cons t) (all_proven r)
  end.
Definition union_from_proven (l : list (option ty)) : option ty :=
  match all_proven l with Some [] | None => None | Some ts => Some (union ts) end.

(** *** Shapes *)
(** contains_unknown 179-203 *)
Fixpoint contains_unknown (t : ty) : bool :=
  match t with
  | TUnknown => true
  | TArray l | TUnion l => existsb contains_unknown l
  | THash k v => existsb contains_unknown k || existsb contains_unknown v
  | TShape fs rest _ _ _ =>
      existsb (fun f => match f with (_, v, _) => contains_unknown v end) fs
      || match rest with Some (a, b) => contains_unknown a || contains_unknown b | None => false end
  | _ => false
  end.
Definition maxl (l : list nat) : nat := fold_right Nat.max 0 l.
(** shape_depth_in_type, shape_type.rs 506-525 *)
Fixpoint shape_depth (t : ty) : nat :=
  match t with
  | TShape _ _ _ _ d => d
  | TArray l | TUnion l => maxl (map shape_depth l)
  | THash k v => Nat.max (maxl (map shape_depth k)) (maxl (map shape_depth v))
  | _ => 0
  end.

Inductive shape_error :=
| FieldBound (actual : nat) | DepthBound (actual : nat) | Duplicate (k : lit)
| ExactWithRest | UnprovenField (k : lit) | UnprovenRest.
Definition max_fields := 32. Definition max_depth := 8.      (* 11-14 *)

Fixpoint finsert (x : field) (l : list field) : list field :=
  match l with
  | [] => [x]
  | y :: r => match lit_cmp (fkey x) (fkey y) with Gt => y :: finsert x r | _ => x :: l end
  end.
Fixpoint fsort (l : list field) : list field := match l with [] => [] | x :: r => finsert x (fsort r) end.
Fixpoint first_dup (l : list field) : option lit :=
  match l with
  | [] => None
  | x :: r => match r with
              | [] => None
              | y :: _ => if lit_eqb (fkey x) (fkey y) then Some (fkey x) else first_dup r
              end
  end.
(** try_new, shape_type.rs 238-309 *)
Definition try_new (fs : list field) (rest : option (ty * ty)) (ex fr : bool) : ty + shape_error :=
  if max_fields <? length fs then inr (FieldBound (length fs))
  else if ex && match rest with Some _ => true | None => false end then inr ExactWithRest
  else
    let fs := fsort fs in
    match first_dup fs with
    | Some k => inr (Duplicate k)
    | None =>
        match find (fun f => contains_unknown (fval f)) fs with
        | Some f => inr (UnprovenField (fkey f))
        | None =>
            if match rest with Some (a, b) => contains_unknown a || contains_unknown b | None => false end
            then inr UnprovenRest
            else
              let nested := Nat.max (maxl (map (fun f => shape_depth (fval f)) fs))
                              (match rest with Some (a, b) => Nat.max (shape_depth a) (shape_depth b) | None => 0 end) in
              if max_depth <? S nested then inr (DepthBound (S nested))
              else inl (TShape fs rest ex fr (S nested))
        end
    end.

(** *** Widening: widen_literals 462-487 and try_map_types, shape_type.rs 443-461 *)
Fixpoint seqo {A} (l : list (option A)) : option (list A) :=
  match l with
  | [] => Some []
  | None :: _ => None
  | Some x :: r => option_map (cons x) (seqo r)
  end.
Fixpoint widen (t : ty) : option ty :=
  match t with
  | TLit l => Some (widened l)
  | TArray l => option_map (fun l => TArray (canonical_members l)) (seqo (map widen l))
  | THash k v =>
      match seqo (map widen k), seqo (map widen v) with
      | Some k, Some v => Some (THash (canonical_members k) (canonical_members v))
      | _, _ => None
      end
  | TShape fs rest ex fr _ =>
      match seqo (map (fun f => match f with (k, v, r) => option_map (fun v => (k, v, r)) (widen v) end) fs),
            match rest with
            | None => Some None
            | Some (a, b) => match widen a, widen b with Some a, Some b => Some (Some (a, b)) | _, _ => None end
            end with
      | Some fs, Some rest => match try_new fs rest ex fr with inl t => Some t | inr _ => None end
      | _, _ => None
      end
  | TUnion l => option_map union (seqo (map widen l))
  | t => Some t
  end.

(** generic_hash_type, shape_type.rs 347-375 *)
Definition generic_hash (fs : list field) (rest : option (ty * ty)) (ex : bool) : option ty :=
  let keys := map (fun f => widened (fkey f)) fs in
  match seqo (map (fun f => widen (fval f)) fs),
        match rest with
        | Some (a, b) => match widen a, widen b with Some a, Some b => Some ([a], [b]) | _, _ => None end
        | None => if ex then Some ([], []) else Some ([TUnknown], [TUnknown])
        end with
  | Some values, Some (ks, vs) => Some (THash (canonical_members (keys ++ ks)) (canonical_members (values ++ vs)))
  | _, _ => None
  end.

(** *** Subtyping *)
(** Iterator::all / Iterator::any / &&, stopping at the first decision or panic *)
Fixpoint all_o {A} (f : A -> option bool) (l : list A) : option bool :=
  match l with
  | [] => Some true
  | x :: r => match f x with Some true => all_o f r | o => o end
  end.
Fixpoint any_o {A} (f : A -> option bool) (l : list A) : option bool :=
  match l with
  | [] => Some false
  | x :: r => match f x with Some false => any_o f r | o => o end
  end.
Definition and_o (a b : option bool) : option bool := match a with Some true => b | o => o end.

(** ShapeType::field, shape_type.rs 315-320: binary search in the sorted fields *)
Definition lookup (k : lit) (fs : list field) : option field := find (fun f => lit_eqb (fkey f) k) fs.

(** ShapeType::is_subtype_of, shape_type.rs 378-439, with [sub] for the nested types *)
Definition shape_sub (sub : ty -> ty -> option bool)
    (fs : list field) (rest : option (ty * ty)) (ex : bool)
    (fs' : list field) (rest' : option (ty * ty)) (ex' : bool) : option bool :=
  let field_ok (f' : field) :=
    match lookup (fkey f') fs with
    | Some f =>
        if freq f' then and_o (Some (freq f)) (sub (fval f) (fval f'))
        else sub (fval f) (fval f')
    | None =>
        if freq f' then Some false
        else match rest with
             | Some (rk, rv) =>
                 match sub (widened (fkey f')) rk with
                 | Some true => sub rv (fval f')
                 | Some false => Some true
                 | None => None
                 end
             | None => Some ex
             end
    end in
  and_o (all_o field_ok fs')
    (if ex' then Some (ex && (match rest with None => true | Some _ => false end) && (length fs =? length fs'))
     else match rest' with
          | None => Some true
          | Some (rk', rv') =>
              and_o (all_o (fun f => and_o (sub (widened (fkey f)) rk') (sub (fval f) rv'))
                           (filter (fun f => match lookup (fkey f) fs' with None => true | Some _ => false end) fs))
                (match rest with
                 | Some (rk, rv) => and_o (sub rk rk') (sub rv rv')
                 | None => Some ex
                 end)
          end).

(** is_subtype_of 297-335, with [sub] for the recursive calls *)
Definition sub_body (sub : ty -> ty -> option bool) (a b : ty) : option bool :=
  if is_unknown a then Some (is_unknown b)
  else if eqb a b then Some true
  else
    match a with
    | TUnion l => all_o (fun t => sub t b) l
    | _ =>
        match b with
        | TUnion l => any_o (fun t => sub a t) l
        | _ =>
            match a, b with
            | TArray l, TArray k => all_o (fun e => any_o (fun e' => sub e e') k) l
            | THash k v, THash k' v' =>
                and_o (all_o (fun e => any_o (fun e' => sub e e') k') k)
                      (all_o (fun e => any_o (fun e' => sub e e') v') v)
            | TLit l, _ => sub (widened l) b
            | TShape fs rest ex _ _, TShape fs' rest' ex' _ _ => shape_sub sub fs rest ex fs' rest' ex'
            | TShape fs rest ex _ _, THash _ _ =>
                match generic_hash fs rest ex with Some h => sub h b | None => None end
            | _, _ => Some false
            end
        end
    end.
Fixpoint sub (n : nat) (a b : ty) : option bool :=
  match n with O => None | S n => sub_body (sub n) a b end.

Fixpoint height (t : ty) : nat :=
  match t with
  | TArray l | TUnion l => S (Nat.max 1 (maxl (map height l)))
  | THash k v => S (Nat.max 1 (Nat.max (maxl (map height k)) (maxl (map height v))))
  | TShape fs rest _ _ _ =>
      S (Nat.max (Nat.max 1 (maxl (map (fun f => match f with (_, v, _) => height v end) fs)))
                 (match rest with Some (a, b) => Nat.max (height a) (height b) | None => 0 end))
  | _ => 1
  end.
(** The recursion with enough steps to end: Types_Sub proves [is_subtype a b = sub_body is_subtype a b]. *)
Definition is_subtype (a b : ty) : option bool := sub (2 * (height a + height b) + 2) a b.

(** common_supertype 343-352 *)
Definition common_supertype (a b : ty) : option ty :=
  match is_subtype a b with
  | None => None
  | Some true => Some b
  | Some false => match is_subtype b a with
                  | None => None
                  | Some true => Some a
                  | Some false => Some (union [a; b])
                  end
  end.
