(** Reads of hashes with known keys (crates/ruby-analysis/src/inference/type/shape.rs), over the types
    of Types_Model.

    A result is [None] for a panic, [Some None] for an Err (the reasons are not kept apart), and
    [Some (Some t)] for a type.  each_return (121-134) gives back the receiver or a fixed class and is
    not modelled, nor is the table of method names (140-172). *)
From Coq Require Import List Arith Bool.
From Verif Require Import Types_Model.
Import ListNotations.

Definition res := option (option ty).

(** proven_union, 307-315. *)
Definition proven_union (l : list ty) : option ty :=
  match l with
  | [] => None
  | _ => if existsb is_unknown l then None else match union l with TUnknown => None | t => Some t end
  end.

(** The loops that stop at the first Err or panic. *)
Fixpoint collect {A B} (f : A -> option (option B)) (l : list A) : option (option (list B)) :=
  match l with
  | [] => Some (Some [])
  | x :: r =>
      match f x with
      | None => None
      | Some None => Some None
      | Some (Some y) => match collect f r with Some (Some ys) => Some (Some (y :: ys)) | o => o end
      end
  end.

(** union_members, 317-322, is [members]. *)
(** resolve_shape_variants, 194-206. *)
Definition variants {B} (f : list field -> option (ty * ty) -> bool -> option (option B)) (r : ty) : option (option (list B)) :=
  collect (fun m => match m with TShape fs rest ex _ _ => f fs rest ex | _ => Some None end) (members r).
Definition resolve (f : list field -> option (ty * ty) -> bool -> res) (r : ty) : res :=
  match variants f r with
  | None => None
  | Some None => Some None
  | Some (Some l) => Some (proven_union l)
  end.

(** read_literal_key, 228-262; its last argument is true in every call. *)
Definition read_literal (k : lit) (fs : list field) (rest : option (ty * ty)) (ex : bool) : res :=
  match lookup k fs with
  | Some f => Some (proven_union (if freq f then [fval f] else [fval f; nil_class]))
  | None =>
      if ex then Some (proven_union [nil_class])
      else match rest with
           | None => Some None
           | Some (a, b) =>
               match is_subtype (widened k) a with
               | None => None
               | Some true => Some (proven_union [b; nil_class])
               | Some false => Some (proven_union [nil_class])
               end
           end
  end.
(** fetch_dynamic_key, 292-305. *)
Definition any_value (fs : list field) (rest : option (ty * ty)) (ex : bool) : option (list ty) :=
  match rest with
  | Some (_, b) => Some (map fval fs ++ [b])
  | None => if ex then Some (map fval fs) else None
  end.
(** read_dynamic_key, 264-279; its last argument is true in every call. *)
Definition read_dynamic (fs : list field) (rest : option (ty * ty)) (ex : bool) : res :=
  match any_value fs rest ex with None => Some None | Some l => Some (proven_union (l ++ [nil_class])) end.

(** indexed_read, 11-19. *)
Definition indexed_read (r : ty) (k : option lit) : res :=
  resolve (match k with Some k => read_literal k | None => read_dynamic end) r.

(** fetch_literal_key, 281-290. *)
Definition fetch_literal (k : lit) (fs : list field) (rest : option (ty * ty)) (ex : bool) : option (option (list ty * bool)) :=
  match lookup k fs with
  | Some f => Some (Some ([fval f], negb (freq f)))
  | None =>
      if ex then Some (Some ([], true))
      else match rest with
           | None => Some None
           | Some (a, b) =>
               match is_subtype (widened k) a with
               | None => None
               | Some true => Some (Some ([b], true))
               | Some false => Some (Some ([], true))
               end
           end
  end.
(** fetch, 21-40. *)
Definition fetch (r : ty) (k : option lit) (default : option ty) : res :=
  resolve (fun fs rest ex =>
    match match k with
          | Some k => fetch_literal k fs rest ex
          | None => Some (option_map (fun l => (l, true)) (any_value fs rest ex))
          end with
    | None => None
    | Some None => Some None
    | Some (Some (l, reachable)) =>
        match default with
        | Some d => if reachable then if is_unknown d then Some None else Some (proven_union (l ++ [d])) else Some (proven_union l)
        | None => Some (proven_union l)
        end
    end) r.

(** type_is_shape_only, 324-338. *)
Fixpoint shape_only (t : ty) : bool :=
  match t with TShape _ _ _ _ _ => true | TUnion l => forallb shape_only l | _ => false end.

(** dig and dig_at, 42-50, 174-192. *)
Fixpoint dig (r : ty) (ks : list (option lit)) : res :=
  match ks with
  | [] => Some None
  | k :: ks' =>
      match indexed_read r k with
      | None => None
      | Some None => Some None
      | Some (Some v) =>
          match ks' with
          | [] => Some (Some v)
          | _ =>
              match collect (fun m => if eqb m nil_class then Some (Some nil_class) else if shape_only m then dig m ks' else Some None) (members v) with
              | None => None
              | Some None => Some None
              | Some (Some l) => Some (proven_union l)
              end
          end
      end
  end.

(** project_shape_variants_to_array, 208-226. *)
Definition project (f : list field -> option (ty * ty) -> option (list ty)) (r : ty) : res :=
  match variants (fun fs rest ex =>
          if negb ex && match rest with None => true | _ => false end then Some None
          else match f fs rest with None => None | Some l => Some (Some l) end) r with
  | None => None
  | Some None => Some None
  | Some (Some ls) => if existsb contains_unknown (concat ls) then Some None else Some (Some (TArray (canonical_members (concat ls))))
  end.
(** keys, 52-61. *)
Definition keys : ty -> res :=
  project (fun fs rest => Some (map (fun f => widened (fkey f)) fs ++ match rest with Some (a, _) => [a] | None => [] end)).
(** values, 63-72. *)
Definition values : ty -> res :=
  project (fun fs rest =>
    match seqo (map (fun f => widen (fval f)) fs), match rest with Some (_, b) => option_map (fun b => [b]) (widen b) | None => Some [] end with
    | Some l, Some l' => Some (l ++ l')
    | _, _ => None
    end).

(** key_presence, 74-119: each alternative says whether the key may be missing and whether it may be there. *)
Definition true_class := TClass (const_name true_text).
Definition false_class := TClass (const_name false_text).
Definition presence_in (k : lit) (fs : list field) (rest : option (ty * ty)) (ex : bool) : option (option (bool * bool)) :=
  match lookup k fs with
  | Some f => Some (Some (negb (freq f), true))
  | None =>
      if ex then Some (Some (true, false))
      else match rest with
           | Some (a, _) =>
               match is_subtype (widened k) a with
               | None => None
               | Some true => Some (Some (true, true))
               | Some false => Some (Some (true, false))
               end
           | None => Some (Some (true, true))
           end
  end.
Definition key_presence (r : ty) (k : option lit) : res :=
  match k with
  | None => Some (Some boolean)
  | Some k =>
      match variants (presence_in k) r with
      | None => None
      | Some None => Some None
      | Some (Some l) =>
          Some (match forallb (fun m => negb (fst m)) l, forallb (fun m => negb (snd m)) l with
                | true, false => Some true_class
                | false, true => Some false_class
                | false, false => Some boolean
                | true, true => None
                end)
      end
  end.

(** generic_hash_projection, 136-138. *)
Definition generic_projection : ty -> res :=
  resolve (fun fs rest ex => match generic_hash fs rest ex with None => None | Some t => Some (Some t) end).
