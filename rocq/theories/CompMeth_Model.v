(** Which methods completion offers after a dot (src/capabilities/completion/mod.rs:298-316,
    src/query/completion.rs:55-147, 185-194, crates/ruby-analysis/src/engine/lookup.rs:16-128, 257-345,
    crates/ruby-analysis/src/inference/completion.rs:386-466, 675-720).

    Arguments: the ancestors of a namespace in lookup order, the facts of each owner, whether a
    namespace is known, and the core signatures.  Return types are opaque here, with the function that
    joins two of them.  Unions have no unions inside (RubyType::union flattens them). *)
From Coq Require Import List Arith Bool.
From Verif Require Import Sort_Lib CompConst_Model.
Import ListNotations.

Inductive side := Instance | Singleton.
(** RubyType, as far as the receivers of methods go; a literal stands for the class it widens to. *)
Inductive single := ClassOf (p : path) | ModuleOf (p : path) | ClassItself (p : path) | ModuleItself (p : path)
                  | Array | Hash | Literal (p : path) | Unknown.
Inductive receiver := One (s : single) | Union (l : list single).

(** crates/ruby-analysis/src/core/method_store.rs:25-37. *)
Inductive availability := Available | Unavailable | Absent.
Inductive visibility := Public | Protected | Private.

Section Methods.
Variable R : Type.
(** MethodFact, the part that matters: its name is [mowner]#[mname]. *)
Record mfact := mkM { mname : name; mowner : path; mparams : list name; mret : option R; mavail : availability; mvis : visibility }.
(** MethodMatch and CompletionMethodMatch, lookup_types.rs:53-58, completion.rs:147-152. *)
Record cand := mkC { cname : name; cparams : list name; cret : option R }.

(** The world: method_lookup_chain over the namespace and its execution contexts (lookup.rs:26-33),
    facts_matching_owner before the prefix test, namespace_target_exists, get_rbs_class_methods. *)
Record world := mkWorld {
  chain : path * side -> list (path * side);
  facts_of : path * side -> list mfact;
  exists_ns : path * side -> bool;
  rbs : name -> side -> list cand }.
(** RubyType::union_from_proven on two types. *)
Variable unite : R -> R -> option R.
Variable w : world.

Definition same_name (a b : name) : bool := if list_eq_dec Nat.eq_dec a b then true else false.

(** retain_effective_method_availability, state.rs:3873-3894. *)
Definition is_absent (f : mfact) : bool := match mavail f with Absent => true | _ => false end.
Definition is_unavailable (f : mfact) : bool := match mavail f with Unavailable => true | _ => false end.
Definition effective (l : list mfact) : list mfact :=
  filter (fun f =>
    if existsb (fun g => is_absent g && same_name (mname g) (mname f)) l then false
    else if existsb (fun g => is_unavailable g && same_name (mname g) (mname f)) l then is_unavailable f
    else true) l.

(** FullyQualifiedName::to_string of a method, fully_qualified_name.rs:362-382. *)
Fixpoint joined_path (p : path) : name :=
  match p with [] => [] | [a] => a | a :: r => a ++ [colon; colon] ++ joined_path r end.
Definition printed (f : mfact) : name := joined_path (mowner f) ++ [35] ++ mname f.

(** method_facts_matching, lookup.rs:16-47. *)
Definition facts_matching (ns : path * side) (partial : name) : list mfact :=
  if exists_ns w ns then
    sort (key_leb printed)
      (firsts (fun f g => same_name (mname f) (mname g)) []
        (flat_map (fun a => effective (filter (fun f => starts partial (mname f)) (facts_of w a))) (chain w ns)))
  else [].

(** method_match, lookup.rs:232-255. *)
Definition as_cand (f : mfact) : cand :=
  mkC (mname f) (filter (fun p => negb (match p with [] => true | _ => false end)) (mparams f)) (mret f).

(** receiver_type_to_namespaces, lookup.rs:278-303. *)
Definition array_name : name := [65; 114; 114; 97; 121].
Definition hash_name : name := [72; 97; 115; 104].
Definition namespaces (s : single) (k : side) : list (path * side) :=
  match s with
  | ClassOf p | ClassItself p | ModuleOf p | ModuleItself p | Literal p => [(p, k)]
  | Array => [([array_name], k)]
  | Hash => [([hash_name], k)]
  | Unknown => []
  end.

(** method_matches_for_type on a member, lookup.rs:121-128. *)
Definition engine_single (partial : name) (k : side) (s : single) : list cand :=
  flat_map (fun ns => map as_cand (facts_matching ns partial)) (namespaces s k).

(** class_names_for_type, completion.rs:675-720. *)
Definition class_names (s : single) : list name :=
  match s with
  | ClassOf p | ClassItself p | Literal p =>
      match joined_path p with
      | [] => []
      | full => full :: (if same_name (simple p) full then [] else [simple p])
      end
  | ModuleOf p | ModuleItself p => match p with [] => [] | _ => [simple p] end
  | Array => [array_name]
  | Hash => [hash_name]
  | Unknown => []
  end.
Definition class_name : name := [67; 108; 97; 115; 115].
Definition module_name : name := [77; 111; 100; 117; 108; 101].
Definition same_cname (a b : cand) : bool := same_name (cname a) (cname b).

(** rbs_method_matches_for_type on a member, completion.rs:426-465. *)
Definition rbs_single (partial : name) (k : side) (s : single) : list cand :=
  sort (key_leb cname)
    (firsts same_cname []
      (filter (fun c => starts partial (cname c))
        (flat_map (fun n => rbs w n k) (class_names s)
         ++ match k with Singleton => flat_map (fun n => rbs w n Instance) [class_name; module_name] | Instance => [] end))).

(** A BTreeMap collected from pairs: ordered, the last of a key stays. *)
Definition to_map (l : list cand) : list cand := sort (key_leb cname) (firsts same_cname [] (rev l)).
Definition join (a b : option R) : option R := match a, b with Some x, Some y => unite x y | _, _ => None end.
(** The closure of BTreeMap::retain, lookup.rs:98-115 and completion.rs:405-420. *)
Definition meet (m : list cand) (c : cand) : list cand :=
  match find (fun d => same_name (cname d) (cname c)) m with
  | None => []
  | Some d => if path_eqb (cparams c) (cparams d) then [mkC (cname c) (cparams c) (join (cret c) (cret d))] else []
  end.
Definition common (f : single -> list cand) (first : single) (rest : list single) : list cand :=
  fold_left (fun acc s => flat_map (meet (to_map (f s))) acc) rest (to_map (f first)).

(** method_matches_for_type and rbs_method_matches_for_type; an empty union panics in the former. *)
Definition for_receiver (f : single -> list cand) (r : receiver) : option (list cand) :=
  match r with
  | One s => Some (f s)
  | Union [] => None
  | Union (s :: rest) => Some (common f s rest)
  end.

(** The side asked for, mod.rs:298-311. *)
Definition side_of (r : receiver) : side :=
  match r with One (ClassItself _) | One (ModuleItself _) => Singleton | _ => Instance end.

(** find_method_completions, completion.rs:59-74. *)
Definition methods (r : receiver) (partial : name) : option (list cand) :=
  let k := side_of r in
  match for_receiver (engine_single partial k) r with
  | None => None
  | Some e =>
      match for_receiver (rbs_single partial k) r with
      | None => Some (firsts same_cname [] e)
      | Some b => Some (firsts same_cname [] (e ++ b))
      end
  end.
End Methods.
