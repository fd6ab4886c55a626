(** Model of workspace symbol search: crates/ruby-analysis/src/engine/workspace_symbols.rs,
    src/query/workspace_symbols.rs and src/capabilities/workspace_symbols.rs.

    A character is its code point.  [lower] is [str::to_lowercase] and [upper] is
    [char::is_uppercase].  Scores are exact rationals where the code has f64: the bounds by [clamp]
    are the same, the order of two close scores of scattered matches may differ by rounding. *)
From Coq Require Import List Arith Bool ZArith QArith.
From Verif Require Import Sort_Lib Index_Lib Names_Model.
Import ListNotations.
Open Scope nat_scope.

(** SymbolKind (core/symbol_store.rs). *)
Inductive symbol_kind := KClass | KModule | KMethod | KConstant | KLocal | KInstance | KClassVariable | KGlobal.

(** What is read of a SymbolFact; [generated]: has_generated_owner, [project]: its file is known and
    workspace owned (workspace_symbols.rs 70-76). *)
Record fact := mkFact { fqn : name; kind : symbol_kind; at_range : text_range; generated : bool; project : bool }.

(** fact_is_project (70-76). *)
Definition fact_is_project (f : fact) : bool := negb (generated f) && project f.

(** WorkspaceSymbolMatch (workspace_symbol_types.rs). *)
Record found := mkFound { label : text; fkind : symbol_kind; frange : text_range; container : option text; relevance : Q }.

(** display_name (92-104). *)
Definition display_name (n : name) : text :=
  match n with
  | Namespace ps _ => last ps []
  | Constant ps => last ps []
  | Method _ m => m
  | Variable_ t => t
  end.

(** container_name (106-139). *)
Definition container_name (n : name) : option text :=
  match n with
  | Namespace ps _ | Constant ps => if length ps <=? 1 then None else Some (join (removelast ps))
  | Method ps _ => match ps with [] => None | _ => Some (join ps) end
  | Variable_ _ => None
  end.

(** workspace_symbol_match (78-90). *)
Definition symbol_match (f : fact) (r : Q) : option found :=
  match kind f with
  | KLocal => None
  | k => Some (mkFound (display_name (fqn f)) k (at_range f) (container_name (fqn f)) r)
  end.

(** [str::starts_with] and [str::contains]. *)
Fixpoint starts_with (t p : text) : bool :=
  match p, t with
  | [], _ => true
  | _ :: _, [] => false
  | a :: p', b :: t' => (a =? b) && starts_with t' p'
  end.
Fixpoint contains (t p : text) : bool :=
  starts_with t p || match t with [] => false | _ :: r => contains r p end.

(** [split('_')]. *)
Fixpoint words (piece : text) (t : text) : list text :=
  match t with
  | [] => [piece]
  | c :: r => if c =? underscore then piece :: words [] r else words (piece ++ [c]) r
  end.

(** word_boundary_match (190-194). *)
Definition word_boundary_match (s p : text) : bool := existsb (fun w => starts_with w p) (words [] s).

(** The loop of fuzzy_match (207-221): the indices at which the pattern's characters are met, or
    [None] when the symbol ends first. *)
Fixpoint walk (i : nat) (s p : text) : option (list nat) :=
  match p with
  | [] => Some []
  | a :: p' =>
      match s with
      | [] => None
      | b :: s' => if a =? b then option_map (cons i) (walk (S i) s' p') else walk (S i) s' p
      end
  end.

Definition of_nat (n : nat) : Q := inject_Z (Z.of_nat n).

(** The two loops of calculate_fuzzy_score (242-266): the bonus of runs and the penalty of gaps. *)
Fixpoint runs (count : nat) (prev : nat) (l : list nat) : Q :=
  match l with
  | [] => if 1 <? count then (of_nat count - 1) * (1 # 10) else 0
  | m :: r => if m =? prev + 1 then runs (S count) m r
              else ((if 1 <? count then (of_nat count - 1) * (1 # 10) else 0) + runs 1 m r)%Q
  end.
Fixpoint gaps (prev : nat) (l : list nat) : Q :=
  match l with
  | [] => 0
  | m :: r => (of_nat (m - prev - 1) * (1 # 100) + gaps m r)%Q
  end.

(** [f64::clamp]. *)
Definition clamp (x lo hi : Q) : Q := if Qle_bool x lo then lo else if Qle_bool hi x then hi else x.

(** calculate_fuzzy_score (231-270). *)
Definition fuzzy_score (matches : list nat) (symbol_len pattern_len : nat) : Q :=
  match matches with
  | [] => 0
  | m :: r =>
      let coverage := (of_nat pattern_len / of_nat symbol_len)%Q in
      let early := if m =? 0 then (2 # 10)%Q else 0%Q in
      let raw := (coverage + runs 1 m r + early - gaps m r)%Q in
      clamp (raw * (45 # 100) + (3 # 10))%Q (3 # 10) (75 # 100)
  end.

(** fuzzy_match (196-229). *)
Definition fuzzy_match (s p : text) : option Q :=
  match p with
  | [] => Some (1 # 10)%Q
  | _ =>
      if length s <? length p then None
      else match walk 0 s p with
           | None => None
           | Some ms => let score := fuzzy_score ms (length s) (length p) in
                        if Qle_bool score (2 # 10) then None else Some score
           end
  end.

Section Search.
  Variable lower : text -> text.
  Variable upper : nat -> bool.

  (** camel_case_match (179-188). *)
  Definition camel_case_match (s p : text) : option Q :=
    let sc := filter upper s in
    let pc := filter upper p in
    match pc with
    | [] => None
    | _ => if starts_with sc pc then Some (7 # 10)%Q else None
    end.

  (** calculate_relevance (146-177). *)
  Definition calculate_relevance (s p : text) : option Q :=
    match p with
    | [] => Some (1 # 10)%Q
    | _ =>
        if text_eqb s p then Some 1%Q
        else if text_eqb (lower s) (lower p) then Some (9 # 10)%Q
        else if starts_with (lower s) (lower p) then Some (8 # 10)%Q
        else match camel_case_match s p with
             | Some q => Some q
             | None =>
                 match fuzzy_match (lower s) (lower p) with
                 | Some q => Some q
                 | None =>
                     if word_boundary_match (lower s) (lower p) then Some (6 # 10)%Q
                     else if contains (lower s) (lower p) then Some (4 # 10)%Q
                     else None
                 end
             end
    end.

  (** The loop of search_workspace_symbols (39-58). *)
  Definition matches (facts : list fact) (query : text) : list found :=
    flat_map (fun f =>
      if fact_is_project f
      then match calculate_relevance (display_name (fqn f)) query with
           | None => []
           | Some r => match symbol_match f r with None => [] | Some x => [x] end
           end
      else []) facts.

  (** search_workspace_symbols (35-67): the best first, the first [limit] kept. *)
  Definition better (a b : found) : bool := Qle_bool (relevance b) (relevance a).
  Definition search (facts : list fact) (query : text) (limit : nat) : list found :=
    firstn limit (sort better (matches facts query)).

  (** top_level_symbols (6-33). *)
  Definition top_level (f : fact) : list found :=
    match fqn f with
    | Namespace ps _ | Constant ps =>
        if length ps =? 1 then match symbol_match f (1 # 10) with None => [] | Some x => [x] end else []
    | Method _ _ | Variable_ _ => []
    end.
  Fixpoint top_level_symbols (limit : nat) (acc : list found) (facts : list fact) : list found :=
    match facts with
    | [] => acc
    | f :: r =>
        if fact_is_project f
        then if limit <=? length acc then acc else top_level_symbols limit (acc ++ top_level f) r
        else top_level_symbols limit acc r
    end.

  (** The answer of one engine (src/query/workspace_symbols.rs 19-61): SymbolInformation, dropping the
      symbols whose range has no location. *)
  Record location := mkLocation { uri : text; starts : nat * nat; ends : nat * nat }.
  Record information := mkInformation { iname : text; ikind : symbol_kind; ilocation : location; icontainer : option text }.
  Record workspace := mkWorkspace { facts : list fact; locate : text_range -> option location }.

  Definition informations (w : workspace) (l : list found) : list information :=
    flat_map (fun x => match locate w (frange x) with
                       | None => []
                       | Some loc => [mkInformation (label x) (fkind x) loc (container x)]
                       end) l.
  Definition answer (w : workspace) (query : text) : list information :=
    match query with
    | [] => informations w (top_level_symbols 50 [] (facts w))
    | _ => informations w (search (facts w) query 100)
    end.

  (** The sort key of handle_workspace_symbols (src/capabilities/workspace_symbols.rs 34-47):
      compared component by component. *)
  Definition info_key (x : information) : list (list nat) :=
    [iname x; uri (ilocation x);
     [fst (starts (ilocation x)); snd (starts (ilocation x))];
     [fst (ends (ilocation x)); snd (ends (ilocation x))]].
  Fixpoint tuple_leb (a b : list (list nat)) : bool :=
    match a, b with
    | [], _ => true
    | _ :: _, [] => false
    | x :: a', y :: b' => if list_eq_dec Nat.eq_dec x y then tuple_leb a' b' else lexb x y
    end.
  Definition info_leb (x y : information) : bool := tuple_leb (info_key x) (info_key y).

  (** [dedup_by] on name, kind, location and container (48-53): consecutive repetitions. *)
  Definition same_information (a b : information) : {a = b} + {a <> b}.
  Proof. repeat decide equality. Defined.
  Fixpoint dedup (l : list information) : list information :=
    match l with
    | [] => []
    | x :: r =>
        match dedup r with
        | [] => [x]
        | y :: t => if same_information x y then y :: t else x :: y :: t
        end
    end.

  (** handle_workspace_symbols (17-62). *)
  Definition respond (ws : list workspace) (query : text) : list information :=
    dedup (sort info_leb (flat_map (fun w => answer w query) ws)).

End Search.
