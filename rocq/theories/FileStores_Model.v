(** Model of the simple per-file stores: core/diagnostic_store.rs, core/diagnostic_candidate_store.rs
    and ReferenceCandidateStore in core/reference_store.rs 366-626 (all under
    crates/ruby-analysis/src).

    Strings are lists of byte numbers (Rust compares them bytewise); parts of a candidate the
    stores do not look at are one number [rest].  Memory estimates are not modelled. *)
From Coq Require Import List Arith Bool.
From Verif Require Import Sort_Lib Index_Lib References_Model.
Import ListNotations.

(** ** DiagnosticStore *)

(** DiagnosticSeverity (diagnostic_store.rs 6-12). *)
Inductive severity := Error | Warning | Information | Hint.

(** DiagnosticFact (14-20). *)
Record diagnostic := mkDiag { drange : text_range; dseverity : severity; code : list nat; message : list nat }.

(** severity_rank (165-172). *)
Definition severity_rank (s : severity) : nat :=
  match s with Error => 0 | Warning => 1 | Information => 2 | Hint => 3 end.

(** The comparison of sort_file (121-136): a tuple, strings bytewise. *)
Definition diag_leb (x y : diagnostic) : bool :=
  let a := [start_byte (drange x); end_byte (drange x); severity_rank (dseverity x)] in
  let b := [start_byte (drange y); end_byte (drange y); severity_rank (dseverity y)] in
  if lexb b a then
    if lexb a b then
      if lexb (code y) (code x) then
        if lexb (code x) (code y) then lexb (message x) (message y) else false
      else true
    else false
  else true.

(** DiagnosticStore (52-55): [facts_by_file]. *)
Definition dstore := list (nat * list diagnostic).

(** DiagnosticStore::sort_file (119-138). *)
Definition sort_file (s : dstore) (n : nat) : dstore :=
  match get Nat.eqb s n with
  | Some l => put Nat.eqb s n (sort diag_leb l)
  | None => s
  end.

(** DiagnosticStore::add (62-66). *)
Definition dadd (s : dstore) (x : diagnostic) : dstore :=
  sort_file (push Nat.eqb s (file_id (drange x)) x) (file_id (drange x)).

(** DiagnosticStore::facts_in_file (68-73) and facts_for_file (75-80). *)
Definition facts_in_file (s : dstore) (n : nat) : list diagnostic := getd Nat.eqb s n.

(** DiagnosticStore::all_facts (82-87), file_ids (89-91), fact_count (93-95). *)
Definition all_diagnostics (s : dstore) : list diagnostic := flat_map snd s.
Definition diagnostic_files (s : dstore) : list nat := map fst s.
Definition diagnostic_count (s : dstore) : nat := list_sum (map (fun e => length (snd e)) s).

(** DiagnosticStore::remove_file (97-99). *)
Definition dremove (s : dstore) (n : nat) : dstore := del Nat.eqb s n.

(** The loop of replace_file (107-115); [None] is the failed assertion. *)
Fixpoint dpush_all (n : nat) (s : dstore) (xs : list diagnostic) : option dstore :=
  match xs with
  | [] => Some s
  | x :: r => if file_id (drange x) =? n then dpush_all n (push Nat.eqb s n x) r else None
  end.

(** DiagnosticStore::replace_file (101-117). *)
Definition dreplace (s : dstore) (n : nat) (xs : list diagnostic) : option dstore :=
  match dpush_all n (dremove s n) xs with
  | Some s' => Some (sort_file s' n)
  | None => None
  end.

Inductive dop := DAdd (x : diagnostic) | DRemove (n : nat) | DReplace (n : nat) (xs : list diagnostic).

Definition dstep (s : dstore) (o : dop) : option dstore :=
  match o with
  | DAdd x => Some (dadd s x)
  | DRemove n => Some (dremove s n)
  | DReplace n xs => dreplace s n xs
  end.

Fixpoint drun_from (s : dstore) (h : list dop) : option dstore :=
  match h with
  | [] => Some s
  | o :: r => match dstep s o with Some s' => drun_from s' r | None => None end
  end.
Definition drun (h : list dop) : option dstore := drun_from [] h.

(** ** ReferenceCandidateStore *)

(** StoredReferenceCandidateKind (212-232): which of the three vectors it goes to, and for a
    method its name. *)
Inductive ckind := Constant | Method (name : nat) | Resolved.

Record candidate := mkCand { crange : text_range; kind : ckind; rest : nat }.

(** ReferenceCandidateStore (366-371). *)
Record cstore := mkCStore {
  constants : list (nat * list candidate);
  methods : list (nat * list candidate);
  resolved : list (nat * list candidate)
}.
Definition cnew : cstore := mkCStore [] [] [].

Definition is_constant (x : candidate) : bool := match kind x with Constant => true | _ => false end.
Definition is_method (x : candidate) : bool := match kind x with Method _ => true | _ => false end.
Definition is_resolved (x : candidate) : bool := match kind x with Resolved => true | _ => false end.

Definition ckey (x : candidate) : list nat := [start_byte (crange x); end_byte (crange x)].

(** One [if !v.is_empty() { sort; insert }] block (442-458). *)
Definition install (m : list (nat * list candidate)) (n : nat) (v : list candidate) :=
  match v with [] => m | _ => put Nat.eqb m n (sort (key_leb ckey) v) end.

(** ReferenceCandidateStore::replace_file (384-459).  The loop sorts the candidates into three
    vectors; [None] is its assertion. *)
Definition creplace (s : cstore) (n : nat) (xs : list candidate) : option cstore :=
  if forallb (fun x => file_id (crange x) =? n) xs then
    Some (mkCStore
      (install (del Nat.eqb (constants s) n) n (filter is_constant xs))
      (install (del Nat.eqb (methods s) n) n (filter is_method xs))
      (install (del Nat.eqb (resolved s) n) n (filter is_resolved xs)))
  else None.

(** ReferenceCandidateStore::candidates_in_file (505-542). *)
Definition candidates_in_file (s : cstore) (n : nat) : list candidate :=
  sort (key_leb ckey)
    (getd Nat.eqb (constants s) n ++ getd Nat.eqb (methods s) n ++ getd Nat.eqb (resolved s) n).

(** ReferenceCandidateStore::iter_candidates (544-556) and all_candidates (461-493). *)
Definition all_candidates (s : cstore) : list candidate :=
  flat_map snd (constants s) ++ flat_map snd (methods s) ++ flat_map snd (resolved s).

(** ReferenceCandidateStore::method_candidates_named (495-503). *)
Definition method_candidates_named (s : cstore) (m : nat) : list candidate :=
  filter (fun x => match kind x with Method k => k =? m | _ => false end) (flat_map snd (methods s)).

(** ReferenceCandidateStore::stats (564-570); candidate_count (558-562) is their sum. *)
Definition count (m : list (nat * list candidate)) : nat := list_sum (map (fun e => length (snd e)) m).
Definition stats (s : cstore) : nat * nat * nat := (count (constants s), count (methods s), count (resolved s)).

(** ReferenceCandidateStore::file_ids (572-583). *)
Definition candidate_files (s : cstore) : list nat :=
  dedup (sort Nat.leb (map fst (constants s) ++ map fst (methods s) ++ map fst (resolved s))).

Fixpoint crun_from (s : cstore) (h : list (nat * list candidate)) : option cstore :=
  match h with
  | [] => Some s
  | (n, xs) :: r => match creplace s n xs with Some s' => crun_from s' r | None => None end
  end.
Definition crun (h : list (nat * list candidate)) : option cstore := crun_from cnew h.

(** ** DiagnosticCandidateStore *)

(** DiagnosticCandidate (diagnostic_candidate_store.rs 8-12); [bad_splat] is its kind's rank
    (diagnostic_candidate_rank 139-144). *)
Record problem := mkProblem { prange : text_range; bad_splat : bool; detail : nat }.

Definition pkey (x : problem) : list nat :=
  [start_byte (prange x); end_byte (prange x); if bad_splat x then 1 else 0].

Definition pstore := list (nat * list problem).

Fixpoint ppush_all (n : nat) (s : pstore) (xs : list problem) : option pstore :=
  match xs with
  | [] => Some s
  | x :: r => if file_id (prange x) =? n then ppush_all n (push Nat.eqb s n x) r else None
  end.

(** DiagnosticCandidateStore::replace_file (59-86). *)
Definition preplace (s : pstore) (n : nat) (xs : list problem) : option pstore :=
  match ppush_all n (del Nat.eqb s n) xs with
  | None => None
  | Some s' =>
      match get Nat.eqb s' n with
      | Some l => Some (put Nat.eqb s' n (sort (key_leb pkey) l))
      | None => Some s'
      end
  end.

(** DiagnosticCandidateStore::candidates_in_file (95-100), all_candidates (88-93),
    file_ids (112-114). *)
Definition problems_in_file (s : pstore) (n : nat) : list problem := getd Nat.eqb s n.
Definition all_problems (s : pstore) : list problem := flat_map snd s.
Definition problem_files (s : pstore) : list nat := map fst s.

Fixpoint prun_from (s : pstore) (h : list (nat * list problem)) : option pstore :=
  match h with
  | [] => Some s
  | (n, xs) :: r => match preplace s n xs with Some s' => prun_from s' r | None => None end
  end.
Definition prun (h : list (nat * list problem)) : option pstore := prun_from [] h.
