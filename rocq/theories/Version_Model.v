(** Which Ruby a project uses: src/indexer/version/ruby_version.rs, version_detector.rs and the table of
    crates/jruby-support/src/version.rs.

    A character is its code point; white space is that of ASCII. *)
From Coq Require Import List Arith Bool.
From Verif Require Import Names_Model Yard_Model YardDoc_Model.
Import ListNotations.

(** RubyImplementation, RubyVersion (ruby_version.rs 7-22). *)
Inductive implementation := Mri | JRuby | TruffleRuby.
Record version := mkVersion { major : nat; minor : nat; engine : implementation }.

(** [str::parse::<u8>]: a plus is allowed, a number above 255 is not. *)
Definition digit (c : nat) : bool := (48 <=? c) && (c <=? 57).
Fixpoint value (acc : nat) (t : text) : option nat :=
  match t with
  | [] => Some acc
  | c :: r => if digit c && (acc * 10 + (c - 48) <=? 255) then value (acc * 10 + (c - 48)) r else None
  end.
Definition parse_u8 (t : text) : option nat :=
  match t with
  | [] => None
  | c :: r => if c =? 43 then match r with [] => None | _ => value 0 r end else value 0 t
  end.
(** [str::split] at a dot. *)
Fixpoint split_dot (current t : text) : list text :=
  match t with
  | [] => [current]
  | c :: r => if c =? 46 then current :: split_dot [] r else split_dot (current ++ [c]) r
  end.
(** parse (45-53). *)
Definition parse (t : text) : option (nat * nat) :=
  match split_dot [] t with
  | x :: y :: _ => match parse_u8 x, parse_u8 y with Some a, Some b => Some (a, b) | _, _ => None end
  | _ => None
  end.

(** [str::split_whitespace], [str::contains] and what follows the first occurrence of a text. *)
Fixpoint words_from (current t : text) : list text :=
  match t with
  | [] => match current with [] => [] | _ => [current] end
  | c :: r => if space c then match current with [] => words_from [] r | _ => current :: words_from [] r end
              else words_from (current ++ [c]) r
  end.
Definition words (t : text) : list text := words_from [] t.
Fixpoint after (p t : text) : option text :=
  match strip_prefix p t with
  | Some r => Some r
  | None => match t with [] => None | _ :: r => after p r end
  end.
Definition contains (p t : text) : bool := match after p t with Some _ => true | None => false end.

Definition v_ruby : text := [114; 117; 98; 121].
Definition v_jruby : text := 106 :: v_ruby.
Definition v_truffleruby : text := [116; 114; 117; 102; 102; 108; 101] ++ v_ruby.
Definition v_like : text := [108; 105; 107; 101; 32] ++ v_ruby ++ [32].

(** The series of JRuby and the Ruby each is compatible with (jruby-support version.rs 90-131, ruby_version.rs 143-154). *)
Definition jruby_table : list (nat * nat * (nat * nat)) :=
  [(1, 7, (1, 9)); (9, 0, (2, 2)); (9, 1, (2, 3)); (9, 2, (2, 5)); (9, 3, (2, 6)); (9, 4, (3, 1)); (10, 0, (3, 4)); (10, 1, (4, 0))].
Definition map_jruby (a b : nat) : option (nat * nat) :=
  option_map snd (find (fun e => (fst (fst e) =? a) && (snd (fst e) =? b)) jruby_table).
(** map_truffleruby_to_mri (157-171). *)
Definition truffle_table : list (nat * (nat * nat)) := [(23, (3, 2)); (22, (3, 1)); (21, (3, 0)); (20, (2, 7)); (19, (2, 6))].
Definition map_truffle (a b : nat) : option (nat * nat) := option_map snd (find (fun e => fst e =? a) truffle_table).
(** The overlay for a version of JRuby (indexer_stdlib.rs 893-904): the series, by the Ruby it is compatible with. *)
Definition overlay (a b : nat) : option (nat * nat) :=
  option_map fst (find (fun e => (fst (snd e) =? a) && (snd (snd e) =? b)) (tl jruby_table)).

Definition as_version (i : implementation) (o : option (nat * nat)) : option version :=
  match o with Some (a, b) => Some (mkVersion a b i) | None => None end.
Definition mapped (f : nat -> nat -> option (nat * nat)) (o : option (nat * nat)) : option (nat * nat) :=
  match o with Some (a, b) => f a b | None => None end.
(** from_full_version (193-213). *)
Definition from_full (t : text) : option version :=
  match strip_prefix (v_jruby ++ [45]) t with
  | Some r => as_version JRuby (mapped map_jruby (parse r))
  | None =>
  match strip_prefix (v_truffleruby ++ [45]) t with
  | Some r => as_version TruffleRuby (mapped map_truffle (parse r))
  | None => as_version Mri (parse (match strip_prefix (v_ruby ++ [45]) t with Some r => r | None => t end))
  end end.

(** [find_map]. *)
Fixpoint first_some {A B} (f : A -> option B) (l : list A) : option B :=
  match l with [] => None | x :: r => match f x with Some y => Some y | None => first_some f r end end.
(** parse_from_version_output (56-140). *)
Definition from_output (t : text) : option version :=
  if contains v_jruby t then
    let inside := match after [40] t with
      | Some r => match span_while (fun c => negb (c =? 41)) r with (a, _ :: _) => parse a | _ => None end
      | None => None
      end in
    match inside with
    | Some (a, b) => Some (mkVersion a b JRuby)
    | None => as_version JRuby (first_some (fun w => mapped map_jruby (parse w)) (words t))
    end
  else if contains v_truffleruby t then
    match (match after v_like t with Some r => first_some parse (words r) | None => None end) with
    | Some (a, b) => Some (mkVersion a b TruffleRuby)
    | None => as_version TruffleRuby (first_some (fun w => mapped map_truffle (parse w)) (words t))
    end
  else as_version Mri (first_some parse (words t)).

(** * Where the version is looked for (version_detector.rs) *)
(** detect_from_gemfile (132-158): the characters trimmed are quotes, tilde, greater-than and blank. *)
Definition quote (c : nat) : bool := (c =? 34) || (c =? 39) || (c =? 126) || (c =? 62) || (c =? 32).
Definition trim_quotes (t : text) : text :=
  let d := snd (span_while quote t) in rev (snd (span_while quote (rev d))).
Definition gemfile_line (line : text) : option version :=
  let line := trim line in
  match strip_prefix (v_ruby ++ [32]) line with
  | Some _ => match nth_error (words line) 1 with Some w => from_full (trim_quotes w) | None => None end
  | None => None
  end.
Definition from_gemfile (t : text) : option version := first_some gemfile_line (lines t).
(** The first word (172-183). *)
Definition first_word (t : text) : option version := match words t with w :: _ => from_full w | [] => None end.
(** The part of detect_from_rvm that reads .rvmrc (191-216): the text between the first and the second occurrence. *)
Fixpoint before_next (p t : text) : text :=
  match strip_prefix p t with
  | Some _ => []
  | None => match t with [] => [] | c :: r => c :: before_next p r end
  end.
Definition rvmrc_line (line : text) : option version :=
  match after (v_ruby ++ [45]) line with
  | Some r => match words (before_next (v_ruby ++ [45]) r) with w :: _ => from_full w | [] => from_full [] end
  | None => None
  end.
Definition from_rvmrc (t : text) : option version := first_some rvmrc_line (lines t).
(** The part that reads what [rvm current] prints (219-235). *)
Definition from_rvm_current (t : text) : option version :=
  match strip_prefix (v_ruby ++ [45]) t with Some r => from_full (trim r) | None => None end.
(** detect_from_system (241-262). *)
Definition from_system (t : text) : option version :=
  match from_output t with
  | Some v => Some v
  | None => match nth_error (words t) 1 with Some w => from_full w | None => None end
  end.
(** The files there are and what the commands print, if they succeed. *)
Record sources := mkSources {
  ruby_version_file : option text; gemfile : option text; rbenv_file : option text; rbenv_command : option text;
  rvmrc : option text; rvm_command : option text; ruby_command : option text }.
Definition try (f : text -> option version) (o : option text) : option version := match o with Some t => f t | None => None end.
(** detect_version (51-71). *)
Definition detect (s : sources) : option version :=
  first_some (fun x => x)
    [try (fun t => from_full (trim t)) (ruby_version_file s); try from_gemfile (gemfile s);
     try (fun t => from_full (trim t)) (rbenv_file s); try first_word (rbenv_command s);
     try from_rvmrc (rvmrc s); try from_rvm_current (rvm_command s); try from_system (ruby_command s)].
