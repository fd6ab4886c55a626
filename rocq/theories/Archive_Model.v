(** Reading the classes of a JAR or JMOD: /repo/crates/jvm-metadata/src/archive.rs 69-209, 312-362.
    Simplifications: names and manifests are lists of character codes, contents are bytes; the ZIP reader
    (the zip crate) is [reader], giving for every entry its name, the size it claims and what can be read
    of it, [None] if reading fails; parse_class is a function (C76), so is from_utf8; the digest is left
    out; sizes do not overflow usize (an overflow is reported as the limit that it exceeds).  A panic is the
    error [Panic]. *)
From Coq Require Import String Ascii NArith List Arith Bool.
From Verif Require Import Sort_Lib Zip_Model.
Import ListNotations.

Definition text := list nat.
Definition t (s : string) : text := map nat_of_ascii (list_ascii_of_string s).
Definition text_eqb (a b : text) : bool := if list_eq_dec Nat.eq_dec a b then true else false.
Definition dot_class : text := Eval compute in t ".class".
Definition manifest_name : text := Eval compute in t "META-INF/MANIFEST.MF".
Definition meta_inf : text := Eval compute in t "META-INF/".
Definition versions : text := Eval compute in t "META-INF/versions/".
Definition classes_dir : text := Eval compute in t "classes/".
Definition multi_release_name : text := Eval compute in t "Multi-Release".
Definition true_text : text := Eval compute in t "true".
Definition slash := 47. Definition backslash := 92. Definition colon := 58. Definition newline := 10.
Definition dots : text := [46; 46].

(** ** str *)
(** strip_prefix, strip_suffix, starts_with, ends_with *)
Fixpoint strip_prefix (p s : text) : option text :=
  match p, s with
  | [], _ => Some s
  | a :: p', b :: s' => if a =? b then strip_prefix p' s' else None
  | _ :: _, [] => None
  end.
Definition strip_suffix (x s : text) : option text := option_map (@rev nat) (strip_prefix (rev x) (rev s)).
Definition starts_with (p s : text) : bool := match strip_prefix p s with Some _ => true | None => false end.
Definition ends_with (x s : text) : bool := match strip_suffix x s with Some _ => true | None => false end.
(** split_once(c), split(c) *)
Fixpoint split_once (c : nat) (s : text) : option (text * text) :=
  match s with
  | [] => None
  | a :: r => if a =? c then Some ([], r) else option_map (fun x => (a :: fst x, snd x)) (split_once c r)
  end.
Fixpoint split (c : nat) (s : text) : list text :=
  match s with
  | [] => [[]]
  | a :: r => if a =? c then [] :: split c r
              else match split c r with w :: ws => (a :: w) :: ws | [] => [[a]] end
  end.
(** eq_ignore_ascii_case *)
Definition lower (c : nat) : nat := if (65 <=? c) && (c <=? 90) then c + 32 else c.
Definition ignore_case (a b : text) : bool := text_eqb (map lower a) (map lower b).
(** parse::<u16>: one plus sign, then digits, at most 65535 *)
Fixpoint digits (s : text) (acc : N) : option N :=
  match s with
  | [] => Some acc
  | c :: r =>
      if (48 <=? c) && (c <=? 57) then
        let v := (10 * acc + N.of_nat (c - 48))%N in
        if (65535 <? v)%N then None else digits r v
      else None
  end.
Definition parse_u16 (s : text) : option N :=
  match s with
  | [] => None
  | c :: r => let s' := if c =? 43 then r else s in match s' with [] => None | _ => digits s' 0 end
  end.

(** ArchiveKind, 15-19; ArchiveError, 57-67 *)
Inductive kind := Jar | Jmod.
Inductive failure := BadMagic | Broken | Beyond | Twice | Traversing | BadRelease | Misplaced | BadClass | Panic.
(** ArchiveLimits, 34-42; max_class_count and max_entries as numbers. *)
Record limits := mkLimits { max_archive : N; max_entries : nat; max_entry : N; max_total : N; max_classes : nat }.
(** What the ZIP reader says of an entry. *)
Record item := mkItem { i_name : text; i_size : N; i_data : option (list N) }.

(** is_metadata_entry, 190-197 *)
Definition metadata (k : kind) (n : text) : bool :=
  match k with
  | Jar => ends_with dot_class n || ignore_case n manifest_name
  | Jmod => starts_with classes_dir n && ends_with dot_class n
  end.
(** validate_entry_name, 199-209 *)
Definition bad_name (n : text) : bool :=
  match n with [] => true | _ => false end || starts_with [slash] n || starts_with [backslash] n ||
  existsb (Nat.eqb backslash) n || existsb (text_eqb dots) (split slash n).
(** class_candidate, 323-362 *)
Definition candidate (k : kind) (multi : bool) (feature : N) (n : text) : option (text * option N) + failure :=
  match k with
  | Jmod =>
      match strip_prefix classes_dir n with
      | None => inl None
      | Some l => inl (if ends_with dot_class l then Some (l, None) else None)
      end
  | Jar =>
      match strip_prefix versions n with
      | Some v =>
          match split_once slash v with
          | None => inr BadRelease
          | Some (r, l) =>
              match parse_u16 r with
              | None => inr BadRelease
              | Some r =>
                  if (r <? 9)%N || match l with [] => true | _ => false end then inr BadRelease
                  else if negb multi || (feature <? r)%N || negb (ends_with dot_class l) then inl None
                  else inl (Some (l, Some r))
              end
          end
      | None =>
          if starts_with meta_inf n || negb (ends_with dot_class n) then inl None else inl (Some (n, None))
      end
  end.

Section Archive.
Variable white : nat -> bool.
Fixpoint trim_start (s : text) : text := match s with c :: r => if white c then trim_start r else s | [] => [] end.
Definition trim (s : text) : text := rev (trim_start (rev (trim_start s))).
Variable decode : list N -> option text.
(** manifest_is_multi_release, 312-321; the \r that lines() takes off is white and after the colon. *)
Definition line_says (l : text) : bool :=
  match split_once colon l with
  | Some (n, v) => ignore_case n multi_release_name && ignore_case (trim v) true_text
  | None => false
  end.
Definition says_multi (m : list N) : bool :=
  match decode m with Some s => existsb line_says (split newline s) | None => false end.

Variable lim : limits.
(** The loop over the entries, 93-135; [take] (124) cuts what is longer than the bound. *)
Definition taken (d : list N) : list N :=
  if (max_entry lim <? N.of_nat (List.length d))%N then firstn (N.to_nat (max_entry lim)) d else d.
Fixpoint collect (k : kind) (l : list item) (seen : list text) (total : N) : list (text * list N) + failure :=
  match l with
  | [] => inl []
  | i :: r =>
      let n := i_name i in
      if bad_name n then inr Traversing
      else if existsb (text_eqb n) seen then inr Twice
      else if negb (metadata k n) then collect k r (n :: seen) total
      else if (max_entry lim <? i_size i)%N then inr Beyond
      else if (max_total lim <? total + i_size i)%N then inr Beyond
      else
        match i_data i with
        | None => inr Broken
        | Some d =>
            let c := taken d in
            if negb (N.of_nat (List.length c) =? i_size i)%N then inr Broken
            else match collect k r (n :: seen) (total + i_size i)%N with
                 | inl s => inl ((n, c) :: s)
                 | inr e => inr e
                 end
        end
  end.
(** 136-142 *)
Definition ordered {A} (l : list (text * A)) : list (text * A) := sort (key_leb fst) l.
Definition is_multi (k : kind) (entries : list (text * list N)) : bool :=
  match k with
  | Jar => match find (fun e => ignore_case (fst e) manifest_name) entries with Some (_, m) => says_multi m | None => false end
  | Jmod => false
  end.
(** The map of the loop 144-157: the logical name, the release, the entry's name, its contents. *)
Definition chosen := (text * (option N * text * list N))%type.
Definition rank (r : option N) : N := match r with Some n => n | None => 0%N end.
Fixpoint offer (l : text) (r : option N) (n : text) (c : list N) (s : list chosen) : list chosen :=
  match s with
  | [] => [(l, (r, n, c))]
  | (l', (r', n', c')) :: s' =>
      if text_eqb l l' then if (rank r' <? rank r)%N then (l, (r, n, c)) :: s' else s
      else (l', (r', n', c')) :: offer l r n c s'
  end.
Fixpoint select (k : kind) (multi : bool) (feature : N) (entries : list (text * list N)) (s : list chosen) : list chosen + failure :=
  match entries with
  | [] => inl s
  | (n, c) :: r =>
      match candidate k multi feature n with
      | inr e => inr e
      | inl None => select k multi feature r s
      | inl (Some (l, rel)) => select k multi feature r (offer l rel n c s)
      end
  end.
Variable class : Type.
Variable parse_class : list N -> option class.
Variable class_name : class -> text.
(** ArchiveClass, 21-26 *)
Record found := mkFound { entry_name : text; release : option N; the_class : class }.
(** 162-182 *)
Fixpoint read_classes (s : list chosen) : list found + failure :=
  match s with
  | [] => inl []
  | (l, (r, n, c)) :: s' =>
      match parse_class c with
      | None => inr BadClass
      | Some f =>
          match strip_suffix dot_class l with
          | None => inr Panic
          | Some x =>
              if text_eqb (class_name f) x then
                match read_classes s' with inl fs => inl (mkFound n r f :: fs) | inr e => inr e end
              else inr Misplaced
          end
      end
  end.
Variable reader : list N -> option (list item).
(** JMOD_MAGIC, 10, 78-83 *)
Definition unwrap (k : kind) (b : list N) : option (list N) :=
  match k with
  | Jar => Some b
  | Jmod => if same (firstn 4 b) [74; 77; 1; 0]%N then Some (skipn 4 b) else None
  end.
(** parse_archive, 69-188 *)
Definition parse_archive (k : kind) (feature : N) (b : list N) : list found + failure :=
  if (max_archive lim <? N.of_nat (List.length b))%N then inr Beyond
  else match unwrap k b with
  | None => inr BadMagic
  | Some z =>
      match validate z (max_entries lim) with
      | inr Limit => inr Beyond
      | inr Duplicate => inr Twice
      | inr Invalid => inr Broken
      | inl count =>
          match reader z with
          | None => inr Broken
          | Some items =>
              if negb (List.length items =? count) then inr Broken
              else match collect k items [] 0 with
              | inr e => inr e
              | inl es =>
                  let entries := ordered es in
                  match select k (is_multi k entries) feature entries [] with
                  | inr e => inr e
                  | inl s => if max_classes lim <? List.length s then inr Beyond else read_classes (ordered s)
                  end
              end
          end
      end
  end.
End Archive.
