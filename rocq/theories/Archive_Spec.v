(** What reading the classes of an archive should give (the JAR file specification, "Multi-release JAR files"). *)
From Coq Require Import List Arith NArith.
From Verif Require Import Sort_Lib Archive_Model.
Import ListNotations.

(** A number as it may be written, with its value. *)
Definition digit (c : nat) : Prop := 48 <= c <= 57.
Definition value (s : text) : N := fold_left (fun a c => 10 * a + N.of_nat (c - 48))%N s 0%N.
Definition numeral (s : text) (n : N) : Prop :=
  exists ds, (s = ds \/ s = 43 :: ds) /\ ds <> [] /\ Forall digit ds /\ value ds = n /\ (n <= 65535)%N.
(** An entry in a directory for a release: META-INF/versions/RELEASE/REST. *)
Definition versioned (n : text) (r : N) (l : text) : Prop :=
  exists s, n = versions ++ s ++ slash :: l /\ ~ In slash s /\ numeral s r /\ (9 <= r)%N /\ l <> [].
Definition a_class (l : text) : Prop := exists x, l = x ++ dot_class.
Definition under (d n : text) : Prop := exists x, n = d ++ x.
(** The entry [n] holds the class file [l], for the given release if any. *)
Inductive offers (k : kind) (multi : Prop) (feature : N) (n : text) : text -> option N -> Prop :=
| of_module l : k = Jmod -> n = classes_dir ++ l -> a_class l -> offers k multi feature n l None
| of_base : k = Jar -> ~ under meta_inf n -> a_class n -> offers k multi feature n n None
| of_release l r : k = Jar -> multi -> versioned n r l -> (r <= feature)%N -> a_class l -> offers k multi feature n l (Some r).
(** Of several entries for one class the one for the highest release is to be used (the plain one if there
    is none), and of those for the same release the first by name. *)
Definition best (k : kind) (multi : Prop) (feature : N) (names : list text) (n l : text) (r : option N) : Prop :=
  In n names /\ offers k multi feature n l r /\
  forall n' r', In n' names -> offers k multi feature n' l r' ->
    (rank r' < rank r)%N \/ rank r' = rank r /\ lexb n n' = true.
(** The manifest says that there are directories for releases. *)
Definition a_line (s l : text) : Prop :=
  ~ In newline l /\ exists a b, s = a ++ l ++ b /\ (a = [] \/ exists a', a = a' ++ [newline]) /\ (b = [] \/ exists b', b = newline :: b').
Definition same_letters (a b : text) : Prop := map lower a = map lower b.
Definition says (white : nat -> bool) (s : text) : Prop :=
  exists l n v, a_line s l /\ l = n ++ colon :: v /\ ~ In colon n /\ same_letters n multi_release_name /\
    exists x w y, v = x ++ w ++ y /\ Forall (fun c => white c = true) (x ++ y) /\ same_letters w true_text.
(** A name that stays inside the archive. *)
Definition safe (n : text) : Prop :=
  n <> [] /\ ~ In backslash n /\ ~ under [slash] n /\
  ~ exists a b, n = a ++ dots ++ b /\ (a = [] \/ exists a', a = a' ++ [slash]) /\ (b = [] \/ exists b', b = slash :: b').
(** The entries that are read. *)
Definition wanted (k : kind) (n : text) : Prop :=
  match k with
  | Jar => a_class n \/ same_letters n manifest_name
  | Jmod => exists l, n = classes_dir ++ l /\ a_class n
  end.
Definition total (l : list N) : N := fold_right N.add 0%N l.

(** ** An archive that is fit to be read. *)
Section Fit.
Variable white : nat -> bool.
Variable decode : list N -> option text.
Variable lim : limits.
Variable class : Type.
Variable parse_class : list N -> option class.
Variable class_name : class -> text.
Variable reader : list N -> option (list item).
(** Entries are for releases too if the manifest says so: the first one by name, should there be several. *)
Definition multi (k : kind) (es : list (text * list N)) : Prop :=
  k = Jar /\ exists n c s, In (n, c) es /\ same_letters n manifest_name /\
    (forall n' c', In (n', c') es -> same_letters n' manifest_name -> lexb n n' = true) /\ decode c = Some s /\ says white s.
(** What is read of an entry: as many bytes as it claims, and all of it unless that is as much as is read at most. *)
Definition contents (i : item) (e : text * list N) : Prop :=
  fst e = i_name i /\ (i_size i <= max_entry lim)%N /\
  exists d rest, i_data i = Some d /\ d = snd e ++ rest /\ N.of_nat (length (snd e)) = i_size i /\
    (rest = [] \/ N.of_nat (length (snd e)) = max_entry lim).
(** A directory that should be one for a release but is not. *)
Definition malformed (k : kind) (n : text) : Prop := k = Jar /\ under versions n /\ ~ exists r l, versioned n r l.
Record fit (k : kind) (feature : N) (b z : list N) (items kept : list item) (es : list (text * list N)) : Prop := {
  f_size : (N.of_nat (length b) <= max_archive lim)%N;
  f_open : k = Jar /\ b = z \/ k = Jmod /\ b = [74; 77; 1; 0]%N ++ z;
  f_table : Zip_Model.validate z (max_entries lim) = inl (length items);
  f_reader : reader z = Some items;
  f_safe : Forall (fun i => safe (i_name i)) items;
  f_names : NoDup (map i_name items);
  f_kept : exists p, kept = filter p items /\ forall i, p i = true <-> wanted k (i_name i);
  f_read : Forall2 contents kept es;
  f_total : (total (map i_size kept) <= max_total lim)%N;
  f_releases : forall i, In i kept -> ~ malformed k (i_name i);
  f_count : forall ls, NoDup ls -> (forall l, In l ls -> exists n r, In n (map fst es) /\ offers k (multi k es) feature n l r) ->
              length ls <= max_classes lim;
  f_classes : forall n l r c, best k (multi k es) feature (map fst es) n l r -> In (n, c) es ->
                exists f, parse_class c = Some f /\ l = class_name f ++ dot_class }.
End Fit.
