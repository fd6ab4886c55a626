(** The class file format, after chapter 4 of the Java Virtual Machine Specification (numbers in brackets refer to
    it), as far as the parser reads it, and what a file says. *)
From Coq Require Import String List Arith NArith Bool.
From Verif Require Import Text_Lib Descriptor_Model Descriptor_Spec Classfile_Model.
Import ListNotations.
Local Open Scope N_scope.

Definition octets (b : list N) : Prop := Forall (fun x => x < 256) b.
(** Big-endian numbers of two and four bytes. *)
Definition be2 (n : N) : list N := [n / 256; n mod 256].
Definition be4 (n : N) : list N := (be2 (n / 65536) ++ be2 (n mod 65536))%list.
Definition two (n : N) (x : list N) : Prop := n < 65536 /\ x = be2 n.
Definition four (n : N) (x : list N) : Prop := n < 4294967296 /\ x = be4 n.
Definition len {A} (l : list A) : N := N.of_nat (length l).

(** A list of things written one after another. *)
Inductive sequence {A} (P : A -> list N -> Prop) : list A -> list N -> Prop :=
| sequence_nil : sequence P [] []
| sequence_cons a l x y : P a x -> sequence P l y -> sequence P (a :: l) (x ++ y).
(** ... preceded by how many there are, in two bytes, and at most [max]. *)
Definition table {A} (max : N) (P : A -> list N -> Prop) (l : list A) (x : list N) : Prop :=
  exists y, len l <= max /\ len l < 65536 /\ x = (be2 (len l) ++ y)%list /\ sequence P l y.
Definition index (x : list N) : Prop := exists i, two i x.

(** ** Constant pool [4.4] *)
(** Modified UTF-8 [4.4.7]: UTF-16 units, each in one, two or three bytes. *)
Definition modified (u : N) : list N :=
  if (1 <=? u) && (u <? 128) then [u]
  else if u <? 2048 then [192 + u / 64; 128 + u mod 64]
  else [224 + u / 4096; 128 + (u / 64) mod 64; 128 + u mod 64].
Definition unit16 (u : N) : Prop := u < 65536.
(** UTF-16. *)
Definition utf16 (c : N) : list N := if c <? 65536 then [c] else [55296 + (c - 65536) / 1024; 56320 + (c - 65536) mod 1024].
(** The text of a sequence of units, if it is any. *)
Definition reads (u : list N) (o : option text) : Prop :=
  match o with
  | Some s => Forall scalar s /\ u = flat_map utf16 s
  | None => forall s, Forall scalar s -> u <> flat_map utf16 s
  end.

(** Constants and the places they take; long and double take two. *)
Inductive constant : list entry -> list N -> Prop :=
| constant_utf8 u o : Forall unit16 u -> reads u o -> len (flat_map modified u) < 65536 ->
    constant [Utf8 o] (1 :: be2 (len (flat_map modified u)) ++ flat_map modified u)
| constant_wide tag x : In tag [5; 6] -> len x = 8 -> constant [Other; Other] (tag :: x)
| constant_class i x : two i x -> constant [Class_ i] (7 :: x)
| constant_module i x : two i x -> constant [ModuleE i] (19 :: x)
| constant_other tag n x : In (tag, n) [(3, 4); (4, 4); (8, 2); (9, 4); (10, 4); (11, 4); (12, 4); (15, 3); (16, 2); (17, 4); (18, 4); (20, 2)] ->
    len x = n -> constant [Other] (tag :: x).
Inductive constants : list entry -> list N -> Prop :=
| constants_nil : constants [] []
| constants_cons e es x y : constant e x -> constants es y -> constants (e ++ es) (x ++ y).
(** The count is one more than the number of places; place 0 is not used. *)
Definition pool (L : limits) (cp : list entry) (x : list N) : Prop :=
  exists es y, cp = Unusable :: es /\ constants es y /\ len cp < 65536 /\ len cp <= max_constant_pool_entries L /\ x = (be2 (len cp) ++ y)%list.

(** ** Names [4.4.1, 4.4.11] *)
Definition string_index (cp : list entry) (s : text) (i : N) : Prop := i <> 0 /\ nth_error cp (N.to_nat i) = Some (Utf8 (Some s)).
Definition class_index (cp : list entry) (s : text) (i : N) : Prop := i <> 0 /\ exists n, nth_error cp (N.to_nat i) = Some (Class_ n) /\ string_index cp s n.
Definition module_index (cp : list entry) (s : text) (i : N) : Prop := i <> 0 /\ exists n, nth_error cp (N.to_nat i) = Some (ModuleE n) /\ string_index cp s n.
(** An index in two bytes; [maybe] for those that may be zero. *)
Definition refers (P : text -> N -> Prop) (s : text) (x : list N) : Prop := exists i, P s i /\ two i x.
Definition maybe (P : text -> N -> Prop) (o : option text) (x : list N) : Prop :=
  match o with Some s => refers P s x | None => two 0 x end.

(** ** Attributes [4.7]: name and contents *)
Definition attribute (L : limits) (cp : list entry) (a : text * list N) (x : list N) : Prop :=
  exists y z, refers (string_index cp) (fst a) y /\ len (snd a) <= max_attribute_bytes L /\ four (len (snd a)) z /\ x = (y ++ z ++ snd a)%list.
Definition attribute_table (L : limits) (cp : list entry) (l : list (text * list N)) (x : list N) : Prop := table 65535 (attribute L cp) l x.
(** The contents of the attributes of some names, in order. *)
Definition contents (names : list text) (l : list (text * list N)) : list (list N) :=
  List.map snd (filter (fun a => existsb (same (fst a)) names) l).
(** An attribute that may be there once, with [d] for its absence; attributes that may be there any number of times. *)
Definition single {A} (name : string) (l : list (text * list N)) (P : A -> list N -> Prop) (d v : A) : Prop :=
  match contents [chars name] l with [] => v = d | [b] => P v b | _ => False end.
Definition repeated {A} (names : list string) (l : list (text * list N)) (P : list A -> list N -> Prop) (v : list A) : Prop :=
  exists vs, Forall2 P vs (contents (List.map chars names) l) /\ v = concat vs.

(** [4.7.5] *)
Definition exceptions_attribute (L : limits) (cp : list entry) (l : list text) (x : list N) : Prop := table (max_members L) (refers (class_index cp)) l x.
(** [4.7.24]: a count in one byte; parameters without a name are called arg0, arg1, ... *)
Inductive parameter_list (cp : list entry) : nat -> list parameter -> list N -> Prop :=
| parameters_nil k : parameter_list cp k [] []
| parameters_named k s f l x y z : refers (string_index cp) s x -> two f y -> parameter_list cp (S k) l z -> parameter_list cp k (Named s f :: l) (x ++ y ++ z)
| parameters_unnamed k f l x y z : two 0 x -> two f y -> parameter_list cp (S k) l z -> parameter_list cp k (Named (arg k) f :: l) (x ++ y ++ z).
Definition parameters_attribute (L : limits) (cp : list entry) (l : list parameter) (x : list N) : Prop :=
  exists y, len l < 256 /\ len l <= max_members L /\ parameter_list cp 0 l y /\ x = len l :: y.
(** [4.7.16]: annotations with their values, [depth] annotations and arrays around them.  The limit on depth is
    on annotations only, as in the code. *)
Inductive annotation (L : limits) (cp : list entry) : N -> text -> list N -> Prop :=
| annotation_ depth d t x n y : depth <= max_annotation_depth L -> refers (string_index cp) d x -> field any_name t (bytes d) ->
    n <= max_annotations L -> n < 65536 -> elements L cp depth (N.to_nat n) y -> annotation L cp depth d (x ++ be2 n ++ y)
with elements (L : limits) (cp : list entry) : N -> nat -> list N -> Prop :=
| elements_nil depth : elements L cp depth 0 []
| elements_cons depth n s x y z : refers (string_index cp) s x -> value L cp depth y -> elements L cp depth n z -> elements L cp depth (S n) (x ++ y ++ z)
with value (L : limits) (cp : list entry) : N -> list N -> Prop :=
| value_constant depth t x : In t [66; 67; 68; 70; 73; 74; 83; 90; 115; 99] -> index x -> value L cp depth (t :: x)
| value_enum depth x y : index x -> index y -> value L cp depth (101 :: x ++ y)
| value_annotation depth d x : annotation L cp (depth + 1) d x -> value L cp depth (64 :: x)
| value_array depth n x : n <= max_annotations L -> n < 65536 -> values L cp (depth + 1) (N.to_nat n) x -> value L cp depth (91 :: be2 n ++ x)
with values (L : limits) (cp : list entry) : N -> nat -> list N -> Prop :=
| values_nil depth : values L cp depth 0 []
| values_cons depth n x y : value L cp depth x -> values L cp depth n y -> values L cp depth (S n) (x ++ y).
Definition annotations_attribute (L : limits) (cp : list entry) (l : list text) (x : list N) : Prop := table (max_annotations L) (annotation L cp 0) l x.
Definition annotation_names : list string := ["RuntimeVisibleAnnotations"; "RuntimeInvisibleAnnotations"]%string.

(** [4.7.12]: the least line, of entries (start, line) *)
Definition lines_attribute (L : limits) (m : option N) (x : list N) : Prop :=
  exists ls, table (max_members L) (fun n y => exists a b, index a /\ two n b /\ y = (a ++ b)%list) ls x /\
  match m with Some n => In n ls /\ forall k, In k ls -> n <= k | None => ls = [] end.
(** [4.7.13]: start, length, name, descriptor, slot *)
Definition local_entry (cp : list entry) (l : local) (x : list N) : Prop :=
  exists a b c d e descriptor t, two (start_pc l) a /\ index b /\ refers (string_index cp) (local_name l) c /\ refers (string_index cp) descriptor d /\
    field any_name t (bytes descriptor) /\ two (slot l) e /\ x = (a ++ b ++ c ++ d ++ e)%list.
Definition locals_attribute (L : limits) (cp : list entry) (ls : list local) (x : list N) : Prop := table (max_members L) (local_entry cp) ls x.
(** [4.7.3]: max_stack, max_locals, the code, the exception table (8 bytes each), attributes.  [n] counts the
    attributes. *)
Definition code_attribute_ (L : limits) (cp : list entry) (v : code * N) (x : list N) : Prop :=
  exists a b c ins e h l t, index a /\ index b /\ four (len ins) c /\ len ins <= max_attribute_bytes L /\
    e <= max_members L /\ e < 65536 /\ len h = 8 * e /\ attribute_table L cp l t /\
    single "LineNumberTable" l (lines_attribute L) None (code_first_line (fst v)) /\
    single "LocalVariableTable" l (locals_attribute L cp) [] (code_locals (fst v)) /\
    snd v = len l /\ x = (a ++ b ++ c ++ ins ++ be2 e ++ h ++ t)%list.

(** ** Fields and methods [4.5, 4.6] *)
(** The place of a parameter among the local variables [2.6.1]: long and double take two. *)
Definition places_of (t : jvm_type) : N := match t with Long | Double => 2 | _ => 1 end.
Definition first_place (flags : N) (ts : list jvm_type) : N := (if bit flags 8 then 0 else 1) + fold_right N.add 0 (List.map places_of ts).
(** A parameter's name and flags: from MethodParameters; otherwise the name of the first local variable in that
    place from the start of the code; otherwise arg and its position. *)
Definition parameter_at (flags : N) (c : code) (ts : list jvm_type) (given : list parameter) (k : nat) : parameter :=
  match nth_error given k with
  | Some p => p
  | None =>
      Named (match find (fun l => (slot l =? first_place flags (firstn k ts)) && (start_pc l =? 0)) (code_locals c) with
             | Some l => local_name l
             | None => arg k
             end) 0
  end.
(** A member and the number of attributes in it. *)
Definition member_format (L : limits) (cp : list entry) (k : member_kind) (v : member * N) (x : list N) : Prop :=
  exists a b c l t given code_,
    two (access_flags (fst v)) a /\ refers (string_index cp) (member_name (fst v)) b /\ refers (string_index cp) (descriptor (fst v)) c /\ attribute_table L cp l t /\
    single "Signature" l (fun s b => exists s', s = Some s' /\ refers (string_index cp) s' b) None (signature (fst v)) /\
    single "Exceptions" l (exceptions_attribute L cp) [] (exceptions (fst v)) /\
    single "MethodParameters" l (parameters_attribute L cp) [] given /\
    repeated annotation_names l (annotations_attribute L cp) (annotations (fst v)) /\
    single "Code" l (code_attribute_ L cp) (Code None [], 0) code_ /\
    first_line (fst v) = code_first_line (fst code_) /\
    match k with
    | Field => (exists t, field any_name t (bytes (descriptor (fst v)))) /\ member_parameters (fst v) = given
    | Method => exists m, describes any_name m (bytes (descriptor (fst v))) /\ (length given <= length (parameters m))%nat /\
        member_parameters (fst v) = List.map (parameter_at (access_flags (fst v)) (fst code_) (parameters m) given) (seq 0 (length (parameters m)))
    end /\
    snd v = len l + snd code_ /\ x = (a ++ b ++ c ++ t)%list.
Definition total {A} (l : list (A * N)) : N := fold_right N.add 0 (List.map snd l).
Definition members_format (L : limits) (cp : list entry) (k : member_kind) (v : list (member * N)) (x : list N) : Prop := table (max_members L) (member_format L cp k) v x.

(** ** Attributes of classes *)
(** [4.7.6] *)
Definition inner_class_entry (cp : list entry) (i : inner_class) (x : list N) : Prop :=
  exists a b c d, refers (class_index cp) (inner_class_name i) a /\ maybe (class_index cp) (outer_class i) b /\ maybe (string_index cp) (inner_name i) c /\
    two (inner_flags i) d /\ x = (a ++ b ++ c ++ d)%list.
(** [4.7.30] *)
Definition component_format (L : limits) (cp : list entry) (v : component * N) (x : list N) : Prop :=
  exists a b l t ty, refers (string_index cp) (component_name (fst v)) a /\ refers (string_index cp) (component_descriptor (fst v)) b /\
    field any_name ty (bytes (component_descriptor (fst v))) /\ attribute_table L cp l t /\
    single "Signature" l (fun s b => exists s', s = Some s' /\ refers (string_index cp) s' b) None (component_signature (fst v)) /\
    repeated annotation_names l (annotations_attribute L cp) (component_annotations (fst v)) /\
    snd v = len l /\ x = (a ++ b ++ t)%list.
Definition record_attribute (L : limits) (cp : list entry) (v : list component * N) (x : list N) : Prop :=
  exists l, table (max_members L) (component_format L cp) l x /\ fst v = List.map fst l /\ snd v = total l.
(** [4.7.25]: name, flags, version, requires, exports, opens, uses, provides *)
Definition any_table (L : limits) (P : list N -> Prop) (x : list N) : Prop := exists l : list unit, table (max_members L) (fun _ => P) l x.
Definition requires (cp : list entry) (x : list N) : Prop := exists a b c o, index a /\ index b /\ maybe (string_index cp) o c /\ x = (a ++ b ++ c)%list.
Definition exports (L : limits) (x : list N) : Prop := exists a b c, index a /\ index b /\ any_table L index c /\ x = (a ++ b ++ c)%list.
Definition provides (L : limits) (x : list N) : Prop := exists a b, index a /\ any_table L index b /\ x = (a ++ b)%list.
Definition module_attribute (L : limits) (cp : list entry) (s : text) (x : list N) : Prop :=
  exists a b c o d e f g h, refers (module_index cp) s a /\ index b /\ maybe (string_index cp) o c /\ any_table L (requires cp) d /\
    any_table L (exports L) e /\ any_table L (exports L) f /\ any_table L index g /\ any_table L (provides L) h /\ x = (a ++ b ++ c ++ d ++ e ++ f ++ g ++ h)%list.

(** ** Class files [4.1].  [n] counts all attributes of the class, its fields, methods, code and components. *)
Definition class_format (L : limits) (c : class_file) (n : N) (x : list N) : Prop :=
  exists cp p a b d e s i fs ms f m l t rc,
    two (minor_version c) a /\ two (major_version c) b /\ pool L cp p /\
    two (class_flags c) d /\ refers (class_index cp) (class_name_ c) e /\ maybe (class_index cp) (super_name c) s /\
    table (max_members L) (refers (class_index cp)) (interfaces c) i /\
    members_format L cp Field fs f /\ fields_ c = List.map fst fs /\
    members_format L cp Method ms m /\ methods c = List.map fst ms /\
    attribute_table L cp l t /\
    single "SourceFile" l (fun s b => exists s', s = Some s' /\ refers (string_index cp) s' b) None (source_file c) /\
    single "Signature" l (fun s b => exists s', s = Some s' /\ refers (string_index cp) s' b) None (class_signature c) /\
    repeated annotation_names l (annotations_attribute L cp) (class_annotations c) /\
    single "InnerClasses" l (table (max_members L) (inner_class_entry cp)) [] (inner_classes c) /\
    single "Record" l (record_attribute L cp) ([], 0) rc /\ record_components c = fst rc /\
    single "Module" l (fun s b => exists s', s = Some s' /\ module_attribute L cp s' b) None (module_name c) /\
    n = total fs + total ms + len l + snd rc /\
    x = (be4 3405691582 ++ a ++ b ++ p ++ d ++ e ++ s ++ i ++ f ++ m ++ t)%list.
