(** Model of crates/jvm-metadata/src/classfile.rs: parse_class.

    Bytes are numbers below 256.  Every Err is [None]; the error values are dropped, so the order in which two
    faults are noticed does not show.  Strings are lists of Unicode scalar values. *)
From Coq Require Import String Ascii List Arith NArith Bool.
From Verif Require Import Text_Lib Descriptor_Model Owner_Model.
Import ListNotations.
Local Open Scope N_scope.

Definition chars (s : string) : text := List.map N_of_ascii (list_ascii_of_string s).

(** ClassLimits (4-31) *)
Record limits := Limits {
  max_class_bytes : N; max_constant_pool_entries : N; max_members : N; max_attributes : N; max_attribute_bytes : N;
  max_annotations : N; max_annotation_depth : N }.
Definition default_limits : limits := Limits 16777216 65535 65535 65535 8388608 4096 32.

(** MemberInfo (34-43), MethodParameter (96-99), InnerClassInfo (107-112), RecordComponentInfo (115-120), ClassFile
    (133-148).  An AnnotationInfo (102-104) is its descriptor. *)
Record parameter := Named { param_name : text; param_flags : N }.
Record member := Member {
  access_flags : N; member_name : text; descriptor : text; signature : option text; exceptions : list text;
  member_parameters : list parameter; annotations : list text; first_line : option N }.
Record inner_class := InnerClass { inner_class_name : text; outer_class : option text; inner_name : option text; inner_flags : N }.
Record component := Component { component_name : text; component_descriptor : text; component_signature : option text; component_annotations : list text }.
Record class_file := ClassFile {
  minor_version : N; major_version : N; class_flags : N; class_name_ : text; super_name : option text; interfaces : list text;
  fields_ : list member; methods : list member; source_file : option text; class_signature : option text; class_annotations : list text;
  inner_classes : list inner_class; record_components : list component; module_name : option text }.

(** ClassKind (122-130) and ClassFile::kind (151-165) *)
Inductive class_kind := Class | Interface | Annotation | Enum | Record_ | Module_.
Definition bit (flags b : N) : bool := negb (N.land flags b =? 0).
Definition kind (c : class_file) : class_kind :=
  if bit (class_flags c) 32768 then Module_
  else if bit (class_flags c) 8192 then Annotation
  else if bit (class_flags c) 16384 then Enum
  else if negb (match record_components c with [] => true | _ => false end) then Record_
  else if bit (class_flags c) 512 then Interface
  else Class.

(** ** Cursor (1084-1124) with the parser's attributes_seen (418-422): attributes counted so far, bytes left *)
Definition parser (A : Type) := N -> list N -> option (A * N * list N).
Definition ret {A} (a : A) : parser A := fun seen b => Some (a, seen, b).
Definition fail {A} : parser A := fun _ _ => None.
Definition bind {A B} (p : parser A) (q : A -> parser B) : parser B :=
  fun seen b => match p seen b with Some (a, seen', b') => q a seen' b' | None => None end.
Notation "x <- p ;; q" := (bind p (fun x => q)) (at level 61, p at next level, right associativity).
Definition lift {A} (o : option A) : parser A := match o with Some a => ret a | None => fail end.
Definition guard (c : bool) : parser unit := if c then ret tt else fail.
(** take (1108-1119) *)
Definition take (n : N) : parser (list N) :=
  fun seen b => if n <=? N.of_nat (length b) then Some (firstn (N.to_nat n) b, seen, skipn (N.to_nat n) b) else None.
(** u1, u2, u4 (1094-1106) *)
Definition u1 : parser N := fun seen b => match b with x :: r => Some (x, seen, r) | _ => None end.
Definition u2 : parser N := fun seen b => match b with x :: y :: r => Some (256 * x + y, seen, r) | _ => None end.
Definition u4 : parser N := fun seen b => match b with x :: y :: z :: w :: r => Some (256 * (256 * (256 * x + y) + z) + w, seen, r) | _ => None end.
Fixpoint times {A} (n : nat) (p : parser A) : parser (list A) :=
  match n with 0%nat => ret [] | S k => a <- p ;; l <- times k p ;; ret (a :: l) end.
(** A new Cursor on some bytes, which must be used up (require_finished, 940-947). *)
Definition within {A} (body : list N) (p : parser A) : parser A :=
  fun seen b => match p seen body with Some (a, seen', []) => Some (a, seen', b) | _ => None end.

(** ** The constant pool *)
Inductive entry := Unusable | Utf8 (s : option text) | Class_ (name_index : N) | ModuleE (name_index : N) | Other.

(** decode_modified_utf8 (1186-1231): the UTF-16 units *)
Definition continuation (b : N) : bool := N.land b 192 =? 128.
Definition cons_unit (u : N) (o : option (list N)) : option (list N) := match o with Some l => Some (u :: l) | None => None end.
Fixpoint decode_modified_utf8 (fuel : nat) (b : list N) : option (list N) :=
  match fuel, b with
  | _, [] => Some []
  | 0%nat, _ => None
  | S f, x :: r =>
      if (1 <=? x) && (x <=? 127) then cons_unit x (decode_modified_utf8 f r)
      else if x =? 192 then match r with y :: r' => if y =? 128 then cons_unit 0 (decode_modified_utf8 f r') else None | [] => None end
      else if (194 <=? x) && (x <=? 223) then
        match r with
        | y :: r' => if continuation y then cons_unit (N.lor (N.shiftl (N.land x 31) 6) (N.land y 63)) (decode_modified_utf8 f r') else None
        | [] => None
        end
      else if (224 <=? x) && (x <=? 239) then
        match r with
        | y :: z :: r' =>
            if negb (continuation y) || negb (continuation z) || ((x =? 224) && (y <? 160)) then None
            else cons_unit (N.lor (N.lor (N.shiftl (N.land x 15) 12) (N.shiftl (N.land y 63) 6)) (N.land z 63)) (decode_modified_utf8 f r')
        | _ => None
        end
      else None
  end.
(** String::from_utf16 (1230) *)
Fixpoint from_utf16 (l : list N) : option text :=
  match l with
  | [] => Some []
  | u :: r =>
      if (55296 <=? u) && (u <=? 56319) then
        match r with
        | v :: r' =>
            if (56320 <=? v) && (v <=? 57343) then
              match from_utf16 r' with Some s => Some (65536 + (u - 55296) * 1024 + (v - 56320) :: s) | None => None end
            else None
        | [] => None
        end
      else if (56320 <=? u) && (u <=? 57343) then None
      else match from_utf16 r with Some s => Some (u :: s) | None => None end
  end.

(** The loop of parse_constant_pool (446-487), [left] being count - index. *)
Fixpoint pool_entries (left : nat) : parser (list entry) :=
  match left with
  | 0%nat => ret []
  | S l =>
      tag <- u1 ;;
      if tag =? 1 then
        n <- u2 ;; b <- take n ;;
        match decode_modified_utf8 (length b) b with
        | Some u => r <- pool_entries l ;; ret (Utf8 (from_utf16 u) :: r)
        | None => fail
        end
      else if (tag =? 3) || (tag =? 4) then _ <- take 4 ;; r <- pool_entries l ;; ret (Other :: r)
      else if (tag =? 5) || (tag =? 6) then _ <- take 8 ;; r <- pool_entries (match l with S m => m | 0%nat => l end) ;; ret (Other :: Other :: r)
      else if tag =? 7 then i <- u2 ;; r <- pool_entries l ;; ret (Class_ i :: r)
      else if tag =? 19 then i <- u2 ;; r <- pool_entries l ;; ret (ModuleE i :: r)
      else if (tag =? 8) || (tag =? 16) || (tag =? 20) then _ <- take 2 ;; r <- pool_entries l ;; ret (Other :: r)
      else if (tag =? 9) || (tag =? 10) || (tag =? 11) || (tag =? 12) || (tag =? 17) || (tag =? 18) then _ <- take 4 ;; r <- pool_entries l ;; ret (Other :: r)
      else if tag =? 15 then _ <- take 3 ;; r <- pool_entries l ;; ret (Other :: r)
      else fail
  end.
(** ConstantPool::entry, utf8, class_name, module_name (1139-1183) *)
Definition entry_at (cp : list entry) (i : N) : option entry := if i =? 0 then None else nth_error cp (N.to_nat i).
Definition utf8 (cp : list entry) (i : N) : option text := match entry_at cp i with Some (Utf8 s) => s | _ => None end.
Definition class_at (cp : list entry) (i : N) : option text := match entry_at cp i with Some (Class_ n) => utf8 cp n | _ => None end.
Definition module_at (cp : list entry) (i : N) : option text := match entry_at cp i with Some (ModuleE n) => utf8 cp n | _ => None end.
Definition optional_at {A} (at_ : N -> option A) (i : N) : option (option A) :=
  if i =? 0 then Some None else match at_ i with Some a => Some (Some a) | None => None end.

Section Parser.
Variable L : limits.

(** parse_constant_pool (433-494) *)
Definition parse_constant_pool : parser (list entry) :=
  n <- u2 ;;
  _ <- guard (negb (n =? 0)) ;;
  _ <- guard (n <=? max_constant_pool_entries L) ;;
  es <- pool_entries (N.to_nat n - 1) ;;
  _ <- guard (N.of_nat (length es) + 1 =? n) ;;
  ret (Unusable :: es).

(** bounded_count (620-626) and bounded_nested_count (959-969) *)
Definition bounded (max : N) : parser N := n <- u2 ;; _ <- guard (n <=? max) ;; ret n.
(** bounded_attribute_count, bounded_attribute_count_from, record_attribute_count (628-652); the sum cannot
    overflow before it passes the limit. *)
Definition attribute_count : parser N :=
  n <- u2 ;; fun seen b => if seen + n <=? max_attributes L then Some (n, seen + n, b) else None.
(** attribute_bytes (654-661), and the same inline at 753-758 and 837-842 *)
Definition attribute_bytes : parser (list N) := n <- u4 ;; _ <- guard (n <=? max_attribute_bytes L) ;; take n.

(** The four loops over attributes (355-395, 526-561, 751-772, 835-854): name, contents and what to do with them. *)
Fixpoint attributes {S} (cp : list entry) (n : nat) (handle : text -> list N -> S -> parser S) (st : S) : parser S :=
  match n with
  | 0%nat => ret st
  | Datatypes.S k =>
      i <- u2 ;; name <- lift (utf8 cp i) ;; body <- attribute_bytes ;;
      st' <- handle name body st ;; attributes cp k handle st'
  end.
Definition same (a b : text) : bool := if list_eq_dec N.eq_dec a b then true else false.
(** require_unique_attribute (930-938) *)
Definition require_unique (names : list text) (name : text) : parser (list text) :=
  if existsb (same name) names then fail else ret (name :: names).

(** parse_signature_attribute (949-957); SourceFile (359-364) is read in the same way. *)
Definition string_attribute (cp : list entry) (body : list N) : parser text := within body (i <- u2 ;; lift (utf8 cp i)).
(** parse_exceptions (663-676) *)
Definition parse_exceptions (cp : list entry) (body : list N) : parser (list text) :=
  within body (n <- bounded (max_members L) ;; times (N.to_nat n) (i <- u2 ;; lift (class_at cp i))).
(** parse_method_parameters (678-703) *)
Definition arg (index : nat) : text := (chars "arg" ++ digits index)%list.
Fixpoint listed_parameters (cp : list entry) (index n : nat) : parser (list parameter) :=
  match n with
  | 0%nat => ret []
  | S k =>
      i <- u2 ;;
      name <- (if i =? 0 then ret (arg index) else lift (utf8 cp i)) ;;
      f <- u2 ;; r <- listed_parameters cp (S index) k ;; ret (Named name f :: r)
  end.
Definition parse_method_parameters (cp : list entry) (body : list N) : parser (list parameter) :=
  within body (n <- u1 ;; _ <- guard (n <=? max_members L) ;; listed_parameters cp 0 (N.to_nat n)).

Definition is_some {A} (o : option A) : bool := match o with Some _ => true | None => false end.
(** parse_annotation (971-990) and skip_annotation_value (992-1023).  Each value takes a byte, so the bytes left
    bound the recursion. *)
Definition annotation_with (cp : list entry) (value : N -> parser unit) (depth : N) : parser text :=
  _ <- guard (depth <=? max_annotation_depth L) ;;
  i <- u2 ;; d <- lift (utf8 cp i) ;;
  _ <- guard (is_some (parse_field_descriptor (bytes d))) ;;
  n <- bounded (max_annotations L) ;;
  _ <- times (N.to_nat n) (j <- u2 ;; _ <- lift (utf8 cp j) ;; value depth) ;;
  ret d.
Fixpoint skip_annotation_value (cp : list entry) (fuel : nat) (depth : N) : parser unit :=
  match fuel with
  | 0%nat => fail
  | S f =>
      t <- u1 ;;
      if existsb (N.eqb t) [66; 67; 68; 70; 73; 74; 83; 90; 115; 99] then _ <- u2 ;; ret tt
      else if t =? 101 then _ <- u2 ;; _ <- u2 ;; ret tt
      else if t =? 64 then _ <- annotation_with cp (skip_annotation_value cp f) (depth + 1) ;; ret tt
      else if t =? 91 then
        n <- bounded (max_annotations L) ;; _ <- times (N.to_nat n) (skip_annotation_value cp f (depth + 1)) ;; ret tt
      else fail
  end.
Definition parse_annotation (cp : list entry) (depth : N) : parser text :=
  fun seen b => annotation_with cp (skip_annotation_value cp (length b)) depth seen b.
(** parse_annotations (705-723) *)
Definition parse_annotations (cp : list entry) (body : list N) : parser (list text) :=
  within body (n <- bounded (max_annotations L) ;; times (N.to_nat n) (parse_annotation cp 0)).

(** parse_first_line (1025-1036) *)
Definition parse_first_line (body : list N) : parser (option N) :=
  within body (n <- bounded (max_members L) ;; ls <- times (N.to_nat n) (_ <- u2 ;; u2) ;;
    ret (fold_left (fun m l => Some (match m with Some k => N.min k l | None => l end)) ls None)).
(** parse_local_variables (1038-1065) *)
Record local := Local { start_pc : N; slot : N; local_name : text }.
Definition parse_local_variables (cp : list entry) (body : list N) : parser (list local) :=
  within body (n <- bounded (max_members L) ;;
    times (N.to_nat n) (s <- u2 ;; _ <- u2 ;; i <- u2 ;; name <- lift (utf8 cp i) ;; j <- u2 ;; d <- lift (utf8 cp j) ;;
      _ <- guard (is_some (parse_field_descriptor (bytes d))) ;; k <- u2 ;; ret (Local s k name))).
(** parse_code_metadata (725-778) *)
Record code := Code { code_first_line : option N; code_locals : list local }.
Record code_state := CodeState { cs_code : code; saw_lines : bool; saw_locals : bool }.
Definition code_attribute (cp : list entry) (name : text) (body : list N) (st : code_state) : parser code_state :=
  if same name (chars "LineNumberTable") then
    _ <- guard (negb (saw_lines st)) ;; l <- parse_first_line body ;;
    ret (CodeState (Code l (code_locals (cs_code st))) true (saw_locals st))
  else if same name (chars "LocalVariableTable") then
    _ <- guard (negb (saw_locals st)) ;; l <- parse_local_variables cp body ;;
    ret (CodeState (Code (code_first_line (cs_code st)) l) (saw_lines st) true)
  else ret st.
Definition parse_code_metadata (cp : list entry) (body : list N) : parser code :=
  within body (
    _ <- u2 ;; _ <- u2 ;; n <- u4 ;; _ <- guard (n <=? max_attribute_bytes L) ;; _ <- take n ;;
    e <- bounded (max_members L) ;; _ <- take (8 * e) ;;
    k <- attribute_count ;;
    st <- attributes cp (N.to_nat k) (code_attribute cp) (CodeState (Code None []) false false) ;;
    ret (cs_code st)).

(** parse_members (496-618) *)
Inductive member_kind := Field | Method.
Record member_state := MemberState {
  ms_signature : option text; ms_exceptions : list text; ms_parameters : list parameter; ms_annotations : list text; ms_code : code; ms_unique : list text }.
Definition annotation_attribute (name : text) : bool :=
  same name (chars "RuntimeVisibleAnnotations") || same name (chars "RuntimeInvisibleAnnotations").
Definition member_attribute (cp : list entry) (name : text) (body : list N) (st : member_state) : parser member_state :=
  if same name (chars "Signature") then
    u <- require_unique (ms_unique st) name ;; s <- string_attribute cp body ;;
    ret (MemberState (Some s) (ms_exceptions st) (ms_parameters st) (ms_annotations st) (ms_code st) u)
  else if same name (chars "Exceptions") then
    u <- require_unique (ms_unique st) name ;; e <- parse_exceptions cp body ;;
    ret (MemberState (ms_signature st) e (ms_parameters st) (ms_annotations st) (ms_code st) u)
  else if same name (chars "MethodParameters") then
    u <- require_unique (ms_unique st) name ;; p <- parse_method_parameters cp body ;;
    ret (MemberState (ms_signature st) (ms_exceptions st) p (ms_annotations st) (ms_code st) u)
  else if annotation_attribute name then
    a <- parse_annotations cp body ;;
    ret (MemberState (ms_signature st) (ms_exceptions st) (ms_parameters st) (ms_annotations st ++ a) (ms_code st) (ms_unique st))
  else if same name (chars "Code") then
    u <- require_unique (ms_unique st) name ;; c <- parse_code_metadata cp body ;;
    ret (MemberState (ms_signature st) (ms_exceptions st) (ms_parameters st) (ms_annotations st) c u)
  else ret st.
(** min_by_key (573-579): the first of the least *)
Fixpoint min_by_start (l : list local) : option local :=
  match l with
  | [] => None
  | x :: r => match min_by_start r with Some y => if start_pc y <? start_pc x then Some y else Some x | None => Some x end
  end.
Definition debug_name (locals : list local) (s : N) : option text :=
  match min_by_start (filter (fun l => slot l =? s) locals) with
  | Some l => if start_pc l =? 0 then Some (local_name l) else None
  | None => None
  end.
Definition width (t : jvm_type) : option N := match t with Long | Double => Some 2 | Void => None | _ => Some 1 end.
(** The loop over the descriptor's parameters (571-598) *)
Fixpoint name_parameters (locals : list local) (index : nat) (s : N) (types : list jvm_type) (ps : list parameter) : option (list parameter) :=
  match types with
  | [] => Some ps
  | t :: r =>
      let ps' := if (length ps <=? index)%nat then (ps ++ [Named (match debug_name locals s with Some n => n | None => arg index end) 0])%list else ps in
      match width t with Some w => name_parameters locals (S index) (s + w) r ps' | None => None end
  end.
Definition all_parameters (flags : N) (c : code) (types : list jvm_type) (ps : list parameter) : option (list parameter) :=
  if (length types <? length ps)%nat then None
  else match name_parameters (code_locals c) 0 (if bit flags 8 then 0 else 1) types ps with
       | Some l => Some (l ++ List.map (fun i => Named (arg i) 0) (seq (length l) (length types - length l)))%list
       | None => None
       end.
Definition parse_member (cp : list entry) (k : member_kind) : parser member :=
  flags <- u2 ;; i <- u2 ;; name <- lift (utf8 cp i) ;; j <- u2 ;; d <- lift (utf8 cp j) ;;
  _ <- guard (match k with Field => is_some (parse_field_descriptor (bytes d)) | Method => is_some (parse_method_descriptor (bytes d)) end) ;;
  n <- attribute_count ;;
  st <- attributes cp (N.to_nat n) (member_attribute cp) (MemberState None [] [] [] (Code None []) []) ;;
  ps <- (match k with
         | Field => ret (ms_parameters st)
         | Method => lift (match parse_method_descriptor (bytes d) with Some m => all_parameters flags (ms_code st) (parameters m) (ms_parameters st) | None => None end)
         end) ;;
  ret (Member flags name d (ms_signature st) (ms_exceptions st) ps (ms_annotations st) (code_first_line (ms_code st))).
Definition parse_members (cp : list entry) (k : member_kind) : parser (list member) :=
  n <- bounded (max_members L) ;; times (N.to_nat n) (parse_member cp k).

(** parse_inner_classes (780-815) *)
Definition parse_inner_classes (cp : list entry) (body : list N) : parser (list inner_class) :=
  within body (n <- bounded (max_members L) ;;
    times (N.to_nat n) (i <- u2 ;; _ <- guard (negb (i =? 0)) ;; o <- u2 ;; m <- u2 ;;
      a <- lift (class_at cp i) ;; b <- lift (optional_at (class_at cp) o) ;; c <- lift (optional_at (utf8 cp) m) ;;
      f <- u2 ;; ret (InnerClass a b c f))).
(** parse_record_components (817-864) *)
Record component_state := ComponentState { co_signature : option text; co_annotations : list text; co_unique : list text }.
Definition component_attribute (cp : list entry) (name : text) (body : list N) (st : component_state) : parser component_state :=
  if same name (chars "Signature") then
    u <- require_unique (co_unique st) name ;; s <- string_attribute cp body ;; ret (ComponentState (Some s) (co_annotations st) u)
  else if annotation_attribute name then
    a <- parse_annotations cp body ;; ret (ComponentState (co_signature st) (co_annotations st ++ a) (co_unique st))
  else ret st.
Definition parse_record_components (cp : list entry) (body : list N) : parser (list component) :=
  within body (n <- bounded (max_members L) ;;
    times (N.to_nat n) (i <- u2 ;; name <- lift (utf8 cp i) ;; j <- u2 ;; d <- lift (utf8 cp j) ;;
      _ <- guard (is_some (parse_field_descriptor (bytes d))) ;;
      k <- attribute_count ;; st <- attributes cp (N.to_nat k) (component_attribute cp) (ComponentState None [] []) ;;
      ret (Component name d (co_signature st) (co_annotations st)))).
(** parse_module_exports_or_opens (1067-1082) *)
Definition parse_module_exports_or_opens : parser unit :=
  n <- bounded (max_members L) ;;
  _ <- times (N.to_nat n) (_ <- u2 ;; _ <- u2 ;; k <- bounded (max_members L) ;; times (N.to_nat k) u2) ;; ret tt.
(** parse_module_name (866-910) *)
Definition parse_module_name (cp : list entry) (body : list N) : parser text :=
  within body (
    i <- u2 ;; name <- lift (module_at cp i) ;; _ <- u2 ;;
    v <- u2 ;; _ <- lift (optional_at (utf8 cp) v) ;;
    n <- bounded (max_members L) ;;
    _ <- times (N.to_nat n) (_ <- u2 ;; _ <- u2 ;; w <- u2 ;; _ <- lift (optional_at (utf8 cp) w) ;; ret tt) ;;
    _ <- parse_module_exports_or_opens ;; _ <- parse_module_exports_or_opens ;;
    m <- bounded (max_members L) ;; _ <- times (N.to_nat m) u2 ;;
    k <- bounded (max_members L) ;; _ <- times (N.to_nat k) (_ <- u2 ;; j <- bounded (max_members L) ;; times (N.to_nat j) u2) ;;
    ret name).

(** parse_class (318-416) *)
Record class_state := ClassState {
  st_source_file : option text; st_signature : option text; st_annotations : list text; st_inner_classes : list inner_class;
  st_record : list component; st_module : option text; st_unique : list text }.
Definition class_attribute (cp : list entry) (name : text) (body : list N) (st : class_state) : parser class_state :=
  if same name (chars "SourceFile") then
    u <- require_unique (st_unique st) name ;; s <- string_attribute cp body ;;
    ret (ClassState (Some s) (st_signature st) (st_annotations st) (st_inner_classes st) (st_record st) (st_module st) u)
  else if same name (chars "Signature") then
    u <- require_unique (st_unique st) name ;; s <- string_attribute cp body ;;
    ret (ClassState (st_source_file st) (Some s) (st_annotations st) (st_inner_classes st) (st_record st) (st_module st) u)
  else if annotation_attribute name then
    a <- parse_annotations cp body ;;
    ret (ClassState (st_source_file st) (st_signature st) (st_annotations st ++ a) (st_inner_classes st) (st_record st) (st_module st) (st_unique st))
  else if same name (chars "InnerClasses") then
    u <- require_unique (st_unique st) name ;; i <- parse_inner_classes cp body ;;
    ret (ClassState (st_source_file st) (st_signature st) (st_annotations st) i (st_record st) (st_module st) u)
  else if same name (chars "Record") then
    u <- require_unique (st_unique st) name ;; r <- parse_record_components cp body ;;
    ret (ClassState (st_source_file st) (st_signature st) (st_annotations st) (st_inner_classes st) r (st_module st) u)
  else if same name (chars "Module") then
    u <- require_unique (st_unique st) name ;; m <- parse_module_name cp body ;;
    ret (ClassState (st_source_file st) (st_signature st) (st_annotations st) (st_inner_classes st) (st_record st) (Some m) u)
  else ret st.
Definition class_parser : parser class_file :=
  magic <- u4 ;; _ <- guard (magic =? 3405691582) ;;
  minor <- u2 ;; major <- u2 ;; cp <- parse_constant_pool ;;
  flags <- u2 ;; this <- u2 ;; super <- u2 ;;
  name <- lift (class_at cp this) ;; super_name <- lift (optional_at (class_at cp) super) ;;
  n <- bounded (max_members L) ;; is <- times (N.to_nat n) (i <- u2 ;; lift (class_at cp i)) ;;
  fs <- parse_members cp Field ;; ms <- parse_members cp Method ;;
  k <- attribute_count ;;
  st <- attributes cp (N.to_nat k) (class_attribute cp) (ClassState None None [] [] [] None []) ;;
  ret (ClassFile minor major flags name super_name is fs ms (st_source_file st) (st_signature st) (st_annotations st) (st_inner_classes st) (st_record st) (st_module st)).
Definition parse_class (b : list N) : option class_file :=
  if max_class_bytes L <? N.of_nat (length b) then None
  else match class_parser 0 b with Some (c, _, []) => Some c | _ => None end.
End Parser.
