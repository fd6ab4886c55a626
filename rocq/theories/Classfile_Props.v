(** C76: the class file parser. *)
From Coq Require Import String List Arith NArith ZArith Bool Lia.
From Verif Require Import Text_Lib Descriptor_Model Descriptor_Spec Descriptor_Props Classfile_Model Classfile_Spec Classfile_Proofs Classfile_Text Classfile_Values Classfile_Counts Classfile_Members.
Import ListNotations.
Local Open Scope N_scope.
Local Open Scope list_scope.

Lemma decides_class L : decides L (class_parser L) (fun c n x => class_format L c n x).
Proof.
  unfold class_parser. eapply decides_ext.
  { apply decides_then; [intros; apply pure_u4|intros magic ? _ _]. apply decides_then; [intros; apply pure_guard|intros ? ? _ _].
    apply decides_then; [intros; apply pure_u2|intros minor ? _ _]. apply decides_then; [intros; apply pure_u2|intros major ? _ _]. apply decides_then; [intros; apply pure_pool|intros cp ? _ _].
    apply decides_then; [intros; apply pure_u2|intros flags ? _ _]. apply decides_then; [intros; apply pure_u2|intros this ? _ _]. apply decides_then; [intros; apply pure_u2|intros super ? _ _].
    apply decides_then; [intros; apply pure_lift|intros name ? _ _]. apply decides_then; [intros; apply pure_lift|intros sname ? _ _].
    eapply decides_eq; [intros s b; symmetry; apply (bind_assoc (bounded (max_members L)) (fun n => times (N.to_nat n) (bind u2 (fun i => lift (class_at cp i)))))|].
    apply decides_then; [intros; apply pure_table, pure_refers; intros; apply class_iff|intros is ? _ _].
    eapply decides_bind; [apply (decides_members L cp Field)|intros fs ? ? _ _]. eapply decides_bind; [apply (decides_members L cp Method)|intros ms ? ? _ _].
    eapply decides_eq; [intros s b; symmetry; apply (bind_assoc (attribute_count L) (fun k => attributes L cp (N.to_nat k) (class_attribute L cp) (ClassState None None [] [] [] None [])))|].
    apply decides_map. apply decides_attribute_table with (H := class_step L cp). exact (class_handles L cp). }
  intros c n x _. unfold class_format. split.
  - intros (magic & m4 & w0 & M & (u & w1 & w2 & (G & ->) & (minor & a & w3 & A & (major & b & w4 & B & (cp & p & w5 & P & (flags & d & w6 & D & (this & e & w7 & E & (super & s & w8 & S & (name & w9 & w10 & (N1 & ->) & (sname & w11 & w12 & (N2 & ->) & (is & i & w13 & I & (fs & n1 & n2 & f & w14 & (fm & FM & -> & ->) & (ms & n3 & n4 & m & w15 & (mm & MM & -> & ->) & (st & (l & k & T & F & ->) & ->) & -> & ->) & -> & ->) & ->) & ->) & ->) & ->) & ->) & ->) & ->) & ->) & ->) & ->) & ->).
    apply N.eqb_eq in G. subst magic. destruct M as [_ ->]. apply class_folds in F. destruct F as (S1 & S2 & S3 & S4 & S5 & S6 & _). apply class_iff in N1.
    exists cp, p, a, b, d, e, s, i, fm, mm, f, m, l, w15, (st_record st, k). cbn [minor_version major_version class_flags class_name_ super_name interfaces fields_ methods source_file class_signature class_annotations inner_classes record_components module_name fst snd app].
    split; [exact A|]. split; [exact B|]. split; [exact P|]. split; [exact D|]. split; [exists this; auto|]. split; [apply (maybe_at (class_at cp) _ (class_iff cp)); [intros ? ?; apply class_nonzero|eauto]|].
    split; [exact I|]. split; [exact FM|]. split; [reflexivity|]. split; [exact MM|]. split; [reflexivity|]. split; [exact T|]. split; [exact S1|]. split; [exact S2|]. split; [exact S3|]. split; [exact S4|]. split; [exact S5|]. split; [reflexivity|]. split; [exact S6|].
    split; [lia|reflexivity].
  - destruct c as [minor major flags name sname is fs ms sf sg an ic rcs mn]. cbn [minor_version major_version class_flags class_name_ super_name interfaces fields_ methods source_file class_signature class_annotations inner_classes record_components module_name].
    intros (cp & p & a & b & d & e & s & i & fm & mm & f & m & l & t & [rc k] & A & B & P & D & (this & TI & E) & SN & I & FM & -> & MM & -> & T & S1 & S2 & S3 & S4 & S5 & -> & S6 & -> & ->). cbn [fst snd] in *.
    apply (maybe_at (class_at cp) _ (class_iff cp)) in SN; [|intros ? ?; apply class_nonzero]. destruct SN as (super & S & SN).
    exists 3405691582, (be4 3405691582), (a ++ b ++ p ++ d ++ e ++ s ++ i ++ f ++ m ++ t). split; [split; [lia|reflexivity]|]. split; [|reflexivity].
    exists tt, [], (a ++ b ++ p ++ d ++ e ++ s ++ i ++ f ++ m ++ t). split; [split; reflexivity|]. split; [|reflexivity].
    exists minor, a, (b ++ p ++ d ++ e ++ s ++ i ++ f ++ m ++ t). split; [exact A|]. split; [|reflexivity]. exists major, b, (p ++ d ++ e ++ s ++ i ++ f ++ m ++ t). split; [exact B|]. split; [|reflexivity].
    exists cp, p, (d ++ e ++ s ++ i ++ f ++ m ++ t). split; [exact P|]. split; [|reflexivity]. exists flags, d, (e ++ s ++ i ++ f ++ m ++ t). split; [exact D|]. split; [|reflexivity].
    exists this, e, (s ++ i ++ f ++ m ++ t). split; [exact E|]. split; [|reflexivity]. exists super, s, (i ++ f ++ m ++ t). split; [exact S|]. split; [|reflexivity].
    exists name, [], (i ++ f ++ m ++ t). split; [split; [apply class_iff, TI|reflexivity]|]. split; [|reflexivity]. exists sname, [], (i ++ f ++ m ++ t). split; [split; [exact SN|reflexivity]|]. split; [|reflexivity].
    exists is, i, (f ++ m ++ t). split; [exact I|]. split; [|reflexivity]. exists (List.map fst fm), (total fm), (total mm + (len l + k)), f, (m ++ t). split; [exists fm; auto|]. split; [|split; [lia|reflexivity]].
    exists (List.map fst mm), (total mm), (len l + k), m, t. split; [exists mm; auto|]. split; [|split; reflexivity].
    exists (ClassState sf sg an ic rc mn (marks class_names l)). split; [|reflexivity]. exists l, k. split; [exact T|]. split; [|reflexivity]. apply class_folds. unfold class_result. cbn [st_source_file st_signature st_annotations st_inner_classes st_record st_module st_unique]. auto 10.
Qed.

(** The parser accepts exactly the class files (chapter 4 of the JVM specification, as far as it reads them) within
    the limits, and gives what they say. *)
Theorem C76_exact : forall L b c, octets b ->
  (parse_class L b = Some c <-> len b <= max_class_bytes L /\ exists n, class_format L c n b /\ n <= max_attributes L).
Proof.
  intros L b c O. unfold parse_class, len. destruct (N.ltb_spec (max_class_bytes L) (N.of_nat (length b))) as [K|K].
  - split; [discriminate|lia].
  - assert (Z : 0 <= max_attributes L) by lia. split.
    + destruct (class_parser L 0 b) as [[[c' n] [|]]|] eqn:E; try discriminate. intros X. injection X as ->. apply (decides_class L 0 b c n [] O Z) in E. destruct E as (m & x & F & B & E & M).
      rewrite app_nil_r in B. subst x. split; [exact K|]. exists m. split; [exact F|]. lia.
    + intros (_ & n & F & M). assert (E : class_parser L 0 b = Some (c, n, [])) by (apply (decides_class L 0 b c n [] O Z); exists n, b; rewrite app_nil_r; auto). rewrite E. reflexivity.
Qed.
Print Assumptions C76_exact.

(** So a file within the limits says one thing. *)
Theorem C76_unambiguous : forall L b c c' n n', octets b -> len b <= max_class_bytes L -> n <= max_attributes L -> n' <= max_attributes L ->
  class_format L c n b -> class_format L c' n' b -> c = c'.
Proof.
  intros L b c c' n n' O K M M' F F'. assert (E : parse_class L b = Some c) by (apply C76_exact; eauto). assert (E' : parse_class L b = Some c') by (apply C76_exact; eauto). congruence.
Qed.
Print Assumptions C76_unambiguous.

(** ** Strings *)
(** The contents of a string constant are read exactly when they are modified UTF-8 of a text. *)
Theorem C76_strings : forall b s, octets b ->
  (match decode_modified_utf8 (length b) b with Some u => from_utf16 u | None => None end = Some s <-> Forall scalar s /\ b = flat_map modified (flat_map utf16 s)).
Proof.
  intros b s O. split.
  - destruct (decode_modified_utf8 (length b) b) as [u|] eqn:D; [|discriminate]. intros E. destruct (decode_sound _ b u O D) as [F ->]. apply reads_iff in E; [|exact F]. destruct E as [S ->]. auto.
  - intros [S ->]. assert (F : Forall unit16 (flat_map utf16 s)).
    { apply Forall_forall. intros u I. apply in_flat_map in I. destruct I as (c & C & I). rewrite Forall_forall in S. pose proof (S c C) as SC. unfold unit16. destruct (N.lt_ge_cases c 65536) as [K|K].
      - unfold utf16 in I. destruct (N.ltb_spec c 65536); [|lia]. destruct I as [<-|[]]. exact K.
      - destruct (of_pair c K SC) as (x & y & E & X & Y & _). rewrite E in I. destruct I as [<-|[<-|[]]]; lia. }
    rewrite (decode_complete (flat_map utf16 s) _ F (le_n _)). apply from_utf16_complete, S.
Qed.
Print Assumptions C76_strings.

(** ** Parameters *)
Lemma sequence_forall {A} (P : A -> list N -> Prop) l x : sequence P l x -> Forall (fun a => exists y, P a y) l.
Proof. induction 1; constructor; eauto. Qed.
(** A method has as many parameters as its descriptor, whatever MethodParameters or debug information it carries. *)
Theorem C76_arity : forall L b c m, octets b -> parse_class L b = Some c -> In m (methods c) ->
  exists d, describes any_name d (bytes (descriptor m)) /\ length (member_parameters m) = length (parameters d).
Proof.
  intros L b c m O E I. apply C76_exact in E; [|exact O]. destruct E as (_ & n & F & _). unfold class_format in F.
  destruct F as (cp & p & a & bb & d & e & s & i & fm & mm & f & mb & l & t & rc & _ & _ & _ & _ & _ & _ & _ & _ & _ & MM & EM & _). rewrite EM in I. apply in_map_iff in I. destruct I as (v & <- & V).
  destruct MM as (y & _ & _ & _ & SQ). apply sequence_forall in SQ. rewrite Forall_forall in SQ. destruct (SQ v V) as (z & MF). unfold member_format in MF.
  destruct MF as (z1 & z2 & z3 & l' & t' & given & code_ & _ & _ & _ & _ & _ & _ & _ & _ & _ & _ & (md & DM & _ & EP) & _). exists md. split; [exact DM|]. rewrite EP, map_length, seq_length. reflexivity.
Qed.
Print Assumptions C76_arity.

(** ** A class *)
(** A class A with a field f of type int and a method m(long, int) with debug information for x and y, an
    annotation and two lines. *)
Definition small_class : list N :=
  [202; 254; 186; 190; 0; 0; 0; 52; 0; 22; 1; 0; 1; 65; 7; 0; 1; 1; 0; 16; 106; 97; 118; 97; 47; 108; 97; 110; 103;
   47; 79; 98; 106; 101; 99; 116; 7; 0; 3; 5; 0; 0; 0; 0; 0; 0; 0; 0; 1; 0; 1; 102; 1; 0; 1; 73; 1; 0; 1; 109; 1; 0;
   5; 40; 74; 73; 41; 86; 1; 0; 4; 67; 111; 100; 101; 1; 0; 18; 76; 111; 99; 97; 108; 86; 97; 114; 105; 97; 98; 108;
   101; 84; 97; 98; 108; 101; 1; 0; 15; 76; 105; 110; 101; 78; 117; 109; 98; 101; 114; 84; 97; 98; 108; 101; 1; 0; 1;
   120; 1; 0; 1; 74; 1; 0; 1; 121; 1; 0; 25; 82; 117; 110; 116; 105; 109; 101; 86; 105; 115; 105; 98; 108; 101; 65;
   110; 110; 111; 116; 97; 116; 105; 111; 110; 115; 1; 0; 3; 76; 65; 59; 1; 0; 1; 118; 1; 0; 10; 83; 111; 117; 114;
   99; 101; 70; 105; 108; 101; 1; 0; 6; 65; 46; 106; 97; 118; 97; 0; 33; 0; 2; 0; 4; 0; 0; 0; 1; 0; 1; 0; 7; 0; 8; 0;
   0; 0; 1; 0; 1; 0; 9; 0; 10; 0; 2; 0; 11; 0; 0; 0; 57; 0; 1; 0; 4; 0; 0; 0; 1; 177; 0; 0; 0; 2; 0; 13; 0; 0; 0; 10;
   0; 2; 0; 0; 0; 9; 0; 0; 0; 7; 0; 12; 0; 0; 0; 22; 0; 2; 0; 0; 0; 1; 0; 14; 0; 15; 0; 1; 0; 0; 0; 1; 0; 16; 0; 8; 0;
   3; 0; 17; 0; 0; 0; 11; 0; 1; 0; 18; 0; 1; 0; 19; 73; 0; 8; 0; 1; 0; 20; 0; 0; 0; 2; 0; 21].
Example small_class_parses : octets small_class /\ parse_class default_limits small_class = Some (ClassFile 0 52 33 (chars "A") (Some (chars "java/lang/Object")) []
  [Member 1 (chars "f") (chars "I") None [] [] [] None]
  [Member 1 (chars "m") (chars "(JI)V") None [] [Named (chars "x") 0; Named (chars "y") 0] [chars "LA;"] (Some 7)]
  (Some (chars "A.java")) None [] [] [] None).
Proof. split; [repeat constructor; lia|vm_compute; reflexivity]. Qed.
(** A file cut short, or with a byte too many, is no class file. *)
Example small_class_cut : parse_class default_limits (removelast small_class) = None /\ parse_class default_limits (small_class ++ [0]) = None.
Proof. split; vm_compute; reflexivity. Qed.
Example small_class_arity : exists c m, parse_class default_limits small_class = Some c /\ In m (methods c) /\ length (member_parameters m) = 2%nat.
Proof. eexists _, _. split; [apply (proj2 small_class_parses)|]. split; [left; reflexivity|reflexivity]. Qed.
Example strings_example : match decode_modified_utf8 8 [192; 128; 237; 160; 189; 237; 184; 128] with Some u => from_utf16 u | None => None end = Some [0; 128512].
Proof. reflexivity. Qed.

(** ** Kinds *)
(** The kind of a class, from its flags and whether it is a record [4.1, 4.7.30]. *)
Definition kind_of (flags : N) (record : bool) : class_kind :=
  if N.testbit flags 15 then Module_ else if N.testbit flags 13 then Annotation else if N.testbit flags 14 then Enum
  else if record then Record_ else if N.testbit flags 9 then Interface else Class.
Lemma bit_test flags k : bit flags (2 ^ k) = N.testbit flags k.
Proof.
  unfold bit. destruct (N.testbit flags k) eqn:E.
  - apply negb_true_iff, N.eqb_neq. intros Z. assert (T : N.testbit (N.land flags (2 ^ k)) k = true) by (rewrite N.land_spec, E, N.pow2_bits_true; reflexivity). rewrite Z in T. rewrite N.bits_0 in T. discriminate T.
  - apply negb_false_iff, N.eqb_eq. apply N.bits_inj. intros j. rewrite N.land_spec, N.bits_0. destruct (N.eq_dec k j) as [<-|NE]; [rewrite E; reflexivity|]. rewrite N.pow2_bits_false by congruence. apply andb_false_r.
Qed.
(** Right for every class that is no record, and for records with components. *)
Theorem C76_kind_partial : forall c, kind c = kind_of (class_flags c) (negb (Nat.eqb (length (record_components c)) 0)).
Proof.
  intros c. unfold kind, kind_of. rewrite <- !bit_test. change (2 ^ 15) with 32768. change (2 ^ 13) with 8192. change (2 ^ 14) with 16384. change (2 ^ 9) with 512.
  destruct (record_components c); reflexivity.
Qed.
Print Assumptions C76_kind_partial.
(** A record without components (record R() {}) is taken for a class. *)
Definition empty_record : list N :=
  [202; 254; 186; 190; 0; 0; 0; 60; 0; 4; 1; 0; 1; 65; 7; 0; 1; 1; 0; 6; 82; 101; 99; 111; 114; 100; 0; 48; 0; 2; 0;
   0; 0; 0; 0; 0; 0; 0; 0; 1; 0; 3; 0; 0; 0; 2; 0; 0].
Theorem C76_kind_refuted : exists cp l head tail c, octets empty_record /\ empty_record = head ++ tail /\ attribute_table default_limits cp l tail /\ pool default_limits cp (firstn 18 (skipn 8 empty_record)) /\
  single "Record" l (record_attribute default_limits cp) ([], 1) ([], 0) /\ l <> [] /\ parse_class default_limits empty_record = Some c /\ kind c = Class /\ kind_of (class_flags c) true = Record_.
Proof.
  exists [Unusable; Utf8 (Some (chars "A")); Class_ 1; Utf8 (Some (chars "Record"))], [(chars "Record", [0; 0])], (firstn 38 empty_record), (skipn 38 empty_record).
  eexists. split; [repeat constructor; lia|]. split; [symmetry; apply firstn_skipn|]. split.
  { exists (skipn 40 empty_record). split; [cbn; lia|]. split; [cbn; lia|]. split; [reflexivity|]. change (skipn 40 empty_record) with ([0; 3; 0; 0; 0; 2; 0; 0] ++ [])%list. constructor; [|constructor].
    exists [0; 3], [0; 0; 0; 2]. cbn [fst snd]. split; [exists 3; split; [split; [discriminate|reflexivity]|split; [lia|reflexivity]]|]. split; [cbn; lia|]. split; [split; [cbn; lia|reflexivity]|reflexivity]. }
  split.
  { assert (O : octets (firstn 18 (skipn 8 empty_record))) by (repeat constructor; lia). destruct (proj1 (pure_pool 18 default_limits 0 (firstn 18 (skipn 8 empty_record)) [Unusable; Utf8 (Some (chars "A")); Class_ 1; Utf8 (Some (chars "Record"))] 0 [] O ltac:(cbn; lia)) ltac:(vm_compute; reflexivity)) as (_ & x & P & E).
    rewrite app_nil_r in E. rewrite E. exact P. }
  split.
  { cbn. exists []. split; [|split; reflexivity]. exists []. split; [cbn; lia|]. split; [cbn; lia|]. split; [reflexivity|constructor]. }
  split; [discriminate|]. split; [vm_compute; reflexivity|]. split; reflexivity.
Qed.
Print Assumptions C76_kind_refuted.

(** ** Nesting *)
(** The limit on the depth of annotations (32) does not hold for arrays of values: a class with an annotation whose
    value is [k] arrays deep is accepted, for every [k] up to two million, and read by recursion that deep. *)
Definition deep_head : list N :=
  [202; 254; 186; 190; 0; 0; 0; 52].
Definition deep_pool : list N :=
  [0; 6; 1; 0; 1; 65; 7; 0; 1; 1; 0; 25; 82; 117; 110; 116; 105; 109; 101; 86; 105; 115; 105; 98; 108; 101; 65; 110;
   110; 111; 116; 97; 116; 105; 111; 110; 115; 1; 0; 3; 76; 65; 59; 1; 0; 1; 118].
Definition deep_value (k : nat) : list N := concat (repeat [91; 0; 1] k) ++ [73; 0; 1].
Definition deep_body (k : nat) : list N := be2 1 ++ be2 4 ++ be2 1 ++ be2 5 ++ deep_value k.
Definition deep_class (k : nat) : list N :=
  deep_head ++ deep_pool ++ be2 33 ++ be2 2 ++ be2 0 ++ be2 0 ++ be2 0 ++ be2 0 ++ be2 1 ++ be2 3 ++ be4 (len (deep_body k)) ++ deep_body k.
Definition deep_constants : list entry := [Unusable; Utf8 (Some (chars "A")); Class_ 1; Utf8 (Some (chars "RuntimeVisibleAnnotations")); Utf8 (Some (chars "LA;")); Utf8 (Some (chars "v"))].
Lemma deep_value_ok : forall k depth, value default_limits deep_constants depth (deep_value k).
Proof.
  induction k as [|k IH]; intros depth.
  - apply value_constant; [cbn; auto 10|]. exists 1. split; [lia|reflexivity].
  - change (deep_value (S k)) with (91 :: be2 1 ++ deep_value k). apply value_array; [cbn; lia|lia|]. change (N.to_nat 1) with 1%nat. rewrite <- (app_nil_r (deep_value k)). apply values_cons; [apply IH|constructor].
Qed.
Lemma deep_value_length k : length (deep_value k) = (3 * k + 3)%nat.
Proof. unfold deep_value. rewrite app_length. cbn [length]. f_equal. induction k as [|k IH]; [reflexivity|]. cbn [repeat concat]. rewrite app_length, IH. cbn [length]. lia. Qed.
Lemma deep_string i s : (i < 6)%nat -> i <> 0%nat -> nth_error deep_constants i = Some (Utf8 (Some s)) -> refers (string_index deep_constants) s (be2 (N.of_nat i)).
Proof. intros I Z E. exists (N.of_nat i). split; [split; [lia|rewrite Nat2N.id; exact E]|split; [lia|reflexivity]]. Qed.
Theorem C76_depth_refuted : forall k, N.of_nat k <= 2000000 -> octets (deep_class k) /\
  exists c, parse_class default_limits (deep_class k) = Some c /\ class_annotations c = [chars "LA;"].
Proof.
  intros k K. assert (LB : len (deep_body k) = 3 * N.of_nat k + 11).
  { unfold len, deep_body. rewrite !app_length, deep_value_length. cbn [length be2]. lia. }
  assert (O : octets (deep_class k)).
  { assert (F : forall x y, octets x -> octets y -> octets (x ++ y)) by (intros x y X Y; apply octets_app; auto). assert (D : octets (deep_value k)).
    { unfold deep_value. apply F; [|repeat constructor; lia]. clear. induction k as [|k IH]; [constructor|]. cbn [repeat concat]. apply octets_app. split; [repeat constructor; lia|exact IH]. }
    unfold deep_class. repeat (apply F; [repeat constructor; lia|]). apply F; [|unfold deep_body; repeat (apply F; [repeat constructor; lia|]); exact D]. rewrite LB. unfold be4, be2.
    destruct (join_at 65536 (3 * N.of_nat k + 11) ltac:(discriminate)) as [E1 M1]. destruct (join_at 256 ((3 * N.of_nat k + 11) / 65536) ltac:(discriminate)) as [E2 M2]. destruct (join_at 256 ((3 * N.of_nat k + 11) mod 65536) ltac:(discriminate)) as [E3 M3].
    revert E1 E2 E3 M1 M2 M3. generalize ((3 * N.of_nat k + 11) / 65536); intros p. generalize ((3 * N.of_nat k + 11) mod 65536); intros q. generalize (p / 256); intros p1. generalize (p mod 256); intros p2. generalize (q / 256); intros q1. generalize (q mod 256); intros q2. intros.
    cbn [app]. repeat constructor; lia. }
  split; [exact O|]. exists (ClassFile 0 52 33 (chars "A") None [] [] [] None None [chars "LA;"] [] [] None). split; [|reflexivity]. apply C76_exact; [exact O|]. split.
  { unfold len, deep_class. rewrite !app_length. assert (E : N.of_nat (length (deep_body k)) = 3 * N.of_nat k + 11) by exact LB. cbn [length be2 be4 app deep_head deep_pool max_class_bytes default_limits]. lia. }
  exists 1. split; [|cbn; lia]. exists deep_constants, deep_pool, (be2 0), (be2 52), (be2 33), (be2 2), (be2 0), (be2 0), [], [], (be2 0), (be2 0), [(chars "RuntimeVisibleAnnotations", deep_body k)], (be2 1 ++ be2 3 ++ be4 (len (deep_body k)) ++ deep_body k), ([], 0).
  cbn [minor_version major_version class_flags class_name_ super_name interfaces fields_ methods source_file class_signature class_annotations inner_classes record_components module_name fst snd].
  assert (E0 : forall A (P : A -> list N -> Prop), table (max_members default_limits) P [] (be2 0)) by (intros A P; exists []; split; [cbn; lia|split; [cbn; lia|split; [reflexivity|constructor]]]).
  split; [split; [lia|reflexivity]|]. split; [split; [lia|reflexivity]|]. split.
  { assert (OP : octets deep_pool) by (repeat constructor; lia). destruct (proj1 (pure_pool 100 default_limits 0 deep_pool deep_constants 0 [] OP ltac:(cbn; lia)) ltac:(vm_compute; reflexivity)) as (_ & x & P & E). rewrite app_nil_r in E. rewrite E. exact P. }
  split; [split; [lia|reflexivity]|]. split; [exists 2; split; [split; [discriminate|exists 1; split; [reflexivity|split; [discriminate|reflexivity]]]|split; [lia|reflexivity]]|]. split; [split; [lia|reflexivity]|].
  split; [apply E0|]. split; [apply E0|]. split; [reflexivity|]. split; [apply E0|]. split; [reflexivity|]. split.
  { exists (be2 3 ++ be4 (len (deep_body k)) ++ deep_body k). split; [cbn; lia|]. split; [cbn; lia|]. split; [reflexivity|]. rewrite <- (app_nil_r (be2 3 ++ be4 (len (deep_body k)) ++ deep_body k)). constructor; [|constructor].
    exists (be2 3), (be4 (len (deep_body k))). cbn [fst snd]. split; [apply (deep_string 3); [lia|discriminate|reflexivity]|]. split; [rewrite LB; cbn [max_attribute_bytes default_limits]; lia|]. split; [split; [rewrite LB; lia|reflexivity]|reflexivity]. }
  split; [reflexivity|]. split; [reflexivity|]. split.
  { exists [[chars "LA;"]]. split; [|reflexivity]. change (contents (List.map chars annotation_names) [(chars "RuntimeVisibleAnnotations", deep_body k)]) with [deep_body k]. constructor; [|constructor].
    exists (be2 4 ++ be2 1 ++ be2 5 ++ deep_value k). split; [cbn; lia|]. split; [cbn; lia|]. split; [reflexivity|]. rewrite <- (app_nil_r (be2 4 ++ be2 1 ++ be2 5 ++ deep_value k)). constructor; [|constructor].
    apply annotation_ with (t := Object [65]); [cbn; lia|apply (deep_string 4); [lia|discriminate|reflexivity]|apply C47_field; vm_compute; reflexivity|cbn; lia|lia|]. change (N.to_nat 1) with 1%nat.
    rewrite <- (app_nil_r (deep_value k)). apply elements_cons with (s := chars "v"); [apply (deep_string 5); [lia|discriminate|reflexivity]|apply deep_value_ok|constructor]. }
  split; [reflexivity|]. split; [reflexivity|]. split; [reflexivity|]. split; [reflexivity|]. split; [reflexivity|]. reflexivity.
Qed.
Print Assumptions C76_depth_refuted.
(** More than the limit on depth. *)
Example deep_class_example : max_annotation_depth default_limits = 32 /\ parse_class default_limits (deep_class 1000) <> None.
Proof. split; [reflexivity|]. destruct (C76_depth_refuted 1000 ltac:(lia)) as (_ & c & E & _). rewrite E. discriminate. Qed.
