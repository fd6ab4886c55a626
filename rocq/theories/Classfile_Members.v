(** Proofs about code, members, record components and whole class files. *)
From Coq Require Import String List Arith NArith ZArith Bool Lia.
From Verif Require Import Text_Lib Descriptor_Model Descriptor_Spec Descriptor_Props Classfile_Model Classfile_Spec Classfile_Proofs Classfile_Text Classfile_Values Classfile_Counts.
Import ListNotations.
Local Open Scope N_scope.
Local Open Scope list_scope.

Lemma absent_snoc nm l a : absent nm (l ++ [a]) <-> same (fst a) nm = false /\ absent nm l.
Proof.
  unfold absent. rewrite contents_snoc. cbn [existsb]. rewrite orb_false_r. destruct (same (fst a) nm).
  - split; [intros E; destruct (contents [nm] l); discriminate E|intros [E _]; discriminate E].
  - rewrite app_nil_r. tauto.
Qed.
Lemma absent_nil nm : absent nm []. Proof. reflexivity. Qed.
Lemma single_nil {A} nm (P : A -> list N -> Prop) d v : single nm [] P d v <-> v = d. Proof. reflexivity. Qed.
Lemma repeated_nil {A} names (P : list A -> list N -> Prop) v : repeated names [] P v <-> v = [].
Proof. unfold repeated, contents. cbn. split; [intros (vs & F & ->); inversion F; reflexivity|intros ->; exists []; auto]. Qed.
Lemma repeated_other {A} names l a (P : list A -> list N -> Prop) v : existsb (same (fst a)) (List.map chars names) = false -> (repeated names (l ++ [a]) P v <-> repeated names l P v).
Proof. intros E. rewrite repeated_snoc, E. reflexivity. Qed.
Lemma repeated_same {A} names l a (P : list A -> list N -> Prop) v : existsb (same (fst a)) (List.map chars names) = true ->
  (repeated names (l ++ [a]) P v <-> exists v1 v2, repeated names l P v1 /\ P v2 (snd a) /\ v = v1 ++ v2).
Proof. intros E. rewrite repeated_snoc, E. reflexivity. Qed.
Lemma marks_in names l a : existsb (same (fst a)) names = true -> marks names (l ++ [a]) = fst a :: marks names l.
Proof. intros E. rewrite marks_snoc, E. reflexivity. Qed.
Lemma marks_out names l a : existsb (same (fst a)) names = false -> marks names (l ++ [a]) = marks names l.
Proof. intros E. rewrite marks_snoc, E. reflexivity. Qed.
Ltac known := first [reflexivity | assumption].
Ltac snocs := repeat match goal with
  | |- context [repeated ?nm (?l ++ [?a]) ?P ?v] => first [rewrite (repeated_other nm l a P v) by known | rewrite (repeated_same nm l a P v) by known]
  | |- context [marks ?nm (?l ++ [?a])] => first [rewrite (marks_in nm l a) by known | rewrite (marks_out nm l a) by known]
  | |- context [single ?nm (?l ++ [?a]) ?P ?d ?v] => first [rewrite (single_other nm l a P d v) by known | rewrite (single_same nm l a P d v) by known]
  end.

Lemma pure_guard n g : pure n (guard g) (fun _ x => g = true /\ x = []).
Proof.
  destruct g; cbn [guard].
  - eapply pure_ext; [apply pure_ret|]. intros [] x _. tauto.
  - eapply pure_ext; [apply pure_fail|]. intros [] x _. split; [intros []|intros [E _]; discriminate E].
Qed.
Section Members.
Variables (L : limits) (cp : list entry).

(** ** Code *)
Definition code_step (name : text) (body : list N) (st st' : code_state) (n : N) : Prop :=
  if same name (chars "LineNumberTable") then saw_lines st = false /\ exists m, (n = 0 /\ lines_attribute L m body) /\ st' = CodeState (Code m (code_locals (cs_code st))) true (saw_locals st)
  else if same name (chars "LocalVariableTable") then saw_locals st = false /\ exists m, (n = 0 /\ locals_attribute L cp m body) /\ st' = CodeState (Code (code_first_line (cs_code st)) m) (saw_lines st) true
  else n = 0 /\ st' = st.
Lemma guarded {A St} g (p : parser A) (F : A -> St) P : decides L p (fun v n x => x = [] /\ P v n) ->
  decides L (bind (guard g) (fun _ => bind p (fun v => ret (F v)))) (fun st n x => x = [] /\ g = true /\ exists v, P v n /\ st = F v).
Proof.
  intros H. destruct g; cbn [guard].
  - eapply decides_eq; [intros s b; reflexivity|]. eapply decides_ext; [exact (decides_plain L p F P H)|]. intros; tauto.
  - eapply decides_ext; [exact (decides_fail L)|]. intros st n x _. split; [intros []|intros (_ & E & _); discriminate E].
Qed.
Lemma code_handles name body st : octets body -> decides L (code_attribute L cp name body st) (fun st' n x => x = [] /\ code_step name body st st' n).
Proof.
  intros O. unfold code_attribute, code_step. destruct (same name (chars "LineNumberTable")).
  - eapply decides_ext; [apply (guarded (negb (saw_lines st)) (parse_first_line L body) (fun l => CodeState (Code l (code_locals (cs_code st))) true (saw_locals st)) (fun m n => n = 0 /\ lines_attribute L m body))|].
    + apply decides_body. intros n. apply pure_lines, O.
    + intros st' n x _. cbv beta. pose proof (negb_true_iff (saw_lines st)). pose proof (negb_true_iff (saw_locals st)). tauto.
  - destruct (same name (chars "LocalVariableTable")).
    + eapply decides_ext; [apply (guarded (negb (saw_locals st)) (parse_local_variables L cp body) (fun l => CodeState (Code (code_first_line (cs_code st)) l) (saw_lines st) true) (fun m n => n = 0 /\ locals_attribute L cp m body))|].
      * apply decides_body. intros n. apply pure_locals, O.
      * intros st' n x _. cbv beta. pose proof (negb_true_iff (saw_lines st)). pose proof (negb_true_iff (saw_locals st)). tauto.
    + apply decides_skip.
Qed.
Definition code_result (l : list (text * list N)) (st : code_state) (n : N) : Prop :=
  n = 0 /\ single "LineNumberTable" l (lines_attribute L) None (code_first_line (cs_code st)) /\ single "LocalVariableTable" l (locals_attribute L cp) [] (code_locals (cs_code st)) /\
  (saw_lines st = false <-> absent (chars "LineNumberTable") l) /\ (saw_locals st = false <-> absent (chars "LocalVariableTable") l).
Lemma code_folds l : forall st n, folds code_step l (CodeState (Code None []) false false) st n <-> code_result l st n.
Proof.
  induction l as [|[name body] l IH] using rev_ind; intros st n.
  - unfold code_result. rewrite !single_nil. split.
    + intros F. inversion F; subst. cbn. pose proof (absent_nil (chars "LineNumberTable")). pose proof (absent_nil (chars "LocalVariableTable")). tauto.
    + intros (-> & E1 & E2 & [_ E3] & [_ E4]). destruct st as [[a b] c d]. cbn in *. rewrite (E3 eq_refl), (E4 eq_refl), E1, E2. constructor.
  - rewrite folds_snoc. unfold code_step at 2. cbn [fst snd]. destruct (same name (chars "LineNumberTable")) eqn:T1.
    { apply same_iff in T1. subst name. unfold code_result. snocs. rewrite !absent_snoc. cbn [fst snd]. split.
      - intros (st' & n1 & n2 & F & (G & m & (-> & M) & ->) & ->). apply IH in F. destruct F as (-> & S1 & S2 & A1 & A2). cbn [cs_code code_first_line code_locals saw_lines saw_locals].
        apply A1 in G. rewrite same_refl. change (same (chars "LineNumberTable") (chars "LocalVariableTable")) with false. repeat split; try tauto; try discriminate; try (intros [E _]; discriminate E).
      - intros (-> & (A & M) & S2 & A1 & A2). destruct st as [[fl lo] sl so]. cbn [cs_code code_first_line code_locals saw_lines saw_locals] in *. rewrite same_refl in A1. change (same (chars "LineNumberTable") (chars "LocalVariableTable")) with false in A2.
        exists (CodeState (Code None lo) false so), 0, 0. split; [apply IH; unfold code_result; cbn [cs_code code_first_line code_locals saw_lines saw_locals]; rewrite (single_absent _ l _ _ _ A); tauto|].
        split; [split; [reflexivity|]; exists fl; split; [auto|]|reflexivity]. destruct sl; [reflexivity|]. destruct A1 as [A1 _]. destruct (A1 eq_refl) as [E _]. discriminate E. }
    destruct (same name (chars "LocalVariableTable")) eqn:T2.
    { apply same_iff in T2. subst name. unfold code_result. snocs. rewrite !absent_snoc. cbn [fst snd]. split.
      - intros (st' & n1 & n2 & F & (G & m & (-> & M) & ->) & ->). apply IH in F. destruct F as (-> & S1 & S2 & A1 & A2). cbn [cs_code code_first_line code_locals saw_lines saw_locals].
        apply A2 in G. rewrite same_refl, T1. repeat split; try tauto; try discriminate; try (intros [E _]; discriminate E).
      - intros (-> & S1 & (A & M) & A1 & A2). destruct st as [[fl lo] sl so]. cbn [cs_code code_first_line code_locals saw_lines saw_locals] in *. rewrite same_refl in A2. rewrite T1 in A1.
        exists (CodeState (Code fl []) sl false), 0, 0. split; [apply IH; unfold code_result; cbn [cs_code code_first_line code_locals saw_lines saw_locals]; rewrite (single_absent _ l _ _ _ A); tauto|].
        split; [split; [reflexivity|]; exists lo; split; [auto|]|reflexivity]. destruct so; [reflexivity|]. destruct A2 as [A2 _]. destruct (A2 eq_refl) as [E _]. discriminate E. }
    unfold code_result. snocs. rewrite !absent_snoc. cbn [fst snd]. rewrite T1, T2. split.
    + intros (st' & n1 & n2 & F & (-> & ->) & ->). apply IH in F. unfold code_result in F. rewrite N.add_0_r. tauto.
    + intros R. exists st, n, 0. rewrite N.add_0_r. split; [apply IH; unfold code_result; tauto|auto].
Qed.
Lemma decides_code body : octets body -> decides L (parse_code_metadata L cp body) (fun c n x => x = [] /\ code_attribute_ L cp (c, n) body).
Proof.
  intros O. unfold parse_code_metadata. apply (decides_within L body _ (fun c n x => code_attribute_ L cp (c, n) x)); [exact O|]. eapply decides_ext.
  { apply decides_then; [intros; apply pure_u2|intros ? ? _ _]. apply decides_then; [intros; apply pure_u2|intros ? ? _ _].
    apply decides_then; [intros; apply pure_u4|intros k4 ? _ _]. apply decides_then; [intros; apply pure_guard|intros ? ? _ _]. apply decides_then; [intros; apply pure_take|intros ins ? _ _].
    apply decides_then; [intros; apply pure_bounded|intros e ? _ _]. apply decides_then; [intros; apply pure_take|intros h ? _ _].
    eapply decides_eq; [intros s b; symmetry; apply (bind_assoc (attribute_count L) (fun k => attributes L cp (N.to_nat k) (code_attribute L cp) (CodeState (Code None []) false false)))|].
    apply decides_map. apply decides_attribute_table with (H := code_step). exact code_handles. }
  intros c n x _. unfold code_attribute_. cbn [fst snd]. split.
  - intros (a' & a & w & A & (b' & b & w2 & B & (k4 & c4 & w4 & C & (u & w9 & w10 & (G & ->) & (ins & w11 & w12 & (-> & IL) & (e & w5 & w6 & (E1 & E2 & ->) & (h & w7 & w8 & (-> & HL) & (st & (l & m & T & F & ->) & ->) & ->) & ->) & ->) & ->) & ->) & ->) & ->).
    subst k4. apply N.leb_le in G. cbn [app]. apply code_folds in F. destruct F as (-> & S1 & S2 & _). exists a, b, c4, ins, e, h, l, w8. split; [exists a'; exact A|]. split; [exists b'; exact B|]. rewrite N.add_0_r. auto 15.
  - intros (a & b & c4 & ins & e & h & l & t & [a' A] & [b' B] & C & G & E1 & E2 & HL & T & S1 & S2 & -> & ->).
    exists a', a, (b ++ c4 ++ ins ++ be2 e ++ h ++ t). split; [exact A|]. split; [|reflexivity]. exists b', b, (c4 ++ ins ++ be2 e ++ h ++ t). split; [exact B|]. split; [|reflexivity].
    exists (len ins), c4, (ins ++ be2 e ++ h ++ t). split; [exact C|]. split; [|reflexivity]. exists tt, [], (ins ++ be2 e ++ h ++ t). split; [split; [apply N.leb_le, G|reflexivity]|]. split; [|reflexivity].
    exists ins, ins, (be2 e ++ h ++ t). split; [auto|]. split; [|reflexivity]. exists e, (be2 e), (h ++ t). split; [split; [exact E1|split; [exact E2|reflexivity]]|]. split; [|reflexivity].
    exists h, h, t. split; [auto|]. split; [|reflexivity].
    exists (CodeState c (match contents [chars "LineNumberTable"] l with [] => false | _ => true end) (match contents [chars "LocalVariableTable"] l with [] => false | _ => true end)). split; [|reflexivity].
    exists l, 0. rewrite N.add_0_r. split; [exact T|]. split; [|reflexivity]. apply code_folds. unfold code_result, absent. cbn [cs_code saw_lines saw_locals]. split; [reflexivity|]. split; [exact S1|]. split; [exact S2|].
    split; [destruct (contents [chars "LineNumberTable"] l)|destruct (contents [chars "LocalVariableTable"] l)]; split; congruence.
Qed.
(** ** Members *)
Definition string_step (s : option text) (b : list N) : Prop := exists s', s = Some s' /\ refers (string_index cp) s' b.
Definition once (names : list text) (name : text) (ok : Prop) : Prop := existsb (same name) names = false /\ ok.
Definition member_step (name : text) (body : list N) (st st' : member_state) (n : N) : Prop :=
  if same name (chars "Signature") then once (ms_unique st) name (exists s, (n = 0 /\ refers (string_index cp) s body) /\ st' = MemberState (Some s) (ms_exceptions st) (ms_parameters st) (ms_annotations st) (ms_code st) (name :: ms_unique st))
  else if same name (chars "Exceptions") then once (ms_unique st) name (exists e, (n = 0 /\ exceptions_attribute L cp e body) /\ st' = MemberState (ms_signature st) e (ms_parameters st) (ms_annotations st) (ms_code st) (name :: ms_unique st))
  else if same name (chars "MethodParameters") then once (ms_unique st) name (exists p, (n = 0 /\ parameters_attribute L cp p body) /\ st' = MemberState (ms_signature st) (ms_exceptions st) p (ms_annotations st) (ms_code st) (name :: ms_unique st))
  else if annotation_attribute name then exists a, (n = 0 /\ annotations_attribute L cp a body) /\ st' = MemberState (ms_signature st) (ms_exceptions st) (ms_parameters st) (ms_annotations st ++ a) (ms_code st) (ms_unique st)
  else if same name (chars "Code") then once (ms_unique st) name (exists c, code_attribute_ L cp (c, n) body /\ st' = MemberState (ms_signature st) (ms_exceptions st) (ms_parameters st) (ms_annotations st) c (name :: ms_unique st))
  else n = 0 /\ st' = st.
Lemma member_handles name body st : octets body -> decides L (member_attribute L cp name body st) (fun st' n x => x = [] /\ member_step name body st st' n).
Proof.
  intros O. unfold member_attribute, member_step, once. destruct (same name (chars "Signature")).
  { apply (decides_unique L _ name (string_attribute cp body) (fun v u => MemberState (Some v) _ _ _ _ u) (fun v n => n = 0 /\ refers (string_index cp) v body)). apply decides_body. intros n. apply pure_string, O. }
  destruct (same name (chars "Exceptions")).
  { apply (decides_unique L _ name (parse_exceptions L cp body) (fun v u => MemberState _ v _ _ _ u) (fun v n => n = 0 /\ exceptions_attribute L cp v body)). apply decides_body. intros n. apply pure_exceptions, O. }
  destruct (same name (chars "MethodParameters")).
  { apply (decides_unique L _ name (parse_method_parameters L cp body) (fun v u => MemberState _ _ v _ _ u) (fun v n => n = 0 /\ parameters_attribute L cp v body)). apply decides_body. intros n. apply pure_method_parameters, O. }
  destruct (annotation_attribute name).
  { apply (decides_plain L (parse_annotations L cp body) (fun v => MemberState _ _ _ (ms_annotations st ++ v) _ _) (fun v n => n = 0 /\ annotations_attribute L cp v body)). apply decides_body. intros n. apply pure_annotations, O. }
  destruct (same name (chars "Code")).
  { apply (decides_unique L _ name (parse_code_metadata L cp body) (fun v u => MemberState _ _ _ _ v u) (fun v n => code_attribute_ L cp (v, n) body)). apply decides_code, O. }
  apply decides_skip.
Qed.
Definition member_names : list text := List.map chars ["Signature"; "Exceptions"; "MethodParameters"; "Code"]%string.
Definition member_result (l : list (text * list N)) (st : member_state) (n : N) : Prop :=
  single "Signature" l string_step None (ms_signature st) /\ single "Exceptions" l (exceptions_attribute L cp) [] (ms_exceptions st) /\
  single "MethodParameters" l (parameters_attribute L cp) [] (ms_parameters st) /\ repeated annotation_names l (annotations_attribute L cp) (ms_annotations st) /\
  single "Code" l (code_attribute_ L cp) (Code None [], 0) (ms_code st, n) /\ ms_unique st = marks member_names l.
Lemma annotation_test name : annotation_attribute name = existsb (same name) (List.map chars annotation_names).
Proof. unfold annotation_attribute. cbn [existsb List.map annotation_names]. rewrite orb_false_r. reflexivity. Qed.
Ltac unseen G := rewrite marks_absent in G by (cbn; auto 10).
Lemma member_folds l : forall st n, folds member_step l (MemberState None [] [] [] (Code None []) []) st n <-> member_result l st n.
Proof.
  induction l as [|[name body] l IH] using rev_ind; intros st n.
  - unfold member_result. rewrite !single_nil, repeated_nil. split.
    + intros F. inversion F; subst. cbn. auto 10.
    + destruct st as [a b c d e f]. cbn. intros (-> & -> & -> & -> & E & ->). injection E as -> ->. constructor.
  - rewrite folds_snoc. unfold member_step at 2, once. cbn [fst snd]. destruct (same name (chars "Signature")) eqn:T1.
    { apply same_iff in T1. subst name. unfold member_result. snocs. cbn [fst snd]. split.
      - intros (st' & n1 & n2 & F & (G & v & (-> & V) & ->) & ->). apply IH in F. destruct F as (S1 & S2 & S3 & S4 & S5 & U). cbn [ms_signature ms_exceptions ms_parameters ms_annotations ms_code ms_unique].
        rewrite U in G |- *. unseen G. rewrite N.add_0_r. unfold string_step. eauto 12.
      - destruct st as [a b c d e u]. cbn [ms_signature ms_exceptions ms_parameters ms_annotations ms_code ms_unique]. intros ((A & s & -> & V) & S2 & S3 & S4 & S5 & ->).
        exists (MemberState None b c d e (marks member_names l)), n, 0. rewrite N.add_0_r. split; [apply IH; unfold member_result; cbn [ms_signature ms_exceptions ms_parameters ms_annotations ms_code ms_unique]; rewrite (single_absent _ l _ _ _ A); auto 10|].
        split; [|reflexivity]. split; [apply marks_absent; [cbn; auto|exact A]|]. exists s. auto. }
    destruct (same name (chars "Exceptions")) eqn:T2.
    { apply same_iff in T2. subst name. unfold member_result. snocs. cbn [fst snd]. split.
      - intros (st' & n1 & n2 & F & (G & v & (-> & V) & ->) & ->). apply IH in F. destruct F as (S1 & S2 & S3 & S4 & S5 & U). cbn [ms_signature ms_exceptions ms_parameters ms_annotations ms_code ms_unique].
        rewrite U in G |- *. unseen G. rewrite N.add_0_r. auto 12.
      - destruct st as [a b c d e u]. cbn [ms_signature ms_exceptions ms_parameters ms_annotations ms_code ms_unique]. intros (S1 & (A & V) & S3 & S4 & S5 & ->).
        exists (MemberState a [] c d e (marks member_names l)), n, 0. rewrite N.add_0_r. split; [apply IH; unfold member_result; cbn [ms_signature ms_exceptions ms_parameters ms_annotations ms_code ms_unique]; rewrite (single_absent _ l _ _ _ A); auto 10|].
        split; [|reflexivity]. split; [apply marks_absent; [cbn; auto|exact A]|]. exists b. auto. }
    destruct (same name (chars "MethodParameters")) eqn:T3.
    { apply same_iff in T3. subst name. unfold member_result. snocs. cbn [fst snd]. split.
      - intros (st' & n1 & n2 & F & (G & v & (-> & V) & ->) & ->). apply IH in F. destruct F as (S1 & S2 & S3 & S4 & S5 & U). cbn [ms_signature ms_exceptions ms_parameters ms_annotations ms_code ms_unique].
        rewrite U in G |- *. unseen G. rewrite N.add_0_r. auto 12.
      - destruct st as [a b c d e u]. cbn [ms_signature ms_exceptions ms_parameters ms_annotations ms_code ms_unique]. intros (S1 & S2 & (A & V) & S4 & S5 & ->).
        exists (MemberState a b [] d e (marks member_names l)), n, 0. rewrite N.add_0_r. split; [apply IH; unfold member_result; cbn [ms_signature ms_exceptions ms_parameters ms_annotations ms_code ms_unique]; rewrite (single_absent _ l _ _ _ A); auto 10|].
        split; [|reflexivity]. split; [apply marks_absent; [cbn; auto|exact A]|]. exists c. auto. }
    destruct (annotation_attribute name) eqn:T4.
    { rewrite annotation_test in T4. assert (TC : same name (chars "Code") = false /\ existsb (same name) member_names = false).
      { cbn [existsb List.map annotation_names] in T4. rewrite orb_false_r in T4. apply orb_prop in T4. destruct T4 as [T4|T4]; apply same_iff in T4; subst name; split; reflexivity. }
      destruct TC as [TC TM]. unfold member_result. snocs. cbn [fst snd]. split.
      - intros (st' & n1 & n2 & F & (v & (-> & V) & ->) & ->). apply IH in F. destruct F as (S1 & S2 & S3 & S4 & S5 & U). cbn [ms_signature ms_exceptions ms_parameters ms_annotations ms_code ms_unique].
        rewrite N.add_0_r. eauto 15.
      - destruct st as [a b c d e u]. cbn [ms_signature ms_exceptions ms_parameters ms_annotations ms_code ms_unique]. intros (S1 & S2 & S3 & (v1 & v2 & R & V & ->) & S5 & ->).
        exists (MemberState a b c v1 e (marks member_names l)), n, 0. rewrite N.add_0_r. split; [apply IH; unfold member_result; cbn [ms_signature ms_exceptions ms_parameters ms_annotations ms_code ms_unique]; auto 10|].
        split; [|reflexivity]. exists v2. auto. }
    destruct (same name (chars "Code")) eqn:T5.
    { apply same_iff in T5. subst name. unfold member_result. snocs. cbn [fst snd]. split.
      - intros (st' & n1 & n2 & F & (G & v & V & ->) & ->). apply IH in F. destruct F as (S1 & S2 & S3 & S4 & S5 & U). cbn [ms_signature ms_exceptions ms_parameters ms_annotations ms_code ms_unique].
        rewrite U in G |- *. unseen G. rewrite (single_absent _ l _ _ _ G) in S5. injection S5 as _ ->. rewrite N.add_0_l. auto 12.
      - destruct st as [a b c d e u]. cbn [ms_signature ms_exceptions ms_parameters ms_annotations ms_code ms_unique]. intros (S1 & S2 & S3 & S4 & (A & V) & ->).
        exists (MemberState a b c d (Code None []) (marks member_names l)), 0, n. rewrite N.add_0_l. split; [apply IH; unfold member_result; cbn [ms_signature ms_exceptions ms_parameters ms_annotations ms_code ms_unique]; rewrite (single_absent _ l _ _ _ A); auto 10|].
        split; [|reflexivity]. split; [apply marks_absent; [cbn; auto|exact A]|]. exists e. auto. }
    rewrite annotation_test in T4. assert (TM : existsb (same name) member_names = false) by (cbn [existsb List.map member_names]; rewrite T1, T2, T3, T5; reflexivity).
    unfold member_result. snocs. split.
    + intros (st' & n1 & n2 & F & (-> & ->) & ->). apply IH in F. rewrite N.add_0_r. exact F.
    + intros R. exists st, n, 0. rewrite N.add_0_r. split; [apply IH; exact R|auto].
Qed.

(** ** Parameters *)
Lemma find_filter {A} (f g : A -> bool) l : find g (filter f l) = find (fun x => f x && g x) l.
Proof. induction l as [|x l IH]; [reflexivity|]. cbn [filter find]. destruct (f x); cbn [find andb]; [destruct (g x)|]; auto. Qed.
Lemma min_zero l : match min_by_start l with Some y => if start_pc y =? 0 then Some y else None | None => None end = find (fun x => start_pc x =? 0) l.
Proof.
  induction l as [|x r IH]; [reflexivity|]. cbn [min_by_start find]. destruct (N.eqb_spec (start_pc x) 0) as [E|E].
  - destruct (min_by_start r) as [y|]; [destruct (N.ltb_spec (start_pc y) (start_pc x)); [lia|]|]; rewrite E; reflexivity.
  - rewrite <- IH. destruct (min_by_start r) as [y|]; [destruct (N.ltb_spec (start_pc y) (start_pc x)) as [Lt|Ge]; [reflexivity|]|].
    + destruct (N.eqb_spec (start_pc x) 0); [lia|]. destruct (N.eqb_spec (start_pc y) 0); [lia|reflexivity].
    + destruct (N.eqb_spec (start_pc x) 0); [lia|reflexivity].
Qed.
Lemma debug_name_spec ls s : debug_name ls s = option_map local_name (find (fun l => (slot l =? s) && (start_pc l =? 0)) ls).
Proof.
  unfold debug_name. rewrite <- find_filter, <- min_zero. destruct (min_by_start (filter (fun l => slot l =? s) ls)) as [y|]; [|reflexivity]. destruct (start_pc y =? 0); reflexivity.
Qed.
Lemma field_width nm t d : field nm t d -> width t = Some (places_of t).
Proof. intros F. inversion F as [? c P| |]; subst; try reflexivity. unfold primitive in P. cbn [In] in P. repeat (destruct P as [P|P]; [injection P as <- _; reflexivity|]). destruct P. Qed.
Lemma fields_width nm ts d : fields nm ts d -> Forall (fun t => width t = Some (places_of t)) ts.
Proof. induction 1 as [|t ts d ds F _ IH]; constructor; auto. exact (field_width nm t d F). Qed.
Lemma first_place_snoc flags ts t : first_place flags (ts ++ [t]) = first_place flags ts + places_of t.
Proof.
  unfold first_place. rewrite map_app. cbn [List.map]. rewrite <- N.add_assoc. f_equal. induction (List.map places_of ts) as [|x l IH]; cbn [app fold_right]; [lia|]. rewrite IH. lia.
Qed.
Lemma given_at flags c ts given k : (k < length given)%nat -> nth_error given k = Some (parameter_at flags c ts given k).
Proof. intros K. unfold parameter_at. destruct (nth_error given k) eqn:E; [reflexivity|]. apply nth_error_None in E. lia. Qed.
Lemma nth_error_same {A} : forall l m : list A, (forall k, nth_error l k = nth_error m k) -> l = m.
Proof.
  induction l as [|a l IH]; intros [|b m] E; [reflexivity|specialize (E 0%nat); discriminate E|specialize (E 0%nat); discriminate E|].
  pose proof (E 0%nat) as E0. cbn in E0. injection E0 as ->. f_equal. apply IH. intros k. exact (E (S k)).
Qed.
Lemma given_map flags c ts given : given = List.map (parameter_at flags c ts given) (seq 0 (length given)).
Proof.
  apply nth_error_same. intros k. destruct (Nat.lt_ge_cases k (length given)) as [K|K].
  - rewrite (given_at flags c ts given k K). symmetry. rewrite (map_nth_error _ k (seq 0 (length given)) (d := k)); [reflexivity|]. rewrite nth_error_nth' with (d := 0%nat) by (rewrite seq_length; exact K). rewrite seq_nth by exact K. reflexivity.
  - rewrite (proj2 (nth_error_None given k) K). symmetry. apply nth_error_None. rewrite map_length, seq_length. exact K.
Qed.
Lemma name_parameters_spec flags c ts given : forall rest pre, ts = pre ++ rest -> Forall (fun t => width t = Some (places_of t)) rest ->
  name_parameters (code_locals c) (length pre) (first_place flags pre) rest (List.map (parameter_at flags c ts given) (seq 0 (max (length pre) (length given)))) =
  Some (List.map (parameter_at flags c ts given) (seq 0 (max (length ts) (length given)))).
Proof.
  induction rest as [|t rest IH]; intros pre E W; cbn [name_parameters].
  - rewrite app_nil_r in E. subst pre. reflexivity.
  - inversion W as [|? ? Wt W']; subst x l. rewrite Wt, map_length, seq_length. specialize (IH (pre ++ [t])). rewrite app_length, first_place_snoc in IH. cbn [length] in IH. rewrite Nat.add_1_r in IH.
    rewrite <- IH; [|rewrite <- app_assoc; exact E|exact W']. f_equal. destruct (Nat.leb_spec (max (length pre) (length given)) (length pre)) as [K|K].
    + replace (max (length pre) (length given)) with (length pre) by lia. replace (max (S (length pre)) (length given)) with (S (length pre)) by lia. rewrite seq_S, map_app. cbn [Nat.add List.map]. do 2 f_equal.
      unfold parameter_at at 1. rewrite (proj2 (nth_error_None given (length pre)) ltac:(lia)). rewrite debug_name_spec. subst ts. rewrite firstn_app, Nat.sub_diag, firstn_all. cbn [firstn]. rewrite app_nil_r.
      destruct (find _ (code_locals c)); reflexivity.
    + f_equal. f_equal. lia.
Qed.
Lemma all_parameters_spec flags c nm ts d given ps : fields nm ts d ->
  (all_parameters flags c ts given = Some ps <-> (length given <= length ts)%nat /\ ps = List.map (parameter_at flags c ts given) (seq 0 (length ts))).
Proof.
  intros F. unfold all_parameters. destruct (Nat.ltb_spec (length ts) (length given)) as [K|K]; [split; [discriminate|lia]|].
  pose proof (name_parameters_spec flags c ts given ts [] eq_refl (fields_width nm ts d F)) as E. cbn [length] in E. rewrite Nat.max_0_l, <- given_map in E.
  change (first_place flags []) with ((if bit flags 8 then 0 else 1) + 0) in E. rewrite N.add_0_r in E. rewrite E. rewrite map_length, seq_length. replace (max (length ts) (length given)) with (length ts) by lia.
  rewrite Nat.sub_diag. cbn [seq List.map]. rewrite app_nil_r. split; [intros E2; injection E2 as <-; auto|intros [_ ->]; reflexivity].
Qed.

Lemma describes_fields nm m d : describes nm m d -> exists e, fields nm (parameters m) e.
Proof. intros H. inversion H; subst. eauto. Qed.
Lemma method_ok d : is_some (parse_method_descriptor d) = true <-> exists m, describes any_name m d.
Proof.
  destruct (parse_method_descriptor d) as [t|] eqn:E; cbn [is_some].
  - apply C47_method in E. split; eauto.
  - split; [discriminate|]. intros (t & F). apply C47_method in F. congruence.
Qed.
Lemma decides_member k : decides L (parse_member L cp k) (fun v n x => member_format L cp k (v, n) x).
Proof.
  unfold parse_member. eapply decides_ext.
  { apply decides_then; [intros; apply pure_u2|intros flags ? _ _]. apply decides_then; [intros; apply pure_u2|intros i ? _ _]. apply decides_then; [intros; apply pure_lift|intros name ? _ _].
    apply decides_then; [intros; apply pure_u2|intros j ? _ _]. apply decides_then; [intros; apply pure_lift|intros d ? _ _]. apply decides_then; [intros; apply pure_guard|intros ? ? _ _].
    eapply decides_eq; [intros s b; symmetry; apply (bind_assoc (attribute_count L) (fun k => attributes L cp (N.to_nat k) (member_attribute L cp) (MemberState None [] [] [] (Code None []) [])))|].
    eapply decides_bind; [apply decides_attribute_table with (H := member_step); exact member_handles|intros st n y _ _].
    apply decides_then with (P := fun ps x => x = [] /\ match k with
         | Field => ps = ms_parameters st
         | Method => match parse_method_descriptor (bytes d) with Some m => all_parameters flags (ms_code st) (parameters m) (ms_parameters st) | None => None end = Some ps
         end).
    - intros n'. destruct k; [eapply pure_ext; [apply pure_ret|]|eapply pure_ext; [apply pure_lift|]]; intros ps z _; cbv beta; tauto.
    - intros ps z _ _. apply decides_ret. }
  intros v n x _. unfold member_format. cbn [fst snd]. split.
  - intros (flags & a & w & A & (i & b & w2 & B & (name & w3 & w4 & (E1 & ->) & (j & c & w5 & C & (d & w6 & w7 & (E2 & ->) & (u & w8 & w9 & (G & ->) & (st & n1 & n2 & t & w10 & (l & m & T & F & ->) & (ps & w11 & w12 & (-> & PS) & (-> & -> & ->) & ->) & -> & ->) & ->) & ->) & ->) & ->) & ->) & ->).
    apply member_folds in F. destruct F as (S1 & S2 & S3 & S4 & S5 & _). apply utf8_iff in E1, E2. cbn [access_flags member_name descriptor signature exceptions member_parameters annotations first_line].
    exists a, b, c, l, t, (ms_parameters st), (ms_code st, m). cbn [fst snd]. split; [exact A|]. split; [exists i; auto|]. split; [exists j; auto|]. split; [exact T|]. split; [exact S1|]. split; [exact S2|]. split; [exact S3|]. split; [exact S4|]. split; [exact S5|]. split; [reflexivity|].
    split; [|split; [lia|]; cbn [app]; rewrite app_nil_r; reflexivity].
    destruct k.
    + split; [apply field_ok, G|exact PS].
    + destruct (parse_method_descriptor (bytes d)) as [md|] eqn:PM; [|discriminate PS]. apply C47_method in PM. exists md. split; [exact PM|]. destruct (describes_fields _ _ _ PM) as (e & FE). apply (all_parameters_spec flags _ _ _ e _ _ FE) in PS. exact PS.
  - destruct v as [flags name d sg ex ps an fl]. cbn [access_flags member_name descriptor signature exceptions member_parameters annotations first_line].
    intros (a & b & c & l & t & given & [cd m] & A & (i & I & B) & (j & J & C) & T & S1 & S2 & S3 & S4 & S5 & -> & K & -> & ->). cbn [fst snd] in *.
    assert (G : match k with Field => is_some (parse_field_descriptor (bytes d)) | Method => is_some (parse_method_descriptor (bytes d)) end = true).
    { destruct k; [apply field_ok, K|]. destruct K as (md & K & _). apply method_ok. eauto. }
    assert (PS : match k with
         | Field => ps = given
         | Method => match parse_method_descriptor (bytes d) with Some m => all_parameters flags cd (parameters m) given | None => None end = Some ps
         end).
    { destruct k; [apply K|]. destruct K as (md & K & LE & ->). destruct (describes_fields _ _ _ K) as (e & FE). apply C47_method in K. rewrite K. apply (all_parameters_spec flags _ _ _ e _ _ FE). auto. }
    exists flags, a, (b ++ c ++ t). split; [exact A|]. split; [|reflexivity]. exists i, b, (c ++ t). split; [exact B|]. split; [|reflexivity]. exists name, [], (c ++ t). split; [split; [apply utf8_iff, I|reflexivity]|]. split; [|reflexivity].
    exists j, c, t. split; [exact C|]. split; [|reflexivity]. exists d, [], t. split; [split; [apply utf8_iff, J|reflexivity]|]. split; [|reflexivity]. exists tt, [], t. split; [auto|]. split; [|reflexivity].
    exists (MemberState sg ex given an cd (marks member_names l)), (len l + m), 0, t, []. rewrite app_nil_r, N.add_0_r. split.
    { exists l, m. split; [exact T|]. split; [|reflexivity]. apply member_folds. unfold member_result. cbn [ms_signature ms_exceptions ms_parameters ms_annotations ms_code ms_unique]. auto 10. }
    split; [|auto]. exists ps, [], []. split; [split; [reflexivity|exact PS]|]. auto.
Qed.
Lemma decides_members k : decides L (parse_members L cp k) (fun l n x => exists m, members_format L cp k m x /\ l = List.map fst m /\ n = total m).
Proof.
  unfold parse_members. eapply decides_ext; [apply decides_table, decides_member|]. intros l n x _. unfold members_format.
  assert (EX : forall m, table (max_members L) (fun v => member_format L cp k (fst v, snd v)) m x <-> table (max_members L) (member_format L cp k) m x).
  { intros m. split; intros (y & A & B & C & S); exists y; repeat split; auto; (eapply sequence_ext; [|exact S]); intros [p q] z; auto. }
  split; intros (m & T & R); exists m; (split; [apply EX; exact T|exact R]).
Qed.

(** ** Record components *)
Definition component_step (name : text) (body : list N) (st st' : component_state) (n : N) : Prop :=
  if same name (chars "Signature") then once (co_unique st) name (exists s, (n = 0 /\ refers (string_index cp) s body) /\ st' = ComponentState (Some s) (co_annotations st) (name :: co_unique st))
  else if annotation_attribute name then exists a, (n = 0 /\ annotations_attribute L cp a body) /\ st' = ComponentState (co_signature st) (co_annotations st ++ a) (co_unique st)
  else n = 0 /\ st' = st.
Lemma component_handles name body st : octets body -> decides L (component_attribute L cp name body st) (fun st' n x => x = [] /\ component_step name body st st' n).
Proof.
  intros O. unfold component_attribute, component_step, once. destruct (same name (chars "Signature")).
  { apply (decides_unique L _ name (string_attribute cp body) (fun v u => ComponentState (Some v) _ u) (fun v n => n = 0 /\ refers (string_index cp) v body)). apply decides_body. intros n. apply pure_string, O. }
  destruct (annotation_attribute name).
  { apply (decides_plain L (parse_annotations L cp body) (fun v => ComponentState _ (co_annotations st ++ v) _) (fun v n => n = 0 /\ annotations_attribute L cp v body)). apply decides_body. intros n. apply pure_annotations, O. }
  apply decides_skip.
Qed.
Definition component_names : list text := [chars "Signature"].
Definition component_result (l : list (text * list N)) (st : component_state) (n : N) : Prop :=
  single "Signature" l string_step None (co_signature st) /\ repeated annotation_names l (annotations_attribute L cp) (co_annotations st) /\ n = 0 /\ co_unique st = marks component_names l.
Lemma component_folds l : forall st n, folds component_step l (ComponentState None [] []) st n <-> component_result l st n.
Proof.
  induction l as [|[name body] l IH] using rev_ind; intros st n.
  - unfold component_result. rewrite !single_nil, repeated_nil. split.
    + intros F. inversion F; subst. cbn. auto 10.
    + destruct st as [a b f]. cbn. intros (-> & -> & -> & ->). constructor.
  - rewrite folds_snoc. unfold component_step at 2, once. cbn [fst snd]. destruct (same name (chars "Signature")) eqn:T1.
    { apply same_iff in T1. subst name. unfold component_result. snocs. cbn [fst snd]. split.
      - intros (st' & n1 & n2 & F & (G & v & (-> & V) & ->) & ->). apply IH in F. destruct F as (S1 & S2 & S3 & U). cbn [co_signature co_annotations co_unique].
        rewrite U in G |- *. unseen G. rewrite N.add_0_r. unfold string_step. eauto 12.
      - destruct st as [a b u]. cbn [co_signature co_annotations co_unique]. intros ((A & s & -> & V) & S2 & -> & ->).
        exists (ComponentState None b (marks component_names l)), 0, 0. split; [apply IH; unfold component_result; cbn [co_signature co_annotations co_unique]; rewrite (single_absent _ l _ _ _ A); auto 10|].
        split; [|reflexivity]. split; [apply marks_absent; [cbn; auto|exact A]|]. exists s. auto. }
    assert (TM : existsb (same name) component_names = false) by (cbn [existsb List.map component_names]; rewrite T1; reflexivity).
    destruct (annotation_attribute name) eqn:T4.
    { rewrite annotation_test in T4. unfold component_result. snocs. cbn [fst snd]. split.
      - intros (st' & n1 & n2 & F & (v & (-> & V) & ->) & ->). apply IH in F. destruct F as (S1 & S2 & S3 & U). cbn [co_signature co_annotations co_unique]. rewrite N.add_0_r. eauto 15.
      - destruct st as [a b u]. cbn [co_signature co_annotations co_unique]. intros (S1 & (v1 & v2 & R & V & ->) & -> & ->).
        exists (ComponentState a v1 (marks component_names l)), 0, 0. split; [apply IH; unfold component_result; cbn [co_signature co_annotations co_unique]; auto 10|].
        split; [|reflexivity]. exists v2. auto. }
    rewrite annotation_test in T4. unfold component_result. snocs. split.
    + intros (st' & n1 & n2 & F & (-> & ->) & ->). apply IH in F. rewrite N.add_0_r. exact F.
    + intros R. exists st, n, 0. rewrite N.add_0_r. split; [apply IH; exact R|auto].
Qed.
Lemma decides_record body : octets body -> decides L (parse_record_components L cp body) (fun v n x => x = [] /\ record_attribute L cp (v, n) body).
Proof.
  intros O. unfold parse_record_components. apply (decides_within L body _ (fun c n x => record_attribute L cp (c, n) x)); [exact O|]. eapply decides_ext.
  { apply decides_table with (P := fun v n x => component_format L cp (v, n) x). eapply decides_ext.
    - apply decides_then; [intros; apply pure_u2|intros i ? _ _]. apply decides_then; [intros; apply pure_lift|intros name ? _ _].
      apply decides_then; [intros; apply pure_u2|intros j ? _ _]. apply decides_then; [intros; apply pure_lift|intros d ? _ _]. apply decides_then; [intros; apply pure_guard|intros ? ? _ _].
      eapply decides_eq; [intros s b; symmetry; apply (bind_assoc (attribute_count L) (fun k => attributes L cp (N.to_nat k) (component_attribute L cp) (ComponentState None [] [])))|].
      apply decides_map. apply decides_attribute_table with (H := component_step). exact component_handles.
    - intros v n x _. unfold component_format. cbn [fst snd]. split.
      + intros (i & a & w & A & (name & w2 & w3 & (E1 & ->) & (j & b & w4 & B & (d & w5 & w6 & (E2 & ->) & (u & w7 & w8 & (G & ->) & (st & (l & m & T & F & ->) & ->) & ->) & ->) & ->) & ->) & ->).
        apply component_folds in F. destruct F as (S1 & S2 & -> & _). apply utf8_iff in E1, E2. apply field_ok in G. destruct G as (ty & G). cbn [component_name component_descriptor component_signature component_annotations app].
        exists a, b, l, w8, ty. rewrite N.add_0_r. split; [exists i; auto|]. split; [exists j; auto|]. auto 10.
      + destruct v as [name d sg an]. cbn [component_name component_descriptor component_signature component_annotations]. intros (a & b & l & t & ty & (i & I & A) & (j & J & B) & G & T & S1 & S2 & -> & ->).
        exists i, a, (b ++ t). split; [exact A|]. split; [|reflexivity]. exists name, [], (b ++ t). split; [split; [apply utf8_iff, I|reflexivity]|]. split; [|reflexivity].
        exists j, b, t. split; [exact B|]. split; [|reflexivity]. exists d, [], t. split; [split; [apply utf8_iff, J|reflexivity]|]. split; [|reflexivity]. exists tt, [], t. split; [split; [apply field_ok; eauto|reflexivity]|]. split; [|reflexivity].
        exists (ComponentState sg an (marks component_names l)). split; [|reflexivity]. exists l, 0. rewrite N.add_0_r. split; [exact T|]. split; [|reflexivity]. apply component_folds. unfold component_result. cbn [co_signature co_annotations co_unique]. auto. }
  intros v n x _. unfold record_attribute. cbn [fst snd].
  assert (EX : forall m, table (max_members L) (fun v => component_format L cp (fst v, snd v)) m x <-> table (max_members L) (component_format L cp) m x).
  { intros m. split; intros (y & A & B & C & S); exists y; repeat split; auto; (eapply sequence_ext; [|exact S]); intros [p q] z; auto. }
  split; intros (m & T & R); exists m; (split; [apply EX; exact T|exact R]).
Qed.

(** ** Classes *)
Definition class_step (name : text) (body : list N) (st st' : class_state) (n : N) : Prop :=
  if same name (chars "SourceFile") then once (st_unique st) name (exists s, (n = 0 /\ refers (string_index cp) s body) /\ st' = ClassState (Some s) (st_signature st) (st_annotations st) (st_inner_classes st) (st_record st) (st_module st) (name :: st_unique st))
  else if same name (chars "Signature") then once (st_unique st) name (exists s, (n = 0 /\ refers (string_index cp) s body) /\ st' = ClassState (st_source_file st) (Some s) (st_annotations st) (st_inner_classes st) (st_record st) (st_module st) (name :: st_unique st))
  else if annotation_attribute name then exists a, (n = 0 /\ annotations_attribute L cp a body) /\ st' = ClassState (st_source_file st) (st_signature st) (st_annotations st ++ a) (st_inner_classes st) (st_record st) (st_module st) (st_unique st)
  else if same name (chars "InnerClasses") then once (st_unique st) name (exists i, (n = 0 /\ table (max_members L) (inner_class_entry cp) i body) /\ st' = ClassState (st_source_file st) (st_signature st) (st_annotations st) i (st_record st) (st_module st) (name :: st_unique st))
  else if same name (chars "Record") then once (st_unique st) name (exists r, record_attribute L cp (r, n) body /\ st' = ClassState (st_source_file st) (st_signature st) (st_annotations st) (st_inner_classes st) r (st_module st) (name :: st_unique st))
  else if same name (chars "Module") then once (st_unique st) name (exists m, (n = 0 /\ module_attribute L cp m body) /\ st' = ClassState (st_source_file st) (st_signature st) (st_annotations st) (st_inner_classes st) (st_record st) (Some m) (name :: st_unique st))
  else n = 0 /\ st' = st.
Lemma class_handles name body st : octets body -> decides L (class_attribute L cp name body st) (fun st' n x => x = [] /\ class_step name body st st' n).
Proof.
  intros O. unfold class_attribute, class_step, once. destruct (same name (chars "SourceFile")).
  { apply (decides_unique L _ name (string_attribute cp body) (fun v u => ClassState (Some v) _ _ _ _ _ u) (fun v n => n = 0 /\ refers (string_index cp) v body)). apply decides_body. intros n. apply pure_string, O. }
  destruct (same name (chars "Signature")).
  { apply (decides_unique L _ name (string_attribute cp body) (fun v u => ClassState _ (Some v) _ _ _ _ u) (fun v n => n = 0 /\ refers (string_index cp) v body)). apply decides_body. intros n. apply pure_string, O. }
  destruct (annotation_attribute name).
  { apply (decides_plain L (parse_annotations L cp body) (fun v => ClassState _ _ (st_annotations st ++ v) _ _ _ _) (fun v n => n = 0 /\ annotations_attribute L cp v body)). apply decides_body. intros n. apply pure_annotations, O. }
  destruct (same name (chars "InnerClasses")).
  { apply (decides_unique L _ name (parse_inner_classes L cp body) (fun v u => ClassState _ _ _ v _ _ u) (fun v n => n = 0 /\ table (max_members L) (inner_class_entry cp) v body)). apply decides_body. intros n. apply pure_inner, O. }
  destruct (same name (chars "Record")).
  { apply (decides_unique L _ name (parse_record_components L cp body) (fun v u => ClassState _ _ _ _ v _ u) (fun v n => record_attribute L cp (v, n) body)). apply decides_record, O. }
  destruct (same name (chars "Module")).
  { apply (decides_unique L _ name (parse_module_name L cp body) (fun v u => ClassState _ _ _ _ _ (Some v) u) (fun v n => n = 0 /\ module_attribute L cp v body)). apply decides_body. intros n. apply pure_module, O. }
  apply decides_skip.
Qed.
Definition class_names : list text := List.map chars ["SourceFile"; "Signature"; "InnerClasses"; "Record"; "Module"]%string.
Definition module_step (s : option text) (b : list N) : Prop := exists s', s = Some s' /\ module_attribute L cp s' b.
Definition class_result (l : list (text * list N)) (st : class_state) (n : N) : Prop :=
  single "SourceFile" l string_step None (st_source_file st) /\ single "Signature" l string_step None (st_signature st) /\
  repeated annotation_names l (annotations_attribute L cp) (st_annotations st) /\ single "InnerClasses" l (table (max_members L) (inner_class_entry cp)) [] (st_inner_classes st) /\
  single "Record" l (record_attribute L cp) ([], 0) (st_record st, n) /\ single "Module" l module_step None (st_module st) /\ st_unique st = marks class_names l.
Ltac cst := cbn [st_source_file st_signature st_annotations st_inner_classes st_record st_module st_unique].
Lemma class_folds l : forall st n, folds class_step l (ClassState None None [] [] [] None []) st n <-> class_result l st n.
Proof.
  induction l as [|[name body] l IH] using rev_ind; intros st n.
  - unfold class_result. rewrite !single_nil, repeated_nil. split.
    + intros F. inversion F; subst. cbn. auto 10.
    + destruct st as [a b c d e f g]. cbn. intros (-> & -> & -> & -> & E & -> & ->). injection E as -> ->. constructor.
  - rewrite folds_snoc. unfold class_step at 2, once. cbn [fst snd]. destruct (same name (chars "SourceFile")) eqn:T1.
    { apply same_iff in T1. subst name. unfold class_result. snocs. cbn [fst snd]. split.
      - intros (st' & n1 & n2 & F & (G & v & (-> & V) & ->) & ->). apply IH in F. destruct F as (S1 & S2 & S3 & S4 & S5 & S6 & U). cst.
        rewrite U in G |- *. unseen G. rewrite N.add_0_r. unfold string_step at 1. eauto 14.
      - destruct st as [a b c d e f u]. cst. intros ((A & s & -> & V) & S2 & S3 & S4 & S5 & S6 & ->).
        exists (ClassState None b c d e f (marks class_names l)), n, 0. rewrite N.add_0_r. split; [apply IH; unfold class_result; cst; rewrite (single_absent _ l _ _ _ A); auto 10|].
        split; [|reflexivity]. split; [apply marks_absent; [cbn; auto|exact A]|]. exists s. auto. }
    destruct (same name (chars "Signature")) eqn:T2.
    { apply same_iff in T2. subst name. unfold class_result. snocs. cbn [fst snd]. split.
      - intros (st' & n1 & n2 & F & (G & v & (-> & V) & ->) & ->). apply IH in F. destruct F as (S1 & S2 & S3 & S4 & S5 & S6 & U). cst.
        rewrite U in G |- *. unseen G. rewrite N.add_0_r. unfold string_step at 2. eauto 14.
      - destruct st as [a b c d e f u]. cst. intros (S1 & (A & s & -> & V) & S3 & S4 & S5 & S6 & ->).
        exists (ClassState a None c d e f (marks class_names l)), n, 0. rewrite N.add_0_r. split; [apply IH; unfold class_result; cst; rewrite (single_absent "Signature" l _ _ _ A); auto 10|].
        split; [|reflexivity]. split; [apply marks_absent; [cbn; auto|exact A]|]. exists s. auto. }
    destruct (annotation_attribute name) eqn:T4.
    { rewrite annotation_test in T4. assert (TC : (same name (chars "InnerClasses") = false /\ same name (chars "Record") = false) /\ same name (chars "Module") = false /\ existsb (same name) class_names = false).
      { cbn [existsb List.map annotation_names] in T4. rewrite orb_false_r in T4. apply orb_prop in T4. destruct T4 as [T4|T4]; apply same_iff in T4; subst name; repeat split; reflexivity. }
      destruct TC as [[TC1 TC2] [TC3 TM]]. unfold class_result. snocs. cbn [fst snd]. split.
      - intros (st' & n1 & n2 & F & (v & (-> & V) & ->) & ->). apply IH in F. destruct F as (S1 & S2 & S3 & S4 & S5 & S6 & U). cst. rewrite N.add_0_r. eauto 15.
      - destruct st as [a b c d e f u]. cst. intros (S1 & S2 & (v1 & v2 & R & V & ->) & S4 & S5 & S6 & ->).
        exists (ClassState a b v1 d e f (marks class_names l)), n, 0. rewrite N.add_0_r. split; [apply IH; unfold class_result; cst; auto 10|].
        split; [|reflexivity]. exists v2. auto. }
    rewrite annotation_test in T4. destruct (same name (chars "InnerClasses")) eqn:T3.
    { apply same_iff in T3. subst name. unfold class_result. snocs. cbn [fst snd]. split.
      - intros (st' & n1 & n2 & F & (G & v & (-> & V) & ->) & ->). apply IH in F. destruct F as (S1 & S2 & S3 & S4 & S5 & S6 & U). cst.
        rewrite U in G |- *. unseen G. rewrite N.add_0_r. auto 14.
      - destruct st as [a b c d e f u]. cst. intros (S1 & S2 & S3 & (A & V) & S5 & S6 & ->).
        exists (ClassState a b c [] e f (marks class_names l)), n, 0. rewrite N.add_0_r. split; [apply IH; unfold class_result; cst; rewrite (single_absent "InnerClasses" l _ _ _ A); auto 10|].
        split; [|reflexivity]. split; [apply marks_absent; [cbn; auto|exact A]|]. exists d. auto. }
    destruct (same name (chars "Record")) eqn:T5.
    { apply same_iff in T5. subst name. unfold class_result. snocs. cbn [fst snd]. split.
      - intros (st' & n1 & n2 & F & (G & v & V & ->) & ->). apply IH in F. destruct F as (S1 & S2 & S3 & S4 & S5 & S6 & U). cst.
        rewrite U in G |- *. unseen G. rewrite (single_absent _ l _ _ _ G) in S5. injection S5 as _ ->. rewrite N.add_0_l. auto 14.
      - destruct st as [a b c d e f u]. cst. intros (S1 & S2 & S3 & S4 & (A & V) & S6 & ->).
        exists (ClassState a b c d [] f (marks class_names l)), 0, n. rewrite N.add_0_l. split; [apply IH; unfold class_result; cst; rewrite (single_absent "Record" l _ _ _ A); auto 10|].
        split; [|reflexivity]. split; [apply marks_absent; [cbn; auto|exact A]|]. exists e. auto. }
    destruct (same name (chars "Module")) eqn:T6.
    { apply same_iff in T6. subst name. unfold class_result. snocs. cbn [fst snd]. split.
      - intros (st' & n1 & n2 & F & (G & v & (-> & V) & ->) & ->). apply IH in F. destruct F as (S1 & S2 & S3 & S4 & S5 & S6 & U). cst.
        rewrite U in G |- *. unseen G. rewrite N.add_0_r. unfold module_step. eauto 14.
      - destruct st as [a b c d e f u]. cst. intros (S1 & S2 & S3 & S4 & S5 & (A & s & -> & V) & ->).
        exists (ClassState a b c d e None (marks class_names l)), n, 0. rewrite N.add_0_r. split; [apply IH; unfold class_result; cst; rewrite (single_absent "Module" l _ _ _ A); auto 10|].
        split; [|reflexivity]. split; [apply marks_absent; [cbn; auto 10|exact A]|]. exists s. auto. }
    assert (TM : existsb (same name) class_names = false) by (cbn [existsb List.map class_names]; rewrite T1, T2, T3, T5, T6; reflexivity).
    unfold class_result. snocs. split.
    + intros (st' & n1 & n2 & F & (-> & ->) & ->). apply IH in F. rewrite N.add_0_r. exact F.
    + intros R. exists st, n, 0. rewrite N.add_0_r. split; [apply IH; exact R|auto].
Qed.
End Members.
