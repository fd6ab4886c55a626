(** C115: the Ruby declarations generated for Java classes. *)
From Coq Require Import List Arith NArith Bool String Lia.
From Verif Require Import Archive_Model Archive_Proofs JName_Model JName_Spec JName_Props JStub_Model JStub_Spec.
Import ListNotations.
Local Open Scope list_scope.

Section World.
Variable w : chars.

Definition emits (fs : list fact) (o : option (list fact)) : option (list fact) :=
  option_map (app fs) o.
Lemma emits_nil o : emits [] o = o.
Proof. now destruct o. Qed.
Lemma emit_emits f fs o : emit f (emits fs o) = emits (f :: fs) o.
Proof. now destruct o. Qed.
Lemma emits_emits a b o : emits a (emits b o) = emits (a ++ b) o.
Proof. destruct o; cbn; [now rewrite app_assoc | reflexivity]. Qed.

Lemma read_params ps r st g :
  read (map (fun p => ParamTag (fst p) (snd p)) ps ++ r) st g =
  read r st {| tag_params := tag_params g ++ ps; tag_return := tag_return g;
               tag_type := tag_type g; tag_raise := tag_raise g |}.
Proof.
  revert g. induction ps as [|[n ty] ps IH]; intros g.
  - cbn. rewrite app_nil_r. now destruct g.
  - cbn [map app read fst snd]. rewrite IH. cbn. now rewrite <- app_assoc.
Qed.

Lemma read_field f ls r n v st : write_field w f = Some ls ->
  (v = RPublic) ->
  read (ls ++ r) ((n, v) :: st) no_tags =
  emits (field_facts w (path ((n, v) :: st)) f) (read r ((n, v) :: st) no_tags).
Proof.
  unfold write_field, field_facts. intros E ->. destruct (f_type f) as [ty|]; [|discriminate].
  destruct (is_static (f_flags f) && (is_final (f_flags f) || is_enum_constant (f_flags f))).
  - destruct (valid_constant w (f_name f)); injection E as <-; cbn [app read no_tags tag_type].
    + now destruct (read r _ _).
    + now rewrite emits_nil.
  - destruct (valid_method w (f_name f)); injection E as <-.
    + cbn [app read no_tags tag_type tag_params tag_return tag_raise].
      destruct (is_static (f_flags f)); now destruct (read r _ _).
    + cbn [app]. now rewrite emits_nil.
Qed.

Lemma read_fields l : forall ls r n st, write_fields w l = Some ls ->
  read (ls ++ r) ((n, RPublic) :: st) no_tags =
  emits (flat_map (field_facts w (path ((n, RPublic) :: st))) l) (read r ((n, RPublic) :: st) no_tags).
Proof.
  induction l as [|f l IH]; intros ls r n st E; cbn [write_fields] in E.
  - injection E as <-. cbn [app flat_map]. now rewrite emits_nil.
  - destruct (write_field w f) as [a|] eqn:A; [|discriminate].
    destruct (write_fields w l) as [b|] eqn:B; [|discriminate]. injection E as <-.
    rewrite <- app_assoc, (read_field f a _ n RPublic st A eq_refl), (IH b r n st eq_refl), emits_emits.
    reflexivity.
Qed.

Lemma read_method m ls r n v st : declared w m = true -> v = to_ruby (visibility_of (m_flags m)) ->
  write_method w m = Some ls ->
  read (ls ++ r) ((n, v) :: st) no_tags =
  emits (method_facts w (path ((n, v) :: st)) m) (read r ((n, v) :: st) no_tags).
Proof.
  unfold write_method, method_facts. intros D V E.
  destruct (m_descriptor m) as [[types returns]|]; [|discriminate]. injection E as <-. rewrite D.
  rewrite <- app_assoc, read_params. cbn [no_tags tag_params tag_return tag_type tag_raise].
  fold (singleton m). rewrite <- V.
  destruct (m_exceptions m) as [|e es]; cbn [app read tag_params tag_return tag_type tag_raise ruby_names flat_map];
    now destruct (read r _ _).
Qed.

Lemma keyword_read v : keyword_visibility (visibility_keyword v) = Some (to_ruby v).
Proof. now destruct v. Qed.

Lemma visibility_iff a b : visibility_eqb a b = true <-> a = b.
Proof. destruct a, b; cbn; split; congruence. Qed.

Lemma path_visibility n v v' st : path ((n, v) :: st) = path ((n, v') :: st).
Proof. reflexivity. Qed.

(** The invariant of the loop: the visibility in force is that of the method written
    last. *)
Lemma read_methods l : forall cur ls r n st, write_methods w cur l = Some ls ->
  exists v', read (ls ++ r) ((n, to_ruby cur) :: st) no_tags =
  emits (flat_map (method_facts w (path ((n, RPublic) :: st))) l) (read r ((n, v') :: st) no_tags).
Proof.
  induction l as [|m l IH]; intros cur ls r n st E; cbn [write_methods] in E.
  - injection E as <-. exists (to_ruby cur). cbn [app flat_map]. now rewrite emits_nil.
  - assert (K : declared w m = false -> method_facts w (path ((n, RPublic) :: st)) m = []).
    { intros D. unfold method_facts. rewrite D. now destruct (m_descriptor m) as [[]|]. }
    cbn [flat_map]. destruct (text_eqb (m_name m) (t "<clinit>")) eqn:C.
    { rewrite K by (unfold declared; now rewrite C). apply IH, E. }
    destruct (valid_method w (java_method_name m)) eqn:V; cbn [negb] in E.
    2:{ rewrite K by (unfold declared; now rewrite V, andb_false_r). apply IH, E. }
    assert (D : declared w m = true) by (unfold declared; now rewrite C, V).
    destruct (write_method w m) as [a|] eqn:A; [|discriminate].
    destruct (write_methods w (visibility_of (m_flags m)) l) as [b|] eqn:B; [|discriminate].
    injection E as <-. destruct (IH _ _ r n st B) as [v' IH']. exists v'.
    assert (R : read ((a ++ b) ++ r) ((n, to_ruby (visibility_of (m_flags m))) :: st) no_tags =
      emits (method_facts w (path ((n, RPublic) :: st)) m ++
             flat_map (method_facts w (path ((n, RPublic) :: st))) l)
            (read r ((n, v') :: st) no_tags)).
    { rewrite <- app_assoc, (read_method m a _ n _ st D eq_refl A), IH', emits_emits. reflexivity. }
    destruct (visibility_eqb (visibility_of (m_flags m)) cur) eqn:Q.
    + apply visibility_iff in Q. rewrite <- Q. exact R.
    + rewrite <- app_assoc. cbn [app read]. rewrite keyword_read. exact R.
Qed.

Lemma read_includes l r st :
  read (map IncludeName l ++ r) st no_tags = emits (map (Includes (path st)) l) (read r st no_tags).
Proof.
  induction l as [|n l IH]; cbn [map app read].
  - now rewrite emits_nil.
  - now rewrite IH, emit_emits.
Qed.

Definition under (l : list text) (st : scopes) : scopes := rev (map (fun n => (n, RPublic)) l) ++ st.
Lemma path_under l st : path (under l st) = path st ++ l.
Proof.
  unfold path, under. rewrite map_app, rev_app_distr, map_rev, rev_involutive, map_map. cbn.
  now rewrite map_id.
Qed.

Lemma read_outer l : forall r st,
  read (map (fun o => OpenClass o None) l ++ r) st no_tags =
  emits (map (fun k => IsClass (path st ++ firstn k l) None) (seq 1 (List.length l)))
        (read r (under l st) no_tags).
Proof.
  induction l as [|o l IH]; intros r st; cbn [map app read List.length seq].
  - now rewrite emits_nil.
  - rewrite IH, emit_emits. unfold under. cbn [map rev]. rewrite <- app_assoc. cbn [app].
    rewrite <- (seq_shift (List.length l) 1), map_map. cbn [firstn]. f_equal. f_equal. apply map_ext. intros k.
    cbn [firstn]. unfold path. cbn [map rev fst]. now rewrite <- app_assoc.
Qed.

Lemma read_close {A} (l : list A) : forall (st st' : scopes) r, List.length l = List.length st ->
  read (map (fun _ => Close) l ++ r) (st ++ st') no_tags = read r st' no_tags.
Proof.
  induction l as [|a l IH]; intros [|s st] st' r E; cbn in *; try discriminate; [reflexivity|].
  apply IH. lia.
Qed.

Lemma last_split (l : list text) : l <> [] -> l = removelast l ++ [last_class l].
Proof. intros N. now apply app_removelast_last. Qed.

Lemma classes_some s n : parse (alphabetic w) (alphanumeric w) s = inl n -> classes n <> [].
Proof.
  unfold parse. destruct (rsplit_once slash (normalize s)) as [[p c]|]; [|discriminate].
  destruct (forallb _ (split slash p)); [|discriminate].
  destruct (forallb _ (split dollar c)); [|discriminate].
  intros E. injection E as <-. apply split_some.
Qed.

(** Ruby reads from what is generated the class and nothing else: it is well nested, every
    declaration stands in the right scope, has the tags of its own member, and every
    instance method has its own visibility. *)
Theorem C115_read c n ls : parse (alphabetic w) (alphanumeric w) (c_name c) = inl n ->
  generate w c = inl ls -> ruby_reads ls = Some (class_facts w c n).
Proof.
  intros P G. unfold generate in G. rewrite P in G.
  destruct (write_fields w (c_fields c)) as [fs|] eqn:F; [|discriminate].
  destruct (write_methods w Public (c_methods c)) as [ms|] eqn:M; [|discriminate].
  injection G as <-. assert (N := classes_some _ _ P). assert (L := last_split _ N).
  set (o := removelast (classes n)) in *. set (z := last_class (classes n)) in *.
  set (base := [(package_proxy_module n, RPublic); (java, RPublic)]).
  assert (PB : path base = [java; package_proxy_module n]) by reflexivity.
  assert (PZ : path ((z, RPublic) :: under o base) = ruby_namespace_parts n).
  { unfold path. cbn [map rev fst]. fold (path (under o base)). rewrite path_under, PB.
    unfold ruby_namespace_parts. rewrite L. now rewrite <- app_assoc. }
  assert (B : read (map IncludeName (ruby_names w (c_interfaces c)) ++ fs ++ ms
                    ++ Close :: map (fun _ => Close) o ++ [Close; Close])
                   ((z, RPublic) :: under o base) no_tags =
    Some (include_facts w c n ++ flat_map (field_facts w (ruby_namespace_parts n)) (c_fields c)
          ++ flat_map (method_facts w (ruby_namespace_parts n)) (c_methods c))).
  { rewrite read_includes, (read_fields _ _ _ _ _ F).
    destruct (read_methods _ _ _ (Close :: map (fun _ => Close) o ++ [Close; Close]) z (under o base) M)
      as [v' R]. cbn [to_ruby] in R. rewrite R, PZ. cbn [read].
    unfold under. rewrite read_close by now rewrite rev_length, map_length.
    cbn. unfold include_facts. now rewrite app_nil_r. }
  unfold ruby_reads. cbn [read app]. change (path [] ++ [java]) with [java].
  change (path [(java, RPublic)] ++ [package_proxy_module n]) with [java; package_proxy_module n].
  fold base. rewrite read_outer.
  assert (T : forall k, k <= List.length o -> firstn k o = firstn k (classes n)).
  { intros k K. rewrite L, firstn_app. replace (k - List.length o) with 0 by lia.
    now rewrite firstn_O, app_nil_r. }
  assert (LO : List.length (classes n) - 1 = List.length o).
  { rewrite L, app_length. cbn. lia. }
  assert (PO : path (under o base) ++ [z] = ruby_namespace_parts n) by exact PZ.
  assert (D : read ((if declared_module c then OpenModule z else OpenClass z (superclass w c))
      :: map IncludeName (ruby_names w (c_interfaces c)) ++ fs ++ ms
                    ++ Close :: map (fun _ => Close) o ++ [Close; Close]) (under o base) no_tags =
    emit (if declared_module c then IsModule (ruby_namespace_parts n)
          else IsClass (ruby_namespace_parts n) (superclass w c))
      (Some (include_facts w c n ++ flat_map (field_facts w (ruby_namespace_parts n)) (c_fields c)
          ++ flat_map (method_facts w (ruby_namespace_parts n)) (c_methods c)))).
  { destruct (declared_module c); cbn [read]; now rewrite B, PO. }
  rewrite D. unfold class_facts, scope_facts. rewrite LO, PB. cbn [emit emits option_map app].
  f_equal. f_equal. f_equal. rewrite <- app_assoc. f_equal.
  apply map_ext_in. intros k K. apply in_seq in K. now rewrite T by lia.
Qed.

(** It is generated exactly if the class can be written. *)
Theorem C115_writable c : (exists ls, generate w c = inl ls) <-> writable w c.
Proof.
  assert (F : forall l, (exists ls, write_fields w l = Some ls) <-> forall f, In f l -> f_type f <> None).
  { induction l as [|f l IH]; cbn [write_fields].
    - split; [intros _ f [] | intros _; now exists []].
    - assert (X : (exists a, write_field w f = Some a) <-> f_type f <> None).
      { unfold write_field. destruct (f_type f) as [ty|].
        - split; [discriminate|]. intros _.
          destruct (is_static (f_flags f) && (is_final (f_flags f) || is_enum_constant (f_flags f)));
            eexists; reflexivity.
        - split; [intros [a E]; discriminate | congruence]. }
      destruct (write_field w f) as [a|], (write_fields w l) as [b|]; split.
      + intros _ g [<-|I]; [apply X; now exists a | apply IH; [now exists b | exact I]].
      + intros _. now exists (a ++ b).
      + intros [ls E]; discriminate.
      + intros H. destruct (proj2 IH) as [ls E]; [|discriminate]. intros g I. apply H. now right.
      + intros [ls E]; discriminate.
      + intros H. destruct (proj2 X) as [ls E]; [|discriminate]. apply H. now left.
      + intros [ls E]; discriminate.
      + intros H. destruct (proj2 X) as [ls E]; [|discriminate]. apply H. now left. }
  assert (M : forall l cur, (exists ls, write_methods w cur l = Some ls) <->
    forall m, In m l -> declared w m = true -> m_descriptor m <> None).
  { induction l as [|m l IH]; intros cur; cbn [write_methods].
    - split; [intros _ f [] | intros _; now exists []].
    - assert (S1 : declared w m = false ->
        ((forall m0, In m0 (m :: l) -> declared w m0 = true -> m_descriptor m0 <> None) <->
         (forall m0, In m0 l -> declared w m0 = true -> m_descriptor m0 <> None))).
      { intros D. split; intros H m0 I; [apply H; now right|].
        destruct I as [<-|I]; [congruence | now apply H]. }
      destruct (text_eqb (m_name m) (t "<clinit>")) eqn:C.
      { rewrite S1; [apply IH | unfold declared; now rewrite C]. }
      destruct (valid_method w (java_method_name m)) eqn:V; cbn [negb].
      2:{ rewrite S1; [apply IH | unfold declared; now rewrite V, andb_false_r]. }
      assert (D : declared w m = true) by (unfold declared; now rewrite C, V).
      specialize (IH (visibility_of (m_flags m))).
      assert (X : (exists a, write_method w m = Some a) <-> m_descriptor m <> None).
      { unfold write_method. destruct (m_descriptor m) as [[ty re]|].
        - split; [discriminate|]. intros _. eexists; reflexivity.
        - split; [intros [a E]; discriminate | congruence]. }
      destruct (write_method w m) as [a|], (write_methods w (visibility_of (m_flags m)) l) as [b|];
        split.
      + intros _ g [<-|I] DG; [apply X; now exists a | apply IH; [now exists b | exact I | exact DG]].
      + intros _. eexists; reflexivity.
      + intros [ls E]; discriminate.
      + intros H. destruct (proj2 IH) as [ls E]; [|discriminate]. intros g I. apply H. now right.
      + intros [ls E]; discriminate.
      + intros H. destruct (proj2 X) as [ls E]; [|discriminate]. apply H; [now left | exact D].
      + intros [ls E]; discriminate.
      + intros H. destruct (proj2 X) as [ls E]; [|discriminate]. apply H; [now left | exact D]. }
  unfold generate, writable. specialize (F (c_fields c)). specialize (M (c_methods c) Public).
  destruct (parse (alphabetic w) (alphanumeric w) (c_name c)) as [n|e].
  - destruct (write_fields w (c_fields c)) as [fs|].
    + destruct (write_methods w Public (c_methods c)) as [ms|].
      * split; [intros _ | intros _; eexists; reflexivity].
        split; [now exists n|]. split; [apply F; now exists fs | apply M; now exists ms].
      * split; [intros [ls E]; discriminate|]. intros (_ & _ & H). destruct (proj2 M H). discriminate.
    + split; [intros [ls E]; discriminate|]. intros (_ & H & _). destruct (proj2 F H). discriminate.
  - split; [intros [ls E]; discriminate | intros ([n E] & _); discriminate].
Qed.

(** The documented parameters are those of the definition, by name and in order, and only
    the last of a varargs method is a splat. *)
Theorem C115_parameters m types returns : m_descriptor m = Some (types, returns) ->
  List.length (m_names m) = List.length types ->
  map fst (param_tags w 0 (m_names m) types) =
    map snd (parameters_from w (is_varargs (m_flags m)) 0 (m_names m)) /\
  map snd (param_tags w 0 (m_names m) types) = map (ruby_type w) types /\
  forall i b x, nth_error (parameters_from w (is_varargs (m_flags m)) 0 (m_names m)) i = Some (b, x) ->
    (b = true <-> is_varargs (m_flags m) = true /\ S i = List.length types).
Proof.
  intros _. generalize (is_varargs (m_flags m)) as va. intros va. generalize (m_names m) as ns. intros ns E.
  assert (K : forall j, map fst (param_tags w j ns types) = map snd (parameters_from w va j ns) /\
    map snd (param_tags w j ns types) = map (ruby_type w) types /\
    forall i b x, nth_error (parameters_from w va j ns) i = Some (b, x) ->
      (b = true <-> va = true /\ S i = List.length types)).
  { revert ns E. induction types as [|ty types IH]; intros [|n ns] E j; cbn in E; try discriminate.
    - cbn. split; [reflexivity|]. split; [reflexivity|]. intros [|i] b x X; discriminate.
    - injection E as E. destruct (IH ns E (S j)) as (A & B & C).
      cbn [param_tags parameters_from map fst snd tl]. rewrite A, B.
      split; [reflexivity|]. split; [reflexivity|]. intros [|i] b x X; cbn [nth_error] in X.
      + injection X as <- _. rewrite andb_true_iff. cbn [List.length].
        destruct ns as [|n2 ns], types as [|t2 types]; cbn in *; try discriminate.
        * tauto.
        * split; intros [_ Q]; discriminate.
      + rewrite (C i b x X). cbn [List.length]. split; intros [Q1 Q2]; (split; [exact Q1 | lia]). }
  apply (K 0).
Qed.
End World.
Print Assumptions C115_read.
Print Assumptions C115_writable.
Print Assumptions C115_parameters.

(** ** Examples *)
Definition ascii_chars : chars :=
  {| alphabetic := letter; alphanumeric := letter_or_digit;
     lowercase := fun c => (97 <=? c) && (c <=? 122); uppercase := fun c => (65 <=? c) && (c <=? 90);
     decimal := fun i => [48 + i] |}.
Definition mk_method (n : string) (flags : N) (ns : list string) (ts : list jtype) (r : jtype) : method :=
  {| m_name := t n; m_flags := flags; m_names := map t ns; m_descriptor := Some (ts, r);
     m_exceptions := [] |}.
Definition mk_class (n : string) (flags : N) (fs : list field) (ms : list method) : class_file :=
  {| c_name := t n; c_flags := flags; c_record := false; c_super := Some (t "java/lang/Object");
     c_interfaces := []; c_fields := fs; c_methods := ms |}.

Definition facts (c : class_file) (fs : list fact) : Prop :=
  exists ls, generate ascii_chars c = inl ls /\ ruby_reads ls = Some fs.
Definition called (n : text) (f : fact) : Prop :=
  match f with
  | HasMethod _ _ _ m _ _ => m = n
  | HasConstant _ m _ => m = n
  | _ => False
  end.
Lemma facts_compute c fs :
  match generate ascii_chars c with inl ls => ruby_reads ls | inr _ => None end = Some fs -> facts c fs.
Proof.
  unfold facts. destruct (generate ascii_chars c) as [ls|]; [|discriminate]. intros E. now exists ls.
Qed.
Definition returning (s : string) : tags :=
  {| tag_params := []; tag_return := Some (t s); tag_type := None; tag_raise := [] |}.
Definition object : option text := Some (t "Java::JavaLang::Object").

(** A nested class with a public, a protected and again a public method. *)
Definition ex_class : class_file := mk_class "a/b/Outer$Inner" 1
  [{| f_name := t "MAX"; f_flags := 25; f_type := Some JInt |}]
  [mk_method "first" 1 [] [] JInt; mk_method "<clinit>" 8 [] [] JVoid;
   mk_method "second" 4 ["x"; "ID"]%string [JInt; JObject (t "java/lang/String")] JVoid;
   mk_method "third" 129 ["rest"]%string [JArray JLong] JBoolean].
Definition inner : list text := [java; t "AB"; t "Outer"; t "Inner"].
Example ex_generate : facts ex_class
  [IsModule [java]; IsModule [java; t "AB"]; IsClass [java; t "AB"; t "Outer"] None;
   IsClass inner object;
   HasConstant inner (t "MAX") (Some (t "Integer"));
   HasMethod inner RPublic false (t "first") [] (returning "Integer");
   HasMethod inner RProtected false (t "second") [(false, t "x"); (false, t "arg1")]
     {| tag_params := [(t "x", t "Integer"); (t "arg1", t "Java::JavaLang::String")];
        tag_return := Some (t "nil"); tag_type := None; tag_raise := [] |};
   HasMethod inner RPublic false (t "third") [(true, t "rest")]
     {| tag_params := [(t "rest", t "Array<Integer>")]; tag_return := Some (t "Boolean");
        tag_type := None; tag_raise := [] |}].
Proof. apply facts_compute. vm_compute. reflexivity. Qed.
Example ex_writable : writable ascii_chars ex_class.
Proof. apply C115_writable. destruct ex_generate as (ls & G & _). now exists ls. Qed.

(** ** Corners *)
Definition aa : list text := [java; t "A"; t "A"].
Definition aa_facts : list fact := [IsModule [java]; IsModule [java; t "A"]; IsClass aa object].

(** The public method next of an iterator is not declared at all: next is a keyword, though
    Ruby's methods may be called so. *)
Theorem C115_next_refuted : exists c fs m,
  In m (c_methods c) /\ m_name m = t "next" /\ visibility_of (m_flags m) = Public /\
  facts c fs /\ forall f, In f fs -> ~ called (m_name m) f.
Proof.
  exists (mk_class "java/util/Iterator" 1537
            [] [mk_method "next" 1025 [] [] (JObject (t "java/lang/Object"))]),
    [IsModule [java]; IsModule [java; t "JavaUtil"]; IsModule [java; t "JavaUtil"; t "Iterator"]],
    (mk_method "next" 1025 [] [] (JObject (t "java/lang/Object"))).
  split; [now left|]. split; [reflexivity|]. split; [reflexivity|].
  split; [apply facts_compute; vm_compute; reflexivity|].
  intros f [<-|[<-|[<-|[]]]]; exact (fun F => F).
Qed.
Print Assumptions C115_next_refuted.

(** A private static method, and a private constructor, are public in Ruby. *)
Theorem C115_static_refuted : exists c fs,
  (forall m, In m (c_methods c) -> visibility_of (m_flags m) = Private) /\ facts c fs /\
  exists p ps1 ps2 d1 d2, In (HasMethod p RPublic true (t "new") ps1 d1) fs /\
    In (HasMethod p RPublic true (t "secret") ps2 d2) fs.
Proof.
  exists (mk_class "a/A" 1 [] [mk_method "<init>" 2 [] [] JVoid; mk_method "secret" 10 [] [] JInt]),
    (aa_facts ++ [HasMethod aa RPublic true (t "new") [] (returning "nil");
                  HasMethod aa RPublic true (t "secret") [] (returning "Integer")]).
  split; [intros m [<-|[<-|[]]]; reflexivity|].
  split; [apply facts_compute; vm_compute; reflexivity|].
  exists aa, [], [], (returning "nil"), (returning "Integer").
  split; apply in_or_app; right; [now left | right; now left].
Qed.
Print Assumptions C115_static_refuted.

(** A private field, final besides, has a public reader and a public writer. *)
Theorem C115_field_refuted : exists c fs f,
  In f (c_fields c) /\ visibility_of (f_flags f) = Private /\ is_final (f_flags f) = true /\
  facts c fs /\ exists p ps1 d1 ps2 d2,
    In (HasMethod p RPublic false (f_name f) ps1 d1) fs /\
    In (HasMethod p RPublic false (f_name f ++ t "=") ps2 d2) fs.
Proof.
  set (f := {| f_name := t "secret"; f_flags := 18; f_type := Some JInt |}).
  set (d := {| tag_params := [(t "value", t "Integer")]; tag_return := None; tag_type := None;
               tag_raise := [] |}).
  exists (mk_class "a/A" 1 [f] []),
    (aa_facts ++ [HasMethod aa RPublic false (f_name f) [] (returning "Integer");
                  HasMethod aa RPublic false (f_name f ++ t "=") [(false, t "value")] d]), f.
  split; [now left|]. split; [reflexivity|]. split; [reflexivity|].
  split; [apply facts_compute; vm_compute; reflexivity|].
  exists aa, [], (returning "Integer"), [(false, t "value")], d.
  split; apply in_or_app; right; [now left | right; now left].
Qed.
Print Assumptions C115_field_refuted.

(** A constant of the class whose name begins with a small letter is not declared. *)
Theorem C115_constant_lost_refuted : exists c fs f,
  In f (c_fields c) /\ visibility_of (f_flags f) = Public /\ facts c fs /\
  forall x, In x fs -> ~ called (f_name f) x.
Proof.
  set (f := {| f_name := t "separator"; f_flags := 25; f_type := Some JInt |}).
  exists (mk_class "a/A" 1 [f] []), aa_facts, f.
  split; [now left|]. split; [reflexivity|].
  split; [apply facts_compute; vm_compute; reflexivity|].
  intros x [<-|[<-|[<-|[]]]]; exact (fun F => F).
Qed.
Print Assumptions C115_constant_lost_refuted.

(** What new returns is documented as nil. *)
Theorem C115_constructor_refuted : exists c fs m,
  In m (c_methods c) /\ m_name m = t "<init>" /\ facts c fs /\
  exists p v ps d, In (HasMethod p v true (t "new") ps d) fs /\ tag_return d = Some (t "nil").
Proof.
  exists (mk_class "a/A" 1 [] [mk_method "<init>" 1 [] [] JVoid]),
    (aa_facts ++ [HasMethod aa RPublic true (t "new") [] (returning "nil")]),
    (mk_method "<init>" 1 [] [] JVoid).
  split; [now left|]. split; [reflexivity|].
  split; [apply facts_compute; vm_compute; reflexivity|].
  exists aa, RPublic, [], (returning "nil").
  split; [apply in_or_app; right; now left | reflexivity].
Qed.
Print Assumptions C115_constructor_refuted.

(** Two parameters of one definition, with different names in Java, have the same name,
    which Ruby does not accept. *)
Theorem C115_twice_refuted : exists c fs m,
  In m (c_methods c) /\ NoDup (m_names m) /\ facts c fs /\
  exists p v s n ps d, In (HasMethod p v s n ps d) fs /\ ~ NoDup (map snd ps).
Proof.
  set (d := {| tag_params := [(t "arg1", t "Integer"); (t "arg1", t "Integer")];
               tag_return := Some (t "nil"); tag_type := None; tag_raise := [] |}).
  exists (mk_class "a/A" 1 [] [mk_method "go" 1 ["arg1"; "end"]%string [JInt; JInt] JVoid]),
    (aa_facts ++ [HasMethod aa RPublic false (t "go") [(false, t "arg1"); (false, t "arg1")] d]),
    (mk_method "go" 1 ["arg1"; "end"]%string [JInt; JInt] JVoid).
  split; [now left|]. split.
  { constructor; [intros [E|[]]; discriminate|]. constructor; [intros []|constructor]. }
  split; [apply facts_compute; vm_compute; reflexivity|].
  exists aa, RPublic, false, (t "go"), [(false, t "arg1"); (false, t "arg1")], d.
  split; [apply in_or_app; right; now left|].
  cbn [map snd]. intros D. inversion D as [|x l N D' E]. apply N. now left.
Qed.
Print Assumptions C115_twice_refuted.

(** An interface is a module by its own file and a class by that of a class in it: the two
    files contradict each other. *)
Theorem C115_outer_refuted : exists c1 c2 fs1 fs2 p,
  facts c1 fs1 /\ facts c2 fs2 /\ In (IsModule p) fs1 /\ In (IsClass p None) fs2.
Proof.
  set (p := [java; t "JavaUtil"; t "Map"]).
  exists (mk_class "java/util/Map" 1537 [] []), (mk_class "java/util/Map$Entry" 1537 [] []),
    [IsModule [java]; IsModule [java; t "JavaUtil"]; IsModule p],
    [IsModule [java]; IsModule [java; t "JavaUtil"]; IsClass p None; IsModule (p ++ [t "Entry"])], p.
  split; [apply facts_compute; vm_compute; reflexivity|].
  split; [apply facts_compute; vm_compute; reflexivity|].
  split; right; right; now left.
Qed.
Print Assumptions C115_outer_refuted.

(** ** The flags and types are read as the JVM specification has them *)
Lemma flag_bit f k : has_flag f (2 ^ k)%N <-> N.testbit f k = true.
Proof.
  unfold has_flag. split.
  - intros H. destruct (N.testbit f k) eqn:E; [reflexivity|]. exfalso. apply H. apply N.bits_inj. intros j.
    rewrite N.land_spec, N.pow2_bits_eqb, N.bits_0. destruct (N.eqb_spec k j) as [<-|_];
      [now rewrite E | apply andb_false_r].
  - intros E H. assert (K : N.testbit (N.land f (2 ^ k)%N) k = true)
      by now rewrite N.land_spec, N.pow2_bits_true, E.
    rewrite H, N.bits_0 in K. discriminate.
Qed.

Lemma visibility_bits f v : jvm_visibility f v -> visibility_of f = v.
Proof.
  intros H. unfold jvm_visibility in H.
  assert (B : forall k, N.testbit 7%N k = true -> N.testbit f k = N.testbit (N.land f 7%N) k)
    by (intros k K; now rewrite N.land_spec, K, andb_true_r).
  unfold visibility_of. rewrite (B 0%N), (B 1%N), (B 2%N), H by reflexivity. now destruct v.
Qed.

Theorem C115_flags f :
  (forall v, jvm_visibility f v -> visibility_of f = v) /\
  (is_static f = true <-> has_flag f ACC_STATIC) /\
  (is_final f = true <-> has_flag f ACC_FINAL) /\
  (is_varargs f = true <-> has_flag f ACC_VARARGS) /\
  (is_enum_constant f = true <-> has_flag f ACC_ENUM).
Proof.
  split; [intros v; apply visibility_bits|].
  repeat split; intros H.
  1: apply (flag_bit f 3%N), H. 1: apply (flag_bit f 3%N), H.
  1: apply (flag_bit f 4%N), H. 1: apply (flag_bit f 4%N), H.
  1: apply (flag_bit f 7%N), H. 1: apply (flag_bit f 7%N), H.
  1: apply (flag_bit f 14%N), H. apply (flag_bit f 14%N), H.
Qed.
Print Assumptions C115_flags.

(** A module of Ruby is what is an interface, an annotation or a module of Java; enums and
    records are classes. *)
Theorem C115_kind c :
  declared_module c = true <->
  has_flag (c_flags c) ACC_MODULE \/ has_flag (c_flags c) ACC_ANNOTATION \/
  has_flag (c_flags c) ACC_INTERFACE /\ ~ has_flag (c_flags c) ACC_ENUM /\ c_record c = false.
Proof.
  change ACC_MODULE with (2 ^ 15)%N. change ACC_ANNOTATION with (2 ^ 13)%N.
  change ACC_INTERFACE with (2 ^ 9)%N. change ACC_ENUM with (2 ^ 14)%N.
  rewrite !flag_bit. unfold declared_module, kind.
  destruct (N.testbit (c_flags c) 15%N), (N.testbit (c_flags c) 13), (N.testbit (c_flags c) 14), (c_record c),
    (N.testbit (c_flags c) 9); intuition discriminate.
Qed.
Print Assumptions C115_kind.

Theorem C115_types w j x : ruby_type w j = x <-> ruby_of w j x.
Proof.
  split.
  - intros <-. induction j; cbn [ruby_type]; try (now constructor; cbn; tauto).
    destruct (parse (alphabetic w) (alphanumeric w) name) eqn:E; [now apply O_class | apply O_other; intros m; congruence].
  - induction 1 as [j H|j H| | |s n H|s H|j x H IH].
    + cbn in H. repeat (destruct H as [<-|H]; [reflexivity|]). destruct H.
    + cbn in H. repeat (destruct H as [<-|H]; [reflexivity|]). destruct H.
    + reflexivity.
    + reflexivity.
    + cbn [ruby_type]. now rewrite H.
    + cbn [ruby_type]. destruct (parse (alphabetic w) (alphanumeric w) s) as [n|] eqn:E; [now elim (H n) | reflexivity].
    + cbn [ruby_type]. now rewrite IH.
Qed.
Print Assumptions C115_types.

(** [protected static final int[][]], and [java.util.Map] itself. *)
Example flags_case : jvm_visibility 0x001c%N Protected /\ has_flag 0x001c%N ACC_STATIC /\ has_flag 0x001c%N ACC_FINAL /\
  ~ has_flag 0x001c%N ACC_VARARGS /\ has_flag 1537%N ACC_INTERFACE /\ ~ has_flag 1537%N ACC_ENUM.
Proof. repeat split; try discriminate; intros H; now apply H. Qed.
Example types_case : ruby_of ascii_chars (JArray (JArray JInt)) (t "Array<Array<Integer>>").
Proof. apply C115_types. reflexivity. Qed.
