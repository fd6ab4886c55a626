(** C118: signatures made from RBS. *)
From Coq Require Import List Arith Bool Lia.
From Verif Require Import Types_Model Types_Spec Types_Order Types_Union RbsConv_Model RbsConv_Spec RbsConv_Props
  HigherOrder_Model HigherOrder_Spec HigherOrder_Props RbsSig_Model RbsSig_Spec.
Import ListNotations.

Lemma mem_iff n l : existsb (Nat.eqb n) l = true <-> In n l.
Proof.
  rewrite existsb_exists. split.
  - intros (m & I1 & E). apply Nat.eqb_eq in E. now subst m.
  - intros I1. exists n. split; [exact I1 | apply Nat.eqb_refl].
Qed.

Section Meaning.
Variable constant : nat -> bool.
Variable named : meaning.
Variable int : nat -> val.
Variable interface : nat -> val -> Prop.
Variables self instance class_of : val -> Prop.
Notation R := (rden named int interface self instance class_of).
Notation T := (tden named self).

Lemma concrete_class n t : concrete constant (RClass n) = Fine t -> t = Concrete (TClass (const_name (plain n))).
Proof.
  unfold concrete. cbn [conv]. unfold class_type.
  destruct (existsb (Nat.eqb (plain n)) core_names); [cbn; intros E; now injection E as <-|].
  destruct (constant (plain n)); cbn; intros E; [now injection E as <- | discriminate].
Qed.

(** The template has the values of the RBS type, whatever the variables stand for. *)
Theorem C118_template params A r : plainly params r ->
  forall depth t, template_of constant params depth r = Fine t ->
  forall v, R (bound params A) r v <-> T A t v.
Proof.
  induction 1 as [n I1|n H NB|n args H HA IH|l H IH|a H IH|l H|r H]; intros depth t; cbn [template_of];
    try (destruct (max_template_depth <? depth); [discriminate|]).
  - intros E v. injection E as <-. cbn. unfold bound. apply mem_iff in I1. now rewrite I1.
  - intros E v. cbn [rden]. unfold bound.
    destruct (absolute n) eqn:AB; cbn [negb andb] in E.
    + apply concrete_class in E. subst t. reflexivity.
    + destruct (existsb (Nat.eqb (plain n)) params) eqn:M; [injection E as <-; reflexivity|].
      destruct (Nat.eqb_spec (plain n) boolish_text) as [B|_]; [contradiction|].
      apply concrete_class in E. subst t. reflexivity.
  - intros E v.
    assert (K : existsb (Nat.eqb (plain n)) params = true -> absolute n = false).
    { intros M. destruct (absolute n) eqn:AB; [|reflexivity]. apply mem_iff in M. now elim (H eq_refl). }
    assert (C : (match args with [] => existsb (Nat.eqb (plain n)) params | _ => false end) = false ->
      R (bound params A) (RGeneric n args) v <->
      (if plain n =? array_text then
        exists vs, v = VArr vs /\ match args with [a] => forall x, In x vs -> R (bound params A) a x | _ => True end
      else if plain n =? hash_text then
        exists es, v = VHash es /\ match args with
          | [k; w] => forall x y, In (x, y) es -> R (bound params A) k x /\ R (bound params A) w y | _ => True end
      else of_class named (plain n) v)).
    { intros M. cbn [rden]. destruct args as [|a args]; [|reflexivity]. unfold bound. rewrite M.
      destruct (absolute n); reflexivity. }
    destruct (match args with [] => existsb (Nat.eqb (plain n)) params | _ => false end) eqn:M.
    { injection E as <-. destruct args; [|discriminate]. cbn [rden]. rewrite (K M). unfold bound. now rewrite M. }
    rewrite (C eq_refl). clear C.
    destruct (plain n =? array_text) eqn:NA.
    { destruct args as [|e [|e2 args]]; try discriminate. apply andthen_fine in E. destruct E as (t' & E1 & E).
      injection E as <-. cbn [tden]. assert (W := IH e (or_introl eq_refl) _ _ E1).
      split; intros (vs & -> & V); exists vs; (split; [reflexivity|]); intros x X; apply W, V, X. }
    destruct (plain n =? hash_text) eqn:NH.
    { destruct args as [|k [|w [|e3 args]]]; try discriminate. apply andthen_fine in E. destruct E as (k' & E1 & E).
      apply andthen_fine in E. destruct E as (w' & E2 & E). injection E as <-. cbn [tden].
      assert (W1 := IH k (or_introl eq_refl) _ _ E1). assert (W2 := IH w (or_intror (or_introl eq_refl)) _ _ E2).
      split; intros (es & -> & V); exists es; (split; [reflexivity|]); intros x y X; destruct (V x y X) as [V1 V2];
        (split; [apply W1, V1 | apply W2, V2]). }
    assert (Z : t = Concrete (TClass (const_name (plain n)))).
    { apply concrete_class. revert E. unfold concrete. cbn [conv]. now rewrite NA, NH. }
    subst t. reflexivity.
  - destruct (max_union_variants <? length l); [discriminate|]. intros E v. apply andthen_fine in E.
    destruct E as (l' & E1 & E). injection E as <-. apply all_fine_iff in E1. cbn [rden tden].
    clear H. revert IH. induction E1 as [|a b l l' E E1 IH1]; intros IH; [reflexivity|].
    specialize (IH1 (fun a I1 => IH a (or_intror I1))). assert (W := IH a (or_introl eq_refl) _ _ E).
    unfold ors in *. cbn [map In]. split; intros (P & [<-|P1] & V).
    + exists (T A b). split; [now left | now apply W].
    + destruct (proj1 IH1 (ex_intro _ P (conj P1 V))) as (Q & Q1 & Q2). exists Q. auto.
    + exists (R (bound params A) a). split; [now left | now apply W].
    + destruct (proj2 IH1 (ex_intro _ P (conj P1 V))) as (Q & Q1 & Q2). exists Q. auto.
  - intros E v. apply andthen_fine in E. destruct E as (t' & E1 & E). injection E as <-.
    assert (W := IH _ _ E1). cbn [rden tden]. split.
    + intros [V|V]; [exists (T A t') | exists (T A (Concrete nil_class))]; (split; [cbn; auto|]); [now apply W | exact V].
    + intros (P & [<-|[<-|[]]] & V); [right; exact V | left; now apply W].
  - destruct l as [s|s|s| |]; cbn; intros E v; injection E as <-; try reflexivity. now elim (H s).
  - cbn in H. destruct H as [<-|[<-|[<-|[<-|[<-|[]]]]]]; cbn [template_of];
      (destruct (max_template_depth <? depth); [discriminate|]); intros E v; injection E as <-;
      try reflexivity. cbn [rden tden]. change (conv constant RBool) with boolean. unfold boolean. rewrite den_union. split.
    + intros [V|V]; [exists (TClass (const_name true_text)) | exists (TClass (const_name false_text))];
        cbn [In]; auto.
    + intros (x & [<-|[<-|[]]] & V); [now right | now left].
Qed.

(** ** Parameters *)
Lemma filter_rel {X Y} (q : X -> bool) (q' : Y -> bool) (P : X -> Y -> Prop) l l' :
  (forall x y, P x y -> q x = q' y) -> Forall2 P l l' -> Forall2 P (filter q l) (filter q' l').
Proof.
  intros E. induction 1 as [|x y l l' H F IH]; cbn; [constructor|]. rewrite (E x y H).
  destruct (q' y); [now constructor | exact IH].
Qed.
Lemma find_rel {X Y} (q : X -> bool) (q' : Y -> bool) (P : X -> Y -> Prop) l l' :
  (forall x y, P x y -> q x = q' y) -> Forall2 P l l' ->
  match find q l, find q' l' with Some x, Some y => P x y | None, None => True | _, _ => False end.
Proof.
  intros E. induction 1 as [|x y l l' H F IH]; cbn; [exact Logic.I|]. rewrite (E x y H).
  destruct (q' y); [exact H | exact IH].
Qed.
Lemma nth_rel {X Y} (P : X -> Y -> Prop) l l' i : Forall2 P l l' ->
  match nth_error l i, nth_error l' i with Some x, Some y => P x y | None, None => True | _, _ => False end.
Proof.
  intros F. revert i. induction F as [|x y l l' H F IH]; intros [|i]; cbn; try exact Logic.I; [exact H | apply IH].
Qed.
Lemma parameter_at_rel {X Y} (P : X -> Y -> Prop) l l' i :
  Forall2 (fun (x : param_kind * X) (y : param_kind * Y) => fst x = fst y /\ P (snd x) (snd y)) l l' ->
  match parameter_at l i, parameter_at l' i with Some x, Some y => P x y | None, None => True | _, _ => False end.
Proof.
  intros F. unfold parameter_at.
  apply (filter_rel (fun p => match fst p with OtherKind => false | _ => true end)
    (fun p => match fst p with OtherKind => false | _ => true end)) in F; [|intros x y [E _]; now rewrite E].
  assert (N := nth_rel _ _ _ i F).
  assert (Q := find_rel (fun p => kind_eqb (fst p) Rest) (fun p => kind_eqb (fst p) Rest) _ _ _
    (fun x y H => f_equal (fun k => kind_eqb k Rest) (proj1 H)) F).
  destruct (nth_error _ i) as [x|], (nth_error _ i) as [y|]; try contradiction; [apply N|].
  destruct (find _ _) as [x|], (find _ _) as [y|]; cbn; try contradiction; [apply Q | exact Logic.I].
Qed.

(** A call that keeps the method type keeps the signature made of it. *)
Theorem C118_keeps receiver_params method_params m g bindings r :
  (forall p, In p (mt_parameters m) -> plainly (receiver_params ++ method_params) (snd p)) ->
  (forall b, In b (mt_block_parameters m) -> plainly (receiver_params ++ method_params) b) ->
  plainly (receiver_params ++ method_params) (mt_block_return m) ->
  plainly (receiver_params ++ method_params) (mt_return m) ->
  signature_of constant receiver_params method_params m = Fine g ->
  (rbs_keeps R named (receiver_params ++ method_params) m bindings r <-> keeps named self g bindings r).
Proof.
  set (ps := receiver_params ++ method_params). intros H1 H2 H3 H4 E.
  unfold signature_of in E. fold ps in E. apply andthen_fine in E. destruct E as (qs & E1 & E).
  apply andthen_fine in E. destruct E as (bs & E2 & E). apply andthen_fine in E. destruct E as (b & E3 & E).
  apply andthen_fine in E. destruct E as (t & E4 & E). cbv zeta in E. destruct (valid _); [|discriminate].
  injection E as <-. apply all_fine_iff in E1. apply all_fine_iff in E2.
  assert (K1 : forall A i, match parameter_at (mt_parameters m) i, parameter_at qs i with
    | Some x, Some y => forall v, R (bound ps A) x v <-> T A y v | None, None => True | _, _ => False end).
  { intros A i. apply (parameter_at_rel (fun x y => forall v, R (bound ps A) x v <-> T A y v)).
    clear - E1 H1. induction E1 as [|x y l l' E E1 IH]; constructor.
    - apply andthen_fine in E. destruct E as (t & E & Q). injection Q as <-. cbn. split; [reflexivity|].
      apply (C118_template ps A (snd x)) with 1; [apply H1; now left | exact E].
    - apply IH. intros p P. apply H1. now right. }
  assert (K2 : forall A vs, Forall2 (R (bound ps A)) (mt_block_parameters m) vs <-> Forall2 (T A) bs vs).
  { intros A. clear - E2 H2. induction E2 as [|x y l l' E E2 IH]; intros vs.
    - split; intros F; inversion F; constructor.
    - assert (W := C118_template ps A x (H2 x (or_introl eq_refl)) _ _ E).
      assert (IH' := IH (fun b B => H2 b (or_intror B))).
      split; intros F; inversion F; subst; constructor; try (apply W; assumption); now apply IH'. }
  assert (K3 : forall A v, R (bound ps A) (mt_block_return m) v <-> T A b v)
    by (intros A; now apply (C118_template ps A _ H3 1)).
  assert (K4 : forall A v, R (bound ps A) (mt_return m) v <-> T A t v)
    by (intros A; now apply (C118_template ps A _ H4 1)).
  unfold rbs_keeps, keeps. cbn [type_parameters block_parameters block_return return_template].
  assert (PE : forall i, parameter_of {| receiver_parameters := receiver_params; type_parameters := ps; parameters := qs;
    block_parameters := bs; block_return := b; return_template := t |} i = parameter_at qs i) by reflexivity.
  split; intros H A B1 B2 B3 v V; apply K4, (H A); auto.
  - intros i w W. destruct (B2 i w W) as (y & Y1 & Y2). rewrite PE in Y1. specialize (K1 A i). rewrite Y1 in K1.
    destruct (parameter_at (mt_parameters m) i) as [x|]; [|contradiction]. exists x. split; [reflexivity | now apply K1].
  - intros ws w W1 W2. apply K3, (B3 ws); [now apply K2 | exact W2].
  - intros i w W. destruct (B2 i w W) as (x & X1 & X2). rewrite PE. specialize (K1 A i). rewrite X1 in K1.
    destruct (parameter_at qs i) as [y|]; [|contradiction]. exists y. split; [reflexivity | now apply K1].
  - intros ws w W1 W2. apply K3, (B3 ws); [now apply K2 | exact W2].
Qed.
End Meaning.
Print Assumptions C118_template.
Print Assumptions C118_keeps.

(** The type given for a call describes what it returns, for a method that keeps its RBS type. *)
Theorem C118_sound_partial constant named int interface self instance class_of compatible
    receiver sigs bindings args set block x r receiver_params method_params m g :
  core_classes named ->
  (forall x, receiver = Some x -> forall v, den named x v <-> self v) ->
  prepare compatible receiver sigs bindings args = Fine set ->
  finish compatible set block = Fine x ->
  settled compatible set block ->
  all_answered named compatible set args block ->
  typed_call named args (snd set) block r ->
  signature_of constant receiver_params method_params m = Fine g ->
  In g sigs -> count_matches g (length args) = true ->
  (forall p, In p (mt_parameters m) -> plainly (receiver_params ++ method_params) (snd p)) ->
  (forall b, In b (mt_block_parameters m) -> plainly (receiver_params ++ method_params) b) ->
  plainly (receiver_params ++ method_params) (mt_block_return m) ->
  plainly (receiver_params ++ method_params) (mt_return m) ->
  rbs_keeps (rden named int interface self instance class_of) named (receiver_params ++ method_params) m bindings r ->
  forall v, run_result r v -> den named x v.
Proof.
  intros CC H1 H2 H3 H4 H5 H6 E I1 CM P1 P2 P3 P4 K.
  apply (C117_sound_partial named compatible CC self receiver sigs bindings args set block x r); auto.
  exists g. split; [exact I1|]. split; [exact CM|].
  eapply C118_keeps; [exact P1 | exact P2 | exact P3 | exact P4 | exact E | exact K].
Qed.
Print Assumptions C118_sound_partial.

(** ** Nothing unknown, no depth *)
Lemma template_known constant params : forall n r depth t, S max_template_depth - depth <= n ->
  template_of constant params depth r = Fine t -> known t = true /\ nested n t = true.
Proof.
  assert (CK : forall n r t, concrete constant r = Fine t -> known t = true /\ nested (S n) t = true).
  { intros n r t. unfold concrete. destruct (contains_unknown _) eqn:U; [discriminate|]. intros E. injection E as <-.
    cbn. now rewrite U. }
  induction n as [|n IH]; intros r depth t L E.
  { exfalso. assert (B : max_template_depth <? depth = true) by (apply Nat.ltb_lt; lia).
    destruct r; cbn [template_of] in E; rewrite B in E; discriminate. }
  assert (L' : max_template_depth <? depth = false -> S max_template_depth - S depth <= n)
    by (intros B; apply Nat.ltb_ge in B; lia).
  destruct r; cbn [template_of] in E; (destruct (max_template_depth <? depth); [discriminate|]); specialize (L' eq_refl);
    try discriminate; try (injection E as <-; split; reflexivity); try (now apply (CK n _ _ E)).
  - destruct (negb _ && _); [injection E as <-; split; reflexivity|].
    destruct (negb _ && _); [injection E as <-; split; reflexivity|]. now apply (CK n _ _ E).
  - destruct (match args with [] => _ | _ => false end); [injection E as <-; split; reflexivity|].
    destruct (_ =? array_text).
    { destruct args as [|e [|e2 args]]; try discriminate. apply andthen_fine in E. destruct E as (t' & E1 & E).
      injection E as <-. exact (IH e _ _ L' E1). }
    destruct (_ =? hash_text).
    { destruct args as [|k [|w [|e3 args]]]; try discriminate. apply andthen_fine in E. destruct E as (k' & E1 & E).
      apply andthen_fine in E. destruct E as (w' & E2 & E). injection E as <-.
      destruct (IH _ _ _ L' E1) as [A1 A2], (IH _ _ _ L' E2) as [B1 B2].
      split; [cbn [known]; now rewrite A1, B1 | change (nested n k' && nested n w' = true); now rewrite A2, B2]. }
    now apply (CK n _ _ E).
  - destruct (_ <? length l); [discriminate|]. apply andthen_fine in E. destruct E as (l' & E1 & E).
    injection E as <-. apply all_fine_iff in E1.
    change (forallb known l' = true /\ forallb (nested n) l' = true).
    induction E1 as [|a b l l' E E1 IH1]; [split; reflexivity|].
    destruct (IH _ _ _ L' E) as [A1 A2], IH1 as [B1 B2].
    split; [change (known b && forallb known l' = true); now rewrite A1, B1 |
            change (nested n b && forallb (nested n) l' = true); now rewrite A2, B2].
  - apply andthen_fine in E. destruct E as (t' & E1 & E). injection E as <-. destruct (IH _ _ _ L' E1) as [A1 A2].
    split; [cbn [known forallb]; rewrite A1; reflexivity |
            change (nested n (Concrete nil_class) && (nested n t' && true) = true); rewrite A2; destruct n; [discriminate | reflexivity]].
Qed.
(** A signature made from RBS holds no unknown type and no template deeper than eight; its
    variables are those of the receiver's class and of the method, each named once. *)
Theorem C118_made constant receiver_params method_params m g :
  signature_of constant receiver_params method_params m = Fine g ->
  (forall t, In t (templates g) -> known t = true /\ nested max_template_depth t = true) /\
  receiver_parameters g = receiver_params /\ type_parameters g = receiver_params ++ method_params /\
  map fst (parameters g) = map fst (mt_parameters m) /\
  length (block_parameters g) = length (mt_block_parameters m) /\ length (mt_block_parameters m) <= max_block_parameters /\
  NoDup (receiver_params ++ method_params) /\ length (receiver_params ++ method_params) <= max_type_variables.
Proof.
  intros E. unfold signature_of in E. apply andthen_fine in E. destruct E as (qs & E1 & E).
  apply andthen_fine in E. destruct E as (bs & E2 & E). apply andthen_fine in E. destruct E as (b & E3 & E).
  apply andthen_fine in E. destruct E as (t & E4 & E). cbv zeta in E. destruct (valid _) eqn:V; [|discriminate].
  injection E as <-. apply all_fine_iff in E1. apply all_fine_iff in E2.
  assert (K : forall r t, template_of constant (receiver_params ++ method_params) 1 r = Fine t ->
    known t = true /\ nested max_template_depth t = true)
    by (intros r u; apply template_known; lia).
  assert (LB : length bs = length (mt_block_parameters m))
    by (clear - E2; induction E2; cbn; congruence).
  unfold valid in V. cbn [receiver_parameters type_parameters parameters block_parameters block_return return_template] in V.
  repeat (apply andb_prop in V; destruct V as [V ?]).
  split; [|split; [reflexivity|]; split; [reflexivity|]; split; [|split; [exact LB|]; split; [|split]]].
  - intros u U. unfold templates in U. cbn in U. rewrite in_app_iff, in_map_iff in U.
    destruct U as [<-|[<-|U]]; [now apply (K (mt_block_return m)) | now apply (K (mt_return m)) |].
    destruct U as [(p & <- & U)|U].
    + clear - E1 U K. induction E1 as [|x y l l' E E1 IH]; [contradiction|]. destruct U as [<-|U]; [|now apply IH].
      apply andthen_fine in E. destruct E as (t & E & Q). injection Q as <-. now apply (K (snd x)).
    + clear - E2 U K. induction E2 as [|x y l l' E E2 IH]; [contradiction|]. destruct U as [<-|U]; [|now apply IH].
      now apply (K x).
  - cbn. clear - E1. induction E1 as [|x y l l' E E1 IH]; [reflexivity|]. apply andthen_fine in E.
    destruct E as (t & _ & E). injection E as <-. cbn. now rewrite IH.
  - rewrite <- LB. now apply Nat.leb_le.
  - clear E1 E2 E3 E4 K LB.
    match goal with H : distinct _ = true |- _ => revert H end. clear. generalize (receiver_params ++ method_params).
    induction l as [|x l IH]; cbn [distinct]; intros D; constructor; apply andb_prop in D; destruct D as [D1 D2].
    + intros I1. apply mem_iff in I1. now rewrite I1 in D1.
    + now apply IH.
  - now apply Nat.leb_le.
Qed.
Print Assumptions C118_made.

(** ** What is not true *)
(** [[U] { (K) -> U } -> { a: U }]: in a record a parameter is taken for a class of that name. *)
Definition in_record : method_type :=
  {| mt_parameters := []; mt_block_parameters := [bare K_text]; mt_block_return := bare U_text;
     mt_return := RRecord [(1, bare U_text, false)] |}.
Theorem C118_record_refuted named int interface self instance class_of i s :
  den named integer i -> den named string s -> ~ of_class named U_text s ->
  exists g set x r,
    signature_of all_constants [K_text] [U_text] in_record = Fine g /\
    prepare is_compatible None [g] [(K_text, integer)] [] = Fine set /\
    finish is_compatible set string = Fine x /\ contains_unknown x = false /\
    typed_call named [] (snd set) string r /\
    rbs_keeps (rden named int interface self instance class_of) named [K_text; U_text] in_record [(K_text, integer)] r /\
    run_result r (VHash [(VSym 1, s)]) /\ ~ den named x (VHash [(VSym 1, s)]).
Proof.
  intros I1 S1 N.
  eexists. eexists. eexists.
  exists {| run_args := []; run_block := fun bs v => bs = [i] /\ v = s; run_result := fun v => v = VHash [(VSym 1, s)] |}.
  split; [vm_compute; reflexivity|]. split; [vm_compute; reflexivity|]. split; [vm_compute; reflexivity|].
  split; [reflexivity|]. split; [|split; [|split; [reflexivity|]]].
  - split; [constructor|]. intros bs v _ [_ ->]. exact S1.
  - intros A HB _ HK v ->. cbn in *.
    assert (AI : A K_text i) by (apply (HB K_text integer); auto).
    assert (AS : A U_text s) by (apply (HK [i] s); [repeat constructor; exact AI | auto]).
    exists [(VSym 1, s)]. split; [reflexivity|]. split; [|split].
    + intros k [E|[]]. injection E as <-. exists s. now left.
    + intros x y [E|[]]. injection E as <- <-. exists 1. auto.
    + intros x y [E|[]] k P [E2|[]] _. injection E as <- <-. injection E2 as <- <-. exact AS.
  - intros (es & E & _ & H & _). injection E as <-. apply N.
    apply (H (VSym 1) s (or_introl eq_refl) (LSym 1) _ (or_introl eq_refl) eq_refl).
Qed.
Print Assumptions C118_record_refuted.

(** [{ (K) -> void } -> self]: the block's result is of no interest, yet the call gets no
    type if the block returns anything but nil. *)
Definition each_ (b : rbs) : method_type :=
  {| mt_parameters := []; mt_block_parameters := [bare K_text]; mt_block_return := b; mt_return := RSelf |}.
Theorem C118_void_refuted named int interface self instance class_of :
  exists g set r,
    signature_of all_constants [K_text] [] (each_ RVoid) = Fine g /\
    prepare is_compatible (Some (TArray [integer])) [g] [(K_text, integer)] [] = Fine set /\
    typed_call named [] (snd set) integer r /\
    rbs_keeps (rden named int interface self instance class_of) named [K_text] (each_ RVoid) [(K_text, integer)] r /\
    (forall v, self v -> run_result r v) /\
    finish is_compatible set integer = Failed /\
    (* as it would with [untyped] in its place *)
    exists g' set',
      signature_of all_constants [K_text] [] (each_ RUntyped) = Fine g' /\
      prepare is_compatible (Some (TArray [integer])) [g'] [(K_text, integer)] [] = Fine set' /\
      finish is_compatible set' integer = Fine (TArray [integer]).
Proof.
  eexists. eexists.
  exists {| run_args := []; run_block := fun bs v => bs = [v] /\ den named integer v; run_result := self |}.
  split; [vm_compute; reflexivity|]. split; [vm_compute; reflexivity|]. split; [|split; [|split; [|split]]].
  - split; [constructor|]. intros bs v _ [_ V]. exact V.
  - intros A _ _ _ v V. exact V.
  - auto.
  - vm_compute. reflexivity.
  - eexists. eexists. split; [vm_compute; reflexivity|]. split; [vm_compute; reflexivity|]. vm_compute. reflexivity.
Qed.
Print Assumptions C118_void_refuted.

(** ** A case that meets the hypotheses *)
(** [map: [U] () { (K) -> U } -> Array[U]], with [U?] for good measure: [[2].map { |x| x.to_s }]. *)
Definition rbs_map : method_type :=
  {| mt_parameters := []; mt_block_parameters := [bare K_text]; mt_block_return := bare U_text;
     mt_return := array_of (ROptional (bare U_text)) |}.
Example rbs_map_case int interface : core_classes halves /\ exists g set,
  signature_of all_constants [K_text] [U_text] rbs_map = Fine g /\
  prepare is_compatible None [g] [(K_text, integer)] [] = Fine set /\
  finish is_compatible set string = Fine (TArray [TUnion [nil_class; string]]) /\
  settled is_compatible set string /\ all_answered halves is_compatible set [] string /\
  typed_call halves [] (snd set) string map_run /\ count_matches g 0 = true /\
  (forall b, In b (mt_block_parameters rbs_map) -> plainly [K_text; U_text] b) /\
  plainly [K_text; U_text] (mt_block_return rbs_map) /\ plainly [K_text; U_text] (mt_return rbs_map) /\
  rbs_keeps (rden halves int interface (fun _ => False) (fun _ => False) (fun _ => False)) halves
    [K_text; U_text] rbs_map [(K_text, integer)] map_run.
Proof.
  split; [repeat split|].
  eexists. eexists. split; [vm_compute; reflexivity|]. split; [vm_compute; reflexivity|].
  split; [vm_compute; reflexivity|]. split; [|split; [|split; [|split; [|split; [|split; [|split]]]]]].
  - intros c s [<-|[]] E; vm_compute in E; injection E as <-; reflexivity.
  - intros c [<-|[]]. split; [|intros i a t E; destruct i; discriminate].
    intros e x Q. inversion Q.
  - split; [constructor|]. intros bs v _ [_ ->]. reflexivity.
  - reflexivity.
  - intros b [<-|[]]. apply P_class; [discriminate | discriminate].
  - apply P_class; discriminate.
  - apply P_generic; [discriminate|]. intros a [<-|[]]. apply P_optional. apply P_class; discriminate.
  - intros A HB _ HK v ->. cbn in *.
    assert (AI : A K_text (VObj 2)) by (apply (HB K_text integer); [auto | auto | reflexivity]).
    exists [VStr 7]. split; [reflexivity|]. intros x [<-|[]]. left.
    apply (HK [VObj 2] (VStr 7)); [repeat constructor; exact AI | auto].
Qed.
Example record_case : den halves integer (VObj 2) /\ den halves string (VStr 7) /\ ~ of_class halves U_text (VStr 7).
Proof. repeat split. unfold of_class, halves. discriminate. Qed.
