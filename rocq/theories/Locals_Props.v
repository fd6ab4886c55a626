(** C75: go to definition and find references on a local variable. *)
From Coq Require Import List Arith NArith Bool Lia.
From Verif Require Import Locals_Model Locals_Spec Locals_Proofs.
Import ListNotations.

(** The definition offered is the variable's first occurrence, unless the cursor is at its very start. *)
Theorem C75_definition_partial : forall p c o, numbered p -> plain p -> assigns_own p -> cursor_on c o p ->
  exists first, hd_error (filter (of_variable o) (occurrences p)) = Some first /\
    (fst (shown first) < c -> goto_definition (program p) (index (program p)) (called o) c = Some (shown first)).
Proof.
  intros p c o ND P C CO. destruct (definition_found p c o ND P C CO) as (f & H & E). exists f. split; [exact H|]. intros L.
  unfold goto_definition. rewrite E. destruct (Nat.ltb_spec (fst (shown f)) c) as [_|K]; [reflexivity|lia].
Qed.

(** The references are exactly the occurrences of the variable, when no scope around the place has another of that name. *)
Theorem C75_references_partial : forall p c o, numbered p -> plain p -> assigns_own p -> cursor_on c o p -> alone o p ->
  snd (find_references (program p) (index (program p)) (called o) c) = index (program p) /\
  forall s, In s (fst (find_references (program p) (index (program p)) (called o) c)) <-> exists o', In o' (occurrences p) /\ same_variable o o' /\ shown o' = s.
Proof.
  intros p c o ND P C CO AL. pose proof (fun s => references_found p c o s ND P C CO AL) as H. unfold find_references.
  destruct (local_variable_reference_ranges_at (index (program p)) (called o) c) as [|s l] eqn:E; cbn [fst snd]; [exfalso|auto].
  apply (proj2 (H (shown o))). exists o. split; [exact (proj1 CO)|]. split; [split; reflexivity|reflexivity].
Qed.

(** The scopes of an open document: as indexed, or as left by earlier requests for references. *)
Inductive reached (t : tree) : variable_scopes -> Prop :=
| indexed : reached t (index t)
| requested : forall v x c, reached t v -> reached t (snd (find_references t v x c)).
Lemma reached_from : forall t v, reached t v -> from (fun x => places x t) v.
Proof.
  intros t v R. induction R as [|v x c R IH].
  - apply visit_from; [auto|apply from_new].
  - unfold find_references. destruct (local_variable_reference_ranges_at v x c); cbn [snd]; [|exact IH]. apply visit_from; [auto|exact IH].
Qed.
(** Whatever the program and the requests before: only places where the name is written are offered, and a definition before the cursor. *)
Theorem C75_sound : forall t v x c, reached t v ->
  (forall s, In s (fst (find_references t v x c)) -> In s (places x t)) /\
  (forall s, goto_definition t v x c = Some s -> In s (places x t) /\ fst s < c).
Proof.
  intros t v x c R. pose proof (reached_from t v R) as F. split.
  - intros s I. unfold find_references in I. destruct (local_variable_reference_ranges_at v x c) as [|r l] eqn:E; cbn [fst] in I.
    + refine (from_references (fun x => places x t) (visit t v) x c s _ I). apply visit_from; auto.
    + apply (from_references (fun x => places x t) v x c s F). rewrite E. exact I.
  - intros s E. unfold goto_definition in E. destruct (local_variable_definition_range_before v x c) as [r|] eqn:D.
    + injection E as <-. exact (from_definition _ _ _ _ _ F D).
    + apply latest_spec in E. destruct E as [E|[I L]]; [discriminate E|]. split; [exact (symbols_places t x s I)|exact L].
Qed.

(** ** Where the statement fails *)
Arguments Write _%N_scope _.
Arguments Ident _%N_scope _.
Arguments Param _%N_scope _ _.
Arguments Unseen _%N_scope _.
Arguments Occurrence _ _%N_scope _ _ _.
Definition missed (p : tree) (c : nat) (o : occurrence) : Prop :=
  cursor_on c o p /\ exists o', In o' (occurrences p) /\ same_variable o o' /\ ~ In (shown o') (fst (find_references (program p) (index (program p)) (called o) c)).
Definition foreign (p : tree) (c : nat) (o : occurrence) : Prop :=
  cursor_on c o p /\ exists o', In o' (occurrences p) /\ ~ same_variable o o' /\ In (shown o') (fst (find_references (program p) (index (program p)) (called o) c)).
Ltac numbered_ := repeat constructor; cbn; intuition discriminate.
Ltac cursor_ := split; [cbn; auto 10|]; split; [split; cbn; lia|]; cbn; intros o' I; repeat (destruct I as [<-|I]; [cbn; unfold touches; cbn; try reflexivity; try discriminate; lia|]); destruct I.

(** [x = 1; f { x = 2 }; x] *)
Definition captured_program : tree := Seq (Write 1 (0, 1)) (Seq (Scope Block 1 (11, 16) Leaf (Write 1 (11, 12))) (Ident 1 (20, 21))).
Theorem C75_captured_refuted : exists p c o, numbered p /\ plain p /\ missed p c o /\
  exists c' o' first, cursor_on c' o' p /\ hd_error (filter (of_variable o') (occurrences p)) = Some first /\ fst (shown first) < c' /\
    goto_definition (program p) (index (program p)) (called o') c' <> Some (shown first).
Proof.
  exists captured_program, 0, (Occurrence (0, 1) 1 0 false [0]). split; [numbered_|]. split; [cbn; auto|]. split.
  - split; [cursor_|]. exists (Occurrence (11, 12) 1 0 true [1; 0]). split; [cbn; auto|]. split; [split; reflexivity|]. vm_compute. intuition discriminate.
  - exists 12, (Occurrence (11, 12) 1 0 true [1; 0]), (Occurrence (0, 1) 1 0 false [0]). split; [cursor_|]. split; [reflexivity|]. split; [cbn; lia|]. vm_compute. discriminate.
Qed.

(** [x = 1; f { |x| x }] *)
Definition shadowing_program : tree := Seq (Write 1 (0, 1)) (Scope Block 1 (16, 17) Leaf (Seq (Param 1 (13, 14) false) (Ident 1 (16, 17)))).
Theorem C75_shadowed_refuted : exists p c o, numbered p /\ plain p /\ assigns_own p /\ foreign p c o.
Proof.
  exists shadowing_program, 16, (Occurrence (16, 17) 1 1 false [1; 0]). split; [numbered_|]. split; [cbn; auto|]. split.
  - intros o I. cbn in I. repeat (destruct I as [<-|I]; [reflexivity|]). destruct I.
  - split; [cursor_|]. exists (Occurrence (0, 1) 1 0 false [0]). split; [cbn; auto|]. split; [intros [_ E]; discriminate E|]. vm_compute. auto.
Qed.

(** [-> (x) { x }; x = 1], and the same with a singleton class or a definition on another object *)
Definition leaking_program (k : construct) : tree := Seq (Scope k 1 (10, 11) Leaf (Seq (Param 1 (4, 5) false) (Ident 1 (10, 11)))) (Write 1 (15, 16)).
Theorem C75_leak_refuted : forall k, In k [Lambda; Singleton; ForeignDef] -> exists p c o, numbered p /\ assigns_own p /\ alone o p /\ foreign p c o.
Proof.
  intros k I. exists (leaking_program k), 15, (Occurrence (15, 16) 1 0 false [0]).
  destruct I as [<-|[<-|[<-|[]]]]; (split; [numbered_|]; split; [intros o J; cbn in J; repeat (destruct J as [<-|J]; [reflexivity|]); destruct J|]);
    (split; [intros o J; cbn in J; repeat (destruct J as [<-|J]; [cbn; intuition congruence|]); destruct J|]);
    (split; [cursor_|]); (eexists (Occurrence (10, 11) 1 1 false _)); (split; [cbn; auto|]); (split; [intros [_ E]; discriminate E|]); vm_compute; auto.
Qed.

(** [def a; x = 1; end; def b(x:); x; end]: nothing is known of keyword parameters, and another method's variable is offered. *)
Definition keyword_program : tree :=
  Seq (Scope Body 1 (7, 12) Leaf (Write 1 (7, 8))) (Scope Body 2 (31, 32) Leaf (Seq (Unseen 1 (26, 28)) (Ident 1 (31, 32)))).
Theorem C75_keyword_refuted : exists p c o o', numbered p /\ assigns_own p /\ alone o p /\ cursor_on c o p /\
  fst (find_references (program p) (index (program p)) (called o) c) = [] /\
  In o' (occurrences p) /\ ~ same_variable o o' /\ goto_definition (program p) (index (program p)) (called o) c = Some (shown o').
Proof.
  exists keyword_program, 31, (Occurrence (31, 32) 1 2 false [2]), (Occurrence (7, 8) 1 1 false [1]). split; [numbered_|].
  split; [intros o J; cbn in J; repeat (destruct J as [<-|J]; [reflexivity|]); destruct J|].
  split; [intros o J; cbn in J; repeat (destruct J as [<-|J]; [cbn; intuition congruence|]); destruct J|].
  split; [cursor_|]. split; [reflexivity|]. split; [cbn; auto|]. split; [intros [_ E]; discriminate E|reflexivity].
Qed.

(** [def a; x = 1; end; def b; x = 2; end] with the cursor right before the second x *)
Definition two_methods : tree := Seq (Scope Body 1 (7, 12) Leaf (Write 1 (7, 8))) (Scope Body 2 (26, 31) Leaf (Write 1 (26, 27))).
Theorem C75_start_refuted : exists p c o o', numbered p /\ plain p /\ assigns_own p /\ alone o p /\ cursor_on c o p /\
  In o' (occurrences p) /\ ~ same_variable o o' /\ goto_definition (program p) (index (program p)) (called o) c = Some (shown o').
Proof.
  exists two_methods, 26, (Occurrence (26, 27) 1 2 false [2]), (Occurrence (7, 8) 1 1 false [1]). split; [numbered_|]. split; [cbn; auto 10|].
  split; [intros o J; cbn in J; repeat (destruct J as [<-|J]; [reflexivity|]); destruct J|].
  split; [intros o J; cbn in J; repeat (destruct J as [<-|J]; [cbn; intuition congruence|]); destruct J|].
  split; [cursor_|]. split; [cbn; auto|]. split; [intros [_ E]; discriminate E|reflexivity].
Qed.

(** [x = 1 if x]: the condition is visited first. *)
Definition modifier_program : tree := Swap (Write 1 (0, 1)) (Ident 1 (9, 10)).
Theorem C75_modifier_refuted : exists p c o, numbered p /\ assigns_own p /\ alone o p /\ missed p c o.
Proof.
  exists modifier_program, 0, (Occurrence (0, 1) 1 0 false [0]). split; [numbered_|].
  split; [intros o J; cbn in J; repeat (destruct J as [<-|J]; [reflexivity|]); destruct J|].
  split; [intros o J; cbn in J; repeat (destruct J as [<-|J]; [cbn; intuition congruence|]); destruct J|].
  split; [cursor_|]. exists (Occurrence (9, 10) 1 0 false [0]). split; [cbn; auto|]. split; [split; reflexivity|]. vm_compute. intuition discriminate.
Qed.

(** [x = C; class A < x; end]: the superclass is looked up inside the class. *)
Definition head_program : tree := Seq (Write 1 (0, 1)) (Scope Body 1 (17, 22) (Ident 1 (17, 18)) Leaf).
Theorem C75_head_refuted : exists p c o, numbered p /\ assigns_own p /\ alone o p /\ missed p c o.
Proof.
  exists head_program, 0, (Occurrence (0, 1) 1 0 false [0]). split; [numbered_|].
  split; [intros o J; cbn in J; repeat (destruct J as [<-|J]; [reflexivity|]); destruct J|].
  split; [intros o J; cbn in J; repeat (destruct J as [<-|J]; [cbn; intuition congruence|]); destruct J|].
  split; [cursor_|]. exists (Occurrence (17, 18) 1 0 false [0]). split; [cbn; auto|]. split; [split; reflexivity|]. vm_compute. intuition discriminate.
Qed.

(** [x = 1; def b(y:); y; end]: a request which finds nothing makes later ones list a top-level variable twice. *)
Definition miss_program : tree := Seq (Write 1 (0, 1)) (Scope Body 1 (20, 21) Leaf (Seq (Unseen 2 (15, 17)) (Ident 2 (20, 21)))).
Theorem C75_repeated_refuted : exists p c o c' o', numbered p /\ assigns_own p /\ cursor_on c o p /\ alone o p /\ cursor_on c' o' p /\ alone o' p /\
  let t := program p in
  fst (find_references t (index t) (called o) c) = [shown o] /\
  fst (find_references t (snd (find_references t (index t) (called o') c')) (called o) c) = [shown o; shown o].
Proof.
  exists miss_program, 0, (Occurrence (0, 1) 1 0 false [0]), 20, (Occurrence (20, 21) 2 1 false [1]). split; [numbered_|].
  split; [intros o J; cbn in J; repeat (destruct J as [<-|J]; [reflexivity|]); destruct J|].
  split; [cursor_|]. split; [intros o J; cbn in J; repeat (destruct J as [<-|J]; [cbn; intuition congruence|]); destruct J|].
  split; [cursor_|]. split; [intros o J; cbn in J; repeat (destruct J as [<-|J]; [cbn; intuition congruence|]); destruct J|]. split; reflexivity.
Qed.
(** [f { |x| }] where the type of x is known: listed three times. *)
Theorem C75_typed_refuted : exists p c o, numbered p /\ plain p /\ assigns_own p /\ cursor_on c o p /\ alone o p /\
  fst (find_references (program p) (index (program p)) (called o) c) = [shown o; shown o; shown o] /\ occurrences p = [o].
Proof.
  exists (Scope Block 1 (0, 9) Leaf (Param 1 (5, 6) true)), 5, (Occurrence (5, 6) 1 1 false [1; 0]). split; [numbered_|]. split; [cbn; auto|].
  split; [intros o J; cbn in J; repeat (destruct J as [<-|J]; [reflexivity|]); destruct J|].
  split; [cursor_|]. split; [intros o J; cbn in J; repeat (destruct J as [<-|J]; [cbn; intuition congruence|]); destruct J|]. split; reflexivity.
Qed.

(** [def f(x, y = x); z = x; g { |w| z + w }; z if y; end; x = 1] *)
Definition sample : tree :=
  Seq (Scope Body 1 (17, 45) Leaf (Seq (Param 1 (6, 7) false) (Seq (Param 2 (9, 14) false) (Seq (Swap (Ident 1 (13, 14)) Leaf)
      (Seq (Seq (Write 3 (17, 18)) (Ident 1 (21, 22))) (Seq (Scope Block 2 (33, 38) Leaf (Seq (Param 4 (30, 31) true) (Seq (Ident 3 (33, 34)) (Ident 4 (37, 38))))) (Swap (Ident 3 (41, 42)) (Ident 2 (46, 47)))))))))
      (Seq (Write 1 (55, 56)) (Ident 1 (59, 60))).
Example C75_sample : numbered sample /\ plain sample /\ assigns_own sample /\
  exists o, cursor_on 34 o sample /\ alone o sample /\ called o = 3%N /\ owner o = 1 /\
    goto_definition (program sample) (index (program sample)) 3%N 34 = Some (17, 18) /\
    fst (find_references (program sample) (index (program sample)) 3%N 34) = [(17, 18); (33, 34); (41, 42)].
Proof.
  split; [numbered_|]. split; [cbn; repeat match goal with |- _ /\ _ => split end; auto; intros x; cbn; intuition congruence|].
  split; [intros o J; cbn in J; repeat (destruct J as [<-|J]; [reflexivity|]); destruct J|].
  exists (Occurrence (33, 34) 3 1 false [2; 1]). split; [cursor_|].
  split; [intros o J; cbn in J; repeat (destruct J as [<-|J]; [cbn; intuition congruence|]); destruct J|]. repeat split.
Qed.

Print Assumptions C75_definition_partial.
Print Assumptions C75_references_partial.
Print Assumptions C75_sound.
Print Assumptions C75_captured_refuted.
Print Assumptions C75_shadowed_refuted.
Print Assumptions C75_leak_refuted.
Print Assumptions C75_keyword_refuted.
Print Assumptions C75_start_refuted.
Print Assumptions C75_modifier_refuted.
Print Assumptions C75_head_refuted.
Print Assumptions C75_repeated_refuted.
Print Assumptions C75_typed_refuted.
