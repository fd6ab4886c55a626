(** Programs on which the type shown for a read, or the return type of the method, is wrong. *)
From Coq Require Import List Bool Arith NArith.
From Verif Require Import Types_Model Types_Spec Types_Union TypeFlow_Model TypeFlow_Spec TypeFlow_Props.
From Coq Require Import String.
Import ListNotations.
Local Open Scope string_scope.
Local Open Scope list_scope.

(** The types declared for parameters are right; every local but the other parameters is nil. *)
Definition starts (W : world) (given : list N) (params : env) (s : store) : Prop :=
  forall x, match params x with Some t => den (named W) t (s x) | None => In x given \/ s x = vnil end.
(** A run reads a value which is not of the type shown at the place of the read. *)
Definition misread (W : world) (T : facts) (params : env) (body : node) (s : store) (l : N) (v : val) (t : ty) : Prop :=
  (exists tr o s', exec W (IN body) s tr o s' /\ In (l, v) tr) /\
  shown l (ro (tracked T params body)) = Some t /\ ~ den (named W) t v.
Definition read_wrong (body : node) : Prop :=
  exists W T given params s l v t, honest W T /\ starts W given params s /\ misread W T params body s l v t.
(** A run hands back a value which is not of the method's type. *)
Definition return_wrong (body : node) : Prop :=
  exists W T params s v tr o s', honest W T /\ starts W [] params s /\
    exec W (IN body) s tr o s' /\ result_of o = Some v /\ ~ den (named W) (method_type T params body) v.

(** ** Running programs of the example world *)
Lemma lit_nil s : exec W0 (IN (Lit nil_class)) s [] (Normal vnil) s.
Proof. apply X_lit. reflexivity. Qed.
Lemma lit_int s : exec W0 (IN (Lit integer)) s [] (Normal (VObj 3)) s.
Proof. apply X_lit. reflexivity. Qed.
Lemma lit_str s : exec W0 (IN (Lit Types_Model.string)) s [] (Normal (VStr 0)) s.
Proof. apply X_lit. reflexivity. Qed.
Lemma lit_sym s : exec W0 (IN (Lit symbol)) s [] (Normal (VSym 0)) s.
Proof. apply X_lit. reflexivity. Qed.
Lemma lit_arr s : exec W0 (IN (Lit (TArray [integer]))) s [] (Normal (VArr [])) s.
Proof. apply X_lit. exists []. split; [reflexivity|intros x []]. Qed.
Lemma arg1 W n s tr v s' : exec W (IN n) s tr (Normal v) s' -> exec W (IA (ACons n ANil)) s (tr ++ []) (Normal (VArr [v])) s'.
Proof. intros A. exact (X_acons W n ANil s tr v s' [] (Normal (VArr [])) s' A (X_anil W s')). Qed.
Lemma foo_yes s : exec W0 (IN (send RNone "foo")) s ([] ++ [] ++ []) (Normal (VObj 3)) s.
Proof. eapply X_call; [apply X_self|discriminate|apply X_anil|apply X_runs_end|]. left. reflexivity. Qed.
Lemma foo_no s : exec W0 (IN (send RNone "foo")) s ([] ++ [] ++ []) (Normal vnil) s.
Proof. eapply X_call; [apply X_self|discriminate|apply X_anil|apply X_runs_end|]. right. auto. Qed.
Lemma foo_raises s : exec W0 (IN (send RNone "foo")) s ([] ++ [] ++ []) Raised s.
Proof. eapply X_call_raise; [apply X_self|discriminate|apply X_anil|apply X_runs_end]. Qed.
Lemma run1 W w f vs ps ls body xs s t1 v s1 : yields W w f vs xs -> exec W (IS body) (bind s ps ls xs) t1 (Normal v) s1 ->
  exec W (IK w f vs (BBlock ps ls body)) s (t1 ++ []) (Normal (VArr [v])) (unbind s s1 (ps ++ ls)).
Proof. intros A B. exact (X_run W w f vs ps ls body xs s t1 v s1 [] (Normal (VArr [])) _ A B (X_runs_end W w f vs _ _)). Qed.
Lemma run1_next W w f vs ps ls body xs s t1 s1 : yields W w f vs xs -> exec W (IS body) (bind s ps ls xs) t1 Nxt s1 ->
  exec W (IK w f vs (BBlock ps ls body)) s (t1 ++ []) (Normal (VArr [vnil])) (unbind s s1 (ps ++ ls)).
Proof. intros A B. exact (X_run_next W w f vs ps ls body xs s t1 s1 [] (Normal (VArr [])) _ A B (X_runs_end W w f vs _ _)). Qed.

(** one statement at a time, leaving the choices *)
Ltac go := repeat first
  [ apply lit_nil | apply lit_int | apply lit_str | apply lit_sym | apply lit_arr | apply X_read | apply X_const
  | apply X_self | apply X_anil | eapply arg1 | apply X_recv
  | eapply X_write | apply X_stmts | apply X_paren | apply X_last
  | eapply X_seq; [| |discriminate] | apply X_empty | apply X_no_tail | apply X_else
  | apply X_begin ].
Ltac asked := eapply X_call; [go|discriminate|go|apply X_runs_end|left; reflexivity].
Definition warm : node := If false (send RNone "foo") SNil NoTail.
Lemma warm_run s : exec W0 (IN warm) s (([] ++ [] ++ []) ++ []) (Normal vnil) s.
Proof. eapply X_if_then; [apply foo_yes|reflexivity|apply X_empty]. Qed.

Definition none : env := fun _ => None.
Definition blank : store := fun _ => vnil.
Lemma blank_starts : starts W0 [] none blank.
Proof. intros x. right. reflexivity. Qed.
Definition given_x (t : ty) : env := set none X t.
Definition with_x (v : val) : store := upd blank X v.
Lemma x_starts t v : den (named W0) t v -> starts W0 [] (given_x t) (with_x v).
Proof.
  intros A x. unfold given_x, with_x, set, upd. destruct (N.eqb x X); [exact A|]. right. reflexivity.
Qed.
Ltac refute_in given params s l v t :=
  exists W0, T0, given, params, s, l, v, t; split; [exact W0_honest|]; split; [|split; [|split; [vm_compute; reflexivity|]]].
Ltac on_run := do 3 eexists; split.
Ltac found := cbn; tauto.
Ltac not_den := let A := fresh in intros A; vm_compute in A; try discriminate A.

(** x = nil; while foo do x; x = 1 end: the read is shown as Integer *)
Definition first_pass : node := Stmts (seq_of [Write X (Lit nil_class);
  While false (send RNone "foo") (seq_of [Read 10 X; Write X (Lit integer)])]).
Theorem C80_first_pass_refuted : read_wrong first_pass.
Proof.
  refute_in (@nil N) none blank 10%N vnil integer.
  - exact blank_starts.
  - on_run; [go|].
    + eapply X_while_more; [apply foo_yes|reflexivity|go|right; eauto|]. eapply X_while_end; [apply foo_no|reflexivity].
    + found.
  - not_den.
Qed.
Print Assumptions C80_first_pass_refuted.

(** a = 1; b = "s"; c = :c; while foo do t = a; a = b; b = c; c = t end; a *)
Definition rotation : node := Stmts (seq_of [Write X (Lit integer); Write Y (Lit Types_Model.string); Write Z (Lit symbol);
  While false (send RNone "foo") (seq_of [Write E (Read 1 X); Write X (Read 2 Y); Write Y (Read 3 Z); Write Z (Read 4 E)]);
  Read 10 X]).
Theorem C80_rotation_refuted : read_wrong rotation.
Proof.
  refute_in (@nil N) none blank 10%N (VSym 0) (union [integer; Types_Model.string]).
  - exact blank_starts.
  - on_run; [go|].
    + eapply X_while_more; [apply foo_yes|reflexivity|go|right; eauto|].
      eapply X_while_more; [apply foo_yes|reflexivity|go|right; eauto|]. eapply X_while_end; [apply foo_no|reflexivity].
    + found.
  - intros (P&[J|[J|[]]]&A); subst P; discriminate A.
Qed.
Print Assumptions C80_rotation_refuted.

(** x = 1; while foo do x = "s"; break if foo; x = 1 end; x *)
Definition broken : node := Stmts (seq_of [Write X (Lit integer);
  While false (send RNone "foo") (seq_of [Write X (Lit Types_Model.string);
    If false (send RNone "foo") (seq_of [Break]) NoTail; Write X (Lit integer)]);
  Read 10 X]).
Theorem C80_break_refuted : read_wrong broken.
Proof.
  refute_in (@nil N) none blank 10%N (VStr 0) integer.
  - exact blank_starts.
  - on_run; [go|].
    + eapply X_while_break; [apply foo_yes|reflexivity|].
      eapply X_seq; [go| |discriminate]. eapply X_seq_stop; [|exact Logic.I].
      eapply X_if_then; [apply foo_yes|reflexivity|]. apply X_last. apply X_break.
    + found.
  - not_den.
Qed.
Print Assumptions C80_break_refuted.

(** x = 1; foo; [].map { |b| x = "s" }; x *)
Definition block_write : node := Stmts (seq_of [warm; Write X (Lit integer);
  Call false (RNode (Lit (TArray [integer]))) "map" ANil (BBlock [B'] [] (seq_of [Write X (Lit Types_Model.string)]));
  Read 10 X]).
Theorem C80_block_write_refuted : read_wrong block_write.
Proof.
  refute_in (@nil N) none blank 10%N (VStr 0) integer.
  - exact blank_starts.
  - on_run; [go; [apply warm_run|]|].
    + eapply X_call; [go|discriminate|go| |left; reflexivity]. eapply run1; [reflexivity|go].
    + found.
  - not_den.
Qed.
Print Assumptions C80_block_write_refuted.

(** x = 1; foo(x = "s"); x *)
Definition argument_write : node := Stmts (seq_of [warm; Write X (Lit integer);
  Call false RNone "foo" (ACons (Write X (Lit Types_Model.string)) ANil) BNone; Read 10 X]).
Theorem C80_argument_write_refuted : read_wrong argument_write.
Proof.
  refute_in (@nil N) none blank 10%N (VStr 0) integer.
  - exact blank_starts.
  - on_run; [go; [apply warm_run|]|].
    + eapply X_call; [go|discriminate|go|apply X_runs_end|left; reflexivity].
    + found.
  - not_den.
Qed.
Print Assumptions C80_argument_write_refuted.

(** x = nil; x ||= 1; x *)
Definition or_write : node := Stmts (seq_of [warm; Write X (Lit nil_class); OrWrite X (Lit integer); Read 10 X]).
Theorem C80_or_write_refuted : read_wrong or_write.
Proof.
  refute_in (@nil N) none blank 10%N (VObj 3) nil_class.
  - exact blank_starts.
  - on_run; [go; [apply warm_run|]|].
    + eapply X_or_set; [reflexivity|go].
    + found.
  - not_den.
Qed.
Print Assumptions C80_or_write_refuted.

(** x = 1; x /= 1; x, where division of integers gives a float *)
Definition op_write : node := Stmts (seq_of [warm; Write X (Lit integer); OpWrite X "/" (Lit integer); Read 10 X]).
Theorem C80_op_write_refuted : read_wrong op_write.
Proof.
  refute_in (@nil N) none blank 10%N (VHash []) integer.
  - exact blank_starts.
  - on_run; [go; [apply warm_run|]|].
    + eapply X_op; [go|left; reflexivity].
    + found.
  - not_den.
Qed.
Print Assumptions C80_op_write_refuted.

(** e = 1; begin foo; rescue => e; e end: the exception is shown as Integer *)
Definition rescued : node := Stmts (seq_of [Write E (Lit integer);
  Begin (seq_of [send RNone "foo"]) (RCons (Some E) (seq_of [Read 10 E]) RNil) NoTail NoTail]).
Theorem C80_exception_refuted : read_wrong rescued.
Proof.
  refute_in (@nil N) none blank 10%N (VHash []) integer.
  - exact blank_starts.
  - on_run; [go|].
    + eapply X_rescued; [go; apply foo_raises| |].
      * apply (X_clause W0 (Some E) _ _ (VHash [])). go.
      * discriminate.
    + found.
  - not_den.
Qed.
Print Assumptions C80_exception_refuted.

(** begin x = "s"; foo; x = 1; ensure x end *)
Definition ensured : node := Stmts (seq_of [
  Begin (seq_of [Write X (Lit Types_Model.string); send RNone "foo"; Write X (Lit integer)]) RNil NoTail
    (Else (seq_of [Read 10 X]))]).
Theorem C80_ensure_refuted : read_wrong ensured.
Proof.
  refute_in (@nil N) none blank 10%N (VStr 0) integer.
  - exact blank_starts.
  - on_run; [go|].
    + eapply (X_ensure W0 _ _ _ _ _ _ Raised); [|discriminate|go].
      apply X_body_stop; [|exact Logic.I]. eapply X_seq; [go| |discriminate].
      eapply X_seq_stop; [apply foo_raises|exact Logic.I].
    + found.
  - not_den.
Qed.
Print Assumptions C80_ensure_refuted.

(** def m(x) without a type for x: if foo then x = 1 end; x is shown as Integer or nil *)
Definition untyped : node := Stmts (seq_of [
  If false (send RNone "foo") (seq_of [Write X (Lit integer)]) NoTail; Read 10 X]).
Theorem C80_untyped_parameter_refuted : read_wrong untyped.
Proof.
  refute_in [X] none (with_x (VStr 0)) 10%N (VStr 0) (union [integer; nil_class]).
  - intros x. unfold none, with_x, upd. destruct (N.eqb_spec x X); [left; left; auto|right; reflexivity].
  - on_run; [go|].
    + eapply X_if_else; [apply foo_no|reflexivity|go].
    + found.
  - intros (P&[J|[J|[]]]&A); subst P; discriminate A.
Qed.
Print Assumptions C80_untyped_parameter_refuted.

(** if x.nil? then x = "s" else return end; x is shown as nil *)
Definition reassigned : node := Stmts (seq_of [
  If false (on 1 X "nil?") (seq_of [Write X (Lit Types_Model.string)]) (Else (seq_of [Return RNone])); Read 10 X]).
Theorem C80_reassigned_guard_refuted : read_wrong reassigned.
Proof.
  refute_in (@nil N) (given_x nilable) (with_x vnil) 10%N (VStr 0) nil_class.
  - apply x_starts. apply union_complete. exists nil_class. split; [right; left; reflexivity|reflexivity].
  - on_run; [go|].
    + eapply X_if_then; [asked|reflexivity|go].
    + found.
  - not_den.
Qed.
Print Assumptions C80_reassigned_guard_refuted.

(** x a Numeric or a String; return if x.instance_of?(Numeric); x is shown as String *)
Definition numeric := TClass (const_name numeric_text).
Definition instance_guard : node := Stmts (seq_of [
  If false (Call false (RNode (Read 1 X)) "instance_of?" (ACons (Const (const_name numeric_text)) ANil) BNone)
    (seq_of [Return RNone]) NoTail; Read 10 X]).
Theorem C80_instance_of_refuted : read_wrong instance_guard.
Proof.
  refute_in (@nil N) (given_x (union [numeric; Types_Model.string])) (with_x (VObj 3)) 10%N (VObj 3) Types_Model.string.
  - apply x_starts. apply union_complete. exists numeric. split; [left; reflexivity|reflexivity].
  - on_run; [go|].
    + eapply X_if_else; [asked|reflexivity|go].
    + found.
  - not_den.
Qed.
Print Assumptions C80_instance_of_refuted.

(** begin foo; return if x.nil?; x = "s"; rescue; x end: in the clause x is shown as never nil *)
Definition late_guard : node := Stmts (seq_of [
  Begin (seq_of [send RNone "foo"; If false (on 1 X "nil?") (seq_of [Return RNone]) NoTail; Write X (Lit Types_Model.string)])
    (RCons None (seq_of [Read 10 X]) RNil) NoTail NoTail]).
Theorem C80_protected_guard_refuted : read_wrong late_guard.
Proof.
  refute_in (@nil N) (given_x nilable) (with_x vnil) 10%N vnil (union [integer; Types_Model.string]).
  - apply x_starts. apply union_complete. exists nil_class. split; [right; left; reflexivity|reflexivity].
  - on_run; [go|].
    + eapply X_rescued; [eapply X_seq_stop; [apply foo_raises|exact Logic.I]| |].
      * apply (X_clause W0 None _ _ vnil). go.
      * discriminate.
    + found.
  - intros (P&[J|[J|[]]]&A); subst P; discriminate A.
Qed.
Print Assumptions C80_protected_guard_refuted.

(** x an Object; y = x && 1; y is shown as Integer although x may be nil *)
Definition objects := TClass (const_name object_text).
Definition object_and : node := Stmts (seq_of [Write Y (Logic false (Read 1 X) (Lit integer)); Read 10 Y]).
Theorem C80_object_operand_refuted : read_wrong object_and.
Proof.
  refute_in (@nil N) (given_x objects) (with_x vnil) 10%N vnil integer.
  - apply x_starts. reflexivity.
  - on_run; [go|].
    + eapply X_logic_left; [go|reflexivity].
    + found.
  - not_den.
Qed.
Print Assumptions C80_object_operand_refuted.

(** x = 1; begin x; foo; rescue; x = "s"; retry end *)
Definition retried : node := Stmts (seq_of [Write X (Lit integer);
  Begin (seq_of [Read 10 X; send RNone "foo"]) (RCons None (seq_of [Write X (Lit Types_Model.string); Retry]) RNil) NoTail NoTail]).
Theorem C80_retry_refuted : read_wrong retried.
Proof.
  refute_in (@nil N) none blank 10%N (VStr 0) integer.
  - exact blank_starts.
  - on_run; [go|].
    + eapply X_retry; [go; apply foo_raises| |].
      * apply (X_clause W0 None _ _ vnil). go. apply X_retry_node.
      * apply X_body. go. apply foo_yes.
    + found.
  - not_den.
Qed.
Print Assumptions C80_retry_refuted.

(** return if x&.nil?; x is shown as Integer *)
Definition safe_guard : node := Stmts (seq_of [
  If false (Call true (RNode (Read 1 X)) "nil?" ANil BNone) (seq_of [Return RNone]) NoTail; Read 10 X]).
Theorem C80_safe_guard_refuted : read_wrong safe_guard.
Proof.
  refute_in (@nil N) (given_x nilable) (with_x vnil) 10%N vnil integer.
  - apply x_starts. apply union_complete. exists nil_class. split; [right; left; reflexivity|reflexivity].
  - on_run; [go|].
    + eapply X_if_else; [eapply X_call_safe; apply X_recv, (X_read W0 _ X (with_x vnil))|reflexivity|go].
    + found.
  - not_den.
Qed.
Print Assumptions C80_safe_guard_refuted.

(** y = begin 1; else end *)
Definition empty_else : node := Stmts (seq_of [Write Y (Begin (seq_of [Lit integer]) RNil (Else SNil) NoTail); Read 10 Y]).
Theorem C80_empty_else_refuted : read_wrong empty_else.
Proof.
  refute_in (@nil N) none blank 10%N vnil integer.
  - exact blank_starts.
  - on_run; [go|].
    + eapply X_body_else; go.
    + found.
  - not_den.
Qed.
Print Assumptions C80_empty_else_refuted.

(** y = while foo do 1 end *)
Definition loop_value : node := Stmts (seq_of [Write Y (While false (send RNone "foo") (seq_of [Lit integer])); Read 10 Y]).
Theorem C80_loop_value_refuted : read_wrong loop_value.
Proof.
  refute_in (@nil N) none blank 10%N vnil integer.
  - exact blank_starts.
  - on_run; [go|].
    + eapply X_while_end; [apply foo_no|reflexivity].
    + found.
  - not_den.
Qed.
Print Assumptions C80_loop_value_refuted.

(** y = x&.to_s *)
Definition safe_value : node := Stmts (seq_of [warm; Write Y (Call true (RNode (Read 1 X)) "to_s" ANil BNone); Read 10 Y]).
Theorem C80_safe_call_refuted : read_wrong safe_value.
Proof.
  refute_in (@nil N) (given_x nilable) (with_x vnil) 10%N vnil Types_Model.string.
  - apply x_starts. apply union_complete. exists nil_class. split; [right; left; reflexivity|reflexivity].
  - on_run; [go; [apply warm_run|]|].
    + eapply X_call_safe. apply X_recv, (X_read W0 _ X (with_x vnil)).
    + found.
  - not_den.
Qed.
Print Assumptions C80_safe_call_refuted.

(** y = x.to_s { break } *)
Definition break_value : node := Stmts (seq_of [warm;
  Write Y (Call false (RNode (Read 1 X)) "to_s" ANil (BBlock [] [] (seq_of [Break]))); Read 10 Y]).
Theorem C80_break_value_refuted : read_wrong break_value.
Proof.
  refute_in (@nil N) (given_x integer) (with_x (VObj 3)) 10%N vnil Types_Model.string.
  - apply x_starts. reflexivity.
  - on_run; [go; [apply warm_run|]|].
    + eapply X_call_break; [go|discriminate|go|].
      eapply X_run_stop; [reflexivity| |exact Logic.I|discriminate]. apply X_last, X_break.
    + found.
  - not_den.
Qed.
Print Assumptions C80_break_value_refuted.

(** y = [].map { next if foo; "s" } *)
Definition next_value : node := Stmts (seq_of [
  Write Y (Call false (RNode (Lit (TArray [integer]))) "map" ANil
    (BBlock [] [] (seq_of [If false (send RNone "foo") (seq_of [Next]) NoTail; Lit Types_Model.string]))); Read 10 Y]).
Theorem C80_next_refuted : read_wrong next_value.
Proof.
  refute_in (@nil N) none blank 10%N (VArr [vnil]) (TArray [Types_Model.string]).
  - exact blank_starts.
  - on_run; [go|].
    + eapply X_call; [go|discriminate|go| |left; reflexivity].
      eapply run1_next; [reflexivity|]. eapply X_seq_stop; [|exact Logic.I].
      eapply X_if_then; [apply foo_yes|reflexivity|apply X_last, X_next].
    + found.
  - intros (vs&J&A). injection J as <-. destruct (A vnil (or_introl eq_refl)) as (P&[C|[]]&B). subst P. discriminate B.
Qed.
Print Assumptions C80_next_refuted.

(** ** The return type *)
Ltac refute_return params s v o :=
  exists W0, T0, params, s, v; eexists; exists o; eexists; split; [exact W0_honest|]; split; [|split; [|split; [reflexivity|vm_compute; discriminate]]].

(** def m(x) x.to_s { return nil } end *)
Definition block_return : node :=
  Call false (RNode (Read 1 X)) "to_s" ANil (BBlock [] [] (seq_of [Return (RNode (Lit nil_class))])).
Theorem C81_block_return_refuted : return_wrong block_return.
Proof.
  refute_return (given_x integer) (with_x (VObj 3)) vnil (Ret vnil).
  - apply x_starts. reflexivity.
  - eapply (X_call_stop W0 _ _ _ _ _ _ _ _ _ _ _ _ _ (Ret vnil)); [go|discriminate|go| |exact Logic.I|discriminate].
    eapply X_run_stop; [reflexivity| |exact Logic.I|discriminate]. apply X_last. apply X_return_value. go.
Qed.
Print Assumptions C81_block_return_refuted.

(** def m() while foo do 1 end end *)
Theorem C81_loop_refuted : return_wrong (While false (send RNone "foo") (seq_of [Lit integer])).
Proof.
  refute_return none blank vnil (Normal vnil).
  - exact blank_starts.
  - eapply X_while_end; [apply foo_no|reflexivity].
Qed.
Print Assumptions C81_loop_refuted.

(** def m() return 1 if foo; loop { foo } end: a StopIteration ends the loop *)
Definition endless_loop : node := Stmts (seq_of [
  If false (send RNone "foo") (seq_of [Return (RNode (Lit integer))]) NoTail;
  Call false RNone "loop" ANil (BBlock [] [] (seq_of [send RNone "foo"]))]).
Theorem C81_stopped_loop_refuted : return_wrong endless_loop.
Proof.
  refute_return none blank vnil (Normal vnil).
  - exact blank_starts.
  - go.
    + eapply X_if_else; [apply foo_no|reflexivity|go].
    + eapply X_call; [go|discriminate|go|apply X_runs_end|left; reflexivity].
Qed.
Print Assumptions C81_stopped_loop_refuted.

(** ** A run of the covered program of TypeFlow_Props, through the rescue clause and the loop *)
Example C80_some_run : exists tr o s', exec W0 (IN body0) s0 tr o s' /\ In (11%N, VObj 7) tr /\ In (14%N, VSym 0) tr /\ In (16%N, VSym 0) tr /\
  result_of o = Some (VSym 0).
Proof.
  do 3 eexists. split; [go|].
  - eapply X_if_else; [asked|reflexivity|go].
  - asked.
  - eapply (X_rescued W0 _ _ _ _ _ _ _ (Normal (VSym 0))); [| |discriminate].
    + eapply X_seq; [go| |discriminate]. apply X_last. eapply X_call_raise; [go|discriminate|go|apply X_runs_end].
    + apply (X_clause W0 (Some E) _ _ (VHash [])). go.
  - eapply X_while_more; [apply foo_yes|reflexivity|go; asked|right; eauto|]. eapply X_while_end; [apply foo_no|reflexivity].
  - eapply X_call; [go|discriminate|go| |left; reflexivity]. eapply run1; [reflexivity|go; asked].
  - cbn. tauto.
Qed.
