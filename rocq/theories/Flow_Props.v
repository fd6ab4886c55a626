(** C77: a statement marked unreachable never runs, and what plainly cannot run is marked. *)
From Coq Require Import String List Bool NArith.
Import ListNotations.
From Verif Require Import Flow_Model Flow_Spec Flow_Proofs Flow_Exact.
Local Open Scope string_scope.

(** No execution of the program starts a marked statement, whatever the conditions, the called
    methods and the exceptions do.  Missing: programs which define methods of their own under
    the names of those that never return, programs which end a [loop] by StopIteration, and
    [for] loops with a [break] in the collection; see the refutations below. *)
Theorem C77_never_runs_partial : forall W p l,
  NoDup (locs_s p) -> keeps_builtins W -> every_s for_plain p = true ->
  (stops W -> every_s not_loop p = true) ->
  In l (unreachable p) -> ~ runs W p l.
Proof.
  intros W p l N K E L J [t [o [X I]]].
  refine (not_started (unreachable p) W (IS p) t o X K E L _ l I J).
  apply (proj1 (proj2 (proj2 (proj2 (proj2 (clean_walk (unreachable p)))))) p N).
  intros x _ M. exact M.
Qed.
Print Assumptions C77_never_runs_partial.

(** Every statement after a jump, a call that never returns or a branch whose arms all end so
    is marked, in every statement list of the program: dropping the parser's own warnings
    (src/capabilities/diagnostics.rs 330-337) loses none of them. *)
Theorem C77_marks_all : forall p n l, behind p n l -> leaves n -> In l (unreachable p).
Proof.
  intros p n l [s [before [m [after [J [E A]]]]]] V.
  pose proof (reported s false before m n after l E (proj1 leaves_diverge n V) A) as R.
  unfold unreachable. apply in_app_iff. destruct J as [<-|J]; [left; exact R|right].
  apply (proj1 (proj2 (proj2 (proj2 (proj2 walked)))) p s J). exact R.
Qed.
Print Assumptions C77_marks_all.

(** In a structured program with nothing marked, every statement can run. *)
Theorem C77_dead_code_found : forall W p l,
  every_s structured p = true -> unreachable p = [] -> In l (locs_s p) -> runs W p l.
Proof.
  intros W p l S U J.
  destruct (proj1 (proj2 (proj2 (proj2 (proj2 (all_fine W))))) p U S) as [_ R].
  destruct (R l J) as [t [o [X K]]]. exists t, o. split; assumption.
Qed.
Print Assumptions C77_dead_code_found.

(** ** A program meeting the hypotheses

    def f
      if x then return else begin; raise; rescue E; return; ensure; log; end end
      a
      b
    end
    loop { work }
    c                                                                                        *)
Definition sample : stmts :=
  SCons 1 (Def (Stmts
    (SCons 2 (If Lit (SCons 3 (Return ANil) SNil)
                (Else (SCons 4 (Begin (SCons 5 (Call RNone "raise" ANil BNone) SNil)
                          (RCons (ACons Lit ANil) (SCons 6 (Return (ACons Lit ANil)) SNil) RNil)
                          NoTail (Else (SCons 7 (Call RNone "log" ANil BNone) SNil))) SNil)))
    (SCons 8 (Call RNone "a" ANil BNone)
    (SCons 9 (Call RNone "b" ANil BNone) SNil)))))
  (SCons 10 (Call RNone "loop" ANil (BBlock (Stmts (SCons 11 (Call RNone "work" ANil BNone) SNil))))
  (SCons 12 (Call RNone "c" ANil BNone) SNil)).

Definition plain_world : world := {| own := fun _ _ => False; stops := False |}.

Example C77_sample : NoDup (locs_s sample) /\ keeps_builtins plain_world /\
  every_s for_plain sample = true /\ (stops plain_world -> every_s not_loop sample = true) /\
  unreachable sample = [12; 8; 9]%N.
Proof.
  split; [|split; [|split; [reflexivity|split; [intros []|reflexivity]]]].
  - cbv [locs_s locs locs_r locs_a locs_b locs_t locs_w locs_rs sample app].
    repeat (constructor; [cbn [In]; intuition discriminate|]). constructor.
  - intros c f _ [].
Qed.

(** marked statement 8 does not run although 7 before it does *)
Example C77_sample_runs : ~ runs plain_world sample 8 /\ runs plain_world sample 7.
Proof.
  destruct C77_sample as [A [B [C [D E]]]]. split.
  - apply C77_never_runs_partial; auto. rewrite E. cbn. auto.
  - exists [1; 2; 4; 5; 7]%N, Cut. split; [|cbn; tauto].
    change [1; 2; 4; 5; 7]%N with ((1 :: [2; 4; 5; 7] ++ [])%list)%N.
    apply e_stmt; [|apply e_cut]. apply (e_def_later _ _ _ (Raise false)). apply e_stmts.
    apply e_stmt_out; [|discriminate]. apply e_else. change [4; 5; 7]%N with ([] ++ [4; 5; 7])%list%N.
    apply e_seq; [apply e_lit|]. apply e_elses, e_stmt_out; [|discriminate].
    change [5; 7]%N with ([5] ++ [7])%list%N. apply e_begin; [|discriminate|].
    + change [5]%N with ([5] ++ [])%list%N. apply (e_body_raise _ _ _ _ _ _ false); [| |discriminate].
      * apply e_stmt_out; [|discriminate]. apply e_call.
        apply (e_seq _ _ _ [] []); [apply e_vnone|].
        apply (e_seq _ _ _ [] []); [apply e_anil|]. apply (e_seq _ _ _ [] []); [apply e_pnone|].
        apply (e_do_exit _ _ _ _ None false).
        -- split; [reflexivity|left]. split; [cbn; tauto|auto].
        -- split; [cbn; tauto|auto].
        -- intros [].
        -- intros Q. discriminate.
      * apply e_rescue_next. apply (e_seq _ _ _ [] []); [|apply e_unrescued].
        apply e_acons. apply (e_seq _ _ _ [] []); [apply e_lit|apply e_anil].
    + apply e_elses. change [7]%N with (7 :: [] ++ [])%list%N. apply e_stmt; [|apply e_nil].
      apply e_call. apply (e_seq _ _ _ [] []); [apply e_vnone|].
      apply (e_seq _ _ _ [] []); [apply e_anil|]. apply (e_seq _ _ _ [] []); [apply e_pnone|].
      apply e_do; [|left; reflexivity]. apply free; reflexivity.
Qed.

(** a structured program with nothing marked *)
Example C77_structured : exists p, every_s structured p = true /\ unreachable p = [] /\
  locs_s p = [1; 2; 3; 4; 5]%N /\ every_s not_break p = false.
Proof.
  exists (SCons 1 (While false Lit (SCons 2 (If Lit (SCons 3 (Break ANil) SNil) NoTail)
                       (SCons 4 (Call RNone "work" (ACons Lit ANil) BNone) SNil)))
         (SCons 5 (Return (ACons Lit ANil)) SNil)).
  repeat split; reflexivity.
Qed.

(** ** Where the marks are wrong *)

(** [loop { e.next }; done]: the loop ends when the enumerator does, the documented use of
    StopIteration, but everything after it is marked. *)
Theorem C77_loop_refuted : exists W p l,
  NoDup (locs_s p) /\ keeps_builtins W /\ every_s for_plain p = true /\
  In l (unreachable p) /\ runs W p l.
Proof.
  exists {| own := fun _ _ => False; stops := True |},
    (SCons 1 (Call RNone "loop" ANil
               (BBlock (Stmts (SCons 2 (Call (RNode Lit) "next" ANil BNone) SNil))))
    (SCons 3 (Call RNone "done" ANil BNone) SNil)), 3%N.
  split; [|split; [|split; [reflexivity|split; [left; reflexivity|]]]].
  - cbn. repeat (constructor; [cbn [In]; intuition discriminate|]). constructor.
  - intros c f _ [].
  - exists [1; 2; 3]%N, Cut. split; [|cbn; tauto].
    change [1; 2; 3]%N with (1 :: [2] ++ [3])%list%N. apply e_stmt.
    + apply e_call. apply (e_seq _ _ _ [] [2%N]); [apply e_vnone|].
      apply (e_seq _ _ _ [] [2%N]); [apply e_anil|].
      apply (e_seq _ _ _ [] [2%N]); [apply e_pblock|]. apply e_do_loop; [intros []|].
      apply e_loop_stop, e_stmts, e_stmt_out; [|discriminate]. apply e_call.
      apply (e_seq _ _ _ [] []); [apply e_vnode, e_lit|].
      apply (e_seq _ _ _ [] []); [apply e_anil|]. apply (e_seq _ _ _ [] []); [apply e_pnone|].
      apply e_do; [|right; left; exists true; split; [intros _; exact Logic.I|reflexivity]].
      intros c [[] _].
    + apply e_stmt_out; [apply e_cut|discriminate].
Qed.
Print Assumptions C77_loop_refuted.

(** a class with its own [abort]: the call returns, the rest of the method is marked. *)
Theorem C77_own_method_refuted : exists W p l,
  NoDup (locs_s p) /\ every_s for_plain p = true /\ ~ stops W /\
  In l (unreachable p) /\ runs W p l.
Proof.
  exists {| own := fun c f => c = None /\ f = "abort"; stops := False |},
    (SCons 1 (Call RNone "abort" ANil BNone) (SCons 2 (Call RNone "done" ANil BNone) SNil)), 2%N.
  split; [|split; [reflexivity|split; [intros []|split; [left; reflexivity|]]]].
  - cbn. repeat (constructor; [cbn [In]; intuition discriminate|]). constructor.
  - exists [1; 2]%N, Cut. split; [|cbn; tauto].
    change [1; 2]%N with (1 :: [] ++ [2])%list%N. apply e_stmt.
    + apply e_call. apply (e_seq _ _ _ [] []); [apply e_vnone|].
      apply (e_seq _ _ _ [] []); [apply e_anil|]. apply (e_seq _ _ _ [] []); [apply e_pnone|].
      apply e_do; [|left; reflexivity]. intros c [-> _]. split; reflexivity.
    + apply e_stmt_out; [apply e_cut|discriminate].
Qed.
Print Assumptions C77_own_method_refuted.

(** [loop { for x in (break) do end }; done]: the collection of a [for] belongs to the block
    around it, so its [break] ends the loop. *)
Theorem C77_for_refuted : exists p l,
  NoDup (locs_s p) /\ In l (unreachable p) /\ runs plain_world p l.
Proof.
  exists (SCons 1 (Call RNone "loop" ANil
               (BBlock (Stmts (SCons 2 (For (Paren (SCons 3 (Break ANil) SNil)) SNil) SNil))))
    (SCons 4 (Call RNone "done" ANil BNone) SNil)), 4%N.
  split; [|split; [left; reflexivity|]].
  - cbn. repeat (constructor; [cbn [In]; intuition discriminate|]). constructor.
  - exists [1; 2; 3; 4]%N, Cut. split; [|cbn; tauto].
    change [1; 2; 3; 4]%N with (1 :: [2; 3] ++ [4])%list%N. apply e_stmt.
    + apply e_call. apply (e_seq _ _ _ [] [2; 3]%N); [apply e_vnone|].
      apply (e_seq _ _ _ [] [2; 3]%N); [apply e_anil|].
      apply (e_seq _ _ _ [] [2; 3]%N); [apply e_pblock|]. apply e_do_loop; [intros []|].
      apply e_loop_break, e_stmts, e_stmt_out; [|discriminate]. apply e_for.
      apply e_seq_out; [|discriminate]. apply e_paren, e_stmt_out; [|discriminate].
      apply e_break, e_anil.
    + apply e_stmt_out; [apply e_cut|discriminate].
Qed.
Print Assumptions C77_for_refuted.

(** ** The exit kinds *)

(** [next 1 if y; raise]: the kinds reported for code that diverges do not include [next],
    although the code can end by it: only the last statement of a list is looked at.
    crates/ruby-analysis/src/indexer/callable_body.rs 125-143 takes the value of such a branch
    only if the kinds contain [return] or [next], so the value 1 is lost from the type of the
    block. *)
Theorem C77_kinds_refuted : exists s es t,
  analyze_s s = Some es /\ exec plain_world (IS s) t ONext /\ N.land es (bit XNext) = 0%N.
Proof.
  exists (SCons 1 (If Lit (SCons 2 (Next (ACons Lit ANil)) SNil) NoTail)
         (SCons 3 (Call RNone "raise" ANil BNone) SNil)), (bit XRaise), [1; 2]%N.
  split; [reflexivity|split; [|reflexivity]].
  apply e_stmt_out; [|discriminate]. apply e_then. apply (e_seq _ _ _ [] [2%N]); [apply e_lit|].
  apply e_stmt_out; [|discriminate]. apply e_next, e_acons.
  apply (e_seq _ _ _ [] []); [apply e_lit|apply e_anil].
Qed.
Print Assumptions C77_kinds_refuted.
