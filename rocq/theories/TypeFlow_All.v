(** The induction on runs: what the tracker records is true of every run. *)
From Coq Require Import List Bool NArith.
From Verif Require Import Types_Model Types_Spec Types_Union TypeFlow_Model TypeFlow_Spec TypeFlow_Frame TypeFlow_Tracker TypeFlow_Cover TypeFlow_Views TypeFlow_Fits TypeFlow_Narrow TypeFlow_Calls TypeFlow_Sound TypeFlow_Main TypeFlow_Branch TypeFlow_Except TypeFlow_Loop.
Import ListNotations.

Theorem all_sound W T K c s tr o s' : honest W T -> (forall x, H K x = true -> U K x = true) -> exec W c s tr o s' -> spec W T K c s tr o s'.
Proof.
  intros Hon HU E. induction E.
  - apply s_cut; assumption.
  - apply s_lit; assumption.
  - apply s_const; assumption.
  - apply s_read; assumption.
  - apply s_write; assumption.
  - apply s_write_stop; assumption.
  - eapply hidden_spec; try eassumption; try exact Logic.I. constructor; assumption.
  - eapply hidden_spec; try eassumption; try exact Logic.I. eapply X_or_set; eassumption.
  - eapply hidden_spec; try eassumption; try exact Logic.I. eapply X_or_stop; eassumption.
  - eapply hidden_spec; try eassumption; try exact Logic.I. eapply X_op; eassumption.
  - eapply hidden_spec; try eassumption; try exact Logic.I. eapply X_op_raise; eassumption.
  - eapply hidden_spec; try eassumption; try exact Logic.I. eapply X_op_stop; eassumption.
  - apply s_self; assumption.
  - apply s_recv; assumption.
  - apply s_anil; assumption.
  - eapply s_acons; eassumption.
  - apply s_acons_stop; assumption.
  - apply s_call_safe; assumption.
  - apply s_call_recv; assumption.
  - eapply s_call_args; eassumption.
  - eapply s_call; [exact Hon|exact HU|exact E1|exact IHE1|exact E2|exact IHE2|exact E3|exact IHE3|assumption].
  - eapply s_call_other; [exact Hon|exact HU|exact E1|exact IHE1|exact E2|exact IHE2|exact E3|exact IHE3|exact Logic.I|discriminate].
  - eapply s_call_break; [exact Hon|exact HU|exact E1|exact IHE1|exact E2|exact IHE2|exact E3|exact IHE3].
  - eapply s_call_other; [exact Hon|exact HU|exact E1|exact IHE1|exact E2|exact IHE2|exact E3|exact IHE3|assumption|auto].
  - apply s_runs_end; assumption.
  - eapply s_run; try eassumption. left. reflexivity.
  - eapply s_run; try eassumption. right. reflexivity.
  - eapply s_run_stop; eassumption.
  - apply s_if_stop; assumption.
  - eapply s_if_then; eassumption.
  - eapply s_if_else; eassumption.
  - apply s_no_tail; assumption.
  - apply s_else; assumption.
  - apply s_case_stop; assumption.
  - eapply s_case; eassumption.
  - eapply s_when_hit; eassumption.
  - eapply s_when_miss; eassumption.
  - apply s_when_stop; assumption.
  - apply s_when_none; assumption.
  - apply s_logic_left; assumption.
  - eapply s_logic_right; eassumption.
  - apply s_logic_stop; assumption.
  - apply s_begin; assumption.
  - eapply s_ensure; eassumption.
  - eapply s_ensure_stop; [exact Hon|exact HU|exact E1|exact IHE1|exact IHE2|assumption].
  - apply s_ensure_cut; assumption.
  - apply s_body; assumption.
  - eapply s_body_else; eassumption.
  - apply s_body_stop; assumption.
  - eapply s_rescued; eassumption.
  - eapply s_retry; eassumption.
  - eapply s_clause; eassumption.
  - apply s_clause_skip; assumption.
  - apply s_mod_left; assumption.
  - eapply s_mod_right; eassumption.
  - eapply s_while_end; eassumption.
  - eapply s_while_more; [exact Hon|exact HU|exact IHE1|exact E2|exact IHE2|eassumption|exact IHE3].
  - eapply s_while_break; eassumption.
  - eapply s_while_body_stop; eassumption.
  - eapply s_while_stop; eassumption.
  - apply s_return; assumption.
  - apply s_return_value; assumption.
  - apply s_return_stop; assumption.
  - apply s_break; assumption.
  - apply s_next; assumption.
  - apply s_retry_node; assumption.
  - apply s_paren; assumption.
  - apply s_stmts; assumption.
  - apply s_empty; assumption.
  - apply s_last; assumption.
  - eapply s_seq; eassumption.
  - apply s_seq_stop; assumption.
Qed.
