(** The limits of a run: C98. *)
From Coq Require Import Lia.
From Verif Require Import Base Lib Address Var Value SetVar Flags Comparator Message EditHeader Expr Event
  Notify Vacation AddrTest Mime Sieve Run RunSpec LimitSpec LimitProofs PropertiesRun.
Import ListNotations.
Local Open Scope string_scope.
Local Open Scope list_scope.

(** A conversation in which no limit on instructions or active scripts is exceeded is the
    same, output by output and up to the final state, if these limits are raised. *)
Theorem C98_limits_only_end_runs : forall E cpu includes inputs s outs s',
  E_cpu E <= cpu -> E_max_includes E <= includes ->
  converse_run E inputs s = Some (outs, s') -> Forall (fun o => ~ over_limit o) outs ->
  converse_run (with_limits cpu includes E) inputs s = Some (outs, s').
Proof. intros E cpu includes inputs s outs s' A B. exact (converse_limit E cpu includes A B inputs s outs s'). Qed.
Print Assumptions C98_limits_only_end_runs.

(** And any conversation is the one with higher limits up to the error that says that a
    limit is exceeded. *)
Theorem C98_same_until_the_error : forall E cpu includes inputs s outs s' outs' s'',
  E_cpu E <= cpu -> E_max_includes E <= includes ->
  converse_run E inputs s = Some (outs, s') -> converse_run (with_limits cpu includes E) inputs s = Some (outs', s'') ->
  outs = outs' \/ exists same o rest rest', outs = same ++ o :: rest /\ outs' = same ++ rest' /\ over_limit o.
Proof. intros E cpu includes inputs s outs s' outs' s'' A B. exact (converse_prefix E cpu includes A B inputs s outs s' outs' s''). Qed.
Print Assumptions C98_same_until_the_error.

(** A run that exceeds the limit of instructions, and the same with a limit that suffices *)
Example C98_case :
  let conversation E := option_map fst (converse_run E [main [fileinto "A" true; fileinto "B" true; IxDiscard; IxDiscard]; InTrue; InTrue; InTrue] s0) in
  conversation (with_limits 3 1 E1) =
    Some [ev (EFileInto (lit "A") [] None None false 0); ev (EFileInto (lit "B") [] None None false 0); Some (OError ErCpu); ev EDiscard] /\
  conversation (with_limits 4 1 E1) =
    Some [ev (EFileInto (lit "A") [] None None false 0); ev (EFileInto (lit "B") [] None None false 0); ev EDiscard; None].
Proof. vm_compute. split; reflexivity. Qed.
