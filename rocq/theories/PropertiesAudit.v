(** What a script can cause is read off its instructions: C99. *)
From Coq Require Import Lia.
From Verif Require Import Base Lib Address Var Value SetVar Flags Comparator Message EditHeader Expr Event
  Notify Vacation AddrTest Mime Sieve Run RunSpec AuditSpec AuditProofs PropertiesRun.
Import ListNotations.
Local Open Scope string_scope.
Local Open Scope list_scope.

(** Whatever the host answers: every event it is handed is a keep, or is caused by an
    instruction of one of the scripts. *)
Theorem C99_events : forall E inputs m size c outs s' e,
  converse_run E inputs (initial m size c) = Some (outs, s') -> In (Some (OEvent e)) outs ->
  (exists flags id, e = EKeep flags id) \/ exists i, in_play E inputs i /\ causes i e.
Proof.
  intros E inputs m size c outs s' e H Ie. destruct (whole E inputs m size c outs s' H) as [_ F].
  exact (proj1 (Forall_forall _ _) F _ Ie).
Qed.
Print Assumptions C99_events.

(** If no script has an instruction that edits the message, then the message stays as it is. *)
Theorem C99_message : forall E inputs m size c outs s',
  converse_run E inputs (initial m size c) = Some (outs, s') -> (forall i, in_play E inputs i -> ~ edits i) ->
  r_msg s' = {| ms_parts := m; ms_changed := false; ms_size := size |}.
Proof.
  intros E inputs m size c outs s' H N. destruct (whole E inputs m size c outs s' H) as [(_ & _ & _ & _ & K & _) _].
  destruct K as [(i & Pi & W)|K]; [now destruct (N i Pi)|exact K].
Qed.
Print Assumptions C99_message.

(** If no script has an instruction that assigns a global variable or an item of the envelope, then
    it has the value that the host gave it. *)
Theorem C99_variables : forall E inputs m size c outs s' v,
  converse_run E inputs (initial m size c) = Some (outs, s') ->
  match v with TGlobal _ | TEnvelope _ => True | _ => False end ->
  (forall i, in_play E inputs i -> ~ assigns i v) ->
  variable (r_vars s') v = variable c v.
Proof.
  intros E inputs m size c outs s' v H V N. destruct (whole E inputs m size c outs s' H) as [(_ & _ & _ & _ & _ & G & K) _].
  destruct v as [k|k|k|k|k|k]; try contradiction; cbn [variable].
  - destruct (G k) as [(i & Pi & W)|Q]; [now destruct (N i Pi)|exact Q].
  - destruct (K k) as [(i & Pi & W)|Q]; [now destruct (N i Pi)|exact Q].
Qed.
Print Assumptions C99_variables.

(** A script that files the message and sets a global variable and, in a branch that is not
    taken, discards; the other theorems' hypotheses hold of it. *)
Definition audited : list instruction :=
  [fileinto "A" true; IxSet [] (TGlobal (lit "g")) (str "x"); IxJmp 4; IxDiscard; fileinto "B" false].
Lemma audited_only E i : (forall n, E_scripts E n = None) -> in_play E [main audited; InTrue; InTrue; InTrue] i -> In i audited.
Proof.
  intros N (x & [[n R]|[n R]] & Ii); [now rewrite N in R|]. destruct R as [R|[R|[R|[R|[]]]]]; try discriminate R.
  injection R as _ <-. exact Ii.
Qed.
Example C99_case :
  option_map fst (converse_run E1 [main audited; InTrue; InTrue; InTrue] s0) =
    Some [ev (EFileInto (lit "A") [] None None false 0); ev (EFileInto (lit "B") [] None None false 0); None; None] /\
  (forall i, In i audited -> ~ edits i) /\ (forall i, In i audited -> ~ assigns i (TGlobal (lit "h"))) /\
  (forall i, In i audited -> ~ causes i (ESend (RAddress (lit "a@b.org")) quiet_opts 0)).
Proof.
  split; [vm_compute; reflexivity|]. repeat split; intros i Ii; repeat (destruct Ii as [<-|Ii]; [intro X; now try discriminate X|]); destruct Ii.
Qed.
