(** Which script an include runs: C97. *)
From Coq Require Import Lia.
From Verif Require Import Base Lib Address Var Value SetVar Flags Comparator Message EditHeader Expr Event
  Notify Vacation AddrTest Mime Sieve Run RunSpec IncludeSpec IncludeProofs PropertiesRun.
Import ListNotations.
Local Open Scope string_scope.
Local Open Scope list_scope.

(** An include that is executed while the host's input [inp] is processed, after those
    before: with a name that is not empty, it is skipped if it is ":once" and the host has
    handed in a script under the name; otherwise it fails if there are too many active
    scripts, or enters the script handed in last under the name, or the registered one if none
    was handed in, or asks the host for the script if there is none either. *)
Theorem C97_include :
  forall E m size c before inp outs s name global once optional st,
    converse_run E before (initial m size c) = Some (outs, s) ->
    In (IxInclude name global once optional, st) (g_log (run_log E inp s)) ->
    Run.ev E st name <> VStr [] ->
    includes E (before ++ [inp]) (v_text (E_L E) (Run.ev E st name)) global once optional st (exec_instr E (IxInclude name global once optional) st).
Proof.
  intros E m size c before inp outs s name global once optional st C I Ne. eapply (include_in_run E m size c); eauto.
  destruct (Run.ev E st name) as [[|? ?]| | |]; try reflexivity. now destruct Ne.
Qed.
Print Assumptions C97_include.

(** An include of an empty name does nothing. *)
Theorem C97_include_empty : forall E name global once optional st, Run.ev E st name = VStr [] ->
  exec_instr E (IxInclude name global once optional) st = SCont st.
Proof. intros E name global once optional st H. cbn [exec_instr]. unfold exec_include. now rewrite H. Qed.
Print Assumptions C97_include_empty.

(** The host is asked for a script only if it has not handed it in before and it is not registered. *)
Theorem C97_asked : forall E m size c before inp outs s s' n optional,
  converse_run E before (initial m size c) = Some (outs, s) -> run E inp s = RRet s' (Some (OEvent (EInclude n optional))) ->
  never_given (before ++ [inp]) n /\ E_scripts E (name_text n) = None.
Proof. exact asked_for. Qed.
Print Assumptions C97_asked.

(** The host is asked for "a" once only; "a" of the other location is another script.  Both
    theorems speak about this run: the second include is executed when the host answers the
    third call, after the script has been handed in. *)
Definition file_in (t : String.string) : sieve := script [fileinto t true].
Definition inc (global : bool) : instruction := IxInclude (str "a") global false true.
Definition includer : input := main [inc false; inc false; inc true].
Definition hand_in : input := InScript (SPersonal (lit "a")) (file_in "A").
Example C97_case :
  talk E1 [inc false; inc false; inc true] [hand_in; InTrue; InTrue; InScript (SGlobal (lit "a")) (file_in "B"); InTrue; InTrue] =
    Some [ev (EInclude (SPersonal (lit "a")) true); ev (EFileInto (lit "A") [] None None false 0); ev (EFileInto (lit "A") [] None None false 0);
          ev (EInclude (SGlobal (lit "a")) true); ev (EFileInto (lit "B") [] None None false 0); ev (EKeep [] 0); None] /\
  (exists outs s, converse_run E1 [includer; hand_in] s0 = Some (outs, s) /\ map fst (g_log (run_log E1 InTrue s)) = [inc false; fileinto "A" true]) /\
  given ([includer; hand_in] ++ [InTrue]) (SPersonal (lit "a")) (file_in "A") /\
  never_given ([includer; hand_in] ++ [InTrue]) (SGlobal (lit "a")).
Proof.
  split; [vm_compute; reflexivity|]. split; [|split].
  - destruct (converse_run E1 [includer; hand_in] s0) as [[outs s]|] eqn:C; [|vm_compute in C; discriminate C]. exists outs, s. split; [reflexivity|].
    assert (X : match converse_run E1 [includer; hand_in] s0 with Some (_, s) => map fst (g_log (run_log E1 InTrue s)) | None => [] end = [inc false; fileinto "A" true])
      by (vm_compute; reflexivity).
    rewrite C in X. exact X.
  - split; [split; vm_compute; lia|]. exists [includer], [InTrue]. split; [reflexivity|]. intros y [H|[]]. discriminate H.
  - intros y H. cbn in H. repeat (destruct H as [H|H]; [discriminate H|]). destruct H.
Qed.
