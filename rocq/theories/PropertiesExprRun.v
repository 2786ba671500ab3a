(** Expressions of a run. *)
From Verif Require Import Base Lib Address Var Value SetVar Flags Comparator Message EditHeader Expr Event
  Notify Vacation Spam AddrTest Mime Sieve Run RunSpec RunProofs RunProofs2 RunProofs8 CompileSpec CompileProofs6
  ExprRunSpec ExprRunProofs PropertiesRun.

(** *** C22: evaluation goes on where it was left

    In every conversation with a host that answers what it is asked, whatever else
    the script does in between, each expression of the script is evaluated from its
    first token with an empty stack, and after a function call from where it was
    left, with the result of the call on top. *)
Theorem C22_resumed : forall E m size c n x inputs outs s',
  let s := initial m size c in
  converse_run E (InScript n x :: inputs) s = Some (outs, s') ->
  (match outs with o :: outs' => attentive o inputs outs' | [] => True end) ->
  forall i st code, In (i, st) (g_log (log_of E (InScript n x :: inputs) s)) ->
  expression_of i = Some code -> partway E code (r_epos st) (r_estack st).
Proof.
  intros E m size c n x inputs outs s' s H A i st code Hi X.
  assert (A' : attentive (Some (OEvent (EInclude n false))) (InScript n x :: inputs) outs).
  { cbn. destruct outs; [exact Logic.I|]. split; [exact Logic.I|exact A]. }
  assert (B : between E (Some (OEvent (EInclude n false))) s) by (split; reflexivity).
  pose proof (conversation_ready E _ s _ outs s' Logic.I eq_refl B A' H) as G.
  rewrite Forall_forall in G. exact (G (i, st) Hi code X).
Qed.
Print Assumptions C22_resumed.

(** "if eval call(7) + call(8)" twice, with a test in between. *)
Definition C22_code : list instr := [IConst (VInt 7); IFun (id_external - 5) 1; IConst (VInt 8); IFun (id_external - 5) 1; IBin BAdd].
Definition C22_answers := [InResult (VInt 1); InResult (VInt 2); InResult (VInt 3); InResult (VInt 4); InTrue].
Example C22_resumed_ex :
  talk E1 [IxEval C22_code; IxTest TeTrue; IxEval C22_code; IxDiscard] C22_answers =
  Some [ev (EFunction 5 [VInt 7]); ev (EFunction 5 [VInt 8]); ev (EFunction 5 [VInt 7]); ev (EFunction 5 [VInt 8]);
        ev EDiscard; None]
  /\ attentive (ev (EFunction 5 [VInt 7])) C22_answers
       [ev (EFunction 5 [VInt 8]); ev (EFunction 5 [VInt 7]); ev (EFunction 5 [VInt 8]); ev EDiscard; None]
  /\ map (fun x => (r_epos (snd x), r_estack (snd x)))
       (g_log (log_of E1 (main [IxEval C22_code; IxTest TeTrue; IxEval C22_code; IxDiscard] :: C22_answers) s0)) =
     [(0, []); (2, [VInt 1]); (4, [VInt 2; VInt 1]); (0, []); (0, []); (2, [VInt 3]); (4, [VInt 4; VInt 3]); (0, [])].
Proof.
  split; [vm_compute; reflexivity|]. split; [|vm_compute; reflexivity].
  cbn. repeat split; eauto.
Qed.
