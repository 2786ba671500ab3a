(** The end of a conversation: C102. *)
From Coq Require Import Lia.
From Verif Require Import Base Lib Address Var Value SetVar Flags Comparator Message EditHeader
  Expr ExprTok Event Notify AddrTest Vacation Mime Sieve Run RunSpec Utf8 Lexer Scope StringTok HeaderVar Compile ParseArgs ParseBase Parse
  GrammarSpec WordSpec AckSpec AckProofs EndProofs PropertiesRun PropertiesParse PropertiesAck.
Import ListNotations.
Local Open Scope string_scope.
Local Open Scope list_scope.

(** Once a call has returned nothing, no later call returns anything, whatever it is given that is no script: if no script gives a value to
    a part of the envelope by [let], [setflag], [addflag] or [removeflag]. *)
Theorem C102_end_partial : forall E inputs m size c outs s' k,
  (forall x, script_in_play E inputs x -> keeps_envelope x) ->
  converse_run E inputs (initial m size c) = Some (outs, s') ->
  nth_error outs k = Some None -> (forall j i, k < j -> nth_error inputs j = Some i -> ~ hands_script i) ->
  forall j o, k < j -> nth_error outs j = Some o -> o = None.
Proof.
  intros E inputs m size c outs s' k W H N I j o L Q.
  assert (At : forall (A : Type) n (l : list A) a, nth_error (skipn n l) a = nth_error l (n + a)).
  { clear. intros A n. induction n as [|n IH]; intros [|x l] a; try reflexivity; cbn [skipn plus nth_error]; [now destruct a|apply IH]. }
  assert (F : Forall (fun o => o = None) (skipn (S k) outs)).
  { apply (converse_end E (fun n x Q => W x (or_introl (ex_intro _ n Q))) k inputs (initial m size c) outs s'); auto.
    - split; constructor.
    - intros n x X. apply W. right. now exists n.
    - apply Forall_forall. intros i X. apply In_nth_error in X. destruct X as [a X]. apply (I (S k + a) i); [lia|]. rewrite <- At. exact X. }
  replace j with (S k + (j - S k)) in Q by lia. rewrite <- At in Q. exact (proj1 (Forall_forall _ _) F o (nth_error_In _ _ Q)).
Qed.
Print Assumptions C102_end_partial.

(** Otherwise an event can be handed out by a call after the one that returned nothing: a host that stops there does not get it. *)
Definition late : String.string :=
  "require [""fileinto"", ""vnd.stalwart.expressions""]; fileinto ""a""; let ""envelope.from"" ""1""; ".
Theorem C102_end_refuted :
  conversation late [InTrue; InTrue; InTrue] =
  Some [ev (EFileInto (lit "a") [] None None false 0); None; ev (ESetEnvelope EnvFrom (lit "1")); None].
Proof. vm_compute. reflexivity. Qed.
Print Assumptions C102_end_refuted.

(** A script and what is said to it after its end *)
Example C102_case :
  match comp asking with Compiled x => keeps_envelope x | _ => False end /\
  conversation asking [InTrue; InFalse; InTrue; InTrue; InResult (VInt 7); InFalse; InTrue] =
  Some [ev (EFileInto (lit "a") [] None None false 0); ev (EMailboxExists [MbName (lit "b")] []); ev (EFileInto (lit "c") [] None None false 0); None; None; None; None; None].
Proof.
  split; [|vm_compute; reflexivity]. vm_compute. intros i I. repeat (destruct I as [<-|I]; [exact Logic.I|]). destruct I.
Qed.
