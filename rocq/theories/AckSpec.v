(** Specification of the host's answers to events that ask nothing. *)
From Verif Require Import Base Lib Var Value Event Sieve Run.
Import ListNotations.

(** The host has to answer this one with yes or no. *)
Definition question (o : option out) : Prop :=
  match o with
  | Some (OEvent (EListContains _ _ _)) | Some (OEvent (EDuplicateId _ _ _)) | Some (OEvent (EMailboxExists _ _)) => True
  | _ => False
  end.
Definition yes_or_no (i : input) : Prop := i = InTrue \/ i = InFalse.
Definition hands_script (i : input) : Prop := match i with InScript _ _ => True | _ => False end.

(** Two hosts, that get [outs] after [last], give the same answers to questions, and those are no scripts.  Whatever else they
    are told, they say the same, or one says yes and the other no. *)
Fixpoint same_answers (last : option out) (inputs inputs' : list input) (outs : list (option out)) : Prop :=
  match inputs, inputs', outs with
  | [], [], [] => True
  | i :: inputs, i' :: inputs', o :: outs =>
      ((i = i' /\ (question last -> ~ hands_script i)) \/ (~ question last /\ yes_or_no i /\ yes_or_no i')) /\
      same_answers o inputs inputs' outs
  | _, _, _ => False
  end.

(** The instruction goes on at one of two places by the result of the last test. *)
Definition branches (i : instruction) : Prop := match i with IxJz _ | IxJnz _ => True | _ => False end.
Definition tests (i : instruction) : Prop := match i with IxTest _ | IxEval _ => True | _ => False end.
(** Where an instruction can go that does not ask for the result of the last test *)
Definition goes_to (i : instruction) (p : nat) : Prop :=
  match i with IxJmp q | IxForEveryPart q | IxWhile _ q => p = q | _ => False end.
(** Right before each branch there is a test, and no other way leads there but that of a branch. *)
Definition tested (x : sieve) : Prop :=
  forall p i, nth_error (s_code x) p = Some i -> branches i ->
    (exists p' t, p = S p' /\ nth_error (s_code x) p' = Some t /\ tests t) /\
    (forall j, In j (s_code x) -> ~ goes_to j p).
(** The script does not give a value to a part of the envelope with [let], [setflag], [addflag] or [removeflag] (with [set] it may). *)
Definition keeps_envelope (x : sieve) : Prop :=
  forall i, In i (s_code x) ->
    match i with IxLet (TEnvelope _) _ | IxEditFlags _ (Some (TEnvelope _)) _ => False | _ => True end.
Definition sound (x : sieve) : Prop := tested x /\ keeps_envelope x.
(** The functions of the host do not see the result of the last test. *)
Definition blind (E : renv) : Prop := forall s b, E_fns E (w_test b s) = E_fns E s.
