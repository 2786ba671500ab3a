(** Specification of the scripts that cannot make a run panic: conditions on
    single instructions that can be read off the compiled script. *)
From Verif Require Import Base Lib Glob GlobSpec Var Value Comparator Vacation Expr Sieve.

(** A key written in the script, with at most 63 wildcards. *)
Definition few_wildcards (k : value) : Prop := exists t, k = XText t /\ wildcards t <= 63.
(** The match type sets no match variables. *)
Definition sets_nothing (m : mtype) : Prop :=
  match m with MMatches p | MRegex p => p = 0%N | _ => True end.
(** Match variables are only set from keys with at most 63 wildcards. *)
Definition calm_keys (m : mtype) (keys : list value) : Prop := sets_nothing m \/ Forall few_wildcards keys.

Definition calm_test (t : test) : Prop :=
  match t with
  | TeHeader _ _ _ _ _ m keys _ | TeAddress _ _ _ _ _ m keys _ | TeEnvelope _ _ _ _ m keys _
  | TeString _ _ m keys _ | TeEnvironment _ _ m keys _ | TeDate _ _ _ _ _ _ m keys _
  | TeCurrentDate _ _ _ m keys _ | TeMetadata _ _ m keys _ => calm_keys m keys
  | TeSpam _ _ m key _ | TeVirus _ m key _ => calm_keys m [key]
  | TeHasFlag _ _ _ m _ => sets_nothing m
  | TeConvert _ _ _ => False
  | TeVacation _ _ _ (PDays d) => (d * 86400 <= u64_max)%N
  | _ => True
  end.

(** An expression in which no sign is changed. *)
Definition calm_code (code : list instr) : Prop := ~ In (IUn UMinus) code.

(** [loops]: whether the scripts go through the parts of the message
    ([foreverypart]), in which case they must not use [enclose]. *)
Definition calm_instruction (loops : bool) (i : instruction) : Prop :=
  match i with
  | IxTest t => calm_test t
  | IxEval code | IxWhile code _ | IxLet _ code => calm_code code
  | IxReplace _ _ _ _ | IxConvert _ _ => False
  | IxEnclose _ _ _ => loops = false
  | IxForEveryPartPush => loops = true
  | _ => True
  end.
Definition calm (loops : bool) (x : sieve) : Prop := Forall (calm_instruction loops) (s_code x).
