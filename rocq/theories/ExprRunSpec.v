(** * Expressions in a run: where their evaluation stands *)
From Verif Require Import Base Lib Var Expr Event Sieve Run RunSpec.

(** The instructions that evaluate an expression. *)
Definition expression_of (i : instruction) : option (list instr) :=
  match i with IxEval code | IxWhile code _ | IxLet _ code => Some code | _ => None end.

(** How far the evaluation of [code] may have got when the interpreter takes it up:
    it is at the start, with nothing on the stack, or it had asked the host to call
    a function, and goes on from there with what the host returned on top. *)
Inductive partway (E : renv) (code : list instr) : nat -> list var -> Prop :=
| pw_start : partway E code 0 []
| pw_answered pos st x id args pos' st' v :
    partway E code pos st ->
    eval_expression (E_L E) false (E_fns E x) (vw E x) code pos st = ECall id args pos' st' ->
    partway E code pos' (v :: st').

(** A host that answers what it was asked: a result to a function call, a script (or
    its refusal) to the request of one, and otherwise true or false. *)
Definition fits (o : option out) (i : input) : Prop :=
  match o with
  | Some (OEvent (EFunction _ _)) => exists v, i = InResult v
  | Some (OEvent (EInclude _ _)) => match i with InResult _ => False | _ => True end
  | _ => i = InTrue \/ i = InFalse
  end.
Fixpoint attentive (last : option out) (inputs : list input) (outs : list (option out)) : Prop :=
  match inputs, outs with
  | i :: inputs', o :: outs' => fits last i /\ attentive o inputs' outs'
  | _, _ => True
  end.
