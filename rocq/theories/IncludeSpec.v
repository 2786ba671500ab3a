(** Specification of which script an include runs: the scripts that the host has handed in
    so far, and the ones that are registered. *)
From Verif Require Import Base Lib Var Value Event Sieve Run.
Import ListNotations.

(** Scripts with too many variables are not taken. *)
Definition taken (x : sieve) : Prop := s_match_vars x <= 63 /\ s_vars x <= 256.
(** [x] is what the host handed in last under the name [n]. *)
Definition given (inputs : list input) (n : script_name) (x : sieve) : Prop :=
  taken x /\ exists before after, inputs = before ++ InScript n x :: after /\ forall y, In (InScript n y) after -> ~ taken y.
Definition never_given (inputs : list input) (n : script_name) : Prop := forall y, In (InScript n y) inputs -> ~ taken y.
(** The text of a name *)
Definition name_text (n : script_name) : text := match n with SPersonal t | SGlobal t => t end.

Section Spec.
  Variable E : renv.
  (** The script that a name stands for: the one handed in, or the one that is registered. *)
  Definition stands_for (inputs : list input) (n : script_name) (x : sieve) : Prop :=
    given inputs n x \/ never_given inputs n /\ E_scripts E (name_text n) = Some x.
  (** [s'] is [s] at the beginning of [x], with variables of its own that are all empty; behind
      [x] it goes on where [s] was, with the variables of [s].  Global variables are shared. *)
  Definition entered (x : sieve) (s s' : rst) : Prop :=
    r_pos s' = 0 /\ c_local (r_vars s') = repeat vdefault (s_vars x) /\ c_match (r_vars s') = repeat vdefault (s_match_vars x) /\
    c_global (r_vars s') = c_global (r_vars s) /\
    exists f, r_stack s' = f :: r_stack s /\ f_script f = x /\ f_pos f = r_pos s /\
      f_local f = c_local (r_vars s) /\ f_match f = c_match (r_vars s).
  (** What an include of the text [t] does in state [s], after these inputs *)
  Definition includes (inputs : list input) (t : text) (global once optional : bool) (s : rst) (r : sres) : Prop :=
    let n := if global then SGlobal t else SPersonal t in
    let active := length (r_stack s) in
    (once = true /\ (exists x, given inputs n x) /\ r = SCont s) \/
    ((once = false \/ never_given inputs n) /\ E_max_includes E <= active /\ (exists s', r = SYield s' (OError ErIncludes))) \/
    ((once = false \/ never_given inputs n) /\ active < E_max_includes E /\
     ((exists x s', stands_for inputs n x /\ r = SCont s' /\ entered x s s') \/
      (never_given inputs n /\ E_scripts E t = None /\ r = SYield s (OEvent (EInclude n optional))))).
End Spec.
