(** Match variables that no test is asked for: C70. *)
From Coq Require Import Lia.
From Verif Require Import Base Lib Address Var Value SetVar Flags Comparator Message EditHeader
  Expr ExprTok Event Notify AddrTest Vacation Spam Mime Sieve Utf8 Lexer Scope StringTok Compile ParseArgs ParseBase Parse
  Run RunSpec MatchSpec ParseRoom PropertiesRun PropertiesParse.
Import ListNotations.
Local Open Scope list_scope.

(** The match variables of a compiled script are numbered from 0. The last one is one that
    some test of the script is asked for: a reference that stands where no test with
    ':matches' or ':regex' was compiled before it makes no room. *)
Theorem C70_room : forall K script x, compile K script = Compiled x ->
  s_match_vars x = 0 \/
  exists t, In (IxTest t) (s_code x) /\ N.testbit (wanted t) (N.of_nat (s_match_vars x - 1)) = true.
Proof. exact compile_room. Qed.
Print Assumptions C70_room.

(** A script whose tests have neither ':matches' nor ':regex' has no match variables, however
    many it refers to. *)
Theorem C70_none : forall K script x, compile K script = Compiled x ->
  (forall t c m neg, In (IxTest t) (s_code x) -> match_of t = Some (c, m, neg) ->
     match m with MMatches _ | MRegex _ => False | _ => True end) ->
  s_match_vars x = 0.
Proof.
  intros K script x C H. destruct (C70_room _ _ _ C) as [Z|(t & I & B)]; [exact Z|exfalso].
  unfold wanted in B. destruct (match_of t) as [[[c m] neg]|] eqn:M; [|discriminate].
  specialize (H _ _ _ _ I M). destruct m; try discriminate; exact H.
Qed.
Print Assumptions C70_none.

(** Two scripts with references: one has room for variables 0 to 2, of which its test is
    asked for two; the other has none, and "${1}" is empty. *)
Example C70_room_case :
  match comp "require [""variables"", ""fileinto""];
      if header :matches ""Subject"" ""?*"" { fileinto ""${1}${2}""; }" with
  | Compiled x => s_match_vars x = 3 /\ map (fun i => match i with IxTest t => wanted t | _ => 0%N end) (s_code x) = [0; 6; 0; 0]%N
  | _ => False
  end.
Proof. vm_compute. split; reflexivity. Qed.
Example C70_none_case :
  match comp "require [""variables"", ""fileinto""]; if header ""Subject"" ""hi"" { fileinto ""a${1}""; }" with
  | Compiled x => s_match_vars x = 0 /\ forallb (fun i => match i with
      IxTest t => match match_of t with Some (_, MMatches _, _) | Some (_, MRegex _, _) => false | _ => true end | _ => true end) (s_code x) = true
  | _ => False
  end /\
  go "require [""variables"", ""fileinto""]; if header ""Subject"" ""hi"" { fileinto ""a${1}""; }" [InTrue] =
    Some [ev (EFileInto (lit "a") [] None None false 0); None].
Proof. vm_compute. repeat split; reflexivity. Qed.

(** The converse is false: a test may be asked for a variable for which there is no room, when
    a deleteheader with ':matches' stands between the test and the reference. *)
Theorem C70_room_asked_refuted : exists script x t n, comp script = Compiled x /\
  In (IxTest t) (s_code x) /\ N.testbit (wanted t) (N.of_nat n) = true /\ s_match_vars x <= n.
Proof.
  exists "require [""variables"", ""fileinto"", ""editheader""];
      if header :matches ""Subject"" ""*"" { keep; } deleteheader :matches ""X"" ""a*""; fileinto ""${1}"";"%string.
  eexists. eexists. exists 1. split; [vm_compute; reflexivity|]. split; [cbn [s_code]; right; left; reflexivity|].
  split; [reflexivity|]. cbn [s_match_vars]. lia.
Qed.
Print Assumptions C70_room_asked_refuted.
