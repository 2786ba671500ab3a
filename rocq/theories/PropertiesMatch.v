(** Match variables: C70. *)
From Coq Require Import Lia.
From Verif Require Import Base Lib Address Var Value SetVar Flags Comparator Message EditHeader
  Expr ExprTok Event Notify AddrTest Vacation Spam Mime Sieve Utf8 Lexer Scope StringTok Compile ParseArgs ParseBase Parse
  Glob GlobSpec ValueProofs Run RunSpec MatchSpec MatchProofs PropertiesRun PropertiesParse.
Import ListNotations.
Local Open Scope list_scope.

(** *** What a test captures *)
(** A test that is answered stores captures ([stored]: the named variables and no others).
    If its keys were matched (whatever ':not' then makes of it), some value it looks at and
    some key of it match, and the captures are those of that match, restricted to the
    variables the test is asked for.  Otherwise nothing is stored.  Missing from the full
    property: which variables a test is asked for is the compiler's choice, and it sometimes
    forgets some (the refutations below); string and environment tests with several keys;
    body tests and notify_method_capability, which capture nothing. *)
Theorem C70_captured_partial : forall E s t c m neg b s',
  match_of t = Some (c, m, neg) -> one_key t -> (wanted t < 2 ^ 64)%N ->
  exec_test E s t = XBool b s' ->
  exists set, stored set (c_match (r_vars s)) (c_match (r_vars s')) /\
    (xorb b neg = true -> wanted t <> 0%N -> capturing t ->
       exists value key, looks_at E s t value /\ In key (keys_of E s t) /\ captured (E_L E) (E_rx E) t value key set) /\
    (xorb b neg = false \/ wanted t = 0%N \/ ~ capturing t -> set = []).
Proof. exact test_captured. Qed.
Print Assumptions C70_captured_partial.

(** No test, whatever its keys, touches a variable it is not asked for. *)
Theorem C70_others : forall E s t b s' n,
  exec_test E s t = XBool b s' -> N.testbit (wanted t) (N.of_nat n) = false ->
  nth_error (c_match (r_vars s')) n = nth_error (c_match (r_vars s)) n.
Proof. exact test_others. Qed.
Print Assumptions C70_others.

(** *** How long it is kept *)
(** A match variable of a script keeps its value as long as that script executes no test that
    is asked for it and no instruction that clears it, whatever else happens: other
    instructions, answers of the host, queued events, the scripts it includes and the ones
    they include.  Missing from the full property: tests that are asked for it and fail do
    not write it (above), but the compiler has them preceded by a clear (refuted below). *)
Theorem C70_kept_partial : forall E d n s s',
  1 <= d -> quiet E d n s s' -> match_at d n s' = match_at d n s.
Proof. exact quiet_keeps. Qed.
Print Assumptions C70_kept_partial.

(** Together: a variable captured by a test of a script is what a string of that script gives
    later on. *)
Theorem C70_recall_partial : forall E t c m neg s s1 s2,
  match_of t = Some (c, m, neg) -> one_key t -> (wanted t < 2 ^ 64)%N -> capturing t -> wanted t <> 0%N ->
  1 <= depth s -> exec_test E s t = XBool (negb neg) s1 ->
  exists value key set,
    looks_at E s t value /\ In key (keys_of E s t) /\ captured (E_L E) (E_rx E) t value key set /\
    forall n x, In (n, x) set -> n < length (c_match (r_vars s)) ->
      forall test_result, quiet E (depth s) n (w_test test_result s1) s2 -> depth s2 = depth s ->
      tx E s2 (XVariable (TMatch n)) = x.
Proof. exact recall. Qed.
Print Assumptions C70_recall_partial.

(** A script that matches the subject "hi" against "h*", adds a header, and files the message
    into ${1}: the test captures "i", and it is still there two instructions later. *)
Definition C70_script : sieve :=
  match comp "require [""variables"", ""fileinto"", ""editheader""];
      if header :matches ""Subject"" ""h*"" { addheader ""X"" ""${1}""; fileinto ""${1}""; }" with
  | Compiled x => x
  | _ => script []
  end.
Fixpoint turns (n : nat) (s : rst) : rst :=
  match n with
  | 0 => s
  | S n' => match step E3 s with SCont s' | SYield s' _ => turns n' s' | _ => s end
  end.
Definition C70_test : test :=
  match nth_error (s_code C70_script) 1 with Some (IxTest t) => t | _ => TeFalse end.
Definition C70_before : rst := w_pos 2 (turns 1 (feed (InScript (SPersonal []) C70_script) s0)).
Definition C70_after : rst := match exec_test E3 C70_before C70_test with XBool _ s => s | _ => C70_before end.
Example C70_case :
  match_of C70_test = Some (CCasemap, MMatches 2, false) /\ one_key C70_test /\ capturing C70_test /\
  depth C70_before = 1 /\ exec_test E3 C70_before C70_test = XBool true C70_after /\
  c_match (r_vars C70_before) = [VStr []; VStr []] /\ c_match (r_vars C70_after) = [VStr []; VStr (lit "i")] /\
  quiet E3 1 1 (w_test true C70_after) (turns 2 (w_test true C70_after)) /\
  depth (turns 2 (w_test true C70_after)) = 1 /\
  next_instr (turns 2 (w_test true C70_after)) = Some (IxFileInto (XVariable (TMatch 1)) [] None None false false).
Proof.
  repeat (split; [vm_compute; first [reflexivity | exact Logic.I | lia]|]). split.
  - eapply qt_step; [| | |left; vm_compute; reflexivity|]; [vm_compute; lia|vm_compute; lia| |].
    { intros _ i H. vm_compute in H. injection H as <-. intros []. }
    eapply qt_step; [| | |left; vm_compute; reflexivity|]; [vm_compute; lia|vm_compute; lia| |].
    { intros _ i H. vm_compute in H. injection H as <-. intros []. }
    match goal with |- quiet _ _ _ ?a ?b => replace b with a by (vm_compute; reflexivity) end. apply qt_refl.
  - split; vm_compute; reflexivity.
Qed.

(** *** What is false *)
(** The compiler forgets the variables of a test once a deleteheader with ':matches' has
    been compiled: with ':contains' the message is filed into "hi". *)
Theorem C70_deleteheader_refuted :
  go "require [""variables"", ""fileinto"", ""editheader""];
      if header :matches ""Subject"" ""*"" { deleteheader :matches ""X"" ""a*""; fileinto ""${1}""; }" [InTrue] =
    Some [ev (EFileInto (lit "") [] None None false 0); None] /\
  go "require [""variables"", ""fileinto"", ""editheader""];
      if header :matches ""Subject"" ""*"" { deleteheader :contains ""X"" ""a""; fileinto ""${1}""; }" [InTrue] =
    Some [ev (EFileInto (lit "hi") [] None None false 0); None].
Proof. vm_compute. split; reflexivity. Qed.
Print Assumptions C70_deleteheader_refuted.

(** A variable that the last match has no wildcard for keeps the value of an earlier match
    (RFC 5229, 3.2: it expands to the empty string). *)
Theorem C70_stale_refuted :
  go "require [""variables"", ""fileinto""];
      if header :matches ""Subject"" ""?*"" { fileinto ""${2}""; }
      if header :matches ""Subject"" ""*"" { fileinto ""${2}""; }" [InTrue; InTrue] =
    Some [ev (EFileInto (lit "i") [] None None false 0); ev (EFileInto (lit "i") [] None None false 0); None].
Proof. vm_compute. reflexivity. Qed.
Print Assumptions C70_stale_refuted.

(** A string test that fails may store the captures of a key that did match: the test goes on
    with the other keys, and the last one decides. *)
Theorem C70_string_keys_refuted :
  go "require [""variables"", ""fileinto""];
      if string :matches ""hi"" [""h*"", ""z*""] { keep; } else { fileinto ""${1}""; }" [InTrue] =
    Some [ev (EFileInto (lit "i") [] None None false 0); None].
Proof. vm_compute. reflexivity. Qed.
Print Assumptions C70_string_keys_refuted.
