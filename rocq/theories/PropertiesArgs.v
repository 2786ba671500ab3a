(** Properties of the arguments of tests and actions: C82. *)
From Verif Require Import Base Lib Address Var Value SetVar Flags Comparator Message EditHeader
  Expr ExprTok Event Notify AddrTest Vacation Sieve Utf8 Lexer Scope StringTok Compile ParseArgs ParseBase Parse GrammarSpec
  GrammarProofs ArgBase ArgSpec ArgProofs4 ArgProofs5 PropertiesRun PropertiesParse.
Import ListNotations.
Local Open Scope string_scope.
Local Open Scope list_scope.

(** The test that the compiler builds after the name of a test is the one that the
    arguments describe, by the tables of ArgSpec.v, and it reads these arguments only.
    Names are those of the variables declared at that place; the variables declared
    afterwards are what the test says, too. *)
Theorem C82_tests : forall K FU n c m s t s' ts,
  In (n, (c, m)) (tests K FU) -> m s = Ok t s' -> tokens_from (C_L K) (C_string K) (p_lex s') ts ->
  exists us, tokens_from (C_L K) (C_string K) (p_lex s) (us ++ ts) /\ test_is K (p_v s) n us t (p_v s').
Proof.
  intros K FU n c m s t s' ts H E F. pose proof (all_tests K (p_v s) FU) as A. rewrite Forall_forall in A.
  destruct (A _ H _ _ _ _ E eq_refl F) as (us & B & _ & C). exists us. auto.
Qed.
Print Assumptions C82_tests.

(** The same for actions, *)
Theorem C82_actions : forall K FU n c m s i s' ts,
  In (n, (c, m)) (commands K FU) -> m s = Ok i s' -> tokens_from (C_L K) (C_string K) (p_lex s') ts ->
  exists us, tokens_from (C_L K) (C_string K) (p_lex s) (us ++ ts) /\ action_is K (p_v s) n us i (p_v s').
Proof.
  intros K FU n c m s t s' ts H E F. pose proof (all_actions K FU (p_v s)) as A. rewrite Forall_forall in A.
  destruct (A _ H _ _ _ _ E eq_refl F) as (us & B & _ & C). exists us. auto.
Qed.
Print Assumptions C82_actions.

(** for include and for vacation. *)
Theorem C82_include : forall K FU s i s' ts,
  cmd_include K FU s = Ok i s' -> tokens_from (C_L K) (C_string K) (p_lex s') ts ->
  exists us, tokens_from (C_L K) (C_string K) (p_lex s) (us ++ ts) /\ include_is K (p_v s) us i /\ p_v s' = p_v s.
Proof. intros K FU s i s' ts E F. destruct (eats_include K (p_v s) FU) as [S T]. destruct (T _ _ _ _ E eq_refl F) as (us & B & _ & C). exists us. split; [exact B|]. split; [exact C|exact (S _ _ _ E eq_refl)]. Qed.
Print Assumptions C82_include.
Theorem C82_vacation : forall K FU s t i s' ts,
  cmd_vacation K FU s = Ok (t, i) s' -> tokens_from (C_L K) (C_string K) (p_lex s') ts ->
  exists us, tokens_from (C_L K) (C_string K) (p_lex s) (us ++ ts) /\ vacation_is K (p_v s) us t i /\ p_v s' = p_v s.
Proof. intros K FU s t i s' ts E F. destruct (eats_vacation K (p_v s) FU) as [S T]. destruct (T _ _ _ _ E eq_refl F) as (us & B & _ & C). exists us. split; [exact B|]. split; [exact C|exact (S _ _ _ E eq_refl)]. Qed.
Print Assumptions C82_vacation.

(** Concrete arguments, with the tags in any order. *)
Definition at_args (s : String.string) : pst := init (lit s).
Definition outcome {A} (r : res A) : option (A * list tok) := match r with Ok a s => Some (a, l_next (p_lex s)) | _ => None end.
Definition caps_of (l : list String.string) (s : pst) : pst := w_caps [map cap l] s.
Example C82_header_case :
  outcome (test_header K1 100 (caps_of ["index"] (at_args ":comparator ""i;octet"" :last :contains :index 2 [""To"", ""Cc""] ""x"" {"))) =
    Some (TeHeader [XText (lit "To"); XText (lit "Cc")] (Some (-2)%Z) false MvNone COctet MContains [XText (lit "x")] false, []).
Proof. vm_compute. reflexivity. Qed.
Example C82_fileinto_case :
  outcome (cmd_fileinto K1 100 (caps_of ["copy"; "imap4flags"] (at_args ":flags [""a"", ""b""] :copy ""box"";"))) =
    Some (IxFileInto (XText (lit "box")) [XText (lit "a"); XText (lit "b")] None None true false, []).
Proof. vm_compute. reflexivity. Qed.
Example C82_vacation_case :
  outcome (cmd_vacation K1 100 (at_args ":days 3 :addresses [""a@b.c""] :subject ""s"" ""gone"";")) =
    Some (TeVacation [XText (lit "a@b.c")] None (XText (lit "gone")) (PDays 3%N), IxVacation (Some (XText (lit "s"))) None false None (XText (lit "gone")), []).
Proof. vm_compute. reflexivity. Qed.
(** A test that the specification tells from another one: ":over" is not ":under". *)
Example C82_over_case n t V W : test_is K1 V "size" [TTag (lit "over"); TNumber n] t W <-> t = TeSize true (N.to_nat n) false /\ W = V.
Proof. split; [intro H; inversion H as [? ? ? P|]; subst; inversion P; auto|]. intros [-> ->]. constructor. constructor. Qed.
(** A string names the variables that are declared: after "set", "a" is variable 0. *)
Example C82_variable_case :
  outcome (bind (cmd_set K1 100) (fun _ => cmd_fileinto K1 100) (caps_of ["variables"] (at_args ":length ""a"" ""xyz"" ""${a}"";"))) =
    Some (IxFileInto (XVariable (TLocal 0)) [] None None false false, []) /\
  outcome (cmd_fileinto K1 100 (caps_of ["variables"] (at_args """${a}"";"))) = Some (IxFileInto (XText []) [] None None false false, []).
Proof. split; vm_compute; reflexivity. Qed.
(** The delivery time of a redirect is dropped without notice if only ":bymode" is given. *)
Example C82_bymode_dropped :
  outcome (cmd_redirect K1 100 (caps_of ["redirect-deliverby"] (at_args ":bymode ""return"" ""a@b.c"";"))) =
    Some (IxRedirect (XText (lit "a@b.c")) false false (DsnDefault, RetDefault, ByNone), []).
Proof. vm_compute. reflexivity. Qed.
