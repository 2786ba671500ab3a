(** Properties of flag actions and tests: C09, C10, C51. *)
From Verif Require Import Base Lib Var Value SetVar SetSpec Comparator Flags FlagsSpec FlagsProofs.

(** C09: after any run of setflag, addflag and removeflag actions on a variable
    that starts without flags, interleaved with anything else, the flags that the
    host and 'hasflag' see contain no flag twice up to letter case - provided the
    given flags are proper and fit in max_variable_size. *)
Theorem C09_no_duplicate_flags :
  forall L max n c given c',
    (forall f, str_lower L f = str_lower L [] -> f = []) ->
    assignable c n -> holds c n [] ->
    flag_run L max n c given c' ->
    Forall proper_flag given -> flags_size given <= max ->
    exists fl, flags_of_var L (variable c' n) = fl /\ holds c' n fl /\ no_dup_ci L fl.
Proof. exact flags_run_unique. Qed.
Print Assumptions C09_no_duplicate_flags.

(** Flags written as one string are always proper. *)
Theorem C09_single_string_flags_proper :
  forall L c x, Forall proper_flag (flag_tokens L c [x]).
Proof. exact single_string_proper. Qed.
Print Assumptions C09_single_string_flags_proper.

Definition fctx : vctx :=
  {| c_local := [VStr []]; c_match := []; c_global := []; c_env := []; c_rtenv := []; c_envelope := [];
     c_message := fun _ => None |}.
Definition fx (s : string) : value := XText (lit s).
Example C09_case :
  exists c', flag_run ascii_lib 99 (TLocal 0) fctx
      [lit "\Seen"; lit "Big"; lit "\SEEN"; lit "new"; lit "big"] c' /\
    variable c' (TLocal 0) = Some (VStr (lit "\Seen new")) /\
    Forall proper_flag [lit "\Seen"; lit "Big"; lit "\SEEN"; lit "new"; lit "big"] /\
    assignable fctx (TLocal 0) /\ holds fctx (TLocal 0) [].
Proof.
  eexists. split; [|split; [|split; [|split]]].
  - apply (fr_act ascii_lib 99 (TLocal 0) fctx FSet [fx "\Seen Big"]).
    apply (fr_act ascii_lib 99 (TLocal 0) _ FAdd [fx "\SEEN"; fx "new"]).
    apply (fr_act ascii_lib 99 (TLocal 0) _ FRemove [fx "big"] []).
    apply fr_end.
  - reflexivity.
  - repeat constructor; try discriminate; vm_compute; intuition discriminate.
  - repeat constructor.
  - left. exists []. split; [reflexivity|constructor].
Qed.

(** C09, finding: without the size hypothesis the claim is false: cutting the
    flag list at max_variable_size can make two different flags equal. *)
Theorem C09_truncation_duplicates_refuted :
  exists L max n c given c',
    (forall f, str_lower L f = str_lower L [] -> f = []) /\ assignable c n /\ holds c n [] /\
    flag_run L max n c given c' /\ Forall proper_flag given /\
    ~ no_dup_ci L (flags_of_var L (variable c' n)).
Proof.
  exists ascii_lib, 5, (TLocal 0), fctx, [lit "ab"; lit "abc"], (fst (exec_flags ascii_lib 5 fctx FSet (Some (TLocal 0)) [fx "ab abc"])).
  split; [|split; [|split; [|split; [|split]]]].
  - intros [|c f] H; [reflexivity|discriminate].
  - repeat constructor.
  - left. exists []. split; [reflexivity|constructor].
  - apply (fr_act ascii_lib 5 (TLocal 0) fctx FSet [fx "ab abc"] []). apply fr_end.
  - repeat constructor; try discriminate; vm_compute; intuition discriminate.
  - vm_compute. intro H. inversion H as [|? ? N _]; subst. apply N. left. reflexivity.
Qed.
Print Assumptions C09_truncation_duplicates_refuted.

(** C09, finding: elements of a multi-element flag list are not split at
    spaces, so a duplicate can be stored. *)
Theorem C09_unsplit_list_refuted :
  exists L max c strings c',
    c' = fst (exec_flags L max c FAdd (Some (TLocal 0)) strings) /\
    variable c (TLocal 0) = Some (VStr []) /\
    ~ no_dup_ci L (flags_of_var L (variable c' (TLocal 0))).
Proof.
  exists ascii_lib, 99, fctx, [fx "a b"; fx "a"], (fst (exec_flags ascii_lib 99 fctx FAdd (Some (TLocal 0)) [fx "a b"; fx "a"])).
  split; [reflexivity|split; [reflexivity|]].
  vm_compute. intro H. inversion H as [|? ? N _]; subst. apply N. right. left. reflexivity.
Qed.
Print Assumptions C09_unsplit_list_refuted.

(** C10: one action: addflag gives exactly old plus given, removeflag old minus
    given, setflag the given flags, up to letter case. *)
Theorem C10_flag_actions_are_set_operations :
  forall L max c a n strings old,
    (forall f, str_lower L f = str_lower L [] -> f = []) ->
    assignable c n -> holds c n old -> no_dup_ci L old ->
    Forall proper_flag (flag_tokens L c strings) ->
    flags_size old + flags_size (flag_tokens L c strings) <= max ->
    exists new,
      holds (fst (exec_flags L max c a (Some n) strings)) n new /\
      flags_of_var L (variable (fst (exec_flags L max c a (Some n) strings)) n) = new /\
      no_dup_ci L new /\
      forall f, has_ci L f new <->
        match a with
        | FSet => has_ci L f (flag_tokens L c strings)
        | FAdd => has_ci L f old \/ has_ci L f (flag_tokens L c strings)
        | FRemove => has_ci L f old /\ ~ has_ci L f (flag_tokens L c strings)
        end.
Proof. exact flag_action_sets. Qed.
Print Assumptions C10_flag_actions_are_set_operations.
Example C10_case :
  holds (fst (exec_flags ascii_lib 99 fctx FSet (Some (TLocal 0)) [fx "a b c"])) (TLocal 0) [lit "a"; lit "b"; lit "c"] /\
  variable (fst (exec_flags ascii_lib 99 (fst (exec_flags ascii_lib 99 fctx FSet (Some (TLocal 0)) [fx "a b c"]))
                   FRemove (Some (TLocal 0)) [fx "A"; fx "z"])) (TLocal 0) = Some (VStr (lit "c b")).
Proof.
  split; [|reflexivity]. left. eexists. split; [reflexivity|].
  apply (ft_more (lit "a") [lit "b"; lit "c"] (lit "b c")); [split; [discriminate|vm_compute; intuition discriminate]|discriminate|].
  apply (ft_more (lit "b") [lit "c"] (lit "c")); [split; [discriminate|vm_compute; intuition discriminate]|discriminate|].
  apply ft_one. split; [discriminate|vm_compute; intuition discriminate].
Qed.

(** C51: 'hasflag :is' is true exactly if one of the given flags is, under the
    comparator, one of the flags of one of the variables. *)
Theorem C51_hasflag_is_exact :
  forall L c vars strings cmp is_not,
    exists b, hasflag L c vars strings cmp MIs is_not = TBool b [] /\
      (xorb b is_not = true <->
       exists k f n, In k (flag_tokens L c strings) /\
         In n (match vars with [] => [default_flags] | _ => vars end) /\
         In f (flags_of_var L (get_variable c n)) /\ cmp_is L cmp (KStr f) (KStr k) = true).
Proof. exact hasflag_is. Qed.
Print Assumptions C51_hasflag_is_exact.
Definition fctx2 : vctx := fst (exec_flags ascii_lib 99 fctx FSet None [fx "a b c"]).
Example C51_case :
  hasflag ascii_lib fctx2 [] [fx "x"; fx "B"] CCasemap MIs false = TBool true [] /\
  hasflag ascii_lib fctx2 [] [fx "x"; fx "B"] COctet MIs true = TBool true [].
Proof. split; reflexivity. Qed.

(** C51, finding: 'hasflag :regex' does not use the regular expression engine. *)
Theorem C51_hasflag_regex_refuted :
  exists L c strings,
    flag_tokens L c strings = [lit ".*"] /\ flags_of_var L (get_variable c default_flags) = [lit "a"; lit "b"; lit "c"] /\
    hasflag L c [] strings COctet (MRegex 0) false = TBool false [].
Proof. exists ascii_lib, fctx2, [fx ".*"]. repeat split; reflexivity. Qed.
Print Assumptions C51_hasflag_regex_refuted.
