(** Properties of the compiler's control structure: C25, C26, C27, C28, C39, and the
    properties of whole runs for compiled scripts. *)
From Coq Require Import Lia Sorting.Sorted.
From Verif Require Import Base Lib Address Var Value SetVar Flags Comparator Message MessageSpec EditHeader Expr Event
  Notify Vacation Spam AddrTest Mime Sieve Run RunSpec RunProofs Compile CompileSpec ControlSpec
  CompileProofs4 CompileProofs7 CompileProofs8 CompileProofs9 CompileProofs10 ControlProofs4 ControlProofs5 ControlProofs6
  MessageProofs PropertiesMessage PropertiesRun RunSpec.

(** *** Scripts for the examples *)
Definition lims : limits := {| l_blocks := 15; l_tests := 15; l_fep := 3; l_includes := 6 |}.
Fixpoint seq_of (l : list cmd) : cmds := match l with [] => CNil | c :: l => CCons c (seq_of l) end.
Fixpoint group (t : tree) (l : list tree) : trees := match l with [] => TOne t | u :: l => TMore t (group u l) end.
Definition size_over (n : nat) : tree := TLeaf (IxTest (TeSize true n false)).
Definition size_under (n : nat) : tree := TLeaf (IxTest (TeSize false n false)).
Definition copy_to (t : string) : cmd := CAct (fileinto t true).
(** anyof(not size :over 50, allof(size :over 10, size :under 200), true) *)
Definition tree1 : tree := TAny (group (TNot (size_over 50)) [TAll (group (size_over 10) [size_under 200]); TConst true]).
(** if tree1 { foreverypart :name "x" { fileinto "A"; foreverypart { if size :over 10 { break :name "x"; } fileinto "B"; } } }
    elsif true { fileinto "C"; } else { return; }
    while 0 { fileinto "D"; } fileinto "E"; *)
Definition prog1 : prog :=
  {| p_require := [CapKnown 1];
     p_cmds := seq_of
       [ CIf tree1
           (seq_of [CFor (Some (lit "x"))
              (seq_of [copy_to "A"; CFor None (seq_of [CIf (size_over 10) (seq_of [CBreak (Some (lit "x"))]) None RNone; copy_to "B"]) None])
              None]) None
           (RElsIf (TConst true) (seq_of [copy_to "C"]) None (RElse (seq_of [CReturn]) None));
         CWhile [IConst (VInt 0)] (seq_of [copy_to "D"]) None;
         copy_to "E" ] |}.
Definition sieve_of (p : prog) : sieve :=
  script (match compile 1000 lims (rprog p) with Some l => l | None => [] end).

(** *** C25 *)

(** The code of [if t { yes } else { no }] runs the elementary tests that
    left-to-right short-circuit evaluation consults, in that order and no others, and
    then [yes] if the test is true of their outcomes, [no] if it is false; it stops
    early only if an elementary test itself stops the script. *)
Theorem C25_tests :
  forall E umax lim t yes no n x m size c rest,
    let p := {| p_require := []; p_cmds := seq_of [CIf t (seq_of [CAct yes]) None (RElse (seq_of [CAct no]) None)] |} in
    ok_prog lim p = true -> fresh_tree t = true -> is_include yes = false -> is_include no = false ->
    compile umax lim (rprog p) = Some (s_code x) ->
    s_match_vars x <= 63 -> s_vars x <= 256 -> Forall no_script rest ->
    let s0 := initial m size c in
    let log := g_log (log_of E (InScript n x :: rest) s0) in
    length log < E_cpu E ->
    exists l tests after r,
      visible log = tests ++ after /\ decides E false t (feed (InScript n x) s0) l tests r /\
      match r with
      | None => after = []
      | Some (b, s1) =>
          (exists r1, executes E false (if b then yes else no) s1 after r1) /\
          (forall v, v (IxTest TeTrue) = true -> v (IxTest TeFalse) = false -> agrees v l ->
             b = truth v t /\ map fst l = consulted v t)
      end.
Proof. exact if_else. Qed.
Print Assumptions C25_tests.

(** The same for a conditional anywhere in a script. *)
Theorem C25_conditional :
  forall E Progs inl t b k r s tr o s', runs E Progs inl (Cmd (CIf t b k r)) s tr o s' ->
    exists l tests after d,
      tr = tests ++ after /\ decides E inl t s l tests d /\
      match d with
      | None => after = [] /\ o = LHalt
      | Some (v, s1) => runs E Progs inl (if v then Body b k else Else r) s1 after o s' /\
          (forall w, w (IxTest TeTrue) = true -> w (IxTest TeFalse) = false -> agrees w l ->
             v = truth w t /\ map fst l = consulted w t)
      end.
Proof. exact conditional. Qed.
Print Assumptions C25_conditional.
Example C25_case :
  let p := {| p_require := []; p_cmds := seq_of [CIf tree1 (seq_of [copy_to "Y"]) None (RElse (seq_of [copy_to "N"]) None)] |} in
  let log := g_log (log_of E1 (InScript (SPersonal []) (sieve_of p) :: repeat InTrue 5) s0) in
  ok_prog lims p = true /\ fresh_tree tree1 = true /\ compile 1000 lims (rprog p) = Some (s_code (sieve_of p)) /\
  length log < E_cpu E1 /\
  map fst (visible log) = [IxTest (TeSize true 50 true); IxTest (TeSize true 10 false); IxTest (TeSize false 200 false); fileinto "Y" true] /\
  consulted (fun i => match i with IxTest TeFalse => false | _ => true end) tree1 =
    [IxTest (TeSize true 50 false); IxTest (TeSize true 10 false); IxTest (TeSize false 200 false)].
Proof. vm_compute. repeat split. repeat constructor. Qed.

(** *** C26 *)

(** Whatever the tokens, the compiler either refuses them or emits code in which
    every jump is to a position of the code or just past its end; and it always
    finishes. *)
Theorem C26_jumps_resolved :
  forall umax lim r code, Forall token_ok r -> compile umax lim r = Some code ->
    forall i p, In i code -> In p (targets i) -> p <= length code.
Proof.
  intros umax lim r code T H. exact (proj1 (compiled_jumps umax lim r code (script code) T H eq_refl)).
Qed.
Print Assumptions C26_jumps_resolved.
Theorem C26_compiler_finishes : forall umax lim r, go umax lim (length r) r start <> CFuel.
Proof. exact compile_total. Qed.
Print Assumptions C26_compiler_finishes.
Example C26_case : Forall token_ok (rprog prog1) /\
  match compile 1000 lims (rprog prog1) with
  | Some code => length code = 31 /\ flat_map targets code = [8; 6; 8; 22; 21; 20; 18; 21; 13; 10; 27; 26; 27; 30; 27]
  | None => False
  end.
Proof. split; [repeat constructor|]. vm_compute. split; reflexivity. Qed.

(** *** C27 *)

(** The commands executed by the compiled code are those of the script, in the order
    the meaning of the script gives them ([script_runs] in ControlSpec), each executed
    in the state the ones before left; [E], the message, and the answers of the host
    are arbitrary.  An [include] carries out the commands of the included script, to any
    depth.  [Progs] says what the scripts are compiled from: the script itself, the
    scripts the host gives when it is asked for one ([host_fits]) and, if the script
    includes any, the registered ones ([scripts_known]). *)
Theorem C27_script_meaning :
  forall E (Progs : sieve -> prog -> Prop) umax p n x m size c rest,
    (forall y q, Progs y q -> written umax y q) -> Progs x p ->
    s_match_vars x <= 63 /\ s_vars x <= 256 ->
    let s0 := initial m size c in
    scripts_known E Progs x -> host_fits E Progs n x rest s0 ->
    let log := g_log (log_of E (InScript n x :: rest) s0) in
    length log < E_cpu E ->
    script_runs E Progs p (feed (InScript n x) s0) (visible log).
Proof. exact script_meaning. Qed.
Print Assumptions C27_script_meaning.

(** Also when the instruction budget ends the run: what was executed until then is
    an execution of the script so far. *)
Theorem C27_steps :
  forall E (Progs : sieve -> prog -> Prop) umax p n x m size c rest,
    (forall y q, Progs y q -> exists lim, ok_prog lim q = true /\ compile umax lim (rprog q) = Some (s_code y)) ->
    Progs x p -> s_match_vars x <= 63 /\ s_vars x <= 256 ->
    let s0 := initial m size c in
    scripts_known E Progs x -> host_fits E Progs n x rest s0 ->
    let log := g_log (log_of E (InScript n x :: rest) s0) in
    exists k s', srcs E Progs (begin p, feed (InScript n x) s0) (visible log) (k, s') /\ over E k log.
Proof. exact control_flow. Qed.
Print Assumptions C27_steps.

(** Without includes, nothing is asked of the host or of the registered scripts but
    that no script is given. *)
Theorem C27_alone :
  forall E umax lim p n x m size c rest,
    ok_prog lim p = true -> fresh_cmds (p_cmds p) = true -> compile umax lim (rprog p) = Some (s_code x) ->
    s_match_vars x <= 63 -> s_vars x <= 256 -> Forall (fun i => is_include i = false) (s_code x) -> Forall no_script rest ->
    let s0 := initial m size c in
    let log := g_log (log_of E (InScript n x :: rest) s0) in
    length log < E_cpu E ->
    script_runs E (fun y q => y = x /\ q = p) p (feed (InScript n x) s0) (visible log).
Proof.
  intros E umax lim p n x m size c rest O F C M V NI N s0 log. apply (script_meaning E _ umax); auto.
  - intros y q [-> ->]. exists lim. auto.
  - now split.
  - intros (i & Ii & Ic). rewrite Forall_forall in NI. rewrite (NI i Ii) in Ic. discriminate.
  - now apply no_scripts_host.
Qed.
Print Assumptions C27_alone.

(** Every script of these constructs within the limits is accepted, so the theorems
    above are about all of them. *)
Theorem C27_accepted : forall umax lim p, ok_prog lim p = true -> exists code, compile umax lim (rprog p) = Some code.
Proof. intros umax lim p O. exists (gprog p). now apply compile_layout. Qed.
Print Assumptions C27_accepted.

Example C27_case :
  let log := g_log (log_of E1 (InScript (SPersonal []) (sieve_of prog1) :: repeat InTrue 5) (initial sample 100 vars0)) in
  ok_prog lims prog1 = true /\ fresh_cmds (p_cmds prog1) = true /\
  compile 1000 lims (rprog prog1) = Some (s_code (sieve_of prog1)) /\ length log < E_cpu E1 /\
  map fst (visible log) =
    [IxRequire [CapKnown 1]; IxTest (TeSize true 50 true); IxTest (TeSize true 10 false); IxTest (TeSize false 200 false);
     fileinto "A" true; IxTest (TeSize true 10 false); fileinto "E" true].
Proof. vm_compute. repeat split. repeat constructor. Qed.

(** *** C28 *)

(** An accepted script keeps within the limits for blocks and for tests. *)
Theorem C28_blocks_and_tests :
  forall umax lim p code, compile umax lim (rprog p) = Some code ->
    bdepths (p_cmds p) <= l_blocks lim /\ test_depths (p_cmds p) <= l_tests lim.
Proof. exact depth_limits. Qed.
Print Assumptions C28_blocks_and_tests.
(** And for includes, whatever the tokens. *)
Theorem C28_includes :
  forall umax lim r code, compile umax lim r = Some code -> length (filter is_include_token r) <= l_includes lim.
Proof. exact include_limit. Qed.
Print Assumptions C28_includes.
Example C28_case :
  let inc := KInclude (IxInclude (str "a") false false false) in
  bdepths (p_cmds prog1) = 4 /\ test_depths (p_cmds prog1) = 2 /\
  compile 1000 lims (rprog prog1) <> None /\
  compile 1000 {| l_blocks := 3; l_tests := 15; l_fep := 3; l_includes := 6 |} (rprog prog1) = None /\
  compile 1000 {| l_blocks := 15; l_tests := 1; l_fep := 3; l_includes := 6 |} (rprog prog1) = None /\
  compile 1000 {| l_blocks := 4; l_tests := 2; l_fep := 2; l_includes := 0 |} (rprog prog1) <> None /\
  compile 1000 lims (repeat inc 6) <> None /\ compile 1000 lims (repeat inc 7) = None.
Proof. vm_compute. repeat split; discriminate. Qed.

(** The limit for foreverypart is not enforced: with [max_nested_foreverypart] 3,
    fourteen loops nest.  The check compares for equality and does not count the
    block it stands in, so a script passes the limit when the fourth loop stands
    directly in the third, and from then on it is never met again. *)
Fixpoint nest (n : nat) (c : cmd) : cmd := match n with 0 => c | S n => CFor None (CCons (nest n c) CNil) None end.
Theorem C28_foreverypart_refuted :
  let p := {| p_require := []; p_cmds := CCons (nest 4 (CIf (TConst true) (CCons (nest 10 (copy_to "A")) CNil) None RNone)) CNil |} in
  fdepths (p_cmds p) = 14 /\ l_fep lims = 3 /\ exists code, compile 1000 lims (rprog p) = Some code.
Proof. split; [reflexivity|]. split; [reflexivity|]. eexists. vm_compute. reflexivity. Qed.
Print Assumptions C28_foreverypart_refuted.
(** What is left of it: a script within all limits is never refused, and a limit of 0
    keeps foreverypart out altogether. *)
Theorem C28_foreverypart_partial :
  forall umax lim p code, compile umax lim (rprog p) = Some code -> l_fep lim = 0 -> fdepths (p_cmds p) = 0.
Proof. exact no_foreverypart. Qed.
Print Assumptions C28_foreverypart_partial.

(** *** C39 *)

(** A foreverypart in a well-formed message runs its body with each part below the
    current one as current part, once and in document order (a loop not nested in
    another visits the current part, the message itself, too).  Afterwards the current
    part is what it was before.  It ends early only when the body leaves it ([o1]): by
    a [break] without a name or with the name of this loop, and then the script goes on
    after the loop; by a [break] that names another loop, [return], or the end of the
    script, and then the loops around it are left too ([past_for]). *)
Theorem C39_foreverypart :
  forall E Progs inl l b k s tr o s', runs E Progs inl (Cmd (CFor l b k)) s tr o s' ->
    well_formed (parts s) -> in_document_order (parts s) -> r_part s < length (parts s) ->
    (r_part s = 0 -> forall i, i < length (parts s) -> reaches (parts s) 0 i) ->
    exists ids done,
      StronglySorted lt ids /\
      (forall i, In i ids <-> reaches (parts s) (r_part s) i /\ (inl = false \/ i <> r_part s)) /\
      tr = concat (map snd done) /\ r_part s' = r_part s /\
      ((o = LNext /\ map fst done = ids /\ exists s1, each E Progs b k done s s1 /\ alike (w_part (r_part s) s1) s') \/
       (exists before id tr1 after s1 s2 o1, done = before ++ [(id, tr1)] /\ ids = map fst before ++ id :: after /\
          each E Progs b k before s s1 /\ runs E Progs true (Body b k) (w_part id s1) tr1 o1 s2 /\ o1 <> LNext /\ o1 <> LContinue /\
          o = past_for l o1 /\ alike (w_part (r_part s) s2) s')).
Proof. exact for_whole. Qed.
Print Assumptions C39_foreverypart.

(** The compiled code of a script that begins with a foreverypart does that. *)
Theorem C39_compiled :
  forall E (Progs : sieve -> prog -> Prop) umax p l b k cs n x m size c rest,
    p_require p = [] -> p_cmds p = CCons (CFor l b k) cs ->
    (forall y q, Progs y q -> written umax y q) -> Progs x p ->
    s_match_vars x <= 63 /\ s_vars x <= 256 -> scripts_known E Progs x -> host_fits E Progs n x rest (initial m size c) ->
    let s := feed (InScript n x) (initial m size c) in
    let log := g_log (log_of E (InScript n x :: rest) (initial m size c)) in
    length log < E_cpu E ->
    well_formed m -> in_document_order m -> 0 < length m -> (forall i, i < length m -> reaches m 0 i) ->
    exists done after s1 o,
      visible log = concat (map snd done) ++ after /\ runs E Progs false (Cmd (CFor l b k)) s (concat (map snd done)) o s1 /\
      ((o = LNext /\ map fst done = seq 0 (length m) /\ exists s2, each E Progs b k done s s2) \/
       (exists before id tr1 left s2 s3 o1, done = before ++ [(id, tr1)] /\ seq 0 (length m) = map fst before ++ id :: left /\
          each E Progs b k before s s2 /\ runs E Progs true (Body b k) (w_part id s2) tr1 o1 s3 /\ o1 <> LNext /\ o = past_for l o1)).
Proof. exact for_compiled. Qed.
Print Assumptions C39_compiled.

Lemma sample_order : in_document_order sample.
Proof.
  split.
  - intros a b C. apply sample_children in C. lia.
  - intros a p l1 c l2 d l3 x N Q R.
    assert (X : reaches sample c x -> c <= x /\ (c = 1 -> x = 1) /\ (c = 3 -> x = 3)).
    { induction 1 as [|u v R' IH C]; [lia|]. apply sample_children in C. specialize (IH R'). lia. }
    specialize (X R). destruct a as [|[|[|[|[|a]]]]]; cbn in N; try (injection N as <-; cbn in Q);
      try (destruct a; discriminate N); try (destruct l1; discriminate Q).
    + destruct l1 as [|u [|v l1]]; cbn in Q; [| |injection Q as _ _ Q; destruct l1; discriminate Q].
      * injection Q as <- Q. destruct l2 as [|w l2]; [injection Q as <- _; lia|injection Q as _ Q; destruct l2; discriminate Q].
      * injection Q as _ _ Q. destruct l2; discriminate Q.
    + destruct l1 as [|u [|v l1]]; cbn in Q; [| |injection Q as _ _ Q; destruct l1; discriminate Q].
      * injection Q as <- Q. destruct l2 as [|w l2]; [injection Q as <- _; lia|injection Q as _ Q; destruct l2; discriminate Q].
      * injection Q as _ _ Q. destruct l2; discriminate Q.
Qed.
(** foreverypart { fileinto "A"; foreverypart { fileinto "B"; } } on the sample message. *)
Definition prog2 : prog :=
  {| p_require := []; p_cmds := seq_of [CFor None (seq_of [copy_to "A"; CFor None (seq_of [copy_to "B"]) None]) None] |}.
Example C39_case :
  let log := g_log (log_of E1 (InScript (SPersonal []) (sieve_of prog2) :: repeat InTrue 20) (initial sample 100 vars0)) in
  ok_prog lims prog2 = true /\ compile 1000 lims (rprog prog2) = Some (s_code (sieve_of prog2)) /\ length log < E_cpu E1 /\
  map (fun x => (fst x, r_part (snd x))) (visible log) =
    (let A n := (fileinto "A" true, n) in let B n := (fileinto "B" true, n) in
     [A 0; B 1; B 2; B 3; B 4; A 1; A 2; B 3; B 4; A 3; A 4]) /\
  well_formed sample /\ in_document_order sample /\ (forall i, i < length sample -> reaches sample 0 i).
Proof.
  split; [reflexivity|]. split; [vm_compute; reflexivity|]. split; [apply Nat.ltb_lt; vm_compute; reflexivity|].
  split; [vm_compute; reflexivity|]. split; [exact sample_wf|]. split; [exact sample_order|exact (proj1 C49_root_example)].
Qed.

(** *** Whole runs of compiled scripts *)

Lemma compiled_inside umax lim x : compiled umax lim x -> jumps_inside x /\ guarded x.
Proof. intros (r & T & C). eapply compiled_jumps; eauto. Qed.

(** C31 for scripts that came out of the compiler: whatever the scripts, the message
    and the answers, a run that reports completion delivers exactly one keep or
    discard, as its last action, unless the pending keep was cancelled, and then it
    delivers none. *)
Theorem C31_compiled :
  forall E umax lim m size c n x rest outs s',
    s_match_vars x <= 63 -> s_vars x <= 256 ->
    (forall t y, E_scripts E t = Some y -> compiled umax lim y) ->
    (forall i y, In i (InScript n x :: rest) -> In y (input_script i) -> compiled umax lim y) ->
    polite true (InScript n x :: rest) outs ->
    converse_run E (InScript n x :: rest) (initial m size c) = Some (outs, s') -> In None outs ->
    let log := g_log (log_of E (InScript n x :: rest) (initial m size c)) in
    (exists se, actions (events_of outs) = flat_map (actions_of E) log ++ deliver E (pending E log) se) /\
    match pending E log with
    | None => dispositions (events_of outs) = []
    | Some _ => exists l e, actions (events_of outs) = l ++ [e] /\ is_disposition e = true /\ dispositions l = []
    end /\
    (Forall (leaves_keep E) log -> exists l flags id, actions (events_of outs) = l ++ [EKeep flags id]).
Proof.
  intros E umax lim m size c n x rest outs s' M V Sc J P H No log.
  assert (Sc' : forall t y, E_scripts E t = Some y -> jumps_inside y) by (intros t y Y; eapply compiled_inside, Sc; eauto).
  assert (J' : forall i y, In i (InScript n x :: rest) -> In y (input_script i) -> jumps_inside y)
    by (intros i y Y Z; eapply compiled_inside, J; eauto).
  split; [|split].
  - destruct (C31_completed E m size c n x rest outs s' M V Sc' J' P H No) as (se & _ & A). exists se. exact A.
  - exact (C31_one_disposition E m size c n x rest outs s' M V Sc' J' P H No).
  - exact (C31_implicit_keep E m size c n x rest outs s' M V Sc' J' P H No).
Qed.
Print Assumptions C31_compiled.
(** C17 for them. *)
Theorem C17_compiled_partial :
  forall E umax lim m size c inputs outs s',
    (forall t y, E_scripts E t = Some y -> compiled umax lim y) ->
    (forall i y, In i inputs -> In y (input_script i) -> compiled umax lim y) ->
    polite true inputs outs -> converse_run E inputs (initial m size c) = Some (outs, s') ->
    let log := g_log (log_of E inputs (initial m size c)) in
    length (mailed E log) <= E_max_out E /\
    length (filter is_send (events_of outs)) <= E_max_out E +
      length (filter (fun x => match fst x with IxNotify _ _ _ _ _ _ => true | _ => false end) log).
Proof.
  intros E umax lim m size c inputs outs s' Sc J. apply C17_out_messages_partial.
  - intros t y Y. eapply compiled_inside, Sc; eauto.
  - intros i y Y Z. eapply compiled_inside, J; eauto.
Qed.
Print Assumptions C17_compiled_partial.
(** if size :over 10 { vacation "away"; redirect "x@y.org"; redirect "z@y.org"; } *)
Definition prog3 : prog :=
  {| p_require := [];
     p_cmds := seq_of [CIf (size_over 10) (seq_of [CVacation (TeVacation [] None (str "away") PDefault) (IxVacation None None false None (str "away"));
                                                   CAct (redirect "x@y.org" true); CAct (redirect "z@y.org" false)]) None RNone] |}.
Example C31_compiled_case :
  let r := converse_run E2 (InScript (SPersonal []) (sieve_of prog3) :: InFalse :: repeat InTrue 5) s0 in
  compiled 1000 lims (sieve_of prog3) /\
  match r with
  | Some (outs, _) => polite true (InScript (SPersonal []) (sieve_of prog3) :: InFalse :: repeat InTrue 5) outs /\
      In None outs /\ length (filter is_send (events_of outs)) = 1 /\ exists l, actions (events_of outs) = l ++ [EKeep [] 0]
  | None => False
  end.
Proof.
  split.
  - exists (rprog prog3). split; [repeat constructor|]. vm_compute. reflexivity.
  - vm_compute. repeat split; auto 10. eexists [_; _]. reflexivity.
Qed.

(** *** C62 *)

(** Where a script is accepted by [ok_prog] (a [continue] stands in a while, no
    foreverypart is in between, and that while is not directly inside another), C27
    gives [continue] this meaning: nothing after it in its block is executed, and the
    innermost while goes on with its condition. *)
Theorem C62_continue_partial :
  (forall E Progs inl cs s tr o s', runs E Progs inl (Cmds (CCons CContinue cs)) s tr o s' -> tr = [] /\ o = LContinue /\ alike s s') /\
  (forall E Progs inl e b k s tr o s', runs E Progs inl (Cmd (CWhile e b k)) s tr o s' ->
     exists rounds last s1, tr = concat rounds ++ last /\ again E Progs inl e b k rounds s s1 /\
       ((last = [] /\ o = LNext /\ condition E inl e s1 (Some (false, s'))) \/
        (last = [] /\ o = LHalt /\ condition E inl e s1 None) \/
        (exists s2 o1 s3, condition E inl e s1 (Some (true, s2)) /\ runs E Progs inl (Body b k) s2 last o1 s3 /\
           o1 <> LNext /\ o1 <> LContinue /\ o = past_while o1 /\ alike s3 s'))).
Proof. split; [exact continue_inv|exact while_split]. Qed.
Print Assumptions C62_continue_partial.

Definition count_down : cmd := CAct (IxLet (TGlobal (lit "n")) [IVar (TGlobal (lit "n")); IConst (VInt 1); IBin BSub]).
Definition positive : list instr := [IVar (TGlobal (lit "n"))].
Definition set_n (n : Z) : cmd := CAct (IxLet (TGlobal (lit "n")) [IConst (VInt n)]).
Definition executed_by (p : prog) (answers : nat) : list instruction :=
  map fst (visible (g_log (log_of E1 (InScript (SPersonal []) (sieve_of p) :: repeat InTrue answers) (initial sample 100 vars0)))).
(** n = 2; while n { n = n - 1; continue; fileinto "A"; } fileinto "E"; *)
Definition prog4 : prog :=
  {| p_require := []; p_cmds := seq_of [set_n 2; CWhile positive (seq_of [count_down; CContinue; copy_to "A"]) None; copy_to "E"] |}.
Example C62_case : ok_prog lims prog4 = true /\
  executed_by prog4 5 = match set_n 2, count_down with CAct a, CAct b => [a; b; b; fileinto "E" true] | _, _ => [] end.
Proof. vm_compute. split; reflexivity. Qed.

(** In a while directly inside a while [continue] does nothing, one while further
    inside it is refused, and in a foreverypart inside a while it leaves the iterator of
    that loop behind: a later foreverypart starts at the part the loop was left at and
    here visits nothing. *)
Definition prog5 : prog :=
  {| p_require := [];
     p_cmds := seq_of [set_n 1; CWhile positive (seq_of [CWhile positive (seq_of [count_down; CContinue; copy_to "A"]) None]) None; copy_to "E"] |}.
Definition prog6 : prog :=
  {| p_require := [];
     p_cmds := seq_of [CWhile positive (seq_of [CWhile positive (seq_of [CWhile positive (seq_of [CContinue]) None]) None]) None] |}.
Definition prog7 : prog :=
  {| p_require := [];
     p_cmds := seq_of [set_n 1; CWhile positive (seq_of [count_down; CFor None (seq_of [CIf (TNot (TLeaf (IxTest (TeExists [str "Received"] false false)))) (seq_of [CContinue]) None RNone]) None]) None;
                       CFor None (seq_of [copy_to "E"]) None] |}.
Theorem C62_continue_refuted :
  In (fileinto "A" true) (executed_by prog5 5) /\
  compile 1000 lims (rprog prog6) = None /\
  (length (filter (fun i => match i with IxFileInto _ _ _ _ _ _ => true | _ => false end) (executed_by prog7 9)) = 0 /\
   match compile 1000 lims (rprog prog7) with Some _ => True | None => False end).
Proof. vm_compute. repeat split. auto 10. Qed.
Print Assumptions C62_continue_refuted.
