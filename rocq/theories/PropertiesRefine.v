(** What a script does, from its text: C83. *)
From Coq Require Import Lia.
From Verif Require Import Base Lib Address Var Value SetVar Flags Comparator Message EditHeader
  Expr ExprTok Event Notify AddrTest Vacation Sieve Run RunSpec RunProofs Utf8 Lexer Scope StringTok HeaderVar Compile ParseArgs ParseBase Parse
  CompileSpec ControlSpec GrammarSpec ArgSpec RefineSpec
  ParseMax RefineProofs7 RefineProofs10 RefineProofs11 RefineProofs12 RefineProofs13 RefineProofs15 CompileProofs4 PropertiesRun PropertiesCompile PropertiesParse PropertiesGrammar.
Import ListNotations.
Local Open Scope string_scope.
Local Open Scope list_scope.

(** The instructions of a compiled script are those that its commands and tests, read
    from its tokens one after the other, give: the names in them are the variables that
    are declared where they stand, a block ends with the instruction that clears those
    that it declares, and the script needs [vars] variables.  Only the match variables that
    tests keep are left open. *)
Definition read_as (K : cenv) (ts : list tok) (ks : list token) (vars : nat) : Prop :=
  exists ks0 W, script_reads K W [[]] v_start ts ks0 /\ vars = num_vars W /\
    Forall2 (tok_like (fun i i' => exists m, i' = moved K (after_global W) (capture m i))) ks0 ks.
Theorem C83_reads : forall K script ts x,
  Parse.compile K script = Compiled x -> tokens_from (C_L K) (C_string K) (lex_start script) ts ->
  exists ks, read_as K ts ks (s_vars x) /\ Compile.compile (C_umax K) (C_lim K) ks = Some (s_code x).
Proof.
  intros K script ts x C T. destruct (compile_with_refines _ _ _ _ C) as (ts' & ks & ks' & W & T' & R & F & N & Q).
  rewrite (tokens_unique _ _ _ _ T _ T'). exists ks'. split; [exists ks, W; auto|exact Q].
Qed.
Print Assumptions C83_reads.

(** If the script is written by the grammar of the RFC, with its requires in front, these
    commands are those of one program, *)
Theorem C83_program : forall K script ts x,
  Parse.compile K script = Compiled x -> tokens_from (C_L K) (C_string K) (lex_start script) ts ->
  regular TSemicolon ts = true -> required_in_front ts = true ->
  exists ks p, read_as K ts ks (s_vars x) /\ spells p ks /\ (forall p', spells p' ks -> p' = p) /\
    Compile.compile (C_umax K) (C_lim K) (rprog p) = Some (s_code x).
Proof.
  intros K script ts x C T R F. destruct (C83_reads _ _ _ _ C T) as (ks & (ks0 & W & S & NV & Q) & G).
  assert (N : neat KOpen ks = true).
  { rewrite (like_neat _ _ _ Q KOpen KOpen) by (constructor; exact Logic.I). eapply neat_script; [exact S| |exact R]. exact Logic.I. }
  assert (P : required_first ks = true) by (rewrite (like_first _ _ _ Q); eapply first_script; eauto).
  destruct (spelled _ _ _ _ N P G) as (p & A & B). exists ks, p. split; [exists ks0, W; auto|]. split; [exact A|].
  split; [|exact B]. intros p' A'. eapply spells_once; eauto.
Qed.
Print Assumptions C83_program.

(** *** C28, of texts

    An accepted script is not longer than the limit, has no more includes than allowed,
    and the blocks and tests of its commands nest no deeper. *)
Theorem C28_text : forall K script ts x,
  Parse.compile K script = Compiled x -> tokens_from (C_L K) (C_string K) (lex_start script) ts ->
  length script <= C_script K /\
  (exists ks, read_as K ts ks (s_vars x) /\ length (filter is_include_token ks) <= l_includes (C_lim K)) /\
  (regular TSemicolon ts = true -> required_in_front ts = true ->
   exists ks p, read_as K ts ks (s_vars x) /\ spells p ks /\
     bdepths (p_cmds p) <= l_blocks (C_lim K) /\ test_depths (p_cmds p) <= l_tests (C_lim K)).
Proof.
  intros K script ts x C T. split; [|split].
  - unfold Parse.compile, compile_with in C. destruct (Nat.ltb (C_script K) (length script)) eqn:Q; [discriminate|]. now apply Nat.ltb_ge.
  - destruct (C83_reads _ _ _ _ C T) as (ks & R & Q). exists ks. split; [exact R|]. exact (C28_includes _ _ _ _ Q).
  - intros R F. destruct (C83_program _ _ _ _ C T R F) as (ks & p & A & B & _ & Q). exists ks, p.
    split; [exact A|]. split; [exact B|]. exact (C28_blocks_and_tests _ _ _ _ Q).
Qed.
Print Assumptions C28_text.

(** [y] has been compiled from a text, by a compiler whose numbers end at [umax], that is read as program [q]. *)
Definition says (umax : nat) (y : sieve) (q : prog) : Prop :=
  exists K script ts ks, C_umax K = umax /\ Parse.compile K script = Compiled y /\
    tokens_from (C_L K) (C_string K) (lex_start script) ts /\ regular TSemicolon ts = true /\ required_in_front ts = true /\
    read_as K ts ks (s_vars y) /\ spells q ks /\ Compile.compile umax (C_lim K) ks = Some (s_code y) /\
    fit_cmds [] (p_cmds q) = true.
Lemma read_program K ts ks x p : regular TSemicolon ts = true -> required_in_front ts = true -> read_as K ts ks (s_vars x) -> spells p ks ->
  Compile.compile (C_umax K) (C_lim K) ks = Some (s_code x) ->
  Compile.compile (C_umax K) (C_lim K) (rprog p) = Some (s_code x) /\ Forall tok_ok (rcmds (p_cmds p)).
Proof.
  intros R F (ks0 & W & S & NV & Q) B G.
  assert (N : neat KOpen ks = true).
  { rewrite (like_neat _ _ _ Q KOpen KOpen) by (constructor; exact Logic.I). eapply neat_script; [exact S| |exact R]. exact Logic.I. }
  assert (P : required_first ks = true) by (rewrite (like_first _ _ _ Q); eapply first_script; eauto).
  destruct (spelled _ _ _ _ N P G) as (p' & A & C). rewrite (spells_once _ _ _ B A). split; [exact C|].
  destruct A as (css & _ & A). pose proof (acted_ok _ (likes_ok _ _ _ _ Q (reads_ok _ _ _ _ _ _ S))) as T. rewrite A in T. apply Forall_app in T. apply T.
Qed.
Lemma says_written umax y q : says umax y q -> ControlSpec.written umax y q.
Proof.
  intros (K & script & ts & ks & <- & _ & _ & R & F & A & B & G & Fi). destruct (read_program _ _ _ _ _ R F A B G) as [C T].
  exists (C_lim K). split; [eapply within; eauto|]. split; [|exact C]. apply (proj1 (proj2 fresh_toks)). exact T.
Qed.

(** and a run of the script does what that program says.  A [continue] has to stand in
    a [while] that is not itself directly in a [while]; a script without one does not
    need this.  Scripts that are included, registered with the runtime or handed in by the
    host when it is asked for them, have been compiled from texts too, and do what those say. *)
Theorem C83_meaning : forall K script ts x,
  Parse.compile K script = Compiled x -> tokens_from (C_L K) (C_string K) (lex_start script) ts ->
  regular TSemicolon ts = true -> required_in_front ts = true ->
  exists ks p, read_as K ts ks (s_vars x) /\ spells p ks /\ (~ In (TIdent (lit "continue")) ts -> fit_cmds [] (p_cmds p) = true) /\
    (fit_cmds [] (p_cmds p) = true -> says (C_umax K) x p /\
     forall E n m size c rest, s_vars x <= 256 ->
       let s0 := initial m size c in
       scripts_known E (says (C_umax K)) x -> host_fits E (says (C_umax K)) n x rest s0 ->
       let log := g_log (log_of E (InScript n x :: rest) s0) in
       List.length log < E_cpu E -> script_runs E (says (C_umax K)) p (feed (InScript n x) s0) (visible log)).
Proof.
  intros K script ts x C T R F. destruct (C83_reads _ _ _ _ C T) as (ks & A & G).
  assert (P : exists p, spells p ks).
  { destruct A as (ks0 & W & S & NV & Q).
    assert (N : neat KOpen ks = true).
    { rewrite (like_neat _ _ _ Q KOpen KOpen) by (constructor; exact Logic.I). eapply neat_script; [exact S| |exact R]. exact Logic.I. }
    assert (P : required_first ks = true) by (rewrite (like_first _ _ _ Q); eapply first_script; eauto).
    destruct (spelled _ _ _ _ N P G) as (p & B & _). now exists p. }
  destruct P as (p & B). exists ks, p. split; [exact A|]. split; [exact B|]. split.
  - intro N. apply (proj1 (proj2 no_continue)). intro I. apply N. destruct A as (ks0 & W & S & NV & Q). destruct B as (css & _ & B).
    eapply continue_read; [exact S|]. eapply like_continue; [exact Q|]. apply acted_continue. rewrite B. apply in_or_app. right. exact I.
  - intro Fi. assert (Sa : says (C_umax K) x p) by (exists K, script, ts, ks; repeat (split; [solve [auto]|]); exact Fi).
    split; [exact Sa|]. intros E n m size c rest V s0 Kn H log L. apply (C27_script_meaning E _ (C_umax K)); auto.
    + apply says_written.
    + split; [|exact V]. eapply compile_max; eauto.
Qed.
Print Assumptions C83_meaning.

(** A script without includes does not need anything to be known about other scripts. *)
Theorem C83_alone : forall K script ts x,
  Parse.compile K script = Compiled x -> tokens_from (C_L K) (C_string K) (lex_start script) ts ->
  regular TSemicolon ts = true -> required_in_front ts = true -> ~ In (TIdent (lit "include")) ts ->
  exists ks p, read_as K ts ks (s_vars x) /\ spells p ks /\ (~ In (TIdent (lit "continue")) ts -> fit_cmds [] (p_cmds p) = true) /\
    (fit_cmds [] (p_cmds p) = true ->
     forall E n m size c rest, s_vars x <= 256 -> Forall no_script rest ->
       let s0 := initial m size c in
       let log := g_log (log_of E (InScript n x :: rest) s0) in
       List.length log < E_cpu E -> script_runs E (fun y q => y = x /\ q = p) p (feed (InScript n x) s0) (visible log)).
Proof.
  intros K script ts x C T R F NI. destruct (C83_reads _ _ _ _ C T) as (ks & A & G). destruct (C83_program _ _ _ _ C T R F) as (ks' & p & A' & B & _ & G').
  exists ks', p. split; [exact A'|]. split; [exact B|]. destruct A' as (ks0 & W & S & NV & Q). destruct B as (css & B1 & B). split.
  - intro N. apply (proj1 (proj2 no_continue)). intro I. apply N.
    eapply continue_read; [exact S|]. eapply like_continue; [exact Q|]. apply acted_continue. rewrite B. apply in_or_app. right. exact I.
  - intros Fi E n m size c rest V NS s0 log L.
    pose proof (acted_ok _ (likes_ok _ _ _ _ Q (reads_ok _ _ _ _ _ _ S))) as TO. rewrite B in TO. apply Forall_app in TO. destruct TO as [_ TO].
    pose proof (acted_quiet _ (likes_quiet _ _ _ _ Q (reads_quiet _ _ _ _ _ _ S NI))) as TQ. rewrite B in TQ. apply Forall_app in TQ. destruct TQ as [_ TQ].
    assert (O : ok_prog (C_lim K) p = true) by (eapply within; eauto).
    apply (C27_alone E (C_umax K) (C_lim K)); auto.
    + apply (proj1 (proj2 fresh_toks)). exact TO.
    + eapply compile_max; eauto.
    + pose proof G' as G2. rewrite (compile_layout _ _ _ O) in G2. injection G2 as <-. unfold gprog.
      destruct (p_require p); cbn [app]; [|constructor; [reflexivity|]]; apply (proj1 (proj2 code_silent)); exact TQ.
Qed.
Print Assumptions C83_alone.

(** Also when the instruction budget ends the run *)
Theorem C83_steps : forall K script ts x,
  Parse.compile K script = Compiled x -> tokens_from (C_L K) (C_string K) (lex_start script) ts ->
  regular TSemicolon ts = true -> required_in_front ts = true -> ~ In (TIdent (lit "continue")) ts ->
  exists ks p, read_as K ts ks (s_vars x) /\ spells p ks /\ says (C_umax K) x p /\
    forall E n m size c rest, s_vars x <= 256 ->
      let s0 := initial m size c in
      scripts_known E (says (C_umax K)) x -> host_fits E (says (C_umax K)) n x rest s0 ->
      let log := g_log (log_of E (InScript n x :: rest) s0) in
      exists k s', srcs E (says (C_umax K)) (begin p, feed (InScript n x) s0) (visible log) (k, s') /\ over E k log.
Proof.
  intros K script ts x C T R F N. destruct (C83_meaning _ _ _ _ C T R F) as (ks & p & A & B & Co & Sa). specialize (Co N).
  destruct (Sa Co) as [Sa1 _]. exists ks, p. split; [exact A|]. split; [exact B|]. split; [exact Sa1|].
  intros E n m size c rest V s0 Kn H log. apply (C27_steps E _ (C_umax K)); auto.
  - intros y q Y. destruct (says_written _ _ _ Y) as (lim & O & _ & Cm). eauto.
  - split; [|exact V]. eapply compile_max; eauto.
Qed.
Print Assumptions C83_steps.

(** A script with strings, lists, nested tests and blocks meets the hypotheses. *)
Example C83_case : (exists x, comp whole = Compiled x /\ s_vars x <= 256) /\
  exists ts, tokens_from (C_L K1) (C_string K1) (lex_start (lit whole)) ts /\ regular TSemicolon ts = true /\ required_in_front ts = true /\
    ~ In (TIdent (lit "continue")) ts /\ List.length ts = 41.
Proof.
  split; [eexists; split; [vm_compute; reflexivity|cbn; lia]|]. eexists. split; [|split; [|split; [|split]]].
  - repeat (eapply from_token; [vm_compute; reflexivity|]). eapply from_end. vm_compute. reflexivity.
  - vm_compute. reflexivity.
  - vm_compute. reflexivity.
  - intro H. cbn in H. repeat (destruct H as [H|H]; [discriminate|]). exact H.
  - reflexivity.
Qed.
(** A script that includes another, which the host hands in: the included script returns
    from inside an [if], and the script goes on behind the include. *)
Definition outer : String.string := "require ""include""; include ""inner""; keep;".
Definition inner : String.string := "require ""include""; if size :over 1 { return; } discard;".
Definition sieve_from (s : String.string) : sieve := match comp s with Compiled x => x | _ => PropertiesRun.script [] end.
Lemma says_something s ts : match comp s with Compiled x => True | _ => False end ->
  tokens_from (C_L K1) (C_string K1) (lex_start (lit s)) ts -> regular TSemicolon ts = true -> required_in_front ts = true ->
  ~ In (TIdent (lit "continue")) ts -> exists p, says (C_umax K1) (sieve_from s) p.
Proof.
  unfold sieve_from. destruct (comp s) as [x| | |] eqn:C; try contradiction. intros _ T R F N.
  destruct (C83_meaning K1 (lit s) ts x C T R F) as (ks & p & _ & _ & Co & Sa). exists p. apply Sa, Co, N.
Qed.
Ltac read_tokens := repeat (eapply from_token; [vm_compute; reflexivity|]); eapply from_end; vm_compute; reflexivity.
Example C83_include_case :
  let answers := [InScript (SPersonal (lit "inner")) (sieve_from inner); InTrue; InTrue] in
  let log := g_log (log_of E3 (InScript (SPersonal []) (sieve_from outer) :: answers) s0) in
  (exists p, says (C_umax K1) (sieve_from outer) p) /\ (exists q, says (C_umax K1) (sieve_from inner) q) /\
  scripts_known E3 (says (C_umax K1)) (sieve_from outer) /\
  host_fits E3 (says (C_umax K1)) (SPersonal []) (sieve_from outer) answers s0 /\
  map fst (visible log) = [IxRequire [cap "include"]; IxInclude (str "inner") false false false; IxRequire [cap "include"]; IxTest (TeSize true 1 false); IxReturn; IxKeep []] /\
  List.length log < E_cpu E3.
Proof.
  assert (O : exists p, says (C_umax K1) (sieve_from outer) p).
  { eapply says_something; [vm_compute; exact Logic.I|read_tokens|vm_compute; reflexivity|vm_compute; reflexivity|].
    intro H. cbn in H. repeat (destruct H as [H|H]; [discriminate|]). exact H. }
  assert (I : exists p, says (C_umax K1) (sieve_from inner) p).
  { eapply says_something; [vm_compute; exact Logic.I|read_tokens|vm_compute; reflexivity|vm_compute; reflexivity|].
    intro H. cbn in H. repeat (destruct H as [H|H]; [discriminate|]). exact H. }
  split; [exact O|]. split; [exact I|]. split; [intros _ t y H; discriminate H|]. split; [|vm_compute; split; [reflexivity|repeat constructor]].
  destruct I as (q & I). unfold host_fits. destruct (run E3 _ s0) as [s1 o| |] eqn:R1; try exact Logic.I. cbn [fitting]. split.
  - right. exists (SPersonal (lit "inner")), (sieve_from inner), q, (SPersonal (lit "inner")), false. split; [reflexivity|]. split; [vm_compute; lia|]. split; [exact I|].
    assert (X : match run E3 (InScript (SPersonal []) (sieve_from outer)) s0 with RRet _ o => o | _ => None end = Some (OEvent (EInclude (SPersonal (lit "inner")) false)))
      by (vm_compute; reflexivity).
    rewrite R1 in X. exact X.
  - destruct (run E3 _ s1) as [s2 o2| |]; try exact Logic.I. split; [left; exact Logic.I|].
    destruct (run E3 _ s2) as [s3 o3| |]; try exact Logic.I. split; [left; exact Logic.I|]. destruct (run E3 _ s3); exact Logic.I.
Qed.
(** A script and the program that it is read as *)
Definition small : String.string := "if not size :over 100 { discard; } else { keep; stop; }".
Definition small_program : prog :=
  {| p_require := [];
     p_cmds := CCons (CIf (TNot (TLeaf (IxTest (TeSize true 100 false)))) (CCons (CAct IxDiscard) CNil) None
                          (RElse (CCons (CAct (IxKeep [])) (CCons (CAct IxStop) CNil)) None)) CNil |}.
Example C83_small_case : exists ts ks,
  tokens_from (C_L K1) (C_string K1) (lex_start (lit small)) ts /\ read_as K1 ts ks 0 /\ spells small_program ks /\
  match comp small with Compiled x => Compile.compile (C_umax K1) (C_lim K1) (rprog small_program) = Some (s_code x) | _ => False end.
Proof.
  eexists _, (rcmds (p_cmds small_program)). split; [|split; [|split]].
  - repeat (eapply from_token; [vm_compute; reflexivity|]). eapply from_end. vm_compute. reflexivity.
  - exists (rcmds (p_cmds small_program)), v_start. split; [|split; [reflexivity|]].
    + change (script_reads K1 v_start [[]] v_start
       (TIdent (lit "if") :: [TIdent (lit "not"); TIdent (lit "size"); TTag (lit "over"); TNumber 100] ++ TCurlyOpen :: TIdent (lit "discard") :: [] ++ TSemicolon ::
        TCurlyClose :: TIdent (lit "else") :: TCurlyOpen :: TIdent (lit "keep") :: [] ++ TSemicolon :: TIdent (lit "stop") :: [] ++ TSemicolon :: [TCurlyClose])
       (rcmds (p_cmds small_program))).
      apply (sr_if K1 _ [[]] _ v_start _ [KNot; KLeaf (IxTest (TeSize true 100 false))]).
      * apply tr_not. apply (tr_leaf K1 _ _ v_start (TIdent (lit "size")) [TTag (lit "over"); TNumber 100] []); [|constructor]. apply leaf_test. apply is_plain_test. apply is_over.
      * apply (sr_action K1 _ _ _ (open_block v_start) "discard"); [apply is_plain_action; constructor|]. apply (sr_close K1 _ _ _ v_start 0 0 0%N); [reflexivity|]. apply sr_else.
        apply (sr_action K1 _ _ _ (open_block v_start) "keep"). { apply is_plain_action. apply (is_keep K1 _ [] []); [split; [reflexivity|constructor]|reflexivity|reflexivity]. }
        apply (sr_action K1 _ _ _ (open_block v_start) "stop"); [apply is_plain_action; constructor|]. apply (sr_close K1 _ _ _ v_start 0 0 0%N); [reflexivity|]. constructor.
    + repeat constructor; exists 0%N; reflexivity.
  - exists []. split; reflexivity.
  - vm_compute. reflexivity.
Qed.
(** Where the compiler is more lenient than the RFC: an [else] may stand at the start of
    an [else], because the block that came before is still the one before it. *)
Example C83_else_in_else : exists x, comp "if true { keep; } else { else { discard; } }" = Compiled x.
Proof. eexists. vm_compute. reflexivity. Qed.
(** A [continue] in a while directly inside a while gives no instruction. *)
Example C83_continue_nothing :
  let script c := [KWhile []; KOpen; KWhile []; KOpen] ++ c ++ [KAct IxDiscard; KClose None; KClose None] in
  Compile.compile 1000 lims (script [KContinue]) = Compile.compile 1000 lims (script []) /\ Compile.compile 1000 lims (script []) <> None.
Proof. split; [vm_compute; reflexivity|vm_compute; discriminate]. Qed.
