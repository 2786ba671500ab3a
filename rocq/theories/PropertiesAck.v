(** The host's answers to events that ask nothing: C101. *)
From Coq Require Import Lia.
From Verif Require Import Base Lib Address Var Value SetVar Flags Comparator Message EditHeader
  Expr ExprTok Event Notify AddrTest Vacation Mime Sieve Run RunSpec Utf8 Lexer Scope StringTok HeaderVar Compile ParseArgs ParseBase Parse
  GrammarSpec RefineSpec CompileSpec CompileProofs4 ControlSpec WordSpec WordProofs AckSpec AckProofs AckLayout
  PropertiesAudit PropertiesRun PropertiesParse PropertiesGrammar PropertiesWord PropertiesRefine.
Import ListNotations.
Local Open Scope string_scope.
Local Open Scope list_scope.

(** A script by the grammar of the RFC, each [continue] of which stands in a [while] as C83 wants it, branches only on the tests it makes, *)
Theorem C101_tested : forall umax x p, says umax x p -> tested x.
Proof.
  intros umax x p S. destruct (says_written _ _ _ S) as (lim & O & _ & Co). rewrite (compile_layout _ _ _ O) in Co. injection Co as Co.
  eapply layout_tested; [exact O|symmetry; exact Co].
Qed.
Print Assumptions C101_tested.
(** so does one without a [continue]. *)
Theorem C101_says : forall K script ts x,
  Parse.compile K script = Compiled x -> tokens_from (C_L K) (C_string K) (lex_start script) ts ->
  regular TSemicolon ts = true -> required_in_front ts = true -> ~ In (TIdent (lit "continue")) ts -> exists p, says (C_umax K) x p.
Proof.
  intros K script ts x C T R F N. destruct (C83_meaning _ _ _ _ C T R F) as (ks & p & _ & _ & Fi & Sa). destruct (Sa (Fi N)) as [S _]. now exists p.
Qed.
Print Assumptions C101_says.
(** Without the words that could, it does not assign a part of the envelope. *)
Theorem C101_keeps : forall K script ts x,
  Parse.compile K script = Compiled x -> tokens_from (C_L K) (C_string K) (lex_start script) ts ->
  (forall w, In w ["let"; "setflag"; "addflag"; "removeflag"] -> ~ In (TIdent (lit w)) ts) -> keeps_envelope x.
Proof.
  intros K script ts x C T N i I. pose proof (compiled_words K script ts x i C T I) as W.
  destruct i; try exact Logic.I.
  - destruct (W ltac:(discriminate)) as (w & [<-|[]] & X). destruct (N "let"); [now left|exact X].
  - destruct (W ltac:(discriminate)) as (w & A & X). destruct (N w); [now right|exact X].
Qed.
Print Assumptions C101_keeps.

(** A script of both kinds *)
Definition well_written (x : sieve) : Prop := (exists umax p, says umax x p) /\ keeps_envelope x.
Lemma well_sound x : well_written x -> sound x.
Proof. intros [(umax & p & S) D]. split; [exact (C101_tested umax x p S)|exact D]. Qed.

(** If all scripts are of this kind, it does not matter whether the host says yes or no to an event that is no question: everything that is
    handed out stays the same, to the end, as do the message, the variables and all else but the result of the last test. *)
Theorem C101_acknowledgements_partial : forall E inputs inputs' m size c outs s',
  blind E -> (forall x, script_in_play E inputs x -> well_written x) ->
  converse_run E inputs (initial m size c) = Some (outs, s') -> same_answers None inputs inputs' outs ->
  exists b, converse_run E inputs' (initial m size c) = Some (outs, w_test b s').
Proof.
  intros E inputs inputs' m size c outs s' B W H Sa.
  apply (converse_both E B (fun n x Q => well_sound x (W x (or_introl (ex_intro _ n Q)))) inputs inputs' None (initial m size c) false outs s'); auto.
  - split; [|left; exact Logic.I]. split; [constructor|]. split; [constructor|exact Logic.I].
  - intros n x Q. exact (well_sound x (W x (or_intror (ex_intro _ n Q)))).
Qed.
Print Assumptions C101_acknowledgements_partial.

(** In general it matters: an [anyof] or [allof] without a test goes by what the host said to the command before,
    and the script is accepted. *)
Definition unasked : String.string := "require [""fileinto""]; fileinto ""a""; if anyof() { discard; }".
Definition conversation (script : String.string) (answers : list input) : option (list (option out)) :=
  match comp script with
  | Compiled x => option_map fst (converse_run E3 (InScript (SPersonal []) x :: answers) s0)
  | _ => None
  end.
Theorem C101_acknowledgements_refuted :
  conversation unasked [InTrue; InTrue] = Some [ev (EFileInto (lit "a") [] None None false 0); ev EDiscard; None] /\
  conversation unasked [InFalse; InTrue] = Some [ev (EFileInto (lit "a") [] None None false 0); None; None].
Proof. vm_compute. split; reflexivity. Qed.
Print Assumptions C101_acknowledgements_refuted.

(** A script with a question, an action before it and a branch after it *)
Definition asking : String.string :=
  "require [""fileinto"", ""mailbox""]; fileinto ""a""; if not mailboxexists ""b"" { discard; } else { fileinto ""b""; } if true { fileinto ""c""; }".
Lemma well_spelled s ts : match comp s with Compiled x => True | _ => False end ->
  tokens_from (C_L K1) (C_string K1) (lex_start (lit s)) ts ->
  regular TSemicolon ts && required_in_front ts &&
  forallb (fun w => negb (existsb (PropertiesWord.is_word w) ts)) ["continue"; "let"; "setflag"; "addflag"; "removeflag"] = true ->
  match comp s with Compiled x => well_written x | _ => False end.
Proof.
  destruct (comp s) as [x| | |] eqn:C; try contradiction. intros _ T F. apply andb_true_iff in F. destruct F as [F N]. apply andb_true_iff in F. destruct F as [R F].
  assert (W : forall w, In w ["continue"; "let"; "setflag"; "addflag"; "removeflag"] -> ~ In (TIdent (lit w)) ts).
  { intros w Iw X. apply (proj1 (forallb_forall _ _) N) in Iw. apply Bool.negb_true_iff in Iw.
    assert (Y : existsb (PropertiesWord.is_word w) ts = true) by (apply existsb_exists; exists (TIdent (lit w)); split; [exact X|]; now apply teqb_spec).
    congruence. }
  split.
  - exists (C_umax K1). apply (C101_says K1 (lit s) ts x C T R F). apply (W "continue"). now left.
  - apply (C101_keeps K1 (lit s) ts x C T). intros w I. apply W. now right.
Qed.
Example C101_case : match comp asking with Compiled x => well_written x | _ => False end.
Proof.
  eapply well_spelled; [vm_compute; exact Logic.I| |].
  - repeat (eapply from_token; [vm_compute; reflexivity|]). eapply from_end. vm_compute. reflexivity.
  - vm_compute. reflexivity.
Qed.
Example C101_case_runs :
  let filed f := ev (EFileInto (lit f) [] None None false 0) in
  let outs := [filed "a"; ev (EMailboxExists [MbName (lit "b")] []); filed "b"; filed "c"; None] in
  blind E3 /\
  (forall x n, same_answers None [InScript n x; InTrue; InTrue; InTrue; InTrue] [InScript n x; InFalse; InTrue; InFalse; InFalse] outs) /\
  conversation asking [InTrue; InTrue; InTrue; InTrue] = Some outs /\
  conversation asking [InFalse; InTrue; InFalse; InFalse] = Some outs /\
  conversation asking [InTrue; InFalse; InTrue; InTrue] <> Some outs.
Proof.
  split; [intros s b; reflexivity|]. split.
  - intros x n. cbn. unfold yes_or_no, hands_script. intuition.
  - vm_compute. repeat split. discriminate.
Qed.
