(** Properties of the language the compiler accepts: C69. *)
From Verif Require Import Base Lib Lexer ParseBase Parse GrammarSpec GrammarProofs4 PropertiesRun PropertiesParse.
Import ListNotations.
Local Open Scope string_scope.
Local Open Scope list_scope.

(** The tokens of a script are determined by it. *)
Lemma tokens_unique L max l ts : tokens_from L max l ts -> forall ts', tokens_from L max l ts' -> ts = ts'.
Proof.
  induction 1 as [l l' A|l t l' ts A B IH|l e l' ts A B IH]; intros ts' H; inversion H; subst;
    match goal with X : lex_next _ _ l = _ |- _ => rewrite A in X; inversion X; subst end; try reflexivity.
  - f_equal. auto.
  - auto.
Qed.

(** An accepted script consists of complete commands, by the grammar of RFC 5228 with the
    lenient productions marked in GrammarSpec.v.  Full statement: for all scripts, and
    without the lenient productions, which is false (below). *)
Theorem C69_grammar_partial : forall K script x ts,
  compile K script = Compiled x -> tokens_from (C_L K) (C_string K) (lex_start script) ts -> parens_ok ts -> some_commands ts.
Proof.
  intros K script x ts H A P. destruct (compile_grammar K script x H) as (ts' & B & C).
  rewrite (tokens_unique _ _ _ _ A _ B) in *. auto.
Qed.
Print Assumptions C69_grammar_partial.

(** In particular, what remains of an accepted script after its last word is a semicolon or
    a closing brace. *)
Definition ends_command (ts : list tok) : Prop := exists us t, ts = us ++ [t] /\ (t = TSemicolon \/ t = TCurlyClose).
Lemma ends_app us vs : ends_command vs -> ends_command (us ++ vs).
Proof. intros (ws & t & A & B). exists (us ++ ws), t. rewrite A, app_assoc. auto. Qed.
Lemma ends_cons t vs : ends_command vs -> ends_command (t :: vs).
Proof. apply (ends_app [t]). Qed.
Lemma ends_passed us : forall n, passed_command n us -> ends_command us.
Proof.
  induction us as [|t us IH]; intros n H; cbn in H; [tauto|].
  destruct t; try (apply ends_cons; eapply IH; eassumption).
  all: destruct H as [[_ H]|[_ H]]; [subst us; exists []; eexists; split; [reflexivity|auto]|apply ends_cons; eapply IH; eassumption].
Qed.
Lemma ends_one us : a_command us -> ends_command us.
Proof.
  intros H. destruct H as [w us _ _|w us vs _ _ _|w us vs _ _ _|t us _ A].
  - apply ends_cons, ends_app. exists [], TSemicolon. auto.
  - apply ends_cons, ends_app, ends_cons, ends_app. exists [], TCurlyClose. auto.
  - apply ends_cons, ends_app, ends_cons, ends_app. exists [], TCurlyClose. auto.
  - apply ends_cons. eapply ends_passed. eassumption.
Qed.
Lemma ends_all ts : some_commands ts -> ts = [] \/ ends_command ts.
Proof.
  induction 1 as [|us vs A B [IH|IH]]; [auto| |].
  - subst vs. rewrite app_nil_r. right. apply ends_one, A.
  - right. apply ends_app, IH.
Qed.
Theorem C69_ends_partial : forall K script x ts,
  compile K script = Compiled x -> tokens_from (C_L K) (C_string K) (lex_start script) ts -> parens_ok ts ->
  ts = [] \/ exists us t, ts = us ++ [t] /\ (t = TSemicolon \/ t = TCurlyClose).
Proof. intros K script x ts H A P. eapply ends_all, C69_grammar_partial; eassumption. Qed.
Print Assumptions C69_ends_partial.

(** A script with strings, lists, nested tests and blocks meets the hypotheses. *)
Definition whole : String.string :=
  "require [""fileinto"", ""copy""]; if anyof (not header :is [""A"", ""B""] ""c"", size :over 10K) { fileinto :copy ""x""; } elsif true { stop; } else { keep; }".
Example C69_grammar_case : (exists x, comp whole = Compiled x) /\
  exists ts, tokens_from (C_L K1) (C_string K1) (lex_start (lit whole)) ts /\ parens_ok ts /\ List.length ts = 41.
Proof.
  split; [eexists; vm_compute; reflexivity|]. eexists. split; [|split].
  - repeat (eapply from_token; [vm_compute; reflexivity|]). eapply from_end. vm_compute. reflexivity.
  - cbn [parens_ok]. unfold pair_ok, opens_list, is_word_tok.
    repeat split; try discriminate; intros; try exact Logic.I; unfold named; cbn; auto.
  - reflexivity.
Qed.

(** What the lenient productions accept.  The comma between the tests of a list may be
    missing; then only the last test decides, so anyof of a true and a false test is false. *)
Theorem C69_missing_comma_refuted :
  go "if anyof (true, false) { discard; }" [] <> None /\
  go "if anyof (true false) { discard; }" [] <> None /\
  go "if anyof (true false) { discard; }" [] <> go "if anyof (true, false) { discard; }" [] /\
  go "if anyof (true false) { discard; }" [] = go "if false { discard; }" [].
Proof. vm_compute. repeat split; (reflexivity || discriminate). Qed.
Print Assumptions C69_missing_comma_refuted.
(** So may the commas of a list of strings. *)
Theorem C69_string_list_refuted :
  comp "if header [""a"" ""b""] ""c"" {}" = comp "if header [""a"", ""b""] ""c"" {}" /\
  comp "if header [""a"", ""b""] ""c"" {}" <> Parse.Rejected.
Proof. vm_compute. repeat split; (reflexivity || discriminate). Qed.
Print Assumptions C69_string_list_refuted.
(** Parentheses and braces need not match. *)
Theorem C69_parenthesis_refuted :
  comp "if (anyof (true) { keep; }" <> Parse.Rejected /\ comp "if (anyof (true)) { keep; }" = Parse.Rejected.
Proof. vm_compute. repeat split; (reflexivity || discriminate). Qed.
Print Assumptions C69_parenthesis_refuted.
Theorem C69_brace_refuted : comp "if foo } { keep; }" <> Parse.Rejected.
Proof. vm_compute. discriminate. Qed.
Print Assumptions C69_brace_refuted.
(** An else may follow any command inside the block of an elsif. *)
Theorem C69_else_refuted :
  comp "if true { keep; else { discard; } }" = Parse.Rejected /\
  comp "if true {} elsif true { keep; else { discard; } }" <> Parse.Rejected.
Proof. vm_compute. repeat split; (reflexivity || discriminate). Qed.
Print Assumptions C69_else_refuted.
