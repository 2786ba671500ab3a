(** Properties of the script's lexical syntax. *)
From Verif Require Import Base Lib Var Utf8 Lexer LexerSpec LexerProofs LexerProofs2.

(** * C40: quoted strings.

    Full statement: every quoted string (a sequence of characters and
    backslash-escapes) becomes a token that stands for the text obtained by
    dropping the escaping backslashes.  This is false (below).  Proved: it
    holds if n, r and t are never escaped and an escaped backslash is followed
    by an unescaped character other than n, r, t.  Missing: all other
    literals. *)
Theorem C40_quoted_partial : forall L max_string q rest l,
  Forall q_wf q -> understood q -> length (utf8 (meaning q)) < max_string ->
  at_input l (34%N :: utf8 (source q) ++ 34%N :: rest) ->
  exists k l', lex_next L max_string l = LTok k l' /\ denotes L k (meaning q) /\ at_input l' rest.
Proof. intros. eapply quoted_string; eassumption. Qed.
Print Assumptions C40_quoted_partial.

(** Any text in which no backslash is followed by a backslash, a quote, n, r,
    t or the end can be written by escaping quotes and backslashes. *)
Theorem C40_written_partial : forall L max_string t rest l,
  Forall scalar t -> tame t -> length (utf8 t) < max_string ->
  at_input l (34%N :: utf8 (source (written t)) ++ 34%N :: rest) ->
  exists k l', lex_next L max_string l = LTok k l' /\ denotes L k t /\ at_input l' rest.
Proof.
  intros L m t rest l S T Ln A. pose proof (written_meaning t) as E.
  destruct (quoted_string L m (written t) rest l (written_wf t S) (written_understood t T)) as (k & l' & H1 & H2 & H3).
  - rewrite E. exact Ln.
  - exact A.
  - rewrite E in H2. exists k, l'. repeat split; try assumption; apply H3.
Qed.
Print Assumptions C40_written_partial.

(** "C:\\dir is \"it\"; 5" *)
Example C40_ex_text : text := lit "C:\dir is " ++ [34%N] ++ lit "it" ++ [34%N] ++ lit "; 5".
Example C40_ex_source : source (written C40_ex_text) =
  lit "C:\\dir is \" ++ [34%N] ++ lit "it\" ++ [34%N] ++ lit "; 5".
Proof. reflexivity. Qed.
Example C40_ex : Forall scalar C40_ex_text /\ tame C40_ex_text /\ length (utf8 C40_ex_text) < 4096 /\
  lex_next ascii_lib 4096 (lex_start (34%N :: utf8 (source (written C40_ex_text)) ++ [34%N; 59%N])) =
    LTok (TStr (CText C40_ex_text)) (mk [59%N] [] false 34%N SNone []).
Proof.
  split; [apply Forall_forall; intros c H; vm_compute in H; unfold scalar; lia|].
  split; [vm_compute; repeat split; try discriminate; intuition discriminate|].
  split; [vm_compute; lia|vm_compute; reflexivity].
Qed.

(** An escape of n stands for a line feed, an escaped backslash before n for
    a backslash and a line feed, two escaped backslashes for three. *)
Theorem C40_quoted_refuted : forall L rest,
  exists q1 q2 q3, Forall q_wf q1 /\ Forall q_wf q2 /\ Forall q_wf q3 /\
    source q1 = lit "\n" /\ source q2 = lit "C:\\new" /\ source q3 = lit "\\\\" ++ lit "a" /\
    meaning q1 = lit "n" /\ meaning q2 = lit "C:\new" /\ meaning q3 = lit "\\a" /\
    (forall q t, (q, t) = (q1, [10%N]) \/ (q, t) = (q2, lit "C:\" ++ [10%N] ++ lit "ew") \/ (q, t) = (q3, lit "\\\a") ->
       t <> meaning q /\
       lex_next L 4096 (lex_start (34%N :: utf8 (source q) ++ 34%N :: rest)) =
         LTok (TStr (CText t)) (mk rest [] false 34%N SNone [])).
Proof.
  intros L rest. exists [QEsc 110%N], (written (lit "C:\new")), (written (lit "\\a")).
  split; [repeat constructor; unfold scalar; lia|].
  split; [apply written_wf; apply Forall_forall; intros c H; vm_compute in H; unfold scalar; lia|].
  split; [apply written_wf; apply Forall_forall; intros c H; vm_compute in H; unfold scalar; lia|].
  repeat (split; [reflexivity|]).
  intros q t [E|[E|E]]; injection E as -> ->; (split; [discriminate|reflexivity]).
Qed.
Print Assumptions C40_quoted_refuted.

(** No quoted string at all stands for a text that ends in a backslash. *)
Theorem C40_backslash_refuted : forall L max_string src k l' t,
  lex_next L max_string (lex_start (34%N :: src)) = LTok k l' -> ~ denotes L k (t ++ [92%N]).
Proof.
  intros L m src k l' t H D.
  assert (G : lex_go L m src [] false 34%N (SQuoted st_default) = LTok k l') by exact H.
  destruct (quoted_no_bs L m src [] false 34%N st_default k l') as (b & t' & -> & NB).
  - intros [x E]. destruct x; discriminate.
  - exact G.
  - apply string_denotes_inv in D as [D|D].
    + apply NB. symmetry in D. exact (into_string_last b t 92%N ltac:(lia) ltac:(lia) D).
    + apply NB. exists (utf8 t). rewrite D, utf8_app. reflexivity.
Qed.
Print Assumptions C40_backslash_refuted.
Example C40_backslash_ex : exists l', lex_next ascii_lib 4096 (lex_start (34%N :: lit "a\\" ++ 34%N :: lit ";")) = LErr EUnterminatedString l'.
Proof. eexists. vm_compute. reflexivity. Qed.

(** * C48: numbers.  Wherever a command or test reads a number below [max]
    (which is at most the largest 64-bit value), a literal of digits and an
    optional K, M or G is accepted exactly when its value is below [max], and
    then it is its decimal value times 2^10, 2^20, 2^30. *)
Theorem C48_number : forall L max_string ds s q d rest l max,
  ds <> [] -> Forall (fun c => is_digit_ascii c = true) ds -> quantifier s q -> ends_word d ->
  (max <= usize_max)%N -> at_input l (ds ++ s ++ d :: rest) ->
  if N.ltb (decimal ds * q) max
  then exists l', expect_number L max_string max l = POk (decimal ds * q)%N l' /\ after_word l' d rest
  else expect_number L max_string max l = PErr.
Proof. intros. apply (number_expected L max_string ds s q d rest l max); assumption. Qed.
Print Assumptions C48_number.

(** The 'size' test takes the number token as it is: the literal is either
    refused (it is larger than any 64-bit number), or it compares with every
    message size as its value does. *)
Theorem C48_size : forall L max_string ds s q d rest l,
  ds <> [] -> Forall (fun c => is_digit_ascii c = true) ds -> quantifier s q -> ends_word d ->
  at_input l (ds ++ s ++ d :: rest) ->
  exists k l', lex_next L max_string l = LTok k l' /\ after_word l' d rest /\
    ((exists n, k = TNumber n /\
        forall size, (size < usize_max)%N ->
          ((n < size)%N <-> (decimal ds * q < size)%N) /\ ((size < n)%N <-> (size < decimal ds * q)%N))
     \/ (exists u, k = TUnknown u) /\ (usize_max < decimal ds * q)%N).
Proof.
  intros L m ds s q d rest l NE F Q D A.
  destruct (number_next L m ds s q d rest l NE F Q D A) as (l' & E & W).
  exists (num_tok ds s q), l'. split; [exact E|]. split; [exact W|].
  pose proof (quantifier_pos s q Q) as Q1.
  assert (DQ : (decimal ds <= decimal ds * q)%N) by nia.
  unfold num_tok. destruct (N.leb (decimal ds) usize_max) eqn:U.
  - left. eexists. split; [reflexivity|]. intros size Hs. unfold sat_mul. lia.
  - right. split; [eexists; reflexivity|lia].
Qed.
Print Assumptions C48_size.

Example C48_ex : decimal (lit "0100") = 100%N /\ quantifier (lit "M") (2 ^ 20) /\ ends_word 59%N /\
  expect_number ascii_lib 4096 usize_max (lex_start (lit "0100M;")) =
    POk (100 * 2 ^ 20)%N (mk [] [] false 59%N SNone [TSemicolon]) /\
  expect_number ascii_lib 4096 65535 (lex_start (lit "64K;")) = PErr /\
  expect_number ascii_lib 4096 usize_max (lex_start (lit "18446744073709551616;")) = PErr /\
  expect_number ascii_lib 4096 usize_max (lex_start (lit "17179869184G;")) = PErr.
Proof.
  split; [reflexivity|]. split; [right; right; left; split; [left; reflexivity|reflexivity]|].
  split; [right; discriminate|]. vm_compute. repeat split.
Qed.

(** * C65: multi-line strings stand for their lines, with the dots that were
    doubled at the beginning of a line restored. *)
Theorem C65_multiline : forall L max_string w skip t d rest l,
  text_colon w -> ~ In 10%N skip -> Forall scalar t -> whole_lines (utf8 t) -> dot_line d ->
  length (utf8 t) < max_string ->
  at_input l (w ++ skip ++ 10%N :: stuff true (utf8 t) ++ d ++ rest) ->
  exists k l', lex_next L max_string l = LTok k l' /\ denotes L k t /\ at_input l' rest.
Proof. intros. eapply multi_string; eauto. Qed.
Print Assumptions C65_multiline.

Example C65_ex_text : text := lit ".x" ++ [13;10]%N ++ lit "a.b" ++ [10;10]%N ++ lit "." ++ [10]%N ++ lit "..$" ++ [10]%N.
Example C65_ex : whole_lines (utf8 C65_ex_text) /\ text_colon (lit "TeXt:") /\
  stuff true (utf8 C65_ex_text) =
    lit "..x" ++ [13;10]%N ++ lit "a.b" ++ [10;10]%N ++ lit ".." ++ [10]%N ++ lit "...$" ++ [10]%N /\
  lex_next ascii_lib 4096 (lex_start (lit "TeXt: # c" ++ 10%N :: stuff true (utf8 C65_ex_text) ++ [46;13;10]%N ++ lit ";")) =
    LTok (TStr (CText C65_ex_text)) (mk (lit ";") [] false 10%N SNone []).
Proof.
  split; [right; exists (lit ".x" ++ [13;10]%N ++ lit "a.b" ++ [10;10]%N ++ lit "." ++ [10]%N ++ lit "..$"); reflexivity|].
  split; [reflexivity|]. split; vm_compute; reflexivity.
Qed.

(** * C66: white space and comments between tokens mean nothing. *)
Theorem C66_layout : forall L max_string w i l l',
  layout w -> i <> [] -> at_input l (w ++ i) -> at_input l' i -> lex_next L max_string l = lex_next L max_string l'.
Proof. intros. eapply layout_next; eassumption. Qed.
Print Assumptions C66_layout.

Theorem C66_trailing : forall L max_string w l,
  layout w -> at_input l w -> exists l', lex_next L max_string l = LEof l'.
Proof. intros. eapply layout_end; eassumption. Qed.
Print Assumptions C66_trailing.

Example C66_ex : layout (lit " /* a * b / */ " ++ lit "# keep;" ++ [10]%N ++ lit "/***/").
Proof.
  cbn [lit app]. change (layout (32%N :: 47%N :: 42%N :: lit " a * b / " ++ 42%N :: 47%N :: (lit " # keep;" ++ 10%N :: lit "/***/"))).
  assert (NS : forall body, (forall i, nth i body 0%N = 42%N -> nth (S i) (body ++ [42%N; 47%N]) 0%N <> 47%N) ->
     forall x y, body ++ [42%N; 47%N] = x ++ [42%N; 47%N] ++ y -> y = []).
  { intros body H x y E. destruct y as [|y0 y]; [reflexivity|]. exfalso.
    assert (Ln : length x + 2 < length (body ++ [42%N; 47%N])) by (rewrite E, !app_length; cbn; lia).
    rewrite app_length in Ln. cbn in Ln.
    apply (H (length x)).
    - rewrite <- (app_nth1 body [42%N; 47%N]) by lia. rewrite E, app_nth2, Nat.sub_diag by lia. reflexivity.
    - rewrite E, app_nth2 by lia. replace (S (length x) - length x) with 1 by lia. reflexivity. }
  apply ly_space; [reflexivity|]. apply (ly_bracket (lit " a * b / ")).
  - apply NS. intros i. do 10 (destruct i as [|i]; [cbn; discriminate|]). cbn. destruct i; discriminate.
  - apply ly_space; [reflexivity|]. apply (ly_hash (lit " keep;")).
    + vm_compute. intuition discriminate.
    + apply (ly_bracket [42%N] []); [|constructor].
      apply NS. intros [|[|i]]; cbn; intro H; try discriminate; destruct i; discriminate.
Qed.

(** * C67: command, test and tag names are recognised in any letter case. *)
Theorem C67_words : forall L max_string w w' d rest l l',
  forallb wordish w = true -> forallb wordish w' = true -> lower_text w = lower_text w' ->
  at_input l (w ++ d :: rest) -> at_input l' (w' ++ d :: rest) ->
  lex_next L max_string l = lex_next L max_string l'.
Proof. intros L m w w' d rest l l' A B C D E. exact (word_case L m w w' d rest l l' A B C D E). Qed.
Print Assumptions C67_words.

Theorem C67_tags : forall L max_string w w' d rest l l',
  forallb wordish w = true -> forallb wordish w' = true -> lower_text w = lower_text w' -> head_alpha w = true ->
  at_input l (58%N :: w ++ d :: rest) -> at_input l' (58%N :: w' ++ d :: rest) ->
  lex_next L max_string l = lex_next L max_string l'.
Proof. intros L m w w' d rest l l' A B C D E F. exact (tag_case L m w w' d rest l l' A B C D E F). Qed.
Print Assumptions C67_tags.

Example C67_ex :
  lex_next ascii_lib 4096 (lex_start (lit "FileInto ")) = LTok (TIdent (lit "fileinto")) (mk [] [] false 32%N SNone []) /\
  lex_next ascii_lib 4096 (lex_start (lit ":Over;")) = LTok (TTag (lit "over")) (mk [] [] false 59%N SNone [TSemicolon]).
Proof. vm_compute. split; reflexivity. Qed.
