(** Properties of the lexical syntax of whole scripts. *)
From Verif Require Import Base Lib Var Utf8 Lexer LexerSpec LexerProofs LexerProofs2 GrammarSpec LexTextSpec LexTextProofs
  PropertiesGrammar.

(** * C84: a script is read as what it is written with.

    A text that consists of words, tags, numbers, strings and punctuation, with
    any white space and comments before, between and after them, is read as
    exactly these, in their order, from its first byte to its last: nothing is
    left out, joined, split or added.  (A word, a tag or a number is followed by
    white space or punctuation; the strings are those of C40 and C65.)

    Full statement: whatever RFC 5228 allows to follow a word may follow it.
    This is false (below): a tag must be set apart from the word before it. *)
Theorem C84_tokens_partial : forall L max xs b,
  text_of max xs b ->
  exists ts, tokens_from L max (lex_start b) ts /\ Forall2 (is_read_as L) xs ts
             /\ forall ts', tokens_from L max (lex_start b) ts' -> ts' = ts.
Proof.
  intros L max xs b T.
  destruct (text_tokens L max xs b T (lex_start b)) as (ts & F & H).
  - left. repeat split.
  - exists ts. split; [exact H|]. split; [exact F|]. intros ts' H'. symmetry. exact (tokens_unique _ _ _ _ H _ H').
Qed.
Print Assumptions C84_tokens_partial.

(** A script and what it is written with. *)
Definition C84_text : list N :=
  lit "# filter" ++ [10%N] ++ lit "IF size :Over/**/ 10K{" ++ [10%N] ++ lit "  fileinto " ++ [34%N] ++ lit "A" ++ [34%N] ++ lit "; } ".
Definition C84_lexemes : list lexeme :=
  [XWord (lit "IF"); XWord (lit "size"); XTag (lit "Over"); XNumber (lit "10") (lit "K"); XPunct 123%N;
   XWord (lit "fileinto"); XQuoted [QPlain 65%N]; XPunct 59%N; XPunct 125%N].
(** The comment sits right behind the tag here, which the relation does not
    cover, so a space is put between them. *)
Definition C84_spaced : list N :=
  lit "# filter" ++ [10%N] ++ lit "IF size :Over /**/ 10K{" ++ [10%N] ++ lit "  fileinto " ++ [34%N] ++ lit "A" ++ [34%N] ++ lit "; } ".

Local Ltac word := split; [reflexivity|repeat (constructor; [unfold name_byte; vm_compute; tauto|]); constructor].
Local Ltac gap := repeat (apply ly_space; [reflexivity|]); apply ly_nil.
Example C84_ex : text_of 4096 C84_lexemes C84_spaced.
Proof.
  unfold C84_lexemes.
  apply (tx_next 4096 (lit "# filter" ++ [10%N]) (XWord (lit "IF")) _ (lit " size :Over /**/ 10K{" ++ _)).
  { apply (ly_hash (lit " filter") []); [vm_compute; intuition discriminate|apply ly_nil]. } { word. } { left. reflexivity. }
  apply (tx_next 4096 (lit " ") (XWord (lit "size")) _ (lit " :Over /**/ 10K{" ++ _)); [gap|word|left; reflexivity|].
  apply (tx_next 4096 (lit " ") (XTag (lit "Over")) _ (lit " /**/ 10K{" ++ _)); [gap|word|left; reflexivity|].
  apply (tx_next 4096 (lit " /**/ ") (XNumber (lit "10") (lit "K")) _ (lit "{" ++ _)).
  { apply ly_space; [reflexivity|]. apply (ly_bracket [] (lit " ")); [|gap].
    intros x y E. destruct x as [|x0 [|x1 x]]; cbn in E; [injection E as E; auto|discriminate|].
    injection E as _ _ E. destruct x; discriminate. }
  { split; [discriminate|]. split; [repeat constructor|]. exists (2 ^ 10)%N. right. left. split; [left; reflexivity|reflexivity]. }
  { right. discriminate. }
  apply (tx_next 4096 [] (XPunct 123%N) _ ([10%N] ++ _)); [apply ly_nil|discriminate|exact Logic.I|].
  apply (tx_next 4096 ([10%N] ++ lit "  ") (XWord (lit "fileinto")) _ (lit " " ++ _)); [gap|word|left; reflexivity|].
  apply (tx_next 4096 (lit " ") (XQuoted [QPlain 65%N]) _ (lit "; } ")); [gap| |exact Logic.I|].
  { split; [constructor; [|constructor]; unfold q_wf, scalar; lia|]. split; [vm_compute; intuition discriminate|vm_compute; lia]. }
  apply (tx_next 4096 [] (XPunct 59%N) _ (lit " } ")); [apply ly_nil|discriminate|exact Logic.I|].
  apply (tx_next 4096 (lit " ") (XPunct 125%N) _ (lit " ")); [gap|discriminate|exact Logic.I|].
  apply tx_end. gap.
Qed.

(** The tokens of both texts, computed. *)
Fixpoint all_tokens (L : rustlib) (max : nat) (fuel : nat) (l : lex) : list tok :=
  match fuel with
  | 0 => []
  | S n => match lex_next L max l with
           | LTok t l' => t :: all_tokens L max n l'
           | LErr _ l' => all_tokens L max n l'
           | _ => []
           end
  end.
Example C84_ex_tokens :
  all_tokens ascii_lib 4096 20 (lex_start C84_text) =
    [TIdent (lit "if"); TIdent (lit "size"); TTag (lit "over"); TNumber 10240; TCurlyOpen;
     TIdent (lit "fileinto"); TStr (CText (lit "A")); TSemicolon; TCurlyClose]
  /\ all_tokens ascii_lib 4096 20 (lex_start C84_spaced) = all_tokens ascii_lib 4096 20 (lex_start C84_text).
Proof. split; vm_compute; reflexivity. Qed.

(** A tag right behind a word, as in "size:over", is not read as a tag: the
    colon is a token of its own, and the name after it a word. *)
Theorem C84_tokens_refuted : forall L,
  exists ts, tokens_from L 4096 (lex_start (lit "size:over 1;")) ts
    /\ ts = [TIdent (lit "size"); TColon; TIdent (lit "over"); TNumber 1; TSemicolon]
    /\ tokens_from L 4096 (lex_start (lit "size :over 1;")) [TIdent (lit "size"); TTag (lit "over"); TNumber 1; TSemicolon].
Proof.
  intros L. eexists. split; [|split; [reflexivity|]];
    repeat (eapply from_token; [vm_compute; reflexivity|]); eapply from_end; vm_compute; reflexivity.
Qed.
Print Assumptions C84_tokens_refuted.
