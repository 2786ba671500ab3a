(** A text and its tokens, where nothing in it is not part of a token. *)
From Coq Require Import Lia.
From Verif Require Import Base Lib Utf8 Lexer LexerSpec LexerProofs LexerProofs2 GrammarSpec LexTextSpec LexTextProofs AcceptSpec.
Import ListNotations.
Local Open Scope list_scope.

Section Text.
  Variable L : rustlib.
  Variable M : nat.
  Lemma text_all xs b : text_of M xs b -> forall l, before l b ->
    exists ts, Forall2 (is_read_as L) xs ts /\ all_tokens L M l ts.
  Proof.
    induction 1 as [w Y|w x xs b Y W O T IH]; intros l H.
    - exists []. split; [constructor|]. destruct H as [H|(d & r & -> & D & A)].
      + destruct (layout_end L M w l Y H) as (l' & E). exact (all_end _ _ _ _ E).
      + destruct (punct_of d) as [p|] eqn:P; [destruct (layout_punct _ _ _ P Y)|].
        pose proof (punct_none_space _ D P) as Sp.
        destruct (layout_end L M r l (space_layout _ _ Sp Y) (after_space _ _ _ P A)) as (l' & E). exact (all_end _ _ _ _ E).
    - assert (K : forall w0 l0, layout w0 -> at_input l0 (w0 ++ spelling x ++ b) ->
                  exists ts, Forall2 (is_read_as L) (x :: xs) ts /\ all_tokens L M l0 ts).
      { intros w0 l0 Y0 A0.
        assert (NI : spelling x ++ b <> []).
        { pose proof (spelling_ne M x W). destruct (spelling x); [congruence|discriminate]. }
        pose (l1 := mk (spelling x ++ b) [] false 0%N SNone []).
        assert (A1 : at_input l1 (spelling x ++ b)) by (repeat split).
        pose proof (layout_next L M w0 (spelling x ++ b) l0 l1 Y0 NI A0 A1) as E.
        destruct (lexeme_next L M x b l1 W O A1) as (k & l' & E1 & R & B').
        destruct (IH l' B') as (ts & F & TS). exists (k :: ts). split; [constructor; assumption|].
        rewrite <- E in E1. exact (all_token _ _ _ _ _ _ E1 TS). }
      destruct H as [H|(d & r & E & D & A)]; [exact (K w l Y H)|].
      destruct w as [|d' w].
      + cbn [app] in E. destruct (spelling_delim M x d b r W E D) as (p & -> & P & ->).
        destruct (pending_next L M d p r l P A) as (l' & E1 & H'). destruct (IH l' (or_introl H')) as (ts & F & TS).
        exists (p :: ts). split; [constructor; [exact P|exact F]|]. exact (all_token _ _ _ _ _ _ E1 TS).
      + cbn [app] in E. injection E as -> <-.
        destruct (punct_of d) as [p|] eqn:P; [destruct (layout_punct _ _ _ P Y)|].
        exact (K w l (space_layout _ _ (punct_none_space _ D P) Y) (after_space _ _ _ P A)).
  Qed.
  Lemma all_from l ts : all_tokens L M l ts -> tokens_from L M l ts.
  Proof. induction 1; [eapply from_end|eapply from_token]; eauto. Qed.
End Text.
