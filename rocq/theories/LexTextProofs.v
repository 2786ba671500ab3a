(** * Lemmas about whole texts *)
From Coq Require Import List NArith Bool Lia ZifyBool ZifyN.
From Verif Require Import Base Lib Var Utf8 Lexer LexerSpec LexerProofs LexerProofs2 GrammarSpec LexTextSpec.
Import ListNotations.
Open Scope list_scope.

Section P.
  Variable L : rustlib.
  Variable M : nat.

  Notation go := (lex_go L M).

  Lemma name_wordish w : Forall name_byte w -> forallb wordish w = true.
  Proof.
    intros F. apply forallb_forall. intros c Hc. apply (proj1 (Forall_forall _ _) F) in Hc.
    unfold name_byte in Hc. unfold wordish, word_byte.
    destruct Hc as [H|[H|[H|H]]]; [rewrite H|rewrite H|rewrite H|subst c]; rewrite ?orb_true_r; reflexivity.
  Qed.

  Lemma name_ascii w : Forall name_byte w -> Forall (fun c => (c < 128)%N) (lower_text w).
  Proof.
    induction 1 as [|c w H F IH]; [constructor|]. cbn. constructor; [|exact IH].
    unfold name_byte, is_lower_ascii, is_upper_ascii, is_digit_ascii, between in H. unfold lower_ascii, is_upper_ascii, between.
    destruct (N.leb 65 c && N.leb c 90) eqn:E; lia.
  Qed.

  Lemma begins_digit w : begins w -> is_digit_ascii (hd 0%N (lower_text w)) = false.
  Proof.
    destruct w as [|c w]; [intros []|]. cbn.
    unfold is_alpha_ascii, lower_ascii, is_lower_ascii, is_upper_ascii, is_digit_ascii, between. intros H.
    destruct (N.leb 65 c && N.leb c 90) eqn:E; lia.
  Qed.

  Lemma word_token_name w tag : begins w -> Forall name_byte w ->
    word_token (lower_text w) tag =
    Some (if is_word (lower_text w) then (if tag then TTag (lower_text w) else TIdent (lower_text w))
          else if tag then TUnknown (58%N :: lower_text w) else TUnknown (lower_text w)).
  Proof.
    intros B F. unfold word_token. rewrite (ascii_strict _ (name_ascii _ F)). rewrite (begins_digit _ B). reflexivity.
  Qed.

  Lemma begins_ne w : begins w -> lower_text w <> [].
  Proof. destruct w; [intros []|discriminate]. Qed.

  Lemma begins_alpha w r : begins w -> head_alpha (w ++ r) = true.
  Proof. destruct w; [intros []|]. intros H. exact H. Qed.

  Lemma word_next w d r l : begins w -> Forall name_byte w -> ends_word d -> at_input l (w ++ d :: r) ->
    exists l', lex_next L M l = LTok (if is_word (lower_text w) then TIdent (lower_text w) else TUnknown (lower_text w)) l'
               /\ after_word l' d r.
  Proof.
    intros B F D (I & Bu & T & S & X). unfold lex_next. rewrite X, I, Bu, T, S.
    destruct (go_word L M w (d :: r) [] false (l_last l) (name_wordish w F)) as (a & Ea). rewrite Ea. cbn [app].
    exact (go_end L M d r _ _ a _ (begins_ne _ B) D (word_token_name w false B F)).
  Qed.

  Lemma tag_next w d r l : begins w -> Forall name_byte w -> ends_word d -> at_input l (58%N :: w ++ d :: r) ->
    exists l', lex_next L M l = LTok (if is_word (lower_text w) then TTag (lower_text w) else TUnknown (58%N :: lower_text w)) l'
               /\ after_word l' d r.
  Proof.
    intros B F D (I & Bu & T & S & X). unfold lex_next. rewrite X, I, Bu, T, S.
    rewrite go_none. change (word_byte 58) with false. change (is_upper_ascii 58%N) with false.
    change (N.eqb 58 58) with true. cbn [is_nil andb]. rewrite (begins_alpha w (d :: r) B).
    destruct (go_word L M w (d :: r) [] true 58%N (name_wordish w F)) as (a & Ea). rewrite Ea. cbn [app].
    exact (go_end L M d r _ _ a _ (begins_ne _ B) D (word_token_name w true B F)).
  Qed.

  Lemma punct_next c p r l : punct_of c = Some p -> at_input l (c :: r) ->
    exists l', lex_next L M l = LTok p l' /\ at_input l' r.
  Proof.
    intros P (I & B & T & S & X). unfold lex_next. rewrite X, I, B, T, S.
    assert (D : ends_word c) by (right; congruence).
    destruct (ends_word_cases c D) as (E1 & E2 & E3 & E4 & E5 & E6 & E7 & E8).
    rewrite go_none, E1, E2, E3, E4, E5, E6. destruct (space_byte c) eqn:Sp; [rewrite (E8 eq_refl) in P; discriminate|].
    rewrite P. unfold punct, flush. eexists. split; [reflexivity|]. repeat split.
  Qed.

  Lemma pending_next c p r l : punct_of c = Some p -> after_word l c r ->
    exists l', lex_next L M l = LTok p l' /\ at_input l' r.
  Proof.
    intros P (I & B & T & S & X). rewrite P in X. unfold lex_next. rewrite X. eexists. split; [reflexivity|]. repeat split; assumption.
  Qed.

  Lemma after_space c r l : punct_of c = None -> after_word l c r -> at_input l r.
  Proof. intros P (I & B & T & S & X). rewrite P in X. repeat split; assumption. Qed.

  (** What a layout and a lexeme begin with. *)
  Lemma layout_punct d w p : punct_of d = Some p -> layout (d :: w) -> False.
  Proof.
    intros P Y. inversion Y as [|c r Sp Y'|body r N Y'|body r N Y']; subst; try discriminate P.
    destruct (ends_word_cases d (or_introl Sp)) as (_ & _ & _ & _ & _ & _ & _ & E8). rewrite (E8 Sp) in P. discriminate.
  Qed.
  Lemma space_layout d w : space_byte d = true -> layout (d :: w) -> layout w.
  Proof.
    intros Sp Y. inversion Y as [|c r Sp' Y'|body r N Y'|body r N Y']; subst; try discriminate Sp. exact Y'.
  Qed.
  Lemma punct_none_space d : ends_word d -> punct_of d = None -> space_byte d = true.
  Proof. intros [H|H] E; [exact H|congruence]. Qed.
  Lemma alpha_delim d : is_alpha_ascii d = true -> ends_word d -> False.
  Proof.
    intros A D. destruct (ends_word_cases d D) as (E1 & E2 & _).
    unfold word_byte in E1. unfold is_alpha_ascii in A. rewrite E2 in A.
    destruct (is_lower_ascii d); [discriminate E1|]. discriminate A.
  Qed.
  Lemma spelling_delim x d b r : wellformed M x -> spelling x ++ b = d :: r -> ends_word d ->
    exists p, x = XPunct d /\ punct_of d = Some p /\ b = r.
  Proof.
    intros W E D. destruct x as [w|w|ds s|q|w skip t e|c]; cbn in W, E.
    - destruct W as (B & _). destruct w as [|c w]; [destruct B|]. injection E as -> _. destruct (alpha_delim _ B D).
    - injection E as <- _. destruct D as [D|D]; [discriminate D|destruct D; reflexivity].
    - destruct W as (NE & F & _). destruct ds as [|c ds]; [congruence|]. injection E as -> _. inversion F as [|? ? H _]; subst.
      destruct (ends_word_cases d D) as (E1 & _). unfold word_byte in E1. rewrite H, orb_true_r in E1. discriminate.
    - injection E as <- _. destruct D as [D|D]; [discriminate D|destruct D; reflexivity].
    - destruct W as (TC & _). unfold text_colon in TC. destruct w as [|c w]; [discriminate|]. injection E as -> _.
      unfold lower_text in TC. cbn [map] in TC. injection TC as TC _.
      assert (A : is_alpha_ascii d = true).
      { unfold lower_ascii, is_upper_ascii, between in TC. unfold is_alpha_ascii, is_lower_ascii, is_upper_ascii, between.
        destruct (N.leb 65 d && N.leb d 90) eqn:X; lia. }
      destruct (alpha_delim _ A D).
    - injection E as -> ->. destruct (punct_of d) as [p|] eqn:P; [|congruence]. exists p. repeat split.
  Qed.
  Lemma spelling_ne x : wellformed M x -> spelling x <> [].
  Proof.
    destruct x as [w|w|ds s|q|w skip t e|c]; cbn; try discriminate.
    - intros (B & _). destruct w; [destruct B|discriminate].
    - intros (NE & _). destruct ds; [congruence|discriminate].
    - intros _. destruct w; [destruct skip|]; discriminate.
  Qed.

  (** The lexer before [b]: nothing of it read, or its first byte read as the end of a word. *)
  Definition before (l : lex) (b : list N) : Prop :=
    at_input l b \/ exists d r, b = d :: r /\ ends_word d /\ after_word l d r.

  Lemma lexeme_next x b l :
    wellformed M x -> (if open_ended x then match b with d :: _ => ends_word d | [] => False end else True) ->
    at_input l (spelling x ++ b) ->
    exists k l', lex_next L M l = LTok k l' /\ is_read_as L x k /\ before l' b.
  Proof.
    intros W O A. destruct x as [w|w|ds s|q|w skip t e|c]; cbn in W, O, A.
    - destruct b as [|d r]; [destruct O|]. destruct W as (B & F).
      destruct (word_next w d r l B F O A) as (l' & E & H). eexists _, _. split; [exact E|]. split; [reflexivity|].
      right. exists d, r. repeat split; auto; apply H.
    - destruct b as [|d r]; [destruct O|]. destruct W as (B & F).
      destruct (tag_next w d r l B F O A) as (l' & E & H). eexists _, _. split; [exact E|]. split; [reflexivity|].
      right. exists d, r. repeat split; auto; apply H.
    - destruct b as [|d r]; [destruct O|]. destruct W as (NE & F & qq & Q). rewrite <- app_assoc in A.
      destruct (number_next L M ds s qq d r l NE F Q O A) as (l' & E & H). eexists _, _. split; [exact E|].
      split; [exists qq; split; [exact Q|reflexivity]|]. right. exists d, r. repeat split; auto; apply H.
    - destruct W as (F & U & Ln). rewrite <- app_assoc in A. cbn [app] in A.
      destruct (quoted_string L M q b l F U Ln A) as (k & l' & E & D & H). exists k, l'. split; [exact E|]. split; [exact D|left; exact H].
    - destruct W as (TC & NS & WL & DL & Sc & Ln).
      repeat (rewrite <- app_assoc in A; cbn [app] in A).
      destruct (multi_string L M w skip (utf8 t) e b l t TC NS WL DL Sc eq_refl Ln A) as (k & l' & E & D & H).
      exists k, l'. split; [exact E|]. split; [exact D|left; exact H].
    - destruct (punct_of c) as [p|] eqn:P; [|congruence].
      destruct (punct_next c p b l P A) as (l' & E & H). exists p, l'. split; [exact E|]. split; [exact P|left; exact H].
  Qed.

  Lemma at_ext l i : at_input l i -> forall j, i = j -> at_input l j.
  Proof. intros H j <-. exact H. Qed.

  Lemma text_tokens xs b : text_of M xs b -> forall l, before l b ->
    exists ts, Forall2 (is_read_as L) xs ts /\ tokens_from L M l ts.
  Proof.
    induction 1 as [w Y|w x xs b Y W O T IH]; intros l H.
    - exists []. split; [constructor|]. destruct H as [H|(d & r & -> & D & A)].
      + destruct (layout_end L M w l Y H) as (l' & E). exact (from_end _ _ _ _ E).
      + destruct (punct_of d) as [p|] eqn:P; [destruct (layout_punct _ _ _ P Y)|].
        pose proof (punct_none_space _ D P) as Sp.
        destruct (layout_end L M r l (space_layout _ _ Sp Y) (after_space _ _ _ P A)) as (l' & E). exact (from_end _ _ _ _ E).
    - assert (K : forall w0 l0, layout w0 -> at_input l0 (w0 ++ spelling x ++ b) ->
                  exists ts, Forall2 (is_read_as L) (x :: xs) ts /\ tokens_from L M l0 ts).
      { intros w0 l0 Y0 A0.
        assert (NI : spelling x ++ b <> []).
        { pose proof (spelling_ne x W). destruct (spelling x); [congruence|discriminate]. }
        pose (l1 := mk (spelling x ++ b) [] false 0%N SNone []).
        assert (A1 : at_input l1 (spelling x ++ b)) by (repeat split).
        pose proof (layout_next L M w0 (spelling x ++ b) l0 l1 Y0 NI A0 A1) as E.
        destruct (lexeme_next x b l1 W O A1) as (k & l' & E1 & R & B').
        destruct (IH l' B') as (ts & F & TS). exists (k :: ts). split; [constructor; assumption|].
        rewrite <- E in E1. exact (from_token _ _ _ _ _ _ E1 TS). }
      destruct H as [H|(d & r & E & D & A)]; [exact (K w l Y H)|].
      destruct w as [|d' w].
      + cbn [app] in E. destruct (spelling_delim x d b r W E D) as (p & -> & P & ->).
        destruct (pending_next d p r l P A) as (l' & E1 & H'). destruct (IH l' (or_introl H')) as (ts & F & TS).
        exists (p :: ts). split; [constructor; [exact P|exact F]|]. exact (from_token _ _ _ _ _ _ E1 TS).
      + cbn [app] in E. injection E as -> <-.
        destruct (punct_of d) as [p|] eqn:P; [destruct (layout_punct _ _ _ P Y)|].
        exact (K w l (space_layout _ _ (punct_none_space _ D P) Y) (after_space _ _ _ P A)).
  Qed.
End P.
