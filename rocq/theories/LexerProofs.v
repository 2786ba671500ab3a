(** Proofs about the script tokenizer. *)
From Verif Require Import Base Lib Var Utf8 Lexer LexerSpec.
From Coq Require Import Floats.SpecFloat.

Ltac ncase x := destruct x eqn:?; try (exfalso; lia).

Section P.
  Variable L : rustlib.
  Variable M : nat.
  Notation go := (lex_go L M).

  Lemma go_nil b tag last s :
    go [] b tag last s =
      match s with
      | SBracket => LErr EUnterminatedComment (mk [] b tag last s [])
      | SQuoted _ => LErr EUnterminatedString (mk [] b tag last s [])
      | SSkip | SMulti _ => LErr EUnterminatedMultiline (mk [] b tag last s [])
      | SNone | SHash => LEof (mk [] b tag last s [])
      end.
  Proof. destruct s; reflexivity. Qed.

  Lemma go_quoted c r b tag last t :
    go (c :: r) b tag last (SQuoted t) =
      if N.eqb c 34 && negb (N.eqb last 92) then get_string L M r b tag c t
      else if N.eqb c 10 then go r (b ++ [c]) tag c (SQuoted (set_other t))
      else if N.eqb c 123 && (N.eqb last 36 || N.eqb last 37) then
        go r (b ++ [c]) tag c (SQuoted (set_var t))
      else if N.eqb c 92 then go r (if N.eqb last 92 then b ++ [c] else b) tag c (SQuoted t)
      else if is_digit_ascii c then go r (b ++ [c]) tag c (SQuoted (set_digits t))
      else if N.eqb c 46 then go r (b ++ [c]) tag c (SQuoted (set_dots t))
      else go r (b ++ [unescape last c]) tag c (SQuoted (other_byte (unescape last c) t)).
  Proof. reflexivity. Qed.

  Lemma go_multi c r b tag last t :
    go (c :: r) b tag last (SMulti t) =
      if N.eqb c 46 && N.eqb last 10 then
        match r with
        | [] => go r b tag c (SMulti t)
        | c1 :: r1 =>
            if N.eqb c1 13 && head_is 10 r1 then get_string L M (tl r1) b tag 10%N t
            else if N.eqb c1 10 then get_string L M r1 b tag c1 t
            else if N.eqb c1 46 then go r1 (b ++ [46%N]) tag c1 (SMulti t)
            else go r1 (b ++ [46%N; c1]) tag c1 (SMulti t)
        end
      else if N.eqb c 10 then go r (b ++ [c]) tag c (SMulti t)
      else if N.eqb c 123 && (N.eqb last 36 || N.eqb last 37) then
        go r (b ++ [c]) tag c (SMulti (set_var t))
      else if is_digit_ascii c then go r (b ++ [c]) tag c (SMulti (set_digits t))
      else if N.eqb c 46 then go r (b ++ [c]) tag c (SMulti (set_dots t))
      else go r (b ++ [c]) tag c (SMulti (other_byte c t)).
  Proof. reflexivity. Qed.

  Lemma go_none c r b tag last :
    go (c :: r) b tag last SNone =
      if word_byte c then go r (b ++ [c]) tag c SNone
      else if is_upper_ascii c then go r (b ++ [lower_ascii c]) tag c SNone
      else if N.eqb c 58 then
        if is_nil b && head_alpha r then go r b true c SNone
        else if teqb_ic b (lit "text") then go r b tag c SSkip
        else punct r b tag c TColon
      else if N.eqb c 34 then
        flush b tag (mk r [] false c (SQuoted st_default) []) (go r b tag c (SQuoted st_default))
      else if N.eqb c 47 then
        match r with
        | [] => LErr EInvalidChar (mk [] b tag c SNone [])
        | c1 :: r1 =>
            if N.eqb c1 42
            then flush b tag (mk r1 [] false 0 SBracket []) (go r1 b tag 0%N SBracket)
            else LErr EInvalidChar (mk r1 b tag c1 SNone [])
        end
      else if N.eqb c 35 then
        flush b tag (mk r [] false c SHash []) (go r b tag c SHash)
      else if space_byte c then
        flush b tag (mk r [] false c SNone []) (go r b tag c SNone)
      else match punct_of c with
           | Some p => punct r b tag c p
           | None => LErr EInvalidChar (mk r b tag c SNone [])
           end.
  Proof. reflexivity. Qed.

  (** *** Strings *)

  Lemma string_denotes b t k : Forall scalar k -> b = utf8 k -> denotes L (string_token L b t) k.
  Proof.
    intros F ->. unfold string_token. destruct (st_var t); [reflexivity|]. cbn [denotes].
    rewrite into_utf8 by exact F.
    destruct (negb (st_other t) && st_digits t); [|reflexivity].
    destruct (negb (st_dots t)).
    - destruct (parse_i64 k) as [n|]; [|reflexivity]. destruct (teqb (show_Z n) k) eqn:E; [|reflexivity].
      apply teqb_spec in E. exact E.
    - destruct (f64_parse L k) as [f|]; [|reflexivity]. destruct (teqb (f64_show L f) k) eqn:E; [|reflexivity].
      apply teqb_spec in E. exact E.
  Qed.

  (** A string token stands for its bytes, decoded. *)
  Lemma string_denotes_inv b t k : denotes L (string_token L b t) k -> k = into_string b \/ b = utf8 k.
  Proof.
    unfold string_token. destruct (st_var t); [intro H; right; exact H|]. cbn [denotes].
    set (s := into_string b). intro H. left.
    destruct (negb (st_other t) && st_digits t); [|symmetry; exact H].
    destruct (negb (st_dots t)).
    - destruct (parse_i64 s) as [n|]; [|symmetry; exact H]. destruct (teqb (show_Z n) s) eqn:E; [|symmetry; exact H].
      apply teqb_spec in E. cbn in H. congruence.
    - destruct (f64_parse L s) as [f|]; [|symmetry; exact H]. destruct (teqb (f64_show L f) s) eqn:E; [|symmetry; exact H].
      apply teqb_spec in E. cbn in H. congruence.
  Qed.

  (** One byte that stands for itself. *)
  Lemma quoted_byte c r b tag last t :
    (c = 34%N -> last = 92%N) -> c <> 92%N -> (last = 92%N -> ~ is_nrt c) ->
    exists t', go (c :: r) b tag last (SQuoted t) = go r (b ++ [c]) tag c (SQuoted t').
  Proof.
    intros Q B N. rewrite go_quoted.
    destruct (N.eqb c 34 && negb (N.eqb last 92)) eqn:E1; [lia|].
    destruct (N.eqb c 10); [eexists; reflexivity|].
    destruct (N.eqb c 123 && _); [eexists; reflexivity|].
    destruct (N.eqb c 92) eqn:E4; [lia|].
    destruct (is_digit_ascii c); [eexists; reflexivity|].
    destruct (N.eqb c 46); [eexists; reflexivity|].
    replace (unescape last c) with c; [eexists; reflexivity|].
    unfold unescape. destruct (N.eqb last 92) eqn:E; [|reflexivity].
    assert (~ is_nrt c) by (apply N; lia). unfold is_nrt in *.
    destruct (N.eqb c 110) eqn:?; [lia|]. destruct (N.eqb c 114) eqn:?; [lia|]. destruct (N.eqb c 116) eqn:?; lia.
  Qed.

  (** Bytes of a character: the character itself if it is ASCII, otherwise all
      at least 128. *)
  Lemma utf8_char_bytes c : ((c < 128)%N /\ utf8_char c = [c]) \/
    ((128 <= c)%N /\ exists x y, utf8_char c = x ++ [y] /\ Forall (fun b => (128 <= b)%N) (x ++ [y])).
  Proof.
    unfold utf8_char. destruct (N.ltb c 128) eqn:E; [left; split; [lia|reflexivity]|]. right. split; [lia|].
    destruct (N.ltb c 2048); [exists [192 + c / 64]%N, (128 + c mod 64)%N|
      destruct (N.ltb c 65536);
      [exists [224 + c / 4096; 128 + (c / 64) mod 64]%N, (128 + c mod 64)%N|
       exists [240 + c / 262144; 128 + (c / 4096) mod 64; 128 + (c / 64) mod 64]%N, (128 + c mod 64)%N]];
      (split; [reflexivity|repeat constructor; lia]).
  Qed.

  Lemma quoted_high : forall x r b tag last t, Forall (fun b => (128 <= b)%N) x -> x <> [] ->
    exists t' l', go (x ++ r) b tag last (SQuoted t) = go r (b ++ x) tag l' (SQuoted t') /\ (128 <= l')%N.
  Proof.
    induction x as [|c x IH]; intros r b tag last t F NE; [congruence|]. inversion F; subst. cbn [app].
    destruct (quoted_byte c (x ++ r) b tag last t) as (t1 & E1); try lia; [intros _; unfold is_nrt; lia|].
    rewrite E1. destruct x as [|d x].
    - exists t1, c. split; [reflexivity|assumption].
    - destruct (IH r (b ++ [c]) tag c t1 ltac:(assumption) ltac:(discriminate)) as (t' & l' & E & Hl).
      exists t', l'. split; [|exact Hl]. rewrite E, <- app_assoc. reflexivity.
  Qed.

  (** One character that stands for itself. *)
  Lemma quoted_char c r b tag last t :
    (c = 34%N -> last = 92%N) -> c <> 92%N -> (last = 92%N -> ~ is_nrt c) ->
    exists t' l', go (utf8_char c ++ r) b tag last (SQuoted t) = go r (b ++ utf8_char c) tag l' (SQuoted t') /\
                  l' <> 92%N.
  Proof.
    intros Q B N. destruct (utf8_char_bytes c) as [[Hc E]|(Hc & x & y & E & F)]; rewrite E.
    - cbn [app]. destruct (quoted_byte c r b tag last t Q B N) as (t' & E'). exists t', c. split; [exact E'|exact B].
    - destruct (quoted_high (x ++ [y]) r b tag last t F) as (t' & l' & E' & Hl); [destruct x; discriminate|].
      exists t', l'. split; [exact E'|lia].
  Qed.

  Definition head_ok (last : N) (q : list qitem) : Prop :=
    last = 92%N -> match q with QPlain d :: _ => ~ is_nrt d | _ => False end.

  Lemma quoted_items : forall q r b tag last t,
    Forall q_wf q -> understood q -> head_ok last q ->
    exists t' l', go (utf8 (source q) ++ r) b tag last (SQuoted t) = go r (b ++ utf8 (meaning q)) tag l' (SQuoted t') /\
                  l' <> 92%N.
  Proof.
    induction q as [|[c|c] q IH]; intros r b tag last t F U H.
    - exists t, last. cbn. rewrite app_nil_r. split; [reflexivity|]. unfold head_ok in H. intro E. exact (H E).
    - inversion F as [|? ? W F']; subst. destruct W as (Sc & N1 & N2). cbn [understood] in U.
      unfold source, meaning, utf8. cbn [flat_map map qsrc qval app]. rewrite <- app_assoc.
      destruct (quoted_char c (flat_map utf8_char (source q) ++ r) b tag last t) as (t1 & l1 & E1 & H1).
      + intro; congruence.
      + exact N2.
      + intro E. exact (H E).
      + destruct (IH r (b ++ utf8_char c) tag l1 t1 F' U) as (t2 & l2 & E2 & H2); [unfold head_ok; congruence|].
        exists t2, l2. split; [|exact H2]. unfold source, meaning, utf8 in *. rewrite E1, E2.
        rewrite <- app_assoc. reflexivity.
    - inversion F as [|? ? Sc F']; subst. cbn [understood] in U. destruct U as (U1 & U2 & U3).
      assert (HL : last <> 92%N) by (intro E; exact (H E)).
      unfold source, meaning, utf8. cbn [flat_map map qsrc qval app]. change (utf8_char 92%N) with [92%N].
      cbn [app]. rewrite <- app_assoc.
      rewrite go_quoted. change (N.eqb 92 34) with false. change (N.eqb 92 10) with false.
      change (N.eqb 92 123) with false. change (N.eqb 92 92) with true. cbn [andb].
      rewrite (proj2 (N.eqb_neq _ _) HL).
      destruct (N.eq_dec c 92) as [->|Nc].
      + change (utf8_char 92%N) with [92%N]. cbn [app].
        rewrite go_quoted. change (N.eqb 92 34) with false. change (N.eqb 92 10) with false.
        change (N.eqb 92 123) with false. change (N.eqb 92 92) with true. cbn [andb].
        destruct (IH r (b ++ [92%N]) tag 92%N t F' U2) as (t2 & l2 & E2 & H2).
        { unfold head_ok. intros _. apply U3. reflexivity. }
        exists t2, l2. split; [|exact H2]. unfold source, meaning, utf8 in *. rewrite E2.
        rewrite <- app_assoc. reflexivity.
      + destruct (quoted_char c (flat_map utf8_char (source q) ++ r) b tag 92%N t) as (t1 & l1 & E1 & H1).
        * reflexivity.
        * exact Nc.
        * intros _. exact U1.
        * destruct (IH r (b ++ utf8_char c) tag l1 t1 F' U2) as (t2 & l2 & E2 & H2); [unfold head_ok; congruence|].
          exists t2, l2. split; [|exact H2]. unfold source, meaning, utf8 in *. rewrite E1, E2.
          rewrite <- app_assoc. reflexivity.
  Qed.

  Lemma meaning_scalar q : Forall q_wf q -> Forall scalar (meaning q).
  Proof.
    induction 1 as [|[c|c] q W F IH]; cbn; [constructor| |]; (constructor; [|exact IH]); [apply W|exact W].
  Qed.

  (** A quoted string that [understood] admits becomes one token that stands for
      its meaning. *)
  Lemma quoted_string q rest l :
    Forall q_wf q -> understood q -> length (utf8 (meaning q)) < M ->
    at_input l (34%N :: utf8 (source q) ++ 34%N :: rest) ->
    exists k l', lex_next L M l = LTok k l' /\ denotes L k (meaning q) /\ at_input l' rest.
  Proof.
    intros F U Ln (I & B & T & S & Nx). unfold lex_next. rewrite Nx, I, B, T, S.
    rewrite go_none. change (word_byte 34) with false. change (is_upper_ascii 34%N) with false.
    change (N.eqb 34 58) with false. change (N.eqb 34 34) with true. cbn [flush].
    destruct (quoted_items q (34%N :: rest) [] false 34%N st_default F U ltac:(unfold head_ok; lia)) as (t' & l' & E & H).
    rewrite E. rewrite go_quoted. change (N.eqb 34 34) with true. rewrite (proj2 (N.eqb_neq _ _) H). cbn [andb negb app].
    unfold get_string. rewrite (proj2 (Nat.ltb_lt _ _) Ln).
    eexists _, _. split; [reflexivity|]. split; [|repeat split].
    apply string_denotes; [apply meaning_scalar; exact F|reflexivity].
  Qed.

  Lemma written_meaning t : meaning (written t) = t.
  Proof.
    unfold meaning, written. rewrite map_map. rewrite <- (map_id t) at 2. apply map_ext. intro c. unfold protect.
    destruct (N.eqb c 34 || N.eqb c 92); reflexivity.
  Qed.

  Lemma written_wf t : Forall scalar t -> Forall q_wf (written t).
  Proof.
    induction 1 as [|c t S F IH]; cbn; [constructor|]. constructor; [|exact IH]. unfold protect.
    destruct (N.eqb c 34 || N.eqb c 92) eqn:E; cbn; [exact S|]. repeat split; [exact S|lia|lia].
  Qed.

  Lemma written_understood t : tame t -> understood (written t).
  Proof.
    induction t as [|c t IH]; intro H; [exact Logic.I|]. destruct H as [H1 H2]. cbn [written map].
    specialize (IH H1). unfold protect at 1. destruct (N.eqb c 34 || N.eqb c 92) eqn:E; [|exact IH].
    cbn [understood]. split; [unfold is_nrt; lia|]. split; [exact IH|].
    intro Ec. specialize (H2 Ec). destruct t as [|d t]; [exact H2|]. cbn [map]. unfold protect.
    destruct H2 as (Hn & Hq & Hb). rewrite (proj2 (N.eqb_neq _ _) Hq), (proj2 (N.eqb_neq _ _) Hb). exact Hn.
  Qed.

  (** *** No quoted string ends in a backslash *)

  Definition not_bs (b : list N) (last : N) : Prop := (exists b', b = b' ++ [92%N]) -> last = 92%N.

  Lemma quoted_no_bs : forall i b tag last t k l',
    not_bs b last -> go i b tag last (SQuoted t) = LTok k l' ->
    exists b' t', k = string_token L b' t' /\ ~ (exists x, b' = x ++ [92%N]).
  Proof.
    assert (PB : forall b c, c <> 92%N -> not_bs (b ++ [c]) c).
    { intros b c Nc [b' E]. apply app_inj_tail in E as [_ E]. congruence. }
    induction i as [|c r IH]; intros b tag last t k l' NB H.
    - rewrite go_nil in H. discriminate.
    - rewrite go_quoted in H.
      destruct (N.eqb c 34 && negb (N.eqb last 92)) eqn:E1.
      { unfold get_string in H. destruct (Nat.ltb _ _); [|discriminate]. injection H as <- <-.
        exists b, t. split; [reflexivity|]. intro X. specialize (NB X). lia. }
      destruct (N.eqb c 10) eqn:E2; [eapply IH; [|exact H]; apply PB; lia|].
      destruct (N.eqb c 123 && _) eqn:E3; [eapply IH; [|exact H]; apply PB; lia|].
      destruct (N.eqb c 92) eqn:E4.
      { eapply IH; [|exact H]. intros _. lia. }
      destruct (is_digit_ascii c) eqn:E5; [eapply IH; [|exact H]; apply PB; lia|].
      destruct (N.eqb c 46) eqn:E6; [eapply IH; [|exact H]; apply PB; lia|].
      eapply IH; [|exact H]. intros [b' E]. apply app_inj_tail in E as [_ E].
      unfold unescape in E. destruct (N.eqb last 92); [|lia].
      destruct (N.eqb c 110); [lia|]. destruct (N.eqb c 114); [lia|]. destruct (N.eqb c 116); lia.
  Qed.
End P.

(** The last byte of a text that decodes to one ending in an ASCII character. *)
Lemma dec_last : forall n bs l c, length bs <= n -> (c < 128)%N -> utf8_dec bs = l ++ [Some c] -> exists x, bs = x ++ [c].
Proof.
  induction n as [|n IH]; intros [|b r] l c Ln Hc H; cbn [length] in Ln; try lia.
  - destruct l; discriminate.
  - destruct l; discriminate.
  - assert (K : forall o bs', length bs' <= n -> o :: utf8_dec bs' = l ++ [Some c] -> o <> Some c ->
               exists x, bs' = x ++ [c]).
    { intros o bs' Lb E No. destruct l as [|y l]; cbn in E; [injection E as E _; congruence|].
      injection E as _ E. exact (IH bs' l c Lb Hc E). }
    assert (P : forall p bs', (exists x, bs' = x ++ [c]) -> exists x, p ++ bs' = x ++ [c]).
    { intros p bs' [x ->]. exists (p ++ x). rewrite app_assoc. reflexivity. }
    assert (NN : forall o, [o] = l ++ [Some c] -> o <> Some c -> False).
    { intros o E No. destruct l as [|y [|]]; cbn in E; try discriminate. injection E as E. congruence. }
    cbn [utf8_dec] in H.
    destruct (N.ltb b 128) eqn:E1.
    { destruct r as [|d r].
      - cbn in H. destruct l as [|y l].
        + injection H as ->. exists []. reflexivity.
        + destruct l; discriminate.
      - destruct l as [|y l]; [cbn [app] in H; injection H as _ H|].
        + exfalso. cbn [utf8_dec] in H.
          repeat match type of H with context [if ?x then _ else _] => destruct x | context [match ?x with [] => _ | _ :: _ => _ end] => destruct x end; discriminate.
        + cbn [app] in H. injection H as _ H. apply (P [b]). apply (IH _ l c); [cbn [length] in *; lia|exact Hc|exact H]. }
    destruct (between 194 223 b) eqn:E2.
    { destruct r as [|c1 r1]; [exfalso; exact (NN None H ltac:(discriminate))|]. cbn [length] in Ln.
      destruct (cont_byte c1) eqn:C1.
      - apply (P [b; c1]). eapply K; [lia|exact H|]. ranges. intro Z. injection Z. lia.
      - apply (P [b]). eapply K; [cbn [length]; lia|exact H|discriminate]. }
    destruct (between 224 239 b) eqn:E3.
    { destruct r as [|c1 r1]; [exfalso; exact (NN None H ltac:(discriminate))|]. cbn [length] in Ln.
      destruct (second3 b c1) eqn:C1; [|apply (P [b]); eapply K; [cbn [length]; lia|exact H|discriminate]].
      destruct r1 as [|c2 r2]; [exfalso; exact (NN None H ltac:(discriminate))|]. cbn [length] in Ln.
      destruct (cont_byte c2) eqn:C2; [|apply (P [b; c1]); eapply K; [cbn [length]; lia|exact H|discriminate]].
      apply (P [b; c1; c2]). eapply K; [lia|exact H|].
      assert (R2 : (b = 224 -> 160 <= c1)%N) by (ranges; intro Eb; repeat match type of C1 with context [if ?x then _ else _] => destruct x eqn:? end; lia).
      assert (R3 : (128 <= c1)%N) by (ranges; repeat match type of C1 with context [if ?x then _ else _] => destruct x eqn:? end; lia).
      ranges. intro Z. injection Z. lia. }
    destruct (between 240 244 b) eqn:E4; [|apply (P [b]); eapply K; [cbn [length]; lia|exact H|discriminate]].
    destruct r as [|c1 r1]; [exfalso; exact (NN None H ltac:(discriminate))|]. cbn [length] in Ln.
    destruct (second4 b c1) eqn:C1; [|apply (P [b]); eapply K; [cbn [length]; lia|exact H|discriminate]].
    destruct r1 as [|c2 r2]; [exfalso; exact (NN None H ltac:(discriminate))|]. cbn [length] in Ln.
    destruct (cont_byte c2) eqn:C2; [|apply (P [b; c1]); eapply K; [cbn [length]; lia|exact H|discriminate]].
    destruct r2 as [|c3 r3]; [exfalso; exact (NN None H ltac:(discriminate))|]. cbn [length] in Ln.
    destruct (cont_byte c3) eqn:C3; [|apply (P [b; c1; c2]); eapply K; [cbn [length]; lia|exact H|discriminate]].
    apply (P [b; c1; c2; c3]). eapply K; [lia|exact H|].
    assert (R2 : (b = 240 -> 144 <= c1)%N) by (ranges; intro Eb; repeat match type of C1 with context [if ?x then _ else _] => destruct x eqn:? end; lia).
    assert (R3 : (128 <= c1)%N) by (ranges; repeat match type of C1 with context [if ?x then _ else _] => destruct x eqn:? end; lia).
    ranges. intro Z. injection Z. lia.
Qed.

Lemma into_string_last bs t c : (c < 128)%N -> c <> 65533%N -> into_string bs = t ++ [c] -> exists x, bs = x ++ [c].
Proof.
  intros Hc _ H.
  assert (E : utf8_lossy bs = t ++ [c]).
  { unfold into_string in H. destruct (utf8_strict bs) as [s|] eqn:E; [|exact H]. subst s.
    apply all_some_inv in E. unfold utf8_lossy. rewrite E, map_map. apply map_id. }
  unfold utf8_lossy in E. destruct (utf8_dec bs) as [|o l] eqn:D using rev_ind.
  - destruct t; discriminate.
  - rewrite map_app in E. cbn in E. apply app_inj_tail in E as [_ E].
    apply (dec_last (length bs) bs l c (le_n _) Hc). rewrite D. destruct o; subst; [reflexivity|]. lia.
Qed.
