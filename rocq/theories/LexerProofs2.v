(** Proofs about the script tokenizer: words, numbers, multi-line strings,
    layout and panics. *)
From Verif Require Import Base Lib Var Utf8 Lexer LexerSpec LexerProofs.
From Coq Require Import Floats.SpecFloat.

(** A byte of a word. *)
Definition wordish (c : N) : bool := word_byte c || is_upper_ascii c.

Lemma lower_word c : word_byte c = true -> lower_ascii c = c.
Proof.
  intro H. unfold lower_ascii. replace (is_upper_ascii c) with false; [reflexivity|].
  unfold word_byte, is_lower_ascii, is_digit_ascii, is_upper_ascii, between in *. lia.
Qed.

Section P.
  Variable L : rustlib.
  Variable M : nat.
  Notation go := (lex_go L M).

  Lemma go_word : forall w r b tag last, forallb wordish w = true ->
    exists last', go (w ++ r) b tag last SNone = go r (b ++ lower_text w) tag last' SNone.
  Proof.
    induction w as [|c w IH]; intros r b tag last H.
    - exists last. cbn. rewrite app_nil_r. reflexivity.
    - cbn [forallb] in H. apply andb_true_iff in H as [H1 H2]. cbn [app]. rewrite go_none.
      destruct (IH r (b ++ [lower_ascii c]) tag c H2) as (last' & E).
      exists last'. cbn [lower_text map]. change (map lower_ascii w) with (lower_text w).
      replace (b ++ lower_ascii c :: lower_text w) with ((b ++ [lower_ascii c]) ++ lower_text w)
        by (rewrite <- app_assoc; reflexivity).
      rewrite <- E. destruct (word_byte c) eqn:W.
      + rewrite (lower_word c W). reflexivity.
      + unfold wordish in H1. rewrite W in H1. cbn in H1. rewrite H1. reflexivity.
  Qed.

  Lemma ends_word_cases d : ends_word d ->
    word_byte d = false /\ is_upper_ascii d = false /\ N.eqb d 58 = false /\ N.eqb d 34 = false /\
    N.eqb d 47 = false /\ N.eqb d 35 = false /\ (space_byte d = false -> exists p, punct_of d = Some p) /\
    (space_byte d = true -> punct_of d = None).
  Proof.
    unfold ends_word, space_byte, punct_of, word_byte, is_upper_ascii, is_lower_ascii, is_digit_ascii, between.
    intros [H|H].
    - do 6 (split; [lia|]). split.
      + intro X. exfalso. lia.
      + intros _. replace (N.eqb d 123) with false by lia. replace (N.eqb d 125) with false by lia. replace (N.eqb d 59) with false by lia. replace (N.eqb d 44) with false by lia. replace (N.eqb d 91) with false by lia. replace (N.eqb d 93) with false by lia. replace (N.eqb d 40) with false by lia. replace (N.eqb d 41) with false by lia. reflexivity.
    - assert (d = 123 \/ d = 125 \/ d = 59 \/ d = 44 \/ d = 91 \/ d = 93 \/ d = 40 \/ d = 41)%N as C.
      { destruct (N.eqb d 123) eqn:?; [lia|]. destruct (N.eqb d 125) eqn:?; [lia|]. destruct (N.eqb d 59) eqn:?; [lia|].
        destruct (N.eqb d 44) eqn:?; [lia|]. destruct (N.eqb d 91) eqn:?; [lia|]. destruct (N.eqb d 93) eqn:?; [lia|].
        destruct (N.eqb d 40) eqn:?; [lia|]. destruct (N.eqb d 41) eqn:?; [lia|]. congruence. }
      do 6 (split; [lia|]). split; [|lia].
      intros _. destruct C as [->|[->|[->|[->|[->|[->|[->| ->]]]]]]]; eexists; reflexivity.
  Qed.

  (** A word ended by [d]. *)
  Lemma go_end d r b tag last t : b <> [] -> ends_word d -> word_token b tag = Some t ->
    exists l, go (d :: r) b tag last SNone = LTok t l /\ after_word l d r.
  Proof.
    intros NB E T. destruct (ends_word_cases d E) as (E1 & E2 & E3 & E4 & E5 & E6 & E7 & E8).
    rewrite go_none, E1, E2, E3, E4, E5, E6. unfold punct, flush.
    destruct b as [|x b]; [congruence|]. rewrite T.
    destruct (space_byte d) eqn:S.
    - eexists. split; [reflexivity|]. unfold after_word. rewrite (E8 eq_refl). repeat split.
    - destruct (E7 eq_refl) as (p & P). rewrite P. eexists. split; [reflexivity|].
      unfold after_word. rewrite P. repeat split.
  Qed.

  Lemma go_end_eq d r b tag last last' : b <> [] -> ends_word d ->
    go (d :: r) b tag last SNone = go (d :: r) b tag last' SNone.
  Proof. intros _ _. rewrite !go_none. reflexivity. Qed.

  Lemma go_last i tag last last' b : i <> [] -> go i b tag last SNone = go i b tag last' SNone.
  Proof. destruct i; [congruence|]. intros _. rewrite !go_none. reflexivity. Qed.

  (** *** Case of words and tags *)

  Lemma word_case w w' d r l l' :
    forallb wordish w = true -> forallb wordish w' = true -> lower_text w = lower_text w' ->
    at_input l (w ++ d :: r) -> at_input l' (w' ++ d :: r) -> lex_next L M l = lex_next L M l'.
  Proof.
    intros W W' E (I & B & T & S & X) (I' & B' & T' & S' & X').
    unfold lex_next. rewrite X, X', I, I', B, B', T, T', S, S'.
    destruct (go_word w (d :: r) [] false (l_last l) W) as (a & Ea).
    destruct (go_word w' (d :: r) [] false (l_last l') W') as (a' & Ea').
    rewrite Ea, Ea', E. apply go_last. discriminate.
  Qed.

  Lemma tag_case w w' d r l l' :
    forallb wordish w = true -> forallb wordish w' = true -> lower_text w = lower_text w' -> head_alpha w = true ->
    at_input l (58%N :: w ++ d :: r) -> at_input l' (58%N :: w' ++ d :: r) -> lex_next L M l = lex_next L M l'.
  Proof.
    intros W W' E HA (I & B & T & S & X) (I' & B' & T' & S' & X').
    unfold lex_next. rewrite X, X', I, I', B, B', T, T', S, S'.
    assert (HA' : head_alpha w' = true).
    { destruct w as [|c w]; [discriminate|]. destruct w' as [|c' w']; [discriminate|]. cbn in *. injection E as E _.
      unfold lower_ascii, is_alpha_ascii, is_upper_ascii, is_lower_ascii, between in *.
      repeat match type of E with context [if ?x then _ else _] => destruct x eqn:? end; lia. }
    assert (K : forall w0 last, forallb wordish w0 = true -> head_alpha w0 = true ->
              go (58%N :: w0 ++ d :: r) [] false last SNone = go (d :: r) (lower_text w0) true 0%N SNone).
    { intros w0 last H0 H1. rewrite go_none. change (word_byte 58) with false. change (is_upper_ascii 58%N) with false.
      change (N.eqb 58 58) with true. cbn [is_nil andb].
      replace (head_alpha (w0 ++ d :: r)) with true by (destruct w0; [discriminate|symmetry; exact H1]).
      destruct (go_word w0 (d :: r) [] true 58%N H0) as (a & Ea). rewrite Ea. apply go_last. discriminate. }
    rewrite (K w _ W HA), (K w' _ W' HA'), E. reflexivity.
  Qed.

  (** *** Numbers *)

  Lemma words_letters : forallb (fun w => negb (is_digit_ascii (hd 0%N w))) words = true.
  Proof. vm_compute. reflexivity. Qed.

  Lemma not_word b : is_digit_ascii (hd 0%N b) = true -> is_word b = false.
  Proof.
    intro H. destruct (is_word b) eqn:E; [|reflexivity]. exfalso. unfold is_word in E.
    apply existsb_exists in E as (w & In & Ew). apply teqb_spec in Ew. subst w.
    pose proof (proj1 (forallb_forall _ _) words_letters b In) as K. cbv beta in K. rewrite H in K. discriminate.
  Qed.

  Lemma digits_decimal : forall ds acc, Forall (fun c => is_digit_ascii c = true) ds ->
    digits_val acc ds = Some (acc * 10 ^ N.of_nat (length ds) + decimal ds)%N.
  Proof.
    induction ds as [|c ds IH]; intros acc F; cbn [digits_val decimal length].
    - change (N.of_nat 0) with 0%N. rewrite N.pow_0_r. f_equal. lia.
    - inversion F as [|? ? F1 F2]; subst. rewrite F1. rewrite IH by exact F2. f_equal.
      rewrite Nat2N.inj_succ, N.pow_succ_r'. set (p := (10 ^ _)%N). set (e := (c-48)%N). rewrite N.mul_add_distr_r. rewrite <- !N.mul_assoc. lia.
  Qed.

  Lemma parse_decimal ds : ds <> [] -> Forall (fun c => is_digit_ascii c = true) ds -> parse_nat ds = Some (decimal ds).
  Proof.
    intros NE F. unfold parse_nat. destruct ds; [congruence|]. rewrite digits_decimal by exact F. f_equal.
  Qed.

  Lemma lower_digits ds : Forall (fun c => is_digit_ascii c = true) ds -> lower_text ds = ds.
  Proof.
    induction 1 as [|c ds H F IH]; [reflexivity|]. cbn. unfold lower_text in IH. rewrite IH. f_equal.
    unfold lower_ascii. replace (is_upper_ascii c) with false; [reflexivity|].
    unfold is_digit_ascii, is_upper_ascii, between in *. lia.
  Qed.

  Lemma digits_ascii ds : Forall (fun c => is_digit_ascii c = true) ds -> Forall (fun c => (c < 128)%N) ds.
  Proof. apply Forall_impl. intros c. unfold is_digit_ascii, between. lia. Qed.

  Lemma last_digit ds : ds <> [] -> Forall (fun c => is_digit_ascii c = true) ds -> is_digit_ascii (last ds 0%N) = true.
  Proof.
    intros NE F. destruct (exists_last NE) as (x & y & E). rewrite E, last_last. rewrite E in F.
    apply Forall_app in F as [_ F]. inversion F; assumption.
  Qed.

  (** The token of a number literal, in lower case. *)
  Definition num_tok (ds s : list N) (q : N) : tok :=
    if N.leb (decimal ds) usize_max then TNumber (sat_mul (decimal ds) q) else TUnknown (ds ++ lower_text s).

  Lemma number_token (ds s : list N) q : ds <> [] -> Forall (fun c => is_digit_ascii c = true) ds -> quantifier s q ->
    word_token (ds ++ lower_text s) false = Some (num_tok ds s q).
  Proof.
    intros NE F Q.
    assert (HD : is_digit_ascii (hd 0%N (ds ++ lower_text s)) = true).
    { destruct ds; [congruence|]. inversion F; assumption. }
    assert (A : Forall (fun c => (c < 128)%N) (ds ++ lower_text s)).
    { apply Forall_app. split; [apply digits_ascii; exact F|].
      unfold quantifier in Q. destruct Q as [[-> _]|[[[->| ->] _]|[[[->| ->] _]|[[->| ->] _]]]]; cbv; repeat constructor. }
    unfold word_token. rewrite (ascii_strict _ A), (not_word _ HD), HD.
    unfold num_tok, multiplier.
    assert (K : forall x, removelast (ds ++ [x]) = ds) by (intro; apply removelast_last).
    assert (Ln : forall x, Nat.ltb 1 (length (ds ++ [x])) = true).
    { intro x. rewrite app_length. apply Nat.ltb_lt. destruct ds; [congruence|]. cbn [length]. lia. }
    unfold quantifier in Q. destruct Q as [[-> ->]|[[Hs ->]|[[Hs ->]|[Hs ->]]]].
    - cbn [lower_text map]. rewrite !app_nil_r. pose proof (last_digit ds NE F) as LD.
      unfold ch, text in *. revert LD. generalize (last ds 0%N). intros z LD. unfold is_digit_ascii, between in LD.
      replace (N.eqb z 107) with false by lia. replace (N.eqb z 109) with false by lia. replace (N.eqb z 103) with false by lia.
      change (N.ltb 1 1) with false. cbn [andb]. unfold parse_usize. rewrite (parse_decimal ds NE F).
      destruct (N.leb (decimal ds) usize_max); reflexivity.
    - replace (lower_text s) with [107%N] by (destruct Hs as [->| ->]; reflexivity).
      rewrite last_last. change (N.eqb 107 107) with true. cbv zeta iota. change (N.ltb 1 1024) with true. rewrite Ln, K. cbn [andb].
      unfold parse_usize. rewrite (parse_decimal ds NE F). change (2 ^ 10)%N with 1024%N.
      destruct (N.leb (decimal ds) usize_max); reflexivity.
    - replace (lower_text s) with [109%N] by (destruct Hs as [->| ->]; reflexivity).
      rewrite last_last. change (N.eqb 109 107) with false. change (N.eqb 109 109) with true.
      cbv zeta iota. change (N.ltb 1 1048576) with true. rewrite Ln, K. cbn [andb].
      unfold parse_usize. rewrite (parse_decimal ds NE F). change (2 ^ 20)%N with 1048576%N.
      destruct (N.leb (decimal ds) usize_max); reflexivity.
    - replace (lower_text s) with [103%N] by (destruct Hs as [->| ->]; reflexivity).
      rewrite last_last. change (N.eqb 103 107) with false. change (N.eqb 103 109) with false. change (N.eqb 103 103) with true.
      cbv zeta iota. change (N.ltb 1 1073741824) with true. rewrite Ln, K. cbn [andb].
      unfold parse_usize. rewrite (parse_decimal ds NE F). change (2 ^ 30)%N with 1073741824%N.
      destruct (N.leb (decimal ds) usize_max); reflexivity.
  Qed.

  Lemma number_next (ds s : list N) q d r l :
    ds <> [] -> Forall (fun c => is_digit_ascii c = true) ds -> quantifier s q -> ends_word d ->
    at_input l (ds ++ s ++ d :: r) ->
    exists l', lex_next L M l = LTok (num_tok ds s q) l' /\ after_word l' d r.
  Proof.
    intros NE F Q D (I & B & T & S & X). unfold lex_next. rewrite X, I, B, T, S.
    assert (W : forallb wordish (ds ++ s) = true).
    { rewrite forallb_app. apply andb_true_iff. split.
      - apply forallb_forall. intros c Hc. apply (proj1 (Forall_forall _ _) F) in Hc.
        unfold wordish, word_byte. rewrite Hc. rewrite orb_true_r. reflexivity.
      - unfold quantifier in Q. destruct Q as [[-> _]|[[[->| ->] _]|[[[->| ->] _]|[[->| ->] _]]]]; reflexivity. }
    rewrite app_assoc. destruct (go_word (ds ++ s) (d :: r) [] false (l_last l) W) as (a & Ea). rewrite Ea. cbn [app].
    assert (LT : lower_text (ds ++ s) = ds ++ lower_text s).
    { unfold lower_text. rewrite map_app. f_equal. exact (lower_digits ds F). }
    rewrite LT.
    apply go_end; [destruct ds; [congruence|discriminate]|exact D|apply number_token; assumption].
  Qed.

  Lemma quantifier_pos s q : quantifier s q -> (1 <= q)%N.
  Proof. intros [[_ ->]|[[_ ->]|[[_ ->]|[_ ->]]]]; cbv; discriminate. Qed.

  Lemma number_expected (ds s : list N) q d r l max :
    ds <> [] -> Forall (fun c => is_digit_ascii c = true) ds -> quantifier s q -> ends_word d -> (max <= usize_max)%N ->
    at_input l (ds ++ s ++ d :: r) ->
    if N.ltb (decimal ds * q) max
    then exists l', expect_number L M max l = POk (decimal ds * q)%N l' /\ after_word l' d r
    else expect_number L M max l = PErr.
  Proof.
    intros NE F Q D Mx A. destruct (number_next ds s q d r l NE F Q D A) as (l' & E & W).
    pose proof (quantifier_pos s q Q) as Q1.
    assert (DQ : (decimal ds <= decimal ds * q)%N) by nia.
    unfold expect_number, unwrap_next. rewrite E. unfold num_tok, sat_mul.
    destruct (N.leb (decimal ds) usize_max) eqn:U.
    - destruct (N.ltb (decimal ds * q) max) eqn:V.
      + replace (N.min usize_max (decimal ds * q)) with (decimal ds * q)%N by lia. rewrite V. exists l'. split; [reflexivity|exact W].
      + rewrite (proj2 (N.ltb_ge _ _)) by lia. reflexivity.
    - destruct (N.ltb (decimal ds * q) max) eqn:V; [exfalso; lia|reflexivity].
  Qed.

  (** *** Multi-line strings *)

  Lemma multi_byte c r b tag last t : (c = 46%N -> last <> 10%N) ->
    exists t', go (c :: r) b tag last (SMulti t) = go r (b ++ [c]) tag c (SMulti t').
  Proof.
    intro H. rewrite go_multi. destruct (N.eqb c 46 && N.eqb last 10) eqn:E; [lia|].
    destruct (N.eqb c 10); [eexists; reflexivity|]. destruct (N.eqb c 123 && _); [eexists; reflexivity|].
    destruct (is_digit_ascii c); [eexists; reflexivity|]. destruct (N.eqb c 46); eexists; reflexivity.
  Qed.

  Lemma multi_stuffed : forall x r b tag last t,
    exists t', go (stuff (N.eqb last 10) x ++ r) b tag last (SMulti t) = go r (b ++ x) tag (List.last x last) (SMulti t').
  Proof.
    induction x as [|c x IH]; intros r b tag lst t.
    - exists t. cbn. rewrite app_nil_r. reflexivity.
    - cbn [stuff]. replace (List.last (c :: x) lst) with (List.last x c) by (clear; revert c; induction x as [|d x IH]; intro c; [reflexivity|]; cbn [List.last] in *; destruct x; [reflexivity|apply IH]).
      replace (b ++ c :: x) with ((b ++ [c]) ++ x) by (rewrite <- app_assoc; reflexivity).
      destruct (N.eqb lst 10 && N.eqb c 46) eqn:E.
      + assert (c = 46%N /\ lst = 10%N) as [-> ->] by lia. cbn [app]. rewrite go_multi.
        change (N.eqb 46 46 && N.eqb 10 10) with true. cbn [negb].
        change (N.eqb 46 13) with false. change (N.eqb 46 10) with false. change (N.eqb 46 46) with true. cbn [andb].
        apply (IH r (b ++ [46%N]) tag 46%N t).
      + cbn [app]. destruct (multi_byte c (stuff (N.eqb c 10) x ++ r) b tag lst t) as (t1 & E1); [lia|].
        rewrite E1. apply IH.
  Qed.

  Lemma multi_string w skip x d rest l k :
    text_colon w -> ~ In 10%N skip -> whole_lines x -> dot_line d -> Forall scalar k -> x = utf8 k -> length x < M ->
    at_input l (w ++ skip ++ 10%N :: stuff true x ++ d ++ rest) ->
    exists t l', lex_next L M l = LTok t l' /\ denotes L t k /\ at_input l' rest.
  Proof.
    intros W NS WL D Sk Ex Ln (I & B & T & S & X). unfold lex_next. rewrite X, I, B, T, S.
    unfold text_colon in W.
    assert (exists w4, w = w4 ++ [58%N] /\ lower_text w4 = lit "text" /\ forallb wordish w4 = true) as (w4 & -> & W4 & WW).
    { destruct w as [|a [|b [|c [|e [|f [|]]]]]]; try discriminate. unfold lower_text in W. cbn [map] in W.
      injection W as W1 W2 W3 W4 W5. exists [a; b; c; e]. split; [|split].
      - cbn [app]. do 4 f_equal. f_equal. unfold lower_ascii, is_upper_ascii, between in W5.
        repeat match type of W5 with context [if ?x then _ else _] => destruct x eqn:? end; lia.
      - cbn [lower_text map]. rewrite W1, W2, W3, W4. reflexivity.
      - assert (K : forall z y, lower_ascii z = y -> is_lower_ascii y = true -> wordish z = true).
        { intros z y <- Hy. unfold lower_ascii, wordish, word_byte, is_lower_ascii, is_upper_ascii, between in *.
          repeat match type of Hy with context [if ?x then _ else _] => destruct x eqn:? end; lia. }
        cbn [forallb]. rewrite (K _ _ W1), (K _ _ W2), (K _ _ W3), (K _ _ W4) by reflexivity. reflexivity. }
    rewrite <- app_assoc. cbn [app].
    destruct (go_word w4 (58%N :: skip ++ 10%N :: stuff true x ++ d ++ rest) [] false (l_last l) WW) as (a & Ea). rewrite Ea.
    cbn [app]. rewrite W4. rewrite go_none. change (word_byte 58) with false. change (is_upper_ascii 58%N) with false.
    change (N.eqb 58 58) with true. change (is_nil (lit "text")) with false. cbn [andb].
    change (teqb_ic (lit "text") (lit "text")) with true. cbv iota.
    assert (SK : forall sk b tag last, ~ In 10%N sk -> forall r,
              go (sk ++ 10%N :: r) b tag last SSkip = go r [] false 10%N (SMulti st_default)).
    { induction sk as [|c sk IH]; intros b tag last0 N r.
      - reflexivity.
      - cbn [app]. change (go (c :: sk ++ 10%N :: r) b tag last0 SSkip)
          with (if N.eqb c 10 then go (sk ++ 10%N :: r) [] false c (SMulti st_default) else go (sk ++ 10%N :: r) b tag c SSkip).
        destruct (N.eqb c 10) eqn:E; [exfalso; apply N; left; lia|]. apply IH. intro Hn. apply N. right. exact Hn. }
    rewrite SK by exact NS.
    destruct (multi_stuffed x (d ++ rest) [] false 10%N st_default) as (t' & E'). change (N.eqb 10 10) with true in E'. rewrite E'.
    assert (LL : List.last x 10%N = 10%N).
    { destruct WL as [->|[x' ->]]; [reflexivity|apply last_last]. }
    rewrite LL. cbn [app]. 
    assert (GS : forall lst, get_string L M rest x false lst t' = LTok (string_token L x t') (mk rest [] false lst SNone [])).
    { intro lst. unfold get_string. rewrite (proj2 (Nat.ltb_lt _ _) Ln). reflexivity. }
    destruct D as [->| ->]; cbn [app]; rewrite go_multi; change (N.eqb 46 46 && N.eqb 10 10) with true; cbv iota.
    - change (N.eqb 10 13) with false. change (N.eqb 10 10) with true. cbn [andb]. rewrite GS.
      eexists _, _. split; [reflexivity|]. split; [apply string_denotes; assumption|repeat split].
    - change (N.eqb 13 13) with true. cbn [head_is andb tl]. change (N.eqb 10 10) with true. cbv iota. rewrite GS.
      eexists _, _. split; [reflexivity|]. split; [apply string_denotes; assumption|repeat split].
  Qed.

  (** *** Layout *)

  Lemma go_bracket : forall body last r tag b,
    (forall x y, last :: body ++ [42%N; 47%N] = x ++ [42%N; 47%N] ++ y -> y = []) ->
    go (body ++ 42%N :: 47%N :: r) b tag last SBracket = go r b tag 47%N SNone.
  Proof.
    assert (U : forall c r b tag last, go (c :: r) b tag last SBracket =
              if N.eqb c 47 && N.eqb last 42 then go r b tag c SNone else go r b tag c SBracket) by reflexivity.
    induction body as [|c body IH]; intros last r tag b H.
    - cbn [app]. rewrite U. change (N.eqb 42 47) with false. cbn [andb]. rewrite U. reflexivity.
    - cbn [app]. rewrite U. destruct (N.eqb c 47 && N.eqb last 42) eqn:E.
      + exfalso. assert (c = 47%N /\ last = 42%N) as [-> ->] by lia.
        specialize (H [] (body ++ [42%N; 47%N]) eq_refl). destruct body; discriminate.
      + apply IH. intros x y Exy. apply (H (last :: x) y). cbn [app]. f_equal. exact Exy.
  Qed.

  Lemma go_layout : forall w, layout w -> forall i last, exists last', go (w ++ i) [] false last SNone = go i [] false last' SNone.
  Proof.
    induction 1 as [|c r Sc Lr IH|body r Nb Lr IH|body r Nb Lr IH]; intros i last.
    - exists last. reflexivity.
    - cbn [app]. rewrite go_none.
      destruct (ends_word_cases c (or_introl Sc)) as (E1 & E2 & E3 & E4 & E5 & E6 & _ & _).
      rewrite E1, E2, E3, E4, E5, E6, Sc. cbn [flush]. apply IH.
    - cbn [app]. rewrite go_none. change (word_byte 35) with false. change (is_upper_ascii 35%N) with false.
      change (N.eqb 35 58) with false. change (N.eqb 35 34) with false. change (N.eqb 35 47) with false.
      change (N.eqb 35 35) with true. cbn [flush].
      assert (K : forall bd lst, ~ In 10%N bd -> forall z, go (bd ++ 10%N :: z) [] false lst SHash = go z [] false 10%N SNone).
      { induction bd as [|c bd IHb]; intros lst N z; [reflexivity|]. cbn [app].
        change (go (c :: bd ++ 10%N :: z) [] false lst SHash)
          with (if N.eqb c 10 then go (bd ++ 10%N :: z) [] false c SNone else go (bd ++ 10%N :: z) [] false c SHash).
        destruct (N.eqb c 10) eqn:E; [exfalso; apply N; left; lia|]. apply IHb. intro Hn. apply N. right. exact Hn. }
      rewrite <- app_assoc. cbn [app]. rewrite K by exact Nb. apply IH.
    - cbn [app]. rewrite go_none. change (word_byte 47) with false. change (is_upper_ascii 47%N) with false.
      change (N.eqb 47 58) with false. change (N.eqb 47 34) with false. change (N.eqb 47 47) with true.
      change (N.eqb 42 42) with true. cbn [flush]. rewrite <- app_assoc. cbn [app].
      rewrite go_bracket; [apply IH|].
      intros x y E. destruct x as [|x0 x]; [discriminate|]. cbn [app] in E. injection E as _ E. exact (Nb x y E).
  Qed.

  Lemma layout_next w i l l' : layout w -> i <> [] -> at_input l (w ++ i) -> at_input l' i -> lex_next L M l = lex_next L M l'.
  Proof.
    intros W NI (I & B & T & S & X) (I' & B' & T' & S' & X'). unfold lex_next.
    rewrite X, X', I, I', B, B', T, T', S, S'.
    destruct (go_layout w W i (l_last l)) as (a & E). rewrite E. apply go_last. exact NI.
  Qed.

  Lemma layout_end w l : layout w -> at_input l w -> exists l', lex_next L M l = LEof l'.
  Proof.
    intros W (I & B & T & S & X). unfold lex_next. rewrite X, I, B, T, S.
    destruct (go_layout w W [] (l_last l)) as (a & E). rewrite app_nil_r in E. rewrite E. eexists. reflexivity.
  Qed.

  (** *** Panics *)

  Definition asciib (b : list N) : Prop := Forall (fun c => (c < 128)%N) b.
  (** The pending word is ASCII unless a string is being read. *)
  Definition clean (s : lstate) (b : list N) : Prop :=
    match s with SQuoted _ | SMulti _ => True | _ => asciib b end.

  Definition fits (n : nat) (l : lex) : Prop := length (l_buf l) + length (l_in l) <= n.
  Definition good (n : nat) (r : lres) : Prop :=
    match r with
    | LPanic => False
    | LErr EStringTooLong _ => M <= n
    | LErr _ l | LEof l | LTok _ l => clean (l_state l) (l_buf l) /\ fits n l
    end.

  Lemma word_token_ascii b tag : asciib b -> word_token b tag <> None.
  Proof. intro A. unfold word_token. rewrite (ascii_strict b A). discriminate. Qed.

  Lemma good_flush n b tag l k : asciib b -> clean (l_state l) (l_buf l) /\ fits n l -> (b = [] -> good n k) -> good n (flush b tag l k).
  Proof.
    intros A C K. unfold flush. destruct b as [|x b]; [apply K; reflexivity|].
    destruct (word_token (x :: b) tag) eqn:E; [exact C|]. exact (word_token_ascii _ tag A E).
  Qed.

  Lemma good_string n r b tag c t : length b + length r <= n -> good n (get_string L M r b tag c t).
  Proof.
    intro H. unfold get_string. destruct (Nat.ltb (length b) M) eqn:E; cbn.
    - split; [constructor|]. unfold fits. cbn. lia.
    - apply Nat.ltb_ge in E. lia.
  Qed.

  Lemma go_good n : forall i b tag last s,
    clean s b -> length b + length i <= n -> good n (go i b tag last s).
  Proof.
    intro i. remember (length i) as m eqn:Hm. revert i Hm.
    induction m as [m IH] using lt_wf_ind. intros i Hm b tag last s C Ln.
    destruct i as [|c r].
    { rewrite go_nil. destruct s; cbn; try (split; [exact C|unfold fits; cbn; cbn [length] in Hm; lia]). }
    cbn [length] in Hm.
    assert (IHr : forall b' tag' last' s', clean s' b' -> length b' <= S (length b) -> good n (go r b' tag' last' s')).
    { intros. apply (IH (length r)); [lia|reflexivity|assumption|lia]. }
    assert (Fr : forall b' tag' last' s' nx, length b' <= S (length b) -> fits n (mk r b' tag' last' s' nx))
      by (intros; unfold fits; cbn; lia).
    assert (AP : forall x, (x < 128)%N -> asciib b -> asciib (b ++ [x])).
    { intros x Hx A. apply Forall_app. split; [exact A|repeat constructor; exact Hx]. }
    assert (L1 : forall x, length (b ++ [x]) <= S (length b)) by (intro x; rewrite app_length; cbn; lia).
    destruct s as [| | |t| |t].
    - cbn [clean] in C. rewrite go_none.
      destruct (word_byte c) eqn:E1.
      { apply IHr; [apply AP; [unfold word_byte, is_lower_ascii, is_digit_ascii, between in E1; lia|exact C]|apply L1]. }
      destruct (is_upper_ascii c) eqn:E2.
      { apply IHr; [apply AP; [unfold lower_ascii; rewrite E2; unfold is_upper_ascii, between in E2; lia|exact C]|apply L1]. }
      assert (PU : forall p, good n (punct r b tag c p)).
      { intro p. unfold punct. apply good_flush; [exact C|split; [constructor|apply Fr; cbn; lia]|].
        intros _. split; [constructor|apply Fr; cbn; lia]. }
      destruct (N.eqb c 58).
      { destruct (is_nil b && head_alpha r); [apply IHr; [exact C|lia]|].
        destruct (teqb_ic b (lit "text")); [apply IHr; [exact C|lia]|apply PU]. }
      destruct (N.eqb c 34).
      { apply good_flush; [exact C|split; [exact Logic.I|apply Fr; cbn; lia]|]. intros _. apply IHr; [exact Logic.I|lia]. }
      destruct (N.eqb c 47).
      { destruct r as [|c1 r1]; [cbn; split; [exact C|unfold fits; cbn; lia]|]. cbn [length] in *.
        destruct (N.eqb c1 42).
        - apply good_flush; [exact C|split; [constructor|unfold fits; cbn; lia]|].
          intros Eb. apply (IH (length r1)); [lia|reflexivity|exact C|lia].
        - cbn. split; [exact C|unfold fits; cbn; lia]. }
      destruct (N.eqb c 35).
      { apply good_flush; [exact C|split; [constructor|apply Fr; cbn; lia]|]. intros _. apply IHr; [exact C|lia]. }
      destruct (space_byte c).
      { apply good_flush; [exact C|split; [constructor|apply Fr; cbn; lia]|]. intros _. apply IHr; [exact C|lia]. }
      destruct (punct_of c); [apply PU|]. cbn. split; [exact C|apply Fr; lia].
    - change (good n (if N.eqb c 47 && N.eqb last 42 then go r b tag c SNone else go r b tag c SBracket)).
      destruct (N.eqb c 47 && N.eqb last 42); apply IHr; try exact C; lia.
    - change (good n (if N.eqb c 10 then go r b tag c SNone else go r b tag c SHash)).
      destruct (N.eqb c 10); apply IHr; try exact C; lia.
    - rewrite go_quoted.
      destruct (N.eqb c 34 && _); [apply good_string; cbn [length] in *; lia|].
      destruct (N.eqb c 10); [apply IHr; [exact Logic.I|apply L1]|].
      destruct (N.eqb c 123 && _); [apply IHr; [exact Logic.I|apply L1]|].
      destruct (N.eqb c 92); [apply IHr; [exact Logic.I|destruct (N.eqb last 92); [apply L1|lia]]|].
      destruct (is_digit_ascii c); [apply IHr; [exact Logic.I|apply L1]|].
      destruct (N.eqb c 46); apply IHr; try exact Logic.I; apply L1.
    - change (good n (if N.eqb c 10 then go r [] false c (SMulti st_default) else go r b tag c SSkip)).
      destruct (N.eqb c 10); apply IHr; try exact C; try exact Logic.I; cbn; lia.
    - rewrite go_multi. destruct (N.eqb c 46 && N.eqb last 10).
      { destruct r as [|c1 r1]; [apply IHr; [exact Logic.I|lia]|]. cbn [length] in *.
        destruct (N.eqb c1 13 && head_is 10 r1) eqn:E1.
        { apply good_string. destruct r1; cbn in *; lia. }
        destruct (N.eqb c1 10); [apply good_string; lia|].
        destruct (N.eqb c1 46); (apply (IH (length r1)); [lia|reflexivity|exact Logic.I|rewrite app_length; cbn; lia]). }
      destruct (N.eqb c 10); [apply IHr; [exact Logic.I|apply L1]|].
      destruct (N.eqb c 123 && _); [apply IHr; [exact Logic.I|apply L1]|].
      destruct (is_digit_ascii c); [apply IHr; [exact Logic.I|apply L1]|].
      destruct (N.eqb c 46); apply IHr; try exact Logic.I; apply L1.
  Qed.

  Lemma next_good n l : clean (l_state l) (l_buf l) -> fits n l -> good n (lex_next L M l).
  Proof.
    intros C F. unfold lex_next. destruct (l_next l); [apply go_good; assumption|]. split; assumption.
  Qed.

  Lemma peek_good n l : clean (l_state l) (l_buf l) -> fits n l -> good n (lex_peek L M l).
  Proof.
    intros C F. unfold lex_peek. destruct (l_next l); [|split; assumption].
    pose proof (go_good n (l_in l) (l_buf l) (l_tag l) (l_last l) (l_state l) C F) as G.
    destruct (lex_go L M (l_in l) (l_buf l) (l_tag l) (l_last l) (l_state l)); exact G.
  Qed.
End P.
