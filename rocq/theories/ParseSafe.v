(** Proofs that the compiler terminates, and that it does not panic on valid UTF-8. *)
From Verif Require Import Base Lib Address Var Value SetVar Flags Comparator Message EditHeader
  Expr ExprProofs ExprTok Event Notify AddrTest Vacation Sieve Utf8 Lexer Scope StringTok Compile ParseArgs ParseBase Parse.
Import ListNotations.

(** *** Valid UTF-8 *)

Definition valid (bs : list N) : Prop := exists t, Forall scalar t /\ bs = utf8 t.

Lemma valid_nil : valid [].
Proof. exists []. split; constructor. Qed.
Lemma valid_app x y : valid x -> valid y -> valid (x ++ y).
Proof.
  intros (t & A & ->) (u & B & ->). exists (t ++ u). split; [apply Forall_app; auto|symmetry; apply utf8_app].
Qed.
Lemma valid_ascii c : (c < 128)%N -> valid [c].
Proof.
  intro H. exists [c]. split; [constructor; [left; lia|constructor]|].
  symmetry. apply ascii_utf8. constructor; [exact H|constructor].
Qed.
Lemma char_bytes c : (128 <= c)%N -> Forall (fun b => (128 <= b)%N) (utf8_char c).
Proof.
  intro H. unfold utf8_char. rewrite (proj2 (N.ltb_ge _ _)) by lia.
  destruct (N.ltb c 2048); [|destruct (N.ltb c 65536)]; repeat constructor; lia.
Qed.
Lemma app_split {A} : forall (a b x y : list A) (c : A), a ++ b = x ++ c :: y ->
  (exists z, a = x ++ c :: z) \/ (exists x', x = a ++ x' /\ b = x' ++ c :: y).
Proof.
  induction a as [|h a IH]; intros b x y c E.
  - right. exists x. auto.
  - destruct x as [|h' x]; cbn in E; injection E as -> E.
    + left. exists a. reflexivity.
    + destruct (IH _ _ _ _ E) as [(z & ->)|(x' & -> & ->)]; [left; exists z|right; exists x']; auto.
Qed.
Lemma utf8_split : forall t x c y, (c < 128)%N -> Forall scalar t -> utf8 t = x ++ c :: y -> valid x /\ valid y.
Proof.
  induction t as [|d t IH]; intros x c y C S E.
  - destruct x; discriminate.
  - change (utf8 (d :: t)) with (utf8_char d ++ utf8 t) in E. inversion S as [|? ? Sd St]; subst.
    destruct (app_split _ _ _ _ _ E) as [(z & Z)|(x' & -> & E')].
    + destruct (N.ltb d 128) eqn:D.
      * unfold utf8_char in Z, E. rewrite D in Z, E. destruct x as [|h [|]]; try discriminate.
        injection Z as -> _. cbn in E. injection E as E. subst y. split; [apply valid_nil|exists t; auto].
      * assert (F : Forall (fun b => (128 <= b)%N) (utf8_char d)) by (apply char_bytes; lia).
        rewrite Z in F. apply Forall_app in F as [_ F]. inversion F. lia.
    + destruct (IH x' c y C St E') as [A B]. split; [|exact B].
      apply valid_app; [|exact A]. exists [d]. split; [constructor; [exact Sd|constructor]|].
      cbn. symmetry. apply app_nil_r.
Qed.
Lemma valid_split x c y : (c < 128)%N -> valid (x ++ c :: y) -> valid x /\ valid y.
Proof. intros C (t & S & E). exact (utf8_split t x c y C S (eq_sym E)). Qed.
Lemma valid_strict b : valid b -> utf8_strict b <> None.
Proof. intros (t & S & ->). rewrite strict_utf8 by exact S. discriminate. Qed.

(** *** The tokenizer *)

Definition mass (l : lex) : nat := 2 * length (l_in l) + length (l_next l).

Lemma flush_mass b tag l k n : mass l < n ->
  match k with LTok _ l' => mass l' < n | LEof l' | LErr _ l' => mass l' <= n | LPanic => True end ->
  match flush b tag l k with LTok _ l' => mass l' < n | LEof l' | LErr _ l' => mass l' <= n | LPanic => True end.
Proof. intros H1 H2. unfold flush. destruct b; [exact H2|]. destruct (word_token _ _); [exact H1|exact Logic.I]. Qed.

Section Go.
  Variable L : rustlib.
  Variable max : nat.

  Definition go_mass (n : nat) (r : lres) : Prop :=
    match r with
    | LTok _ l => 2 * length (l_in l) + 2 <= 2 * n /\ length (l_next l) <= 1 /\ mass l < 2 * n
    | LEof l | LErr _ l => mass l <= 2 * n
    | LPanic => True
    end.
  Lemma go_mass_le n m r : n <= m -> go_mass n r -> go_mass m r.
  Proof. intros H. destruct r; cbn; unfold mass; try lia. Qed.
  Lemma flush_go b tag l k n : 2 * length (l_in l) + 2 <= 2 * n -> length (l_next l) <= 1 -> mass l < 2 * n ->
    go_mass n k -> go_mass n (flush b tag l k).
  Proof. intros. unfold flush. destruct b; [assumption|]. destruct (word_token _ _); cbn; auto. Qed.

  Lemma string_go r b tag c t n : length r < n -> go_mass n (get_string L max r b tag c t).
  Proof. intro H. unfold get_string. destruct (Nat.ltb _ _); cbn; unfold mass; cbn; lia. Qed.
  Lemma lex_go_mass : forall n i b tag last s, length i <= n -> go_mass (length i) (lex_go L max i b tag last s).
  Proof.
    induction n as [|n IHn]; intros i b tag last s Hn;
      (destruct i as [|c i]; [destruct s; cbn; unfold mass; cbn; lia|]); [cbn in Hn; lia|].
    assert (IH : forall b tag last s, go_mass (length (c :: i)) (lex_go L max i b tag last s)).
    { intros. apply (go_mass_le (length i)); [cbn; lia|]. apply IHn. cbn in Hn. lia. }
    destruct s; cbn [lex_go].
    - destruct (word_byte c); [apply IH|]. destruct (is_upper_ascii c); [apply IH|].
      destruct (N.eqb c 58).
      { destruct (is_nil b && head_alpha i); [apply IH|]. destruct (teqb_ic b (lit "text")); [apply IH|].
        unfold punct. apply flush_go; cbn; unfold mass; cbn; lia. }
      destruct (N.eqb c 34); [apply flush_go; [cbn; unfold mass; cbn; lia..|apply IH]|].
      destruct (N.eqb c 47).
      { destruct i as [|c1 r1]; [cbn; unfold mass; cbn; lia|].
        destruct (N.eqb c1 42); [|cbn; unfold mass; cbn; lia].
        apply flush_go; [cbn; unfold mass; cbn; lia..|].
        apply (go_mass_le (length r1)); [cbn; lia|]. apply IHn. cbn in Hn. lia. }
      destruct (N.eqb c 35); [apply flush_go; [cbn; unfold mass; cbn; lia..|apply IH]|].
      destruct (space_byte c); [apply flush_go; [cbn; unfold mass; cbn; lia..|apply IH]|].
      destruct (punct_of c); [|cbn; unfold mass; cbn; lia].
      unfold punct. apply flush_go; cbn; unfold mass; cbn; lia.
    - destruct (N.eqb c 47 && N.eqb last 42); apply IH.
    - destruct (N.eqb c 10); apply IH.
    - destruct (N.eqb c 34 && _); [apply string_go; cbn; lia|].
      destruct (N.eqb c 10); [apply IH|]. destruct (N.eqb c 123 && _); [apply IH|].
      destruct (N.eqb c 92); [apply IH|]. destruct (is_digit_ascii c); [apply IH|].
      destruct (N.eqb c 46); apply IH.
    - destruct (N.eqb c 10); apply IH.
    - destruct (N.eqb c 46 && _).
      { destruct i as [|c1 r1]; [apply IH|].
        assert (IH1 : forall b tag last s, go_mass (length (c :: c1 :: r1)) (lex_go L max r1 b tag last s)).
        { intros. apply (go_mass_le (length r1)); [cbn; lia|]. apply IHn. cbn in Hn. lia. }
        destruct (N.eqb c1 13 && _); [apply string_go; destruct r1; cbn; lia|].
        destruct (N.eqb c1 10); [apply string_go; cbn; lia|]. destruct (N.eqb c1 46); apply IH1. }
      destruct (N.eqb c 10); [apply IH|]. destruct (N.eqb c 123 && _); [apply IH|].
      destruct (is_digit_ascii c); [apply IH|]. destruct (N.eqb c 46); apply IH.
  Qed.

  Lemma next_mass l : match lex_next L max l with
                      | LTok _ l' => mass l' < mass l
                      | LEof l' | LErr _ l' => mass l' <= mass l
                      | LPanic => True
                      end.
  Proof.
    unfold lex_next. destruct (l_next l) as [|t q] eqn:E.
    - pose proof (lex_go_mass _ (l_in l) (l_buf l) (l_tag l) (l_last l) (l_state l) (Nat.le_refl _)) as H.
      destruct (lex_go _ _ _ _ _ _ _); cbn in H; unfold mass in *; rewrite ?E; cbn; lia.
    - unfold mass. rewrite ?E. cbn. lia.
  Qed.
  Lemma peek_mass l : match lex_peek L max l with
                      | LTok _ l' | LEof l' | LErr _ l' => mass l' <= mass l
                      | LPanic => True
                      end.
  Proof.
    unfold lex_peek. destruct (l_next l) as [|t q] eqn:E.
    - pose proof (lex_go_mass _ (l_in l) (l_buf l) (l_tag l) (l_last l) (l_state l) (Nat.le_refl _)) as H.
      destruct (lex_go _ _ _ _ _ _ _); cbn in H; unfold mass in *; cbn; rewrite ?E; cbn; lia.
    - lia.
  Qed.

  (** The bytes read so far and the rest are cut between characters, except in a comment
      or after an invalid character. *)
  Definition linv (i b : list N) (s : lstate) : Prop :=
    match s with
    | SQuoted _ | SMulti _ => valid (b ++ i)
    | _ => valid b /\ exists pre, valid (pre ++ i)
    end.
  Definition lres_inv (r : lres) : Prop :=
    match r with
    | LTok _ l | LEof l | LErr _ l => linv (l_in l) (l_buf l) (l_state l)
    | LPanic => False
    end.
  Lemma some_pre i : valid i -> exists pre, valid (pre ++ i).
  Proof. exists []. assumption. Qed.
  Lemma drop_pre c i : (exists pre, valid (pre ++ c :: i)) -> exists pre, valid (pre ++ i).
  Proof. intros (p & H). exists (p ++ [c]). rewrite <- app_assoc. exact H. Qed.
  Lemma ascii_pre c i : (c < 128)%N -> (exists pre, valid (pre ++ c :: i)) -> valid i.
  Proof. intros C (p & H). exact (proj2 (valid_split p c i C H)). Qed.
  Lemma flush_inv b tag l k : valid b -> linv (l_in l) (l_buf l) (l_state l) -> (b = [] -> lres_inv k) ->
    lres_inv (flush b tag l k).
  Proof.
    intros V H1 H2. unfold flush. destruct b as [|x b]; [auto|]. unfold word_token.
    destruct (utf8_strict (x :: b)) eqn:E; [exact H1|]. destruct (valid_strict _ V E).
  Qed.
  Lemma string_inv r b tag c t : valid b -> valid r -> lres_inv (get_string L max r b tag c t).
  Proof.
    intros V W. unfold get_string. destruct (Nat.ltb _ _); cbn.
    - split; [apply valid_nil|apply some_pre; exact W].
    - split; [exact V|apply some_pre; exact W].
  Qed.
  Lemma word_byte_ascii c : word_byte c = true -> (c < 128)%N.
  Proof. unfold word_byte, is_lower_ascii, is_digit_ascii, between. lia. Qed.
  Lemma punct_ascii c p : punct_of c = Some p -> (c < 128)%N.
  Proof.
    unfold punct_of. intro H.
    repeat match type of H with (if N.eqb c ?k then _ else _) = _ =>
      destruct (N.eqb c k) eqn:?; [lia|] end. discriminate.
  Qed.
  Lemma keep_byte b c i : valid (b ++ c :: i) -> valid ((b ++ [c]) ++ i).
  Proof. rewrite <- app_assoc. auto. Qed.
  Lemma change_byte b c c' i : (c < 128)%N -> (c' < 128)%N -> valid (b ++ c :: i) -> valid ((b ++ [c']) ++ i).
  Proof.
    intros C C' H. destruct (valid_split b c i C H). apply valid_app; [apply valid_app; [assumption|]|assumption].
    apply valid_ascii. exact C'.
  Qed.
  Lemma drop_byte b c i : (c < 128)%N -> valid (b ++ c :: i) -> valid (b ++ i).
  Proof. intros C H. destruct (valid_split b c i C H). apply valid_app; assumption. Qed.
  Lemma unescape_cases last c : unescape last c = c \/ (c < 128 /\ unescape last c < 128)%N.
  Proof.
    unfold unescape. destruct (N.eqb last 92); [|auto].
    destruct (N.eqb c 110) eqn:?; [lia|]. destruct (N.eqb c 114) eqn:?; [lia|]. destruct (N.eqb c 116) eqn:?; [lia|auto].
  Qed.

  Lemma lex_go_inv : forall n i b tag last s, length i <= n -> linv i b s -> lres_inv (lex_go L max i b tag last s).
  Proof.
    induction n as [|n IHn]; intros i b tag last s Hn V;
      (destruct i as [|c i]; [destruct s; cbn; exact V|]); [cbn in Hn; lia|].
    assert (IH : forall b tag last s, linv i b s -> lres_inv (lex_go L max i b tag last s)).
    { intros. apply IHn; [cbn in Hn; lia|assumption]. }
    destruct s; cbn [lex_go].
    - destruct V as [V P].
      destruct (word_byte c) eqn:W.
      { apply word_byte_ascii in W. apply IH. split; [apply valid_app; [exact V|apply valid_ascii; exact W]|].
        apply some_pre. apply (ascii_pre c); assumption. }
      destruct (is_upper_ascii c) eqn:U.
      { assert (C : (c < 128 /\ lower_ascii c < 128)%N)
          by (unfold lower_ascii; rewrite U; unfold is_upper_ascii, between in U; lia).
        apply IH. split; [apply valid_app; [exact V|apply valid_ascii; apply C]|].
        apply some_pre. apply (ascii_pre c); tauto. }
      assert (FL : forall k l, (c < 128)%N -> l_in l = i -> l_buf l = [] -> (b = [] -> lres_inv k) -> lres_inv (flush b tag l k)).
      { intros k l C A B D. apply flush_inv; [exact V| |exact D]. rewrite A, B.
        assert (Vi : valid i) by (apply (ascii_pre c); assumption).
        unfold linv. destruct (l_state l); try (split; [apply valid_nil|apply some_pre; exact Vi]); exact Vi. }
      destruct (N.eqb c 58) eqn:E58.
      { assert (C : (c < 128)%N) by lia. assert (Vi : valid i) by (apply (ascii_pre c); assumption).
        destruct (is_nil b && head_alpha i); [apply IH; split; [exact V|apply some_pre; exact Vi]|].
        destruct (teqb_ic b (lit "text")); [apply IH; split; [exact V|apply some_pre; exact Vi]|].
        unfold punct. apply FL; auto. intros _. cbn. split; [apply valid_nil|apply some_pre; exact Vi]. }
      destruct (N.eqb c 34) eqn:E34.
      { assert (C : (c < 128)%N) by lia. assert (Vi : valid i) by (apply (ascii_pre c); assumption).
        apply FL; auto. intros ->. apply IH. exact Vi. }
      destruct (N.eqb c 47) eqn:E47.
      { assert (C : (c < 128)%N) by lia. assert (Vi : valid i) by (apply (ascii_pre c); assumption).
        destruct i as [|c1 r1]; [cbn; split; [exact V|apply some_pre; exact valid_nil]|].
        destruct (N.eqb c1 42) eqn:E42.
        - assert (C1 : (c1 < 128)%N) by lia.
          assert (Vr : valid r1) by (apply (ascii_pre c1); [exact C1|apply some_pre; exact Vi]).
          apply flush_inv; [exact V|cbn; split; [apply valid_nil|apply some_pre; exact Vr]|].
          intros ->. apply IHn; [cbn in Hn; lia|]. split; [apply valid_nil|apply some_pre; exact Vr].
        - cbn. split; [exact V|]. apply (drop_pre c1). apply some_pre. exact Vi. }
      destruct (N.eqb c 35) eqn:E35.
      { assert (C : (c < 128)%N) by lia. assert (Vi : valid i) by (apply (ascii_pre c); assumption).
        apply FL; auto. intros ->. apply IH. split; [exact V|apply some_pre; exact Vi]. }
      destruct (space_byte c) eqn:ES.
      { assert (C : (c < 128)%N) by (unfold space_byte in ES; lia).
        assert (Vi : valid i) by (apply (ascii_pre c); assumption).
        apply FL; auto. intros ->. apply IH. split; [exact V|apply some_pre; exact Vi]. }
      destruct (punct_of c) eqn:EP.
      { apply punct_ascii in EP. assert (Vi : valid i) by (apply (ascii_pre c); assumption).
        unfold punct. apply FL; auto. intros _. cbn. split; [apply valid_nil|apply some_pre; exact Vi]. }
      cbn. split; [exact V|]. apply (drop_pre c). exact P.
    - destruct V as [V P].
      destruct (N.eqb c 47 && _); apply IH; (split; [exact V|apply (drop_pre c); exact P]).
    - destruct V as [V P].
      destruct (N.eqb c 10); apply IH; (split; [exact V|apply (drop_pre c); exact P]).
    - cbn in V. destruct (N.eqb c 34 && _) eqn:E34.
      { destruct (valid_split b c i) as [A B]; [lia|exact V|]. apply string_inv; assumption. }
      destruct (N.eqb c 10); [apply IH; cbn; apply keep_byte; exact V|].
      destruct (N.eqb c 123 && _); [apply IH; cbn; apply keep_byte; exact V|].
      destruct (N.eqb c 92) eqn:E92.
      { apply IH. cbn. destruct (N.eqb last 92); [apply keep_byte; exact V|]. apply (drop_byte b c); [lia|exact V]. }
      destruct (is_digit_ascii c); [apply IH; cbn; apply keep_byte; exact V|].
      destruct (N.eqb c 46); [apply IH; cbn; apply keep_byte; exact V|].
      apply IH. cbn. destruct (unescape_cases last c) as [->|[A B]]; [apply keep_byte; exact V|].
      apply (change_byte b c); assumption.
    - destruct V as [V P].
      destruct (N.eqb c 10) eqn:E10; apply IH.
      + cbn. apply (ascii_pre c); [lia|exact P].
      + split; [exact V|apply (drop_pre c); exact P].
    - cbn in V. destruct (N.eqb c 46 && _) eqn:E46.
      { assert (C : (c < 128)%N) by lia. destruct (valid_split b c i C V) as [A B].
        destruct i as [|c1 r1]; [apply IH; cbn; rewrite app_nil_r; exact A|].
        destruct (N.eqb c1 13 && head_is 10 r1) eqn:E13.
        { destruct (valid_split [] c1 r1) as [_ B1]; [lia|exact B|].
          destruct r1 as [|c2 r2]; [cbn in E13; lia|]. cbn in E13.
          destruct (valid_split [] c2 r2) as [_ B2]; [lia|exact B1|]. apply string_inv; assumption. }
        destruct (N.eqb c1 10) eqn:E10.
        { destruct (valid_split [] c1 r1) as [_ B1]; [lia|exact B|]. apply string_inv; assumption. }
        destruct (N.eqb c1 46) eqn:E46'; apply IHn; try (cbn in Hn; lia); cbn.
        - replace c1 with 46%N in B by lia. rewrite <- app_assoc. exact (valid_app b (46%N :: r1) A B).
        - replace c with 46%N in V by lia. rewrite <- app_assoc. exact V. }
      destruct (N.eqb c 10); [apply IH; cbn; apply keep_byte; exact V|].
      destruct (N.eqb c 123 && _); [apply IH; cbn; apply keep_byte; exact V|].
      destruct (is_digit_ascii c); [apply IH; cbn; apply keep_byte; exact V|].
      destruct (N.eqb c 46); apply IH; cbn; apply keep_byte; exact V.
  Qed.

  Definition lex_inv (l : lex) : Prop := linv (l_in l) (l_buf l) (l_state l).
  Lemma next_inv l : lex_inv l -> lres_inv (lex_next L max l).
  Proof.
    intro H. unfold lex_next. destruct (l_next l); [|exact H]. exact (lex_go_inv _ _ _ _ _ _ (Nat.le_refl _) H).
  Qed.
  Lemma peek_inv l : lex_inv l -> lres_inv (lex_peek L max l).
  Proof.
    intro H. unfold lex_peek. destruct (l_next l); [|exact H].
    pose proof (lex_go_inv _ _ _ (l_tag l) (l_last l) _ (Nat.le_refl _) H) as G.
    destruct (lex_go _ _ _ _ _ _ _); exact G.
  Qed.
End Go.

(** *** Parsers *)

Arguments mass : simpl never.

(** *** Positions of jumps *)

Notation code_of s := (c_code (p_c s)).
Definition below (n : nat) (ps : list nat) : Prop := Forall (fun p => p < n) ps.
Definition blk_in (n : nat) (b : blk) : Prop := below n (b_if b) /\ below n (b_break b).
Definition cinv (c : cst) : Prop :=
  let n := length (c_code c) in
  Forall (blk_in n) (blocks c) /\ Forall (fun b => b_start b < n) (c_stack c) /\
  match c_last c with BIf | BElsIf => 0 < n | _ => True end.

Lemma below_le n m ps : n <= m -> below n ps -> below m ps.
Proof. intros H. apply Forall_impl. lia. Qed.
Lemma blk_in_le n m b : n <= m -> blk_in n b -> blk_in m b.
Proof. intros H [A B]. split; apply (below_le n); assumption. Qed.
Lemma cinv_same c c' : length (c_code c) <= length (c_code c') -> blocks c' = blocks c -> c_stack c' = c_stack c ->
  c_last c' = c_last c -> cinv c -> cinv c'.
Proof.
  intros H E1 E2 E3 (A & B & C). unfold cinv. rewrite E1, E2, E3. repeat split.
  - revert A. apply Forall_impl. intros b. apply blk_in_le. exact H.
  - revert B. apply Forall_impl. intros b. lia.
  - destruct (c_last c); auto; lia.
Qed.
Lemma below_inside ps c : below (length (c_code c)) ps -> forallb (fun p => Nat.ltb p (length (c_code c))) ps = true.
Proof. intro H. apply forallb_forall. intros p I. apply Nat.ltb_lt. exact (proj1 (Forall_forall _ _) H p I). Qed.
Lemma update_length f : forall l n, length (update n f l) = length l.
Proof. induction l as [|i l IH]; intros [|n]; cbn; auto. Qed.
Lemma patch_length f : forall ps l, length (patch f ps l) = length l.
Proof.
  unfold patch. induction ps as [|p ps IH]; intro l; cbn; [reflexivity|]. rewrite IH. apply update_length.
Qed.
Lemma mark_length n : forall ps code v, length (snd (fst (mark n ps code v))) = length code.
Proof.
  induction ps as [|p ps IH]; intros code v; cbn; [reflexivity|].
  destruct (nth_error code p) as [[]|]; try reflexivity. destruct (mark_test n _) as [[t' v']|]; [|reflexivity].
  rewrite IH. apply update_length.
Qed.
Lemma mark_in_length n : forall ms code, length (snd (fst (mark_in n ms code))) = length code.
Proof.
  induction ms as [|[ps v] ms IH]; intro code; cbn; [reflexivity|]. destruct ps.
  - specialize (IH code). destruct (mark_in n ms code) as [[ok code'] ms']. exact IH.
  - pose proof (mark_length n (n0 :: ps) code v) as H. destruct (mark n (n0 :: ps) code v) as [[ok code'] v']. exact H.
Qed.

(** *** Parsers *)

Section Safe.
  Variable K : cenv.
  Variable FU : nat.
  (** An invariant of the tokenizer, and whether its panics are tolerated. *)
  Variable I : lex -> Prop.
  Variable pan : Prop.
  Hypothesis I_next : forall l, I l ->
    match lex_next (C_L K) (C_string K) l with LTok _ l' | LEof l' | LErr _ l' => I l' | LPanic => pan end.
  Hypothesis I_peek : forall l, I l ->
    match lex_peek (C_L K) (C_string K) l with LTok _ l' | LEof l' | LErr _ l' => I l' | LPanic => pan end.

  Notation sm s := (mass (p_lex s)).
  Definition good (s : pst) : Prop := I (p_lex s) /\ cinv (p_c s).
  (** Started in a good state with enough fuel, [m] does not run out of fuel, it reads at
      least [k] units of input, and it does not remove instructions. *)
  Definition out (k : nat) (s s' : pst) : Prop :=
    good s' /\ sm s' + k <= sm s /\ length (code_of s) <= length (code_of s').
  Definition safe {A} (k : nat) (m : P A) : Prop := forall s, good s -> sm s < FU ->
    match m s with
    | Ok _ s' => out k s s'
    | Err => True
    | Panic => pan
    | Fuel => False
    end.
  (** The same of a step of a loop: it reads at least one unit unless it is the last;
      [J] is an invariant of the variables of the loop. *)
  Definition stpJ {A B} (J : A -> pst -> Prop) (m : P (A + B)) : Prop := forall s, good s -> sm s < FU ->
    match m s with
    | Ok (inl a) s' => out 1 s s' /\ J a s'
    | Ok (inr _) s' => out 0 s s'
    | Err => True
    | Panic => pan
    | Fuel => False
    end.
  Definition stp {A B} (m : P (A + B)) : Prop := stpJ (fun _ _ => True) m.

  Lemma out_refl s : good s -> out 0 s s.
  Proof. intro H. split; [exact H|lia]. Qed.
  Lemma out_trans k k' s s' s'' : out k s s' -> out k' s' s'' -> out (k + k') s s''.
  Proof. intros (A & B & C) (D & E & F). split; [exact D|lia]. Qed.
  Lemma out_le k k' s s' : k' <= k -> out k s s' -> out k' s s'.
  Proof. intros H (A & B & C). split; [exact A|lia]. Qed.
  Lemma out_lt k s s' : sm s < FU -> out k s s' -> sm s' < FU.
  Proof. intros H (A & B & C). lia. Qed.

  Lemma safe_ret {A} (a : A) : safe 0 (ret a).
  Proof. intros s H1 H2. apply out_refl. exact H1. Qed.
  Lemma safe_fail {A} k : safe k (@fail A).
  Proof. intros s H1 H2. exact Logic.I. Qed.
  Lemma safe_get {A} (f : pst -> A) : safe 0 (get f).
  Proof. intros s H1 H2. apply out_refl. exact H1. Qed.
  Lemma safe_modify f : (forall s, p_lex (f s) = p_lex s) -> (forall s, p_c (f s) = p_c s) -> safe 0 (modify f).
  Proof. intros E F s H1 H2. unfold modify, out, good. rewrite E, F. split; [exact H1|lia]. Qed.
  (** An update of the control structure. *)
  Lemma out_c s c : good s -> cinv c -> length (code_of s) <= length (c_code c) -> out 0 s (w_c c s).
  Proof. intros H1 H2 H3. split; [split; [apply H1|exact H2]|]. cbn. lia. Qed.
  Lemma safe_modify_c f :
    (forall c, cinv c -> cinv (f c)) -> (forall c, length (c_code c) <= length (c_code (f c))) ->
    safe 0 (modify (fun s => w_c (f (p_c s)) s)).
  Proof. intros E F s H1 H2. unfold modify. apply out_c; [exact H1|apply E; apply H1|apply F]. Qed.
  Lemma safe_lift {A} (o : option A) : safe 0 (lift o).
  Proof. destruct o; [apply safe_ret|apply safe_fail]. Qed.
  Lemma safe_le {A} k k' (m : P A) : k' <= k -> safe k m -> safe k' m.
  Proof. intros Hk H s H1 H2. specialize (H s H1 H2). destruct (m s); auto. apply (out_le k); assumption. Qed.
  Lemma safe_bind {A B} k k' (m : P A) (f : A -> P B) : safe k m -> (forall a, safe k' (f a)) -> safe (k + k') (bind m f).
  Proof.
    intros Hm Hf s H1 H2. unfold bind. specialize (Hm s H1 H2). destruct (m s) as [a s'| | |]; auto.
    specialize (Hf a s' (proj1 Hm) (out_lt k s s' H2 Hm)). destruct (f a s'); auto. apply (out_trans k k' s s'); assumption.
  Qed.
  Lemma safe_bind0 {A B} (m : P A) (f : A -> P B) : safe 0 m -> (forall a, safe 0 (f a)) -> safe 0 (bind m f).
  Proof. exact (safe_bind 0 0 m f). Qed.
  Lemma safe_bind1 {A B} (m : P A) (f : A -> P B) : safe 1 m -> (forall a, safe 0 (f a)) -> safe 1 (bind m f).
  Proof. exact (safe_bind 1 0 m f). Qed.
  Lemma stp_bind {A B C} (m : P C) (f : C -> P (A + B)) : safe 0 m -> (forall a, stp (f a)) -> stp (bind m f).
  Proof.
    intros Hm Hf s H1 H2. unfold bind. specialize (Hm s H1 H2). destruct (m s) as [a s'| | |]; auto.
    specialize (Hf a s' (proj1 Hm) (out_lt 0 s s' H2 Hm)).
    destruct (f a s') as [[x|x] s''| | |]; auto.
    - split; [|exact Logic.I]. apply (out_trans 0 1 s s'); [exact Hm|apply Hf].
    - apply (out_trans 0 0 s s'); assumption.
  Qed.
  Lemma stp_safe {A B} (m : P (A + B)) : safe 1 m -> stp m.
  Proof.
    intros H s H1 H2. specialize (H s H1 H2). destruct (m s) as [[x|x] s'| | |]; auto.
    apply (out_le 1); [lia|exact H].
  Qed.
  Lemma stp_bind1 {A B C} (m : P C) (f : C -> P (A + B)) : safe 1 m -> (forall a, safe 0 (f a)) -> stp (bind m f).
  Proof. intros. apply stp_safe. apply safe_bind1; assumption. Qed.
  Lemma stp_end {A B} (b : B) : stp (@ret (A + B) (inr b)).
  Proof. intros s H1 H2. apply out_refl. exact H1. Qed.
  Lemma stp_fail {A B} : stp (@fail (A + B)).
  Proof. intros s H1 H2. exact Logic.I. Qed.
  Lemma safe_loop_f {A B} (J : A -> pst -> Prop) (step : A -> P (A + B)) :
    (forall a s, J a s -> good s -> sm s < FU ->
       match step a s with
       | Ok (inl a) s' => out 1 s s' /\ J a s'
       | Ok (inr _) s' => out 0 s s'
       | Err => True
       | Panic => pan
       | Fuel => False
       end) ->
    forall f a s, J a s -> good s -> sm s < FU -> sm s < f ->
    match loop f step a s with
    | Ok _ s' => out 0 s s'
    | Err => True
    | Panic => pan
    | Fuel => False
    end.
  Proof.
    intros H. induction f as [|f IH]; intros a s HJ H1 H2 H3; [lia|].
    cbn [loop]. unfold bind at 1. specialize (H a s HJ H1 H2).
    destruct (step a s) as [[x|x] s'| | |]; auto.
    destruct H as [G G']. specialize (IH x s' G' (proj1 G) (out_lt 1 s s' H2 G)).
    assert (M : sm s' < f) by (destruct G as (_ & G & _); lia). specialize (IH M).
    destruct (loop f step x s'); auto. apply (out_le 1); [lia|]. apply (out_trans 1 0 s s'); assumption.
  Qed.
  Lemma safe_loop {A B} (step : A -> P (A + B)) a : (forall a, stp (step a)) -> safe 0 (loop FU step a).
  Proof.
    intros H s H1 H2. apply (safe_loop_f (fun _ _ => True)); auto. intros a' s' _. apply H.
  Qed.

  Lemma out_lex l k s : good s -> I l -> mass l + k <= sm s -> out k s (w_lex l s).
  Proof. intros (A & B) H1 H2. split; [split; assumption|]. cbn. lia. Qed.
  Lemma safe_next : safe 1 (next K).
  Proof.
    intros s H1 H2. unfold next, unwrap_next. pose proof (I_next _ (proj1 H1)) as A.
    pose proof (next_mass (C_L K) (C_string K) (p_lex s)) as B.
    destruct (lex_next _ _ _); auto. apply out_lex; [exact H1|exact A|lia].
  Qed.
  Lemma safe_next0 : safe 0 (next K).
  Proof. apply (safe_le 1); [lia|apply safe_next]. Qed.
  Lemma safe_peek : safe 0 (peek K).
  Proof.
    intros s H1 H2. unfold peek. pose proof (I_peek _ (proj1 H1)) as A.
    pose proof (peek_mass (C_L K) (C_string K) (p_lex s)) as B.
    destruct (lex_peek _ _ _); auto; (apply out_lex; [exact H1|exact A|lia]).
  Qed.

  Lemma register_match_ok n s : good s -> out 0 s (snd (register_match n s)).
  Proof.
    intros H. unfold register_match. pose proof (mark_in_length n (p_m s) (code_of s)) as E.
    destruct (mark_in _ _ _) as [[ok c] m]. cbn in E. split; [split; [apply H|]|cbn; lia].
    cbn. apply (cinv_same (p_c s)); [cbn; lia|reflexivity..|apply H].
  Qed.
  Lemma register_matches_ok : forall ns s, good s -> out 0 s (snd (register_matches ns s)).
  Proof.
    induction ns as [|n ns IH]; intros s H; [apply out_refl; exact H|]. cbn [register_matches].
    pose proof (register_match_ok n s H) as E. destruct (register_match n s) as [ok s1].
    specialize (IH s1 (proj1 E)). destruct (register_matches ns s1) as [ok' s2].
    exact (out_trans 0 0 _ _ _ E IH).
  Qed.
  Lemma safe_tokenize bs : safe 0 (tokenize K bs).
  Proof.
    intros s H1 H2. unfold tokenize. destruct (tokenize_string _ _ _); [|exact Logic.I].
    pose proof (register_matches_ok (match_refs v) s H1) as E. destruct (register_matches _ s) as [ok s'].
    destruct (tokenize_string _ _ _); [|exact Logic.I]. exact E.
  Qed.
  Lemma safe_register n b : safe 0 (register K n b).
  Proof.
    intros s H1 H2. unfold register. destruct (register_variable _ _ _ _ _) as [[v vs]|]; [|exact Logic.I].
    split; [exact H1|cbn; lia].
  Qed.
  Lemma safe_on_c f :
    (forall c c', f c = Some c' -> cinv c -> cinv c' /\ length (c_code c) <= length (c_code c')) -> safe 0 (on_c f).
  Proof.
    intros H s H1 H2. unfold on_c. destruct (f (p_c s)) eqn:E; [|exact Logic.I].
    destruct (H _ _ E (proj2 H1)). apply out_c; assumption.
  Qed.
  Lemma safe_on_v f : safe 0 (on_v f).
  Proof. intros s H1 H2. unfold on_v. destruct (f (p_v s)); [|exact Logic.I]. split; [exact H1|cbn; lia]. Qed.
  Lemma safe_expr : safe 0 (parse_expr K).
  Proof.
    unfold parse_expr. apply safe_bind0; [apply safe_next0|]. intro t. apply safe_bind0; [apply safe_lift|].
    intros src s H1 H2. unfold compile_text. destruct (ExprTok.tokenize _ _ _) as [ts|]; [|exact Logic.I].
    destruct (Expr.parse ts) eqn:E; [apply out_refl; exact H1|exact Logic.I|]. destruct (parse_no_panic ts E).
  Qed.
  Lemma cinv_emit l c : cinv c -> cinv (emit l c) /\ length (c_code c) <= length (c_code (emit l c)).
  Proof.
    intro H. assert (Ln : length (c_code c) <= length (c_code (emit l c))) by (cbn; rewrite app_length; lia).
    split; [|exact Ln]. apply (cinv_same c); auto.
  Qed.
  Lemma safe_push l : safe 0 (push l).
  Proof. unfold push. apply safe_modify_c; intros; [apply cinv_emit; assumption|cbn; rewrite app_length; lia]. Qed.

  Lemma safe_read_args hs dflt :
    Forall (fun h : handler => forall w a, safe 0 (snd h w a)) hs -> (forall t a, safe 0 (dflt t a)) ->
    safe 0 (read_args K FU hs dflt).
  Proof.
    intros Hh Hd. unfold read_args. apply safe_loop. intro a. unfold step_args.
    apply stp_bind1; [apply safe_next|]. intro t. destruct t; try apply Hd.
    assert (D : forall hs, Forall (fun h : handler => forall w a, safe 0 (snd h w a)) hs ->
      match dispatch hs w with Some h => forall a, safe 0 (h a) | None => True end).
    { clear. induction hs as [|[f h] hs IH]; intro H; [exact Logic.I|]. inversion H as [|? ? X Y]; subst. cbn.
      destruct (f w); [intro; apply X|exact (IH Y)]. }
    specialize (D hs Hh). destruct (dispatch hs w); [|apply Hd].
    apply safe_bind0; [apply D|]. intro. apply safe_ret.
  Qed.
  Lemma safe_more {A} (m : P A) f : safe 0 m -> safe 0 (more m f).
  Proof. intro H. apply safe_bind0; [exact H|]. intro. apply safe_ret. Qed.
  Lemma safe_done {A} (m : P A) f : safe 0 m -> safe 0 (done m f).
  Proof. intro H. apply safe_bind0; [exact H|]. intro. apply safe_ret. Qed.

  Create HintDb safe.
  Ltac sf_step :=
    match goal with
    | |- forall _, _ => intro
    | |- safe _ (let (_, _) := ?x in _) => destruct x
    | |- safe _ fail => apply safe_fail
    | |- safe 0 (ret _) => apply safe_ret
    | |- safe 0 (get _) => apply safe_get
    | |- safe 0 (lift _) => apply safe_lift
    | |- safe 0 (modify _) => apply safe_modify; reflexivity
    | |- safe 0 (push _) => apply safe_push
    | |- safe 0 (bind _ _) => apply safe_bind0
    | |- safe 1 (bind _ _) => apply safe_bind1
    | |- safe 0 (read_args _ _ _ _) => apply safe_read_args
    | |- Forall _ [] => apply Forall_nil
    | |- Forall _ (_ :: _) => apply Forall_cons; [cbn [snd]|]
    | |- safe 0 (loop _ _ _) => apply safe_loop
    | |- safe 0 (more _ _) => apply safe_more
    | |- safe 0 (done _ _) => apply safe_done
    | |- safe 0 (next _) => apply safe_next0
    | |- safe 1 (next _) => apply safe_next
    | |- safe 0 (peek _) => apply safe_peek
    | |- stp fail => apply stp_fail
    | |- stp (ret (inr _)) => apply stp_end
    | |- stp (bind (next _) _) => apply stp_bind1
    | |- stp (bind _ _) => apply stp_bind
    | |- safe _ _ => solve [auto with safe]
    | |- safe _ (match ?x with _ => _ end) => destruct x
    | |- stp (match ?x with _ => _ end) => destruct x
    end.
  Ltac sf := repeat sf_step.
  Ltac sfu := intros; match goal with |- safe _ ?m => let h := head_of m in unfold h end; sf
  with head_of m := match m with ?f _ => head_of f | _ => m end.

  Hint Resolve safe_tokenize safe_register safe_on_v safe_expr : safe.

  Lemma safe_expect t : safe 0 (expect K t). Proof. unfold expect. sf. Qed.
  Lemma safe_number n : safe 0 (number K n). Proof. unfold number. sf. Qed.
  Lemma safe_static_string : safe 0 (static_string K FU). Proof. unfold static_string. sf. Qed.
  Lemma safe_static_strings : safe 0 (static_strings K FU). Proof. unfold static_strings. sf. Qed.
  Hint Resolve safe_expect safe_number safe_static_string safe_static_strings : safe.
  Lemma safe_string_tok t : safe 0 (string_tok K t). Proof. unfold string_tok. sf. Qed.
  Lemma safe_string_list b : safe 0 (string_list K FU b). Proof. unfold string_list. sf. Qed.
  Hint Resolve safe_string_tok safe_string_list : safe.
  Lemma safe_string : safe 0 (string K FU). Proof. unfold string. sf. Qed.
  Lemma safe_strings_tok t : safe 0 (strings_tok K FU t). Proof. unfold strings_tok. sf. Qed.
  Hint Resolve safe_string safe_strings_tok : safe.
  Lemma safe_strings : safe 0 (strings K FU). Proof. unfold strings. sf. Qed.
  Lemma safe_need c : safe 0 (need K c). Proof. unfold need. sf. Qed.
  Hint Resolve safe_strings safe_need : safe.
  Lemma safe_va n c : safe 0 (va K n c). Proof. unfold va. sf. Qed.
  Lemma safe_reset : safe 0 reset. Proof. unfold reset. sf. Qed.
  Lemma safe_push_match : safe 0 push_match.
  Proof. unfold push_match. apply safe_modify; intro s; destruct (p_m s) as [|[ps v] ms]; reflexivity. Qed.
  Hint Resolve safe_va safe_reset safe_push safe_push_match : safe.
  Lemma safe_match_type w : safe 0 (match_type K w). Proof. unfold match_type. sf. Qed.
  Lemma safe_comparator : safe 0 (parse_comparator K FU). Proof. unfold parse_comparator. sf. Qed.
  Lemma safe_validate m k : safe 0 (validate_match K m k). Proof. unfold validate_match. sf. Qed.
  Lemma safe_check b : safe 0 (check K b). Proof. unfold check. sf. Qed.
  Lemma safe_variable_name t b : safe 0 (variable_name K t b). Proof. unfold variable_name. sf. Qed.
  Lemma safe_ignore_instruction : safe 0 (ignore_instruction K FU). Proof. unfold ignore_instruction. sf. Qed.
  Lemma safe_ignore_test : safe 0 (ignore_test K FU). Proof. unfold ignore_test. sf. Qed.
  Hint Resolve safe_match_type safe_comparator safe_validate safe_check safe_variable_name
    safe_ignore_instruction safe_ignore_test : safe.

  Lemma safe_h_match n l w a : safe 0 (snd (h_match K n l) w a). Proof. cbn [h_match snd]. sf. Qed.
  Lemma safe_h_comparator n w a : safe 0 (snd (h_comparator K FU n) w a). Proof. cbn [h_comparator snd]. sf. Qed.
  Lemma safe_h_index n c w a : safe 0 (snd (h_index K n c) w a). Proof. cbn [h_index snd]. sf. Qed.
  Lemma safe_h_flag n c x f w a : safe 0 (snd (h_flag K n c x f) w a). Proof. cbn [h_flag snd]. sf. Qed.
  Lemma safe_h_string n c x f w a : safe 0 (snd (h_string K FU n c x f) w a). Proof. cbn [h_string snd]. sf. Qed.
  Lemma safe_h_strings n c x f w a : safe 0 (snd (h_strings K FU n c x f) w a). Proof. cbn [h_strings snd]. sf. Qed.
  Lemma safe_h_last n c w a : safe 0 (snd (h_last K n c) w a). Proof. apply safe_h_flag. Qed.
  Lemma safe_h_mime n c w a : safe 0 (snd (h_mime K n c) w a). Proof. apply safe_h_flag. Qed.
  Lemma safe_h_any n c w a : safe 0 (snd (h_any K n c) w a). Proof. apply safe_h_flag. Qed.
  Lemma safe_h_part l w a : safe 0 (snd (h_part K l) w a). Proof. cbn [h_part snd]. sf. Qed.
  Lemma safe_h_mimeopts n w a : safe 0 (snd (h_mimeopts K FU n) w a). Proof. cbn [h_mimeopts snd]. sf. Qed.
  Lemma safe_h_modifier l w a : safe 0 (snd (h_modifier l) w a). Proof. cbn [h_modifier snd]. sf. Qed.
  Lemma safe_h_replace w a : safe 0 (snd (h_replace K) w a). Proof. cbn [h_replace snd]. sf. Qed.
  Lemma safe_h_local w a : safe 0 (snd h_local w a). Proof. cbn [h_local snd]. sf. Qed.
  Hint Resolve safe_h_match safe_h_comparator safe_h_index safe_h_flag safe_h_string safe_h_strings safe_h_last
    safe_h_mime safe_h_any safe_h_part safe_h_mimeopts safe_h_modifier safe_h_replace safe_h_local : safe.
  Lemma safe_names_keys f t a : safe 0 (names_keys K FU f t a). Proof. unfold names_keys. sf. Qed.
  Lemma safe_timezone : safe 0 (timezone K). Proof. unfold timezone. sf. Qed.
  Lemma safe_date_tok t : safe 0 (date_tok K t). Proof. unfold date_tok. sf. Qed.
  Lemma safe_envelope_name c : safe 0 (envelope_name K c). Proof. unfold envelope_name. sf. Qed.
  Hint Resolve safe_names_keys safe_timezone safe_date_tok safe_envelope_name : safe.
  Lemma safe_envelope_list t : safe 0 (envelope_list K FU t). Proof. unfold envelope_list. sf. Qed.
  Lemma safe_envelope_caps l : safe 0 (envelope_caps K l). Proof. induction l; cbn [envelope_caps]; sf. Qed.
  Lemma safe_register_all b l : safe 0 (register_all K l b). Proof. induction l; cbn [register_all]; sf. Qed.
  Lemma safe_two_keys t a : safe 0 (two_keys K FU t a). Proof. unfold two_keys. sf. Qed.
  Lemma safe_the_string t a : safe 0 (the_string K t a). Proof. unfold the_string. sf. Qed.
  Hint Resolve safe_envelope_list safe_envelope_caps safe_register_all safe_two_keys safe_the_string : safe.

  Lemma safe_test_address : safe 0 (test_address K FU). Proof. unfold test_address. sf. Qed.
  Lemma safe_test_header : safe 0 (test_header K FU). Proof. unfold test_header. sf. Qed.
  Lemma safe_test_body : safe 0 (test_body K FU). Proof. unfold test_body. sf. Qed.
  Lemma safe_test_date : safe 0 (test_date K FU). Proof. unfold test_date. sf. Qed.
  Lemma safe_test_currentdate : safe 0 (test_currentdate K FU). Proof. unfold test_currentdate. sf. Qed.
  Lemma dispatch_safe hs w : Forall (fun h : handler => forall w a, safe 0 (snd h w a)) hs ->
    match dispatch hs w with Some h => forall a, safe 0 (h a) | None => True end.
  Proof.
    induction hs as [|[f h] hs IH]; intro H; [exact Logic.I|]. inversion H as [|? ? X Y]; subst. cbn.
    destruct (f w); [intro; apply X|exact (IH Y)].
  Qed.
  Lemma safe_test_duplicate : safe 0 (test_duplicate K FU).
  Proof.
    unfold test_duplicate. apply safe_bind0; [|intro; sf]. apply safe_loop. intro a.
    apply stp_bind; [sf|]. intros [ | |t]; [sf..|]. destruct t; try solve [sf].
    assert (D : Forall (fun h : handler => forall w a, safe 0 (snd h w a)) (duplicate_tags K FU)).
    { unfold duplicate_tags. sf. }
    apply (dispatch_safe _ w) in D. destruct (dispatch _ w); sf; auto.
  Qed.
  Lemma safe_test_envelope : safe 0 (test_envelope K FU). Proof. unfold test_envelope. sf. Qed.
  Lemma safe_test_environment : safe 0 (test_environment K FU). Proof. unfold test_environment. sf. Qed.
  Lemma safe_test_exists : safe 0 (test_exists K FU). Proof. unfold test_exists. sf. Qed.
  Lemma safe_test_hasflag : safe 0 (test_hasflag K FU). Proof. unfold test_hasflag. sf. Qed.
  Lemma safe_test_metadata : safe 0 (test_metadata K FU). Proof. unfold test_metadata. sf. Qed.
  Lemma safe_test_nmc : safe 0 (test_notify_method_capability K FU). Proof. unfold test_notify_method_capability. sf. Qed.
  Lemma safe_test_servermetadata : safe 0 (test_servermetadata K FU). Proof. unfold test_servermetadata. sf. Qed.
  Lemma safe_test_size : safe 0 (test_size K). Proof. unfold test_size. sf. Qed.
  Lemma safe_test_spamtest : safe 0 (test_spamtest K FU). Proof. unfold test_spamtest. sf. Qed.
  Lemma safe_test_virustest : safe 0 (test_virustest K FU). Proof. unfold test_virustest. sf. Qed.
  Lemma safe_test_specialuse : safe 0 (test_specialuse K FU). Proof. unfold test_specialuse. sf. Qed.
  Lemma safe_test_string : safe 0 (test_string K FU). Proof. unfold test_string. sf. Qed.
  Lemma safe_test_ihave : safe 0 (test_ihave K FU). Proof. unfold test_ihave. sf. Qed.
  Lemma safe_test_metadataexists : safe 0 (test_metadataexists K FU). Proof. unfold test_metadataexists. sf. Qed.
  Lemma safe_test_convert : safe 0 (test_convert K FU). Proof. unfold test_convert. sf. Qed.
  Hint Resolve safe_test_address safe_test_header safe_test_body safe_test_date safe_test_currentdate
    safe_test_duplicate safe_test_envelope safe_test_environment safe_test_exists safe_test_hasflag
    safe_test_metadata safe_test_nmc safe_test_servermetadata safe_test_size safe_test_spamtest
    safe_test_virustest safe_test_specialuse safe_test_string safe_test_ihave safe_test_metadataexists
    safe_test_convert : safe.
  Lemma find_word_in {A} w (l : list (String.string * A)) (Q : A -> Prop) :
    Forall (fun p => Q (snd p)) l -> match find_word w l with Some x => Q x | None => True end.
  Proof.
    induction 1 as [|[n x] l H H' IH]; cbn; [exact Logic.I|]. destruct (word n w); [exact H|exact IH].
  Qed.
  Lemma safe_tests : Forall (fun p => safe 0 (snd (snd p))) (tests K FU).
  Proof.
    unfold tests. repeat (apply Forall_cons; [cbn [snd]|]); try apply Forall_nil; try solve [auto with safe];
      match goal with |- safe _ (?f _ _) => unfold f end; sf.
  Qed.
  Lemma safe_leaf w : safe 0 (leaf K FU w).
  Proof.
    unfold leaf. destruct (word _ w); [sf|].
    pose proof (find_word_in w (tests K FU) (fun x => safe 0 (snd x)) safe_tests) as H.
    destruct (find_word w (tests K FU)) as [[c m]|]; [|sf]. cbn [snd] in H. sf; assumption.
  Qed.
  Lemma safe_close_parens n : safe 0 (close_parens K n). Proof. induction n; cbn [close_parens]; sf. Qed.
  Hint Resolve safe_leaf safe_close_parens : safe.
  (** *** The control structure *)

  Definition tj (st : tstate) (s : pst) : Prop :=
    below (length (code_of s)) (t_jmps (fst (fst st))) /\ Forall (fun b => below (length (code_of s)) (t_jmps b)) (snd (fst st)).
  Lemma tj_out k s s' b stk x y : out k s s' -> tj (b, stk, x) s -> tj (b, stk, y) s'.
  Proof.
    intros (_ & _ & H) [A B]. split; cbn in *; [apply (below_le _ _ _ H A)|].
    revert B. apply Forall_impl. intro. apply below_le. exact H.
  Qed.
  Lemma safe_after b stk x y i s : tj (b, stk, y) s -> good s -> sm s < FU ->
    match after_test K b stk x y i s with
    | Ok (inl a) s' => out 0 s s' /\ tj a s'
    | Ok (inr _) s' => out 0 s s'
    | Err => True
    | Panic => pan
    | Fuel => False
    end.
  Proof.
    intros J H1 H2. assert (G : safe 0 (after_test K b stk x y i)) by (unfold after_test; sf).
    specialize (G s H1 H2). destruct (after_test K b stk x y i s) as [[a|a] s'| | |] eqn:E; auto.
    split; [exact G|]. revert E. unfold after_test, bind. destruct (close_parens K (t_p b) s); try discriminate.
    destruct (push _ s0) as [? s1| | |]; try discriminate. destruct stk; [discriminate|]. intro E. injection E as <- <-.
    exact (tj_out _ _ _ b _ y y G J).
  Qed.
  Lemma test_step_ok st s : tj st s -> good s -> sm s < FU ->
    match test_step K FU st s with
    | Ok (inl a) s' => out 1 s s' /\ tj a s'
    | Ok (inr _) s' => out 0 s s'
    | Err => True
    | Panic => pan
    | Fuel => False
    end.
  Proof.
    destruct st as [[b stk] is_not]. intros J H1 H2. unfold test_step. unfold bind at 1.
    pose proof (safe_next s H1 H2) as N. destruct (next K s) as [t s1| | |]; auto.
    unfold bind at 1, reset at 1, modify at 1. set (s2 := w_params [] s1).
    assert (N2 : out 1 s s2) by exact N.
    assert (J2 : tj (b, stk, is_not) s2) by exact (tj_out _ _ _ b stk is_not is_not N2 J).
    clearbody s2. clear N s1 J.
    assert (H1' := proj1 N2). assert (H2' : sm s2 < FU) by exact (out_lt 1 s s2 H2 N2).
    (* the rest of the step reads no less than nothing *)
    assert (W : forall m : P (tstate + unit),
      match m s2 with
      | Ok (inl a) s' => out 0 s2 s' /\ tj a s' | Ok (inr _) s' => out 0 s2 s' | Err => True | Panic => pan | Fuel => False
      end ->
      match m s2 with
      | Ok (inl a) s' => out 1 s s' /\ tj a s' | Ok (inr _) s' => out 0 s s' | Err => True | Panic => pan | Fuel => False
      end).
    { intros m X. destruct (m s2) as [[a|a] s'| | |]; auto.
      - split; [exact (out_trans 1 0 _ _ _ N2 (proj1 X))|apply X].
      - apply (out_le 1); [lia|]. exact (out_trans 1 0 _ _ _ N2 X). }
    assert (AT : forall x y i s', out 0 s2 s' -> match after_test K b stk x y i s' with
      | Ok (inl a) s' => out 0 s2 s' /\ tj a s' | Ok (inr _) s' => out 0 s2 s' | Err => True | Panic => pan | Fuel => False
      end).
    { intros x y i s' O'. pose proof (safe_after b stk x y i s' (tj_out _ _ _ _ _ _ _ O' J2) (proj1 O') (out_lt 0 s2 s' H2' O')) as G.
      destruct (after_test K b stk x y i s') as [[a|a] s''| | |]; auto.
      - split; [exact (out_trans 0 0 _ _ _ O' (proj1 G))|apply G].
      - exact (out_trans 0 0 _ _ _ O' G). }
    apply (W (match t with _ => _ end)). clear W N2 H1 H2.
    destruct t; try exact Logic.I.
    - (* ( *)
      split; [apply out_refl; exact H1'|exact J2].
    - (* ) *)
      destruct (t_p b).
      + destruct stk as [|prev stk']; [exact Logic.I|]. unfold bind at 1. unfold inside.
        rewrite (below_inside (t_jmps b) (p_c s2) (proj1 J2)). unfold bind at 1. unfold modify at 1.
        set (s3 := w_c _ s2).
        assert (O3 : out 0 s2 s3).
        { apply out_c; [exact H1'| |cbn; rewrite patch_length; lia].
          apply (cinv_same (p_c s2)); [cbn; rewrite patch_length; lia|reflexivity..|apply H1']. }
        pose proof (tj_out _ _ _ b _ is_not is_not O3 J2) as [_ J3]. cbn in J3. inversion J3; subst.
        destruct stk'; [exact O3|]. split; [exact O3|]. split; assumption.
      + split; [apply out_refl; exact H1'|exact J2].
    - (* , *)
      unfold bind at 1. unfold get at 1. destruct (negb _ && _); [|exact Logic.I].
      unfold bind at 1. pose proof (safe_peek s2 H1' H2') as G. destruct (peek K s2) as [k s3| | |]; auto.
      destruct (word_next k); [|exact Logic.I]. unfold bind at 1.
      pose proof (safe_push [if t_all b then IxJz (C_umax K) else IxJnz (C_umax K)] s3 (proj1 G) (out_lt 0 s2 s3 H2' G)) as G'.
      pose proof (out_trans 0 0 _ _ _ G G') as G2.
      cbn [push modify] in *. split; [exact G2|].
      pose proof (tj_out _ _ _ b stk is_not is_not G2 J2) as [A B]. cbn in A, B |- *. split; [|exact B].
      apply Forall_app. split; [exact A|]. constructor; [|constructor].
      unfold emit. cbn. rewrite app_length. cbn. destruct G as (_ & _ & G). cbn in G. lia.
    - (* a word *)
      destruct (word "not" w).
      { unfold bind at 1. pose proof (safe_peek s2 H1' H2') as G. destruct (peek K s2) as [k s3| | |]; auto.
        destruct (word_next k); [|exact Logic.I]. split; [exact G|]. exact (tj_out _ _ _ _ _ _ _ G J2). }
      destruct (oneof _ w).
      { destruct (Nat.ltb _ _); [|exact Logic.I]. unfold bind at 1.
        pose proof (safe_expect TParenOpen s2 H1' H2') as G. destruct (expect K TParenOpen s2) as [k s3| | |]; auto.
        split; [exact G|]. pose proof (tj_out _ _ _ _ _ _ is_not G J2) as [A B]. split; [constructor|]. constructor; assumption. }
      destruct (word "true" w); [apply AT; apply out_refl; exact H1'|].
      destruct (word "false" w); [apply AT; apply out_refl; exact H1'|].
      unfold bind at 1. pose proof (safe_leaf w s2 H1' H2') as G. destruct (leaf K FU w s2) as [i s3| | |]; auto.
      apply AT. exact G.
    - unfold bind at 1. pose proof (safe_ignore_test s2 H1' H2') as G. destruct (ignore_test K FU s2) as [i s3| | |]; auto.
      apply AT. exact G.
  Qed.
  Lemma safe_parse_test : safe 0 (parse_test K FU).
  Proof.
    unfold parse_test. apply safe_bind0; [|sf]. intros s H1 H2.
    apply (safe_loop_f tj); auto; [|split; constructor]. intros a s' J G1 G2. apply test_step_ok; assumption.
  Qed.
  Hint Resolve safe_parse_test : safe.

  Lemma safe_cmd_keep : safe 0 (cmd_keep K FU). Proof. unfold cmd_keep. sf. Qed.
  Lemma safe_cmd_fileinto : safe 0 (cmd_fileinto K FU). Proof. unfold cmd_fileinto. sf. Qed.
  Lemma safe_cmd_redirect : safe 0 (cmd_redirect K FU). Proof. unfold cmd_redirect. sf. Qed.
  Lemma safe_cmd_replace : safe 0 (cmd_replace K FU). Proof. unfold cmd_replace. sf. Qed.
  Lemma safe_cmd_enclose : safe 0 (cmd_enclose K FU). Proof. unfold cmd_enclose. sf. Qed.
  Lemma safe_cmd_extracttext : safe 0 (cmd_extracttext K FU). Proof. unfold cmd_extracttext. sf. Qed.
  Lemma safe_cmd_convert : safe 0 (cmd_convert K FU). Proof. unfold cmd_convert. sf. Qed.
  Lemma safe_cmd_addheader : safe 0 (cmd_addheader K FU). Proof. unfold cmd_addheader. sf. Qed.
  Lemma safe_cmd_deleteheader : safe 0 (cmd_deleteheader K FU). Proof. unfold cmd_deleteheader. sf. Qed.
  Lemma safe_cmd_set : safe 0 (cmd_set K FU). Proof. unfold cmd_set. sf. Qed.
  Lemma safe_cmd_let : safe 0 (cmd_let K). Proof. unfold cmd_let. sf. Qed.
  Lemma safe_cmd_notify : safe 0 (cmd_notify K FU). Proof. unfold cmd_notify. sf. Qed.
  Lemma safe_cmd_vacation : safe 0 (cmd_vacation K FU). Proof. unfold cmd_vacation. sf. Qed.
  Lemma safe_cmd_flags w : safe 0 (cmd_flags K FU w). Proof. unfold cmd_flags. sf. Qed.
  Lemma safe_cmd_include : safe 0 (cmd_include K FU). Proof. unfold cmd_include. sf. Qed.
  Lemma safe_add_cap1 l c : safe 0 (add_cap1 K l c). Proof. unfold add_cap1. sf. Qed.
  Hint Resolve safe_add_cap1 safe_cmd_keep safe_cmd_fileinto safe_cmd_redirect safe_cmd_replace safe_cmd_enclose
    safe_cmd_extracttext safe_cmd_convert safe_cmd_addheader safe_cmd_deleteheader safe_cmd_set safe_cmd_let
    safe_cmd_notify safe_cmd_vacation safe_cmd_flags safe_cmd_include : safe.
  Lemma safe_add_cap l c : safe 0 (add_cap K l c). Proof. unfold add_cap. sf. Qed.
  Hint Resolve safe_add_cap : safe.
  Lemma safe_require_list : safe 0 (require_list K FU). Proof. unfold require_list. sf. Qed.
  Lemma safe_globals l : safe 0 (globals K l). Proof. induction l; cbn [globals]; sf. Qed.
  Lemma safe_tag_name : safe 0 (tag_name K). Proof. unfold tag_name. sf. Qed.
  Lemma safe_unknown n : safe 0 (unknown K FU n). Proof. unfold unknown. sf. Qed.
  Hint Resolve safe_require_list safe_globals safe_tag_name safe_unknown : safe.
  Lemma blk_in_break n ps b : below n ps -> blk_in n b -> blk_in n (with_break (b_break b ++ ps) b).
  Proof. intros H [A B]. split; [exact A|]. apply Forall_app. split; assumption. Qed.
  Lemma find_label_in m n : forall l pops pos pops' l', pos < m -> find_label n pops pos l = Some (pops', l') ->
    Forall (blk_in m) l -> Forall (blk_in m) l' /\ map b_start l' = map b_start l.
  Proof.
    induction l as [|b l IH]; intros pops pos pops' l' Hp E F; [discriminate|]. cbn in E. inversion F; subst.
    destruct (is_for b); [destruct (label_eqb (b_label b) n)|].
    - injection E as <- <-. split; [|reflexivity]. constructor; [|assumption].
      apply blk_in_break; [constructor; [exact Hp|constructor]|assumption].
    - destruct (find_label n (pops + 1) pos l) as [[p l1]|] eqn:E1; [|discriminate]. injection E as <- <-.
      destruct (IH _ _ _ _ Hp E1 H2) as [A B]. split; [constructor; assumption|cbn; congruence].
    - destruct (find_label n pops pos l) as [[p l1]|] eqn:E1; [|discriminate]. injection E as <- <-.
      destruct (IH _ _ _ _ Hp E1 H2) as [A B]. split; [constructor; assumption|cbn; congruence].
  Qed.
  Lemma find_loop_in m : forall l pos f l', find_loop pos l = Some (f, l') -> (if f : bool then pos + 1 else pos) < m ->
    Forall (blk_in m) l -> Forall (blk_in m) l' /\ map b_start l' = map b_start l.
  Proof.
    induction l as [|b l IH]; intros pos f l' E Hp F; [discriminate|]. cbn in E. inversion F; subst.
    destruct (is_loop b).
    - injection E as <- <-. split; [|reflexivity]. constructor; [|assumption].
      apply blk_in_break; [constructor; [exact Hp|constructor]|assumption].
    - destruct (find_loop pos l) as [[p l1]|] eqn:E1; [|discriminate]. injection E as <- <-.
      destruct (IH _ _ _ E1 Hp H2) as [A B]. split; [constructor; assumption|cbn; congruence].
  Qed.
  Lemma starts_in m (l l' : list blk) : map b_start l' = map b_start l ->
    Forall (fun b => b_start b < m) l -> Forall (fun b => b_start b < m) l'.
  Proof. intros E F. apply (Forall_map b_start (fun n => n < m)). rewrite E. apply Forall_map. exact F. Qed.
  Lemma cinv_blocks c bs code : length (c_code c) <= length code ->
    Forall (blk_in (length code)) bs -> map b_start bs = map b_start (blocks c) -> cinv c ->
    cinv (with_code code (with_blocks bs c)) /\ length (c_code c) <= length (c_code (with_code code (with_blocks bs c))).
  Proof.
    intros H1 H2 H3 (A & B & C). destruct bs as [|b stk]; [discriminate|]. split; [|exact H1].
    split; [exact H2|]. cbn in *. injection H3 as _ H3. split; [apply (starts_in _ _ _ H3)|].
    - revert B. apply Forall_impl. intros x Hx. cbn in *. lia.
    - destruct (c_last c); auto; lia.
  Qed.
  Lemma blocks_le c n : length (c_code c) <= n -> cinv c -> Forall (blk_in n) (blocks c).
  Proof. intros H [A _]. revert A. apply Forall_impl. intro. apply blk_in_le. exact H. Qed.
  Lemma do_break_in l c c' : do_break (C_umax K) l c = Some c' -> cinv c -> cinv c' /\ length (c_code c) <= length (c_code c').
  Proof.
    unfold do_break. intros E H. destruct l as [n|].
    - destruct (find_label _ _ _ _) as [[p bs]|] eqn:F; [|discriminate]. injection E as <-.
      destruct (find_label_in (length (c_code c) + 2) n (blocks c) 0 (length (c_code c) + 1) p bs ltac:(lia) F) as [A B]; [apply blocks_le; [lia|exact H]|].
      assert (Ec : c_code (with_blocks bs c) = c_code c) by (destruct bs; reflexivity).
      unfold emit. rewrite Ec. apply cinv_blocks; [rewrite app_length; lia| |exact B|exact H].
      rewrite app_length. cbn. exact A.
    - destruct (find_loop _ _) as [[f bs]|] eqn:F; [|discriminate]. injection E as <-.
      set (em := (if f then [IxForEveryPartPop 1] else []) ++ [IxJmp (C_umax K)]).
      destruct (find_loop_in (length (c_code c) + length em) _ _ _ _ F) as [A B];
        [destruct f; cbn; lia|apply blocks_le; [lia|exact H]|].
      assert (Ec : c_code (with_blocks bs c) = c_code c) by (destruct bs; reflexivity).
      unfold emit. rewrite Ec. apply cinv_blocks; [rewrite app_length; lia| |exact B|exact H].
      rewrite app_length. exact A.
  Qed.
  Lemma open_in t l c c' : open (C_lim K) t l c = Some c' -> 0 < length (c_code c) -> cinv c ->
    cinv c' /\ length (c_code c) <= length (c_code c').
  Proof.
    unfold open. intros E N (A & B & C). destruct (Nat.ltb _ _); [|discriminate]. injection E as <-. split; [|reflexivity].
    unfold cinv, blocks in *. cbn. inversion A; subst. split; [|split].
    - constructor; [split; constructor|]. constructor; [exact H1|exact H2].
    - constructor; [cbn; lia|exact B].
    - exact C.
  Qed.
  Lemma close_in clear r c c' : close (C_umax K) clear r c = Some c' -> cinv c ->
    cinv c' /\ length (c_code c) <= length (c_code c').
  Proof.
    unfold close. intros E (A & B & C). destruct (c_stack c) as [|prev stk] eqn:S; [discriminate|].
    unfold blocks in A. rewrite S in A. inversion A as [|? ? A1 A2]; subst. inversion A2 as [|? ? A3 A4]; subst.
    inversion B as [|? ? B1 B2]; subst.
    assert (FIN : forall code prev' last, length (c_code c) <= length code -> blk_in (length code) prev' ->
      match last with BIf | BElsIf => 0 < length code | _ => True end ->
      Some {| c_code := code; c_blk := prev'; c_stack := stk; c_last := last; c_includes := c_includes c |} = Some c' ->
      cinv c' /\ length (c_code c) <= length (c_code c')).
    { intros code prev' last H1 H2 H3 E'. injection E' as <-. split; [|exact H1]. split; [|split].
      - constructor; [exact H2|]. cbn. revert A4. apply Forall_impl. intro. apply blk_in_le. exact H1.
      - cbn. revert B2. apply Forall_impl. intros b Hb. cbn in *. lia.
      - exact H3. }
    assert (CL : match c_last c with BIf | BElsIf => 0 < length (c_code c) | _ => True end) by exact C.
    destruct (b_type (c_blk c)).
    - eapply FIN; [|apply (blk_in_le (length (c_code c)))| |exact E]; rewrite ?app_length; try lia; [exact A3|].
      destruct (c_last c); auto; lia.
    - destruct r as [|[]]; eapply FIN; try exact E; rewrite ?patch_length, ?update_length, ?app_length; cbn [length]; try lia; try exact Logic.I;
        try (apply (blk_in_le (length (c_code c))); [lia|]; split; [constructor|apply A3]);
        (split; [|apply (below_le (length (c_code c))); [lia|apply A3]]; cbn; apply Forall_app; split;
          [apply (below_le (length (c_code c))); [lia|apply A3]|]; constructor; [|constructor]; rewrite ?app_length; cbn; lia).
    - destruct r as [|[]]; eapply FIN; try exact E; rewrite ?patch_length, ?update_length, ?app_length; cbn [length]; try lia; try exact Logic.I;
        try (apply (blk_in_le (length (c_code c))); [lia|]; split; [constructor|apply A3]);
        (split; [|apply (below_le (length (c_code c))); [lia|apply A3]]; cbn; apply Forall_app; split;
          [apply (below_le (length (c_code c))); [lia|apply A3]|]; constructor; [|constructor]; rewrite ?app_length; cbn; lia).
    - eapply FIN; [| | |exact E]; [| |exact Logic.I]; rewrite ?patch_length, ?app_length; [lia|].
      apply (blk_in_le (length (c_code c))); [lia|]. split; [constructor|apply A3].
    - eapply FIN; [| | |exact E]; [| |exact Logic.I]; rewrite ?patch_length, ?update_length, ?app_length; [lia|].
      apply (blk_in_le (length (c_code c))); [lia|exact A3].
    - eapply FIN; [| | |exact E]; [| |exact Logic.I]; rewrite ?patch_length, ?update_length, ?app_length; [lia|].
      apply (blk_in_le (length (c_code c))); [lia|exact A3].
  Qed.
  Lemma do_require_in l c : cinv c -> cinv (do_require l c) /\ length (c_code c) <= length (c_code (do_require l c)).
  Proof.
    intro H. unfold do_require. destruct l as [|x l]; [split; [exact H|lia]|]. destruct (b_require (c_blk c)).
    - split; [|cbn; rewrite update_length; lia]. apply (cinv_same c); [cbn; rewrite update_length; lia|reflexivity..|exact H].
    - refine (cinv_emit _ (with_blk (with_require (length (c_code c)) (c_blk c)) c) _). destruct H as (A & B & C). split; [|split; [exact B|exact C]]. inversion A; subst. constructor; assumption.
  Qed.
  Lemma safe_foreverypart : safe 0 (cmd_foreverypart K FU). Proof. unfold cmd_foreverypart. sf. Qed.
  Lemma safe_break : safe 0 (cmd_break K FU).
  Proof. unfold cmd_break. sf. apply safe_on_c. intro. apply do_break_in. Qed.
  Lemma safe_continue : safe 0 (cmd_continue K).
  Proof.
    unfold cmd_continue. sf. apply safe_on_c. intros c c' E H.
    destruct (do_continue 0 (blocks c)) as [[|[|[|]]] l]; try discriminate. injection E as <-. apply cinv_emit. exact H.
  Qed.
  Hint Resolve safe_foreverypart safe_break safe_continue : safe.
  Lemma require_longer l c : length (c_code c) <= length (c_code (do_require l c)).
  Proof.
    unfold do_require. destruct l; [lia|]. destruct (b_require _); cbn; rewrite ?update_length, ?app_length; lia.
  Qed.
  Lemma with_if_in c : cinv c -> cinv (with_blk (with_if [] (c_blk c)) c).
  Proof.
    intros (A & B & C). split; [|split; [exact B|exact C]]. inversion A as [|? ? A1 A2]; subst. constructor; [|exact A2].
    split; [constructor|apply A1].
  Qed.
  Lemma include_in i c : cinv c ->
    cinv {| c_code := c_code c ++ [i]; c_blk := c_blk c; c_stack := c_stack c; c_last := c_last c; c_includes := c_includes c + 1 |}.
  Proof. intro H. apply (cinv_same c); [cbn; rewrite app_length; lia|reflexivity..|exact H]. Qed.
  Lemma safe_commands : Forall (fun p => safe 0 (snd (snd p))) (commands K FU).
  Proof. unfold commands. sf. Qed.
  Lemma safe_command w : safe 0 (command K FU w).
  Proof.
    unfold command.
    destruct (word "require" w); [sf; apply (safe_modify_c (do_require a)); intros; [apply do_require_in; assumption|apply require_longer]|].
    destruct (word "if" w).
    { sf. apply (safe_modify_c (fun c => with_blk (with_if [] (c_blk c)) c)); intros; [apply with_if_in; assumption|cbn; lia]. }
    do 4 (match goal with |- safe _ (if ?b then _ else _) => destruct b; [solve [sf]|] end).
    destruct (word "vacation" w).
    { sf. apply (safe_modify_c (fun c => emit [IxTest (fst a0); IxJz (length (c_code c) + 3); snd a0] c)); intros;
        [apply cinv_emit; assumption|cbn; rewrite app_length; lia]. }
    destruct (word "include" w).
    { sf. refine (safe_modify_c (fun c => {| c_code := c_code c ++ [a1]; c_blk := c_blk c; c_stack := c_stack c;
        c_last := c_last c; c_includes := c_includes c + 1 |}) _ _); intros; [apply include_in; assumption|cbn; rewrite app_length; lia]. }
    destruct (word "return" w).
    { sf. apply (safe_modify_c do_return); intros; [apply cinv_emit; assumption|cbn; rewrite app_length; lia]. }
    do 3 (match goal with |- safe _ (if ?b then _ else _) => destruct b; [solve [sf]|] end).
    pose proof (find_word_in w (commands K FU) (fun x => safe 0 (snd x)) safe_commands) as H.
    destruct (find_word w (commands K FU)) as [[c m]|]; [|sf]. cbn [snd] in H. unfold simple. sf; assumption.
  Qed.
  Lemma safe_open_all t l s : 0 < length (code_of s) -> good s -> sm s < FU ->
    match open_all K t l s with Ok _ s' => out 0 s s' | Err => True | Panic => pan | Fuel => False end.
  Proof.
    intros N H1 H2. unfold open_all, inside, bind. cbn [forallb]. apply Nat.ltb_lt in N as N'. rewrite N'. cbn [andb].
    unfold on_c. destruct (open (C_lim K) t l (p_c s)) as [c|] eqn:E; [|exact Logic.I].
    destruct (open_in _ _ _ _ E N (proj2 H1)) as [A B]. split; [split; [apply H1|exact A]|]. cbn. lia.
  Qed.
  Lemma safe_close_all : safe 0 (close_all K).
  Proof.
    intros s H1 H2. unfold close_all. unfold bind at 1, get at 1. unfold bind at 1. unfold inside.
    rewrite (below_inside (jumps (p_c s)) (p_c s)).
    2:{ destruct H1 as [_ (A & B & _)]. unfold jumps, blocks in *. inversion A as [|? ? A1 A2]; subst.
        apply Forall_app. split; [apply A1|]. destruct (c_stack (p_c s)); [constructor|].
        inversion A2 as [|? ? A3 _]; subst. inversion B; subst. constructor; [assumption|apply A3]. }
    match goal with |- match ?m s with _ => _ end => assert (G : safe 0 m); [|exact (G s H1 H2)] end.
    sf. apply safe_on_c. intro. apply close_in.
  Qed.
  Hint Resolve safe_command safe_close_all : safe.

  (** A command that is followed by a block has put an instruction. *)
  Lemma bind_ok {A B} (m : P A) (k : A -> P B) s b s2 : bind m k s = Ok b s2 -> exists a s1, m s = Ok a s1 /\ k a s1 = Ok b s2.
  Proof. unfold bind. destruct (m s) as [a s1| | |]; try discriminate. eauto. Qed.
  Definition nonempty (s : pst) : Prop := 0 < length (code_of s).
  Definition block_post (r : res follow) : Prop := match r with Ok (FBlock _ _) s' => nonempty s' | _ => True end.
  Lemma bp_bind {A} (m : P A) k s : (forall a s1, m s = Ok a s1 -> block_post (k a s1)) -> block_post (bind m k s).
  Proof. intro H. unfold bind. destruct (m s); cbn; auto. Qed.
  Lemma bp_end s : block_post (ret FEnd s). Proof. exact Logic.I. Qed.
  Lemma parse_test_nonempty s u s1 : parse_test K FU s = Ok u s1 -> nonempty s1.
  Proof.
    unfold parse_test. intro H. apply bind_ok in H as (a & s0 & _ & H). unfold push, modify in H. injection H as _ <-.
    unfold nonempty. cbn. rewrite app_length. cbn. lia.
  Qed.
  Lemma command_block w s : good s -> block_post (command K FU w s).
  Proof.
    intro G. unfold command.
    destruct (word "require" w); [repeat (apply bp_bind; intros); apply bp_end|].
    destruct (word "if" w).
    { apply bp_bind. intros a s1 H. apply parse_test_nonempty in H. apply bp_bind. intros a' s2 H'.
      unfold modify in H'. injection H' as _ <-. exact H. }
    destruct (word "elsif" w).
    { apply bp_bind. intros a s1 H. destruct a; try exact Logic.I;
        (apply bp_bind; intros b s2 H'; apply parse_test_nonempty in H'; exact H'). }
    destruct (word "else" w).
    { apply bp_bind. intros a s1 H. unfold get in H. injection H as E <-. destruct G as [_ (_ & _ & C)].
      destruct (c_last (p_c s)); subst a; try exact Logic.I; exact C. }
    destruct (word "foreverypart" w).
    { unfold cmd_foreverypart. repeat (apply bp_bind; intros). destruct (Nat.eqb _ _); [exact Logic.I|].
      do 3 (apply bp_bind; intros). unfold push, modify in H3. injection H3 as _ <-.
      unfold ret, block_post, nonempty. cbn. rewrite app_length. cbn. lia. }
    destruct (word "break" w); [unfold cmd_break; repeat (apply bp_bind; intros); apply bp_end|].
    destruct (word "vacation" w); [repeat (apply bp_bind; intros); apply bp_end|].
    destruct (word "include" w).
    { apply bp_bind. intros. destruct (Nat.ltb _ _); [|exact Logic.I]. repeat (apply bp_bind; intros). apply bp_end. }
    destruct (word "return" w); [repeat (apply bp_bind; intros); apply bp_end|].
    destruct (word "global" w); [repeat (apply bp_bind; intros); apply bp_end|].
    destruct (word "while" w).
    { do 3 (apply bp_bind; intros). unfold push, modify in H1. injection H1 as _ <-.
      unfold ret, block_post, nonempty. cbn. rewrite app_length. cbn. lia. }
    destruct (word "continue" w); [unfold cmd_continue; repeat (apply bp_bind; intros); apply bp_end|].
    destruct (find_word w (commands K FU)) as [[c m]|]; [unfold simple|];
      repeat (apply bp_bind; intros); exact Logic.I.
  Qed.
  Lemma stp_main u : stp (main_step K FU u).
  Proof.
    intros s H1 H2. unfold main_step. unfold bind at 1. unfold next_opt at 1.
    pose proof (I_next _ (proj1 H1)) as A. pose proof (next_mass (C_L K) (C_string K) (p_lex s)) as B.
    destruct (lex_next _ _ _) as [l|t l|e l|]; auto; [apply out_lex; [exact H1|exact A|lia]|].
    pose proof (out_lex l 1 s H1 A ltac:(lia)) as O1.
    unfold bind at 1, reset at 1, modify at 1. set (s1 := w_params [] (w_lex l s)). change (out 1 s s1) in O1.
    clearbody s1. clear A B.
    assert (G1 := proj1 O1). assert (M1 := out_lt 1 s s1 H2 O1).
    assert (W : forall m : P (unit + unit), 
      match m s1 with Ok _ s' => out 0 s1 s' | Err => True | Panic => pan | Fuel => False end ->
      match m s1 with Ok (inl a) s' => out 1 s s' /\ True | Ok (inr _) s' => out 0 s s' | Err => True | Panic => pan | Fuel => False end).
    { intros m X. destruct (m s1) as [[a|a] s'| | |]; auto.
      - split; [exact (out_trans 1 0 _ _ _ O1 X)|exact Logic.I].
      - apply (out_le 1); [lia|]. exact (out_trans 1 0 _ _ _ O1 X). }
    apply (W (match t with _ => _ end)). clear W.
    destruct t; try exact Logic.I.
    - assert (G : safe 0 (stk <- get (fun s => c_stack (p_c s)) ;;
        match stk with [] => fail | _ :: _ => close_all K ;; ret (@inl unit unit tt) end)) by sf.
      exact (G s1 G1 M1).
    - unfold bind at 1. pose proof (safe_command w s1 G1 M1) as C. pose proof (command_block w s1 G1) as BP.
      destruct (command K FU w s1) as [f s2| | |]; auto. assert (M2 := out_lt 0 s1 s2 M1 C).
      destruct f as [bt lb| |]; [|assert (G : safe 0 (expect K TSemicolon ;; ret (@inl unit unit tt))) by sf|exact C].
      + unfold bind at 1. pose proof (safe_expect TCurlyOpen s2 (proj1 C) M2) as E.
        destruct (expect K TCurlyOpen s2) as [x s3| | |]; auto.
        pose proof (out_trans 0 0 _ _ _ C E) as C3. assert (M3 := out_lt 0 s1 s3 M1 C3).
        unfold bind at 1. cbn in BP. unfold nonempty in BP.
        pose proof (safe_open_all bt lb s3 ltac:(destruct E as (_ & _ & E); lia) (proj1 E) M3) as Z.
        destruct (open_all K bt lb s3) as [y s4| | |]; auto. exact (out_trans 0 0 _ _ _ C3 Z).
      + specialize (G s2 (proj1 C) M2). match goal with |- match ?m with _ => _ end => destruct m end; auto.
        exact (out_trans 0 0 _ _ _ C G).
    - assert (G : safe 0 (unknown K FU s0 ;; ret (@inl unit unit tt))) by sf. exact (G s1 G1 M1).
  Qed.
  Theorem main_safe script : I (lex_start script) -> 2 * length script < FU ->
    match loop FU (main_step K FU) tt (init script) with
    | Ok _ _ | Err => True
    | Panic => pan
    | Fuel => False
    end.
  Proof.
    intros H1 H2. pose proof (safe_loop (main_step K FU) tt stp_main (init script)) as G.
    assert (M : mass (p_lex (init script)) < FU) by (unfold mass; cbn; lia).
    assert (G0 : good (init script)).
    { split; [exact H1|]. split; [repeat constructor|]. split; [constructor|exact Logic.I]. }
    specialize (G G0 M). destruct (loop _ _ _ _); auto.
  Qed.
End Safe.

Theorem compile_terminates K script : compile K script <> OutOfFuel.
Proof.
  unfold compile, compile_with. destruct (Nat.ltb _ _); [discriminate|].
  set (FU := 2 * length script + 2).
  pose proof (main_safe K FU (fun _ => True) True) as H.
  assert (A : forall l, True -> match lex_next (C_L K) (C_string K) l with LPanic => True | _ => True end)
    by (intros l _; destruct (lex_next _ _ _); exact Logic.I).
  assert (B : forall l, True -> match lex_peek (C_L K) (C_string K) l with LPanic => True | _ => True end)
    by (intros l _; destruct (lex_peek _ _ _); exact Logic.I).
  specialize (H A B script Logic.I ltac:(unfold FU; lia)).
  destruct (loop _ _ _ _) as [x s| | |]; try discriminate; [|destruct H].
  unfold finish. destruct (c_stack _); discriminate.
Qed.

Theorem compile_no_panic K t : Forall scalar t -> compile K (utf8 t) <> Panicked.
Proof.
  intro S. unfold compile, compile_with. destruct (Nat.ltb _ _); [discriminate|].
  set (FU := 2 * length (utf8 t) + 2).
  pose proof (main_safe K FU lex_inv False (fun l H => next_inv _ _ l H) (fun l H => peek_inv _ _ l H)) as H.
  assert (V : lex_inv (lex_start (utf8 t))).
  { split; [apply valid_nil|]. exists []. exists t. auto. }
  specialize (H _ V ltac:(unfold FU; lia)).
  destruct (loop _ _ _ _) as [x s| | |]; try discriminate; [|destruct H].
  unfold finish. destruct (c_stack _); discriminate.
Qed.
