(** Proofs about 'set' and its modifiers. *)
From Verif Require Import Base Lib Var Value SetVar SetSpec Glob GlobSpec Comparator ComparatorSpec
  ComparatorProofs ComparatorProofs2.
From Coq Require Import Permutation.

(** *** Sizes *)
Lemma blen_app a b : blen (a ++ b) = blen a + blen b.
Proof. induction a as [|c a IH]; simpl; [reflexivity|rewrite IH; lia]. Qed.
Lemma len_utf8_pos c : 1 <= len_utf8 c <= 4.
Proof. unfold len_utf8. destruct (N.ltb c 128), (N.ltb c 2048), (N.ltb c 65536); lia. Qed.

Lemma prefix_firstn p s : is_prefix p s -> p = firstn (length p) s.
Proof. intros [r ->]. rewrite firstn_app, Nat.sub_diag, firstn_all. simpl. rewrite app_nil_r. reflexivity. Qed.

Lemma prefix_blen_mono p q s : is_prefix p s -> is_prefix q s -> length p <= length q -> blen p <= blen q.
Proof.
  intros [r1 H1] [r2 H2] Hl. assert (exists m, q = p ++ m) as [m ->].
  { subst s. revert q H2 Hl. clear. induction p as [|c p IH]; intros q H Hl; [exists q; reflexivity|].
    destruct q as [|d q]; [simpl in Hl; lia|]. inversion H; subst. simpl in Hl.
    destruct (IH q H2) as [m Hm]; [lia|]. exists m. simpl. rewrite Hm. reflexivity. }
  rewrite blen_app. lia.
Qed.

Section S.
  Variable L : rustlib.
  Variable max : nat.

  Lemma cut_go_spec s : forall res, blen res <= max ->
    exists p r, s = p ++ r /\ cut_go max s res = res ++ p /\ blen (res ++ p) <= max /\
      (r = [] \/ exists c r', r = c :: r' /\ max < blen (res ++ p ++ [c])).
  Proof.
    induction s as [|c s IH]; intros res H; simpl.
    - exists [], []. simpl. rewrite (app_nil_r res). repeat split; auto.
    - destruct (Nat.leb (len_utf8 c + blen res) max) eqn:E.
      + apply Nat.leb_le in E. destruct (IH (res ++ [c])) as (p & r & -> & Hc & Hb & Hr).
        { rewrite blen_app. simpl. lia. }
        exists (c :: p), r. rewrite Hc. rewrite <- !app_assoc in *. simpl in *. repeat split; auto.
        destruct Hr as [Hr|(c0 & r' & -> & Hbig)]; [left; exact Hr|right]. exists c0, r'.
        rewrite <- app_assoc in Hbig. auto.
      + apply Nat.leb_gt in E. exists [], (c :: s). rewrite ?(app_nil_r res). repeat split; auto.
        right. exists c, s. split; [reflexivity|]. simpl. rewrite blen_app. simpl. lia.
  Qed.

  Lemma cut_longest s : longest_prefix max s (cut_go max s []).
  Proof.
    destruct (cut_go_spec s [] (Nat.le_0_l _)) as (p & r & Hs & Hc & Hb & Hr).
    rewrite Hc. simpl in *. split; [exists r; exact Hs|]. split; [exact Hb|].
    intros q Hq Hbq. destruct Hr as [->|(c & r' & -> & Hbig)].
    - rewrite app_nil_r in Hs. subst p. destruct Hq as [x ->]. rewrite app_length. lia.
    - destruct (le_lt_dec (length q) (length p)) as [Hle|Hlt]; [exact Hle|exfalso].
      assert (Hp : is_prefix (p ++ [c]) s) by (exists r'; rewrite <- app_assoc; exact Hs).
      pose proof (prefix_blen_mono (p ++ [c]) q s Hp Hq) as Hm. rewrite app_length in Hm. simpl in Hm.
      lia.
  Qed.

  Lemma whole_longest s : blen s <= max -> longest_prefix max s s.
  Proof.
    intro H. split; [exists []; rewrite app_nil_r; reflexivity|]. split; [exact H|].
    intros q [r ->] _. rewrite app_length. lia.
  Qed.

  Lemma limit_str s : exists p, limit L max (VStr s) = VStr p /\ longest_prefix max s p.
  Proof.
    unfold limit. simpl. destruct (Nat.ltb max (blen s)) eqn:E.
    - eexists. split; [reflexivity|apply cut_longest].
    - apply Nat.ltb_ge in E. exists s. split; [reflexivity|apply whole_longest, E].
  Qed.

  Lemma limit_other v : v_len v <= max -> limit L max v = v.
  Proof. intro H. unfold limit. apply Nat.ltb_ge in H. rewrite H. reflexivity. Qed.
  Lemma limit_big v : max < v_len v ->
    exists p, limit L max v = VStr p /\ longest_prefix max (v_text L v) p.
  Proof.
    intro H. unfold limit. apply Nat.ltb_lt in H. rewrite H. eexists. split; [reflexivity|apply cut_longest].
  Qed.

  Lemma nth_upd_same {A} i (x : A) l : i < length l -> nth_error (upd i x l) i = Some x.
  Proof. revert i. induction l as [|y l IH]; intros [|i] H; simpl in *; try lia; [reflexivity|apply IH; lia]. Qed.
  Lemma nth_upd_other {A} i j (x : A) l : i <> j -> nth_error (upd i x l) j = nth_error l j.
  Proof.
    revert i j. induction l as [|y l IH]; intros [|i] [|j] H; simpl; try reflexivity; try congruence.
    apply IH. congruence.
  Qed.
  Lemma upd_length {A} i (x : A) l : length (upd i x l) = length l.
  Proof. revert i. induction l as [|y l IH]; intros [|i]; simpl; try reflexivity. rewrite IH. reflexivity. Qed.
  Lemma alookup_same k v l : alookup k (ainsert k v l) = Some v.
  Proof.
    induction l as [|[k' v'] l IH]; simpl; [rewrite teqb_refl; reflexivity|].
    destruct (teqb k k') eqn:E; simpl; rewrite E; [reflexivity|exact IH].
  Qed.
  Lemma alookup_other k k' v l : k <> k' -> alookup k' (ainsert k v l) = alookup k' l.
  Proof.
    intro N. induction l as [|[q w] l IH]; simpl.
    - destruct (teqb k' k) eqn:E; [apply teqb_spec in E; congruence|reflexivity].
    - destruct (teqb k q) eqn:E; simpl.
      + apply teqb_spec in E. subst q. destruct (teqb k' k) eqn:E'; [apply teqb_spec in E'; congruence|reflexivity].
      + destruct (teqb k' q); [reflexivity|exact IH].
  Qed.
  Lemma envk_eqb_spec a b : envk_eqb a b = true <-> a = b.
  Proof. unfold envk_eqb. destruct (envk_eq_dec a b); split; congruence. Qed.
  Lemma envlookup_same e v l : envlookup e (env_update e v l) = Some v.
  Proof.
    induction l as [|[e' v'] l IH]; simpl.
    - assert (envk_eqb e e = true) as -> by (apply envk_eqb_spec; reflexivity). reflexivity.
    - destruct (envk_eqb e' e) eqn:E; simpl.
      + apply envk_eqb_spec in E. subst. assert (envk_eqb e e = true) as -> by (apply envk_eqb_spec; reflexivity). reflexivity.
      + destruct (envk_eqb e e') eqn:E'; [apply envk_eqb_spec in E'; subst; assert (envk_eqb e' e' = true) by (apply envk_eqb_spec; reflexivity); congruence|exact IH].
  Qed.
  Lemma envlookup_other e e' v l : e <> e' -> envlookup e' (env_update e v l) = envlookup e' l.
  Proof.
    intro N. induction l as [|[q w] l IH]; simpl.
    - destruct (envk_eqb e' e) eqn:E; [apply envk_eqb_spec in E; congruence|reflexivity].
    - destruct (envk_eqb q e) eqn:E; simpl.
      + apply envk_eqb_spec in E. subst q. destruct (envk_eqb e' e) eqn:E'; [apply envk_eqb_spec in E'; congruence|reflexivity].
      + destruct (envk_eqb e' q); [reflexivity|exact IH].
  Qed.

  Lemma set_variable_frame c n v n' : n <> n' ->
    variable (fst (set_variable L max c n v)) n' = variable c n'.
  Proof.
    intro N. destruct n, n'; simpl; try reflexivity.
    - apply nth_upd_other. congruence.
    - apply alookup_other. congruence.
    - apply envlookup_other. congruence.
  Qed.

  Lemma set_variable_stored c n s : assignable c n ->
    exists p, variable (fst (set_variable L max c n (VStr s))) n = Some (VStr p) /\ longest_prefix max s p.
  Proof.
    intro A. destruct (limit_str s) as (p & Hp & Hl). exists p. split; [|exact Hl].
    destruct n; simpl in A; try contradiction; unfold set_variable; rewrite Hp; simpl.
    - apply nth_upd_same, A.
    - apply alookup_same.
    - apply envlookup_same.
  Qed.
  Lemma set_variable_small c n v : (forall e, n <> TEnvelope e) -> assignable c n -> v_len v <= max ->
    variable (fst (set_variable L max c n v)) n = Some v.
  Proof.
    intros NE A H. unfold set_variable. rewrite (limit_other v H). destruct n; simpl in A; try contradiction; simpl.
    - apply nth_upd_same, A.
    - apply alookup_same.
    - exfalso. eapply NE. reflexivity.
  Qed.
  Lemma set_variable_big c n v : assignable c n -> max < v_len v ->
    exists p, variable (fst (set_variable L max c n v)) n = Some (VStr p) /\ longest_prefix max (v_text L v) p.
  Proof.
    intros A H. destruct (limit_big v H) as (p & Hp & Hl). exists p. split; [|exact Hl].
    unfold set_variable. rewrite Hp. destruct n; simpl in A; try contradiction; simpl.
    - apply nth_upd_same, A.
    - apply alookup_same.
    - apply envlookup_same.
  Qed.

  Lemma apply_mods_str c mods v : mods <> [] -> exists s, apply_mods L max c mods v = VStr s.
  Proof.
    revert v. induction mods as [|m mods IH]; intros v H; [congruence|]. simpl.
    destruct mods as [|m' mods]; [simpl; eauto|apply IH; discriminate].
  Qed.

  (** *** Quoting *)
  Definition quoted (sp : text) (s : text) : text :=
    flat_map (fun c => if mem_ch c sp then [c_bslash; c] else [c]) s.
  Definition ascii_set (sp : text) : Prop := forall c, mem_ch c sp = true -> len_utf8 c = 1.

  Lemma quote_go_spec sp s : ascii_set sp -> forall res, blen res <= max ->
    exists p r, s = p ++ r /\ quote_go max sp s res = res ++ quoted sp p /\
      blen (res ++ quoted sp p) <= max /\ (blen res + blen (quoted sp s) <= max -> r = []).
  Proof.
    intro A. induction s as [|c s IH]; intros res H; simpl.
    - exists [], []. simpl. rewrite (app_nil_r res). repeat split; auto.
    - destruct (mem_ch c sp) eqn:M.
      + destruct (Nat.ltb (blen res + len_utf8 c) max) eqn:E.
        * apply Nat.ltb_lt in E. pose proof (A c M) as Ac.
          destruct (IH (res ++ [c_bslash; c])) as (p & r & -> & Hq & Hb & Hr).
          { rewrite blen_app. simpl. rewrite Ac in *. change (len_utf8 c_bslash) with 1. lia. }
          exists (c :: p), r. rewrite Hq. unfold quoted in *. cbn [flat_map]. rewrite M.
          rewrite <- !app_assoc in *. repeat split; auto. intro Hs. apply Hr.
          rewrite !blen_app in *. simpl blen in *. lia.
        * apply Nat.ltb_ge in E. exists [], (c :: s). simpl. rewrite ?(app_nil_r res). repeat split; auto.
          intro Hs. exfalso. rewrite ?blen_app in Hs. simpl in Hs. change (len_utf8 c_bslash) with 1 in Hs. lia.
      + destruct (Nat.leb (blen res + len_utf8 c) max) eqn:E.
        * apply Nat.leb_le in E. destruct (IH (res ++ [c])) as (p & r & -> & Hq & Hb & Hr).
          { rewrite blen_app. simpl. lia. }
          exists (c :: p), r. rewrite Hq. unfold quoted in *. cbn [flat_map]. rewrite M.
          rewrite <- !app_assoc in *. repeat split; auto. intro Hs. apply Hr.
          rewrite !blen_app in *. simpl blen in *. lia.
        * apply Nat.leb_gt in E. exists [], (c :: s). simpl. rewrite ?(app_nil_r res). repeat split; auto.
          intro Hs. exfalso. rewrite ?blen_app in Hs. simpl in Hs. lia.
  Qed.

  Lemma wildcard_ascii : ascii_set wildcard_special.
  Proof.
    intros c H. unfold mem_ch, wildcard_special in H. simpl in H.
    repeat (apply orb_true_iff in H as [H|H]; [apply N.eqb_eq in H; subst; reflexivity|]). discriminate.
  Qed.
  Lemma mem_wildcard c : mem_ch c wildcard_special = (N.eqb c c_star || N.eqb c c_quest || N.eqb c c_bslash).
  Proof.
    unfold mem_ch, wildcard_special, c_star, c_quest, c_bslash. simpl.
    destruct (N.eqb c 42), (N.eqb c 92), (N.eqb c 63); reflexivity.
  Qed.
  Lemma quoted_size s : blen (quoted wildcard_special s) = blen s + special_count s.
  Proof.
    unfold special_count. induction s as [|c s IH]; [reflexivity|].
    unfold quoted in *. cbn [flat_map]. rewrite blen_app, IH. cbn [filter]. rewrite mem_wildcard.
    destruct (N.eqb c c_star || N.eqb c c_quest || N.eqb c c_bslash); simpl; change (len_utf8 c_bslash) with 1; lia.
  Qed.

  Lemma quoted_wildcards s : wildcards (quoted wildcard_special s) = 0.
  Proof.
    induction s as [|c s IH]; [reflexivity|]. unfold quoted in *. cbn [flat_map].
    rewrite mem_wildcard. destruct (N.eqb c c_star || N.eqb c c_quest || N.eqb c c_bslash) eqn:E.
    - cbn [app wildcards]. change (N.eqb c_bslash c_bslash) with true. cbn iota. exact IH.
    - cbn [app wildcards]. apply orb_false_iff in E as [E1 E2]. apply orb_false_iff in E1 as [E0 E1].
      rewrite E0, E1, E2. exact IH.
  Qed.

  Lemma glob_quoted fold s v : glob fold (quoted wildcard_special s) v <-> v = flat_map fold s.
  Proof.
    revert v. induction s as [|c s IH]; intro v.
    - simpl. split; [intro H; inversion H; reflexivity|intros ->; constructor].
    - unfold quoted in *. cbn [flat_map]. rewrite mem_wildcard.
      destruct (N.eqb c c_star || N.eqb c c_quest || N.eqb c c_bslash) eqn:E.
      + cbn [app]. split.
        * intro H. inversion H; subst; try (exfalso; congruence).
          f_equal. apply IH. assumption.
        * intros ->. apply glob_esc, IH. reflexivity.
      + apply orb_false_iff in E as [E1 E2]. apply orb_false_iff in E1 as [E0 E1].
        apply N.eqb_neq in E0, E1, E2. cbn [app]. split.
        * intro H. inversion H; subst; try (exfalso; congruence). f_equal. apply IH. assumption.
        * intros ->. apply glob_lit; try assumption. apply IH. reflexivity.
  Qed.

  Lemma set_quotewildcard c n t : assignable c n -> blen t + special_count t <= max ->
    variable (fst (exec_set L max c [ModQuoteWildcard] n (XText t))) n =
    Some (VStr (quoted wildcard_special t)).
  Proof.
    intros A H. unfold exec_set. cbn [apply_mods eval_value v_text mod_apply].
    destruct (quote_go_spec wildcard_special t wildcard_ascii [] (Nat.le_0_l _)) as (p & r & Hs & Hq & Hb & Hr).
    rewrite Hr in Hs by (rewrite quoted_size; simpl; lia). rewrite app_nil_r in Hs. subst p.
    rewrite Hq. simpl app in *.
    assert (Hlim : limit L max (VStr (quoted wildcard_special t)) = VStr (quoted wildcard_special t)).
    { apply limit_other. simpl. exact Hb. }
    unfold set_variable. rewrite Hlim. destruct n; simpl in A; try contradiction; simpl.
    - apply nth_upd_same, A.
    - apply alookup_same.
    - apply envlookup_same.
  Qed.

  Lemma quotewildcard_exact (lower_nonempty : forall c, chr_lower L c <> []) rx c n t :
    assignable c n -> blen t + special_count t <= max ->
    exists pattern,
      variable (fst (exec_set L max c [ModQuoteWildcard] n (XText t))) n = Some pattern /\
      forall cmp positions value, exists b x,
        compare1 L rx cmp (MMatches positions) (KStr value) (KVar pattern) [] = CRes b x /\
        match cmp with
        | CCasemap =>
            b = true <-> (if N.eqb positions 0 then str_lower L value
                          else flat_map (pfold (chr_is_upper L) (chr_lower L) true) value)
                         = flat_map (pfold (chr_is_upper L) (chr_lower L) true) t
        | _ => b = true <-> value = t
        end.
  Proof.
    intros A H. eexists. split; [apply set_quotewildcard; assumption|]. intros cmp positions value.
    destruct (compare1_meets L rx lower_nonempty cmp (MMatches positions) (KStr value)
                (KVar (VStr (quoted wildcard_special t)))) as (b & x & E & Hb).
    { right. cbn [k_text v_text]. rewrite quoted_wildcards. lia. }
    exists b, x. split; [exact E|]. cbn [key_matches k_text v_text] in Hb. rewrite glob_quoted in Hb.
    destruct cmp; try exact Hb; rewrite (flat_map_octet L t) in Hb; exact Hb.
  Qed.

  (** Whatever the size limit: the stored pattern is the quoting of a prefix of
      the text, never a broken escape. *)
  Lemma quotewildcard_prefix c n t : assignable c n ->
    exists p, is_prefix p t /\ blen (quoted wildcard_special p) <= max /\
      variable (fst (exec_set L max c [ModQuoteWildcard] n (XText t))) n =
      Some (VStr (quoted wildcard_special p)).
  Proof.
    intros A. unfold exec_set. cbn [apply_mods eval_value v_text mod_apply].
    destruct (quote_go_spec wildcard_special t wildcard_ascii [] (Nat.le_0_l _)) as (p & r & Hs & Hq & Hb & Hr).
    exists p. split; [exists r; exact Hs|]. simpl app in *. split; [exact Hb|].
    rewrite Hq. assert (Hlim : limit L max (VStr (quoted wildcard_special p)) = VStr (quoted wildcard_special p)).
    { apply limit_other. simpl. exact Hb. }
    unfold set_variable. rewrite Hlim. destruct n; simpl in A; try contradiction; simpl.
    - apply nth_upd_same, A.
    - apply alookup_same.
    - apply envlookup_same.
  Qed.

  (** *** encodeurl *)
  Definition enc1 (c : ch) : text := if unreserved c then [c] else flat_map pct (utf8_char c).
  Lemma unreserved_ascii c : unreserved c = true -> len_utf8 c = 1.
  Proof.
    unfold unreserved, is_alnum_ascii, is_alpha_ascii, is_upper_ascii, is_lower_ascii, is_digit_ascii, between, len_utf8.
    unfold mem_ch. simpl existsb. change (lit "-._~") with [45;46;95;126]%N. cbn [existsb].
    intro H. assert (c < 128)%N by lia. apply N.ltb_lt in H0. rewrite H0. reflexivity.
  Qed.
  Lemma unreserved_spec c : unreserved c = true <-> uri_unreserved c.
  Proof.
    unfold unreserved, uri_unreserved, is_alnum_ascii, is_alpha_ascii, is_upper_ascii, is_lower_ascii, is_digit_ascii, between.
    unfold mem_ch. change (lit "-._~") with [45;46;95;126]%N. cbn [existsb]. lia.
  Qed.
  Lemma hex_digit_val n : (n < 16)%N -> hexval (hex_digit n) = Some n.
  Proof.
    intro H. unfold hexval, hex_digit, between. destruct (N.ltb n 10) eqn:E.
    - assert ((N.leb 48 (48 + n) && N.leb (48 + n) 57)%N = true) as -> by lia. f_equal. lia.
    - assert ((N.leb 48 (87 + n) && N.leb (87 + n) 57)%N = false) as -> by lia.
      assert ((N.leb 97 (87 + n) && N.leb (87 + n) 102)%N = true) as -> by lia. f_equal. lia.
  Qed.
  Lemma hex_digit_ascii n : (n < 16)%N -> len_utf8 (hex_digit n) = 1.
  Proof.
    intro H. unfold len_utf8, hex_digit. destruct (N.ltb n 10) eqn:E.
    - assert (N.ltb (48 + n) 128 = true) as -> by lia. reflexivity.
    - assert (N.ltb (87 + n) 128 = true) as -> by lia. reflexivity.
  Qed.
  Definition byte (b : N) : Prop := (b < 256)%N.
  Lemma pct_blen b : byte b -> blen (pct b) = 3.
  Proof.
    intro H. unfold byte in H. assert (b / 16 < 16)%N by (apply N.div_lt_upper_bound; lia).
    assert (b mod 16 < 16)%N by (apply N.mod_lt; lia).
    unfold pct. simpl. rewrite !hex_digit_ascii by assumption. reflexivity.
  Qed.
  Lemma pct_decode b t bs : byte b -> pct_decodes t bs -> pct_decodes (pct b ++ t) (b :: bs).
  Proof.
    intros H Ht. unfold byte in H. assert (b / 16 < 16)%N by (apply N.div_lt_upper_bound; lia).
    assert (b mod 16 < 16)%N by (apply N.mod_lt; lia).
    assert (E : b = (16 * (b / 16) + b mod 16)%N) by (apply N.div_mod; lia).
    rewrite E at 2. apply pd_esc; [apply hex_digit_val| apply hex_digit_val|]; assumption.
  Qed.
  Lemma utf8_bytes c : valid_char c -> Forall byte (utf8_char c).
  Proof.
    intro H. unfold valid_char in H. unfold utf8_char, byte.
    assert (M : forall x, (x mod 64 < 64)%N) by (intro x; apply N.mod_lt; lia).
    destruct (N.ltb c 128) eqn:E1; [repeat constructor; lia|].
    destruct (N.ltb c 2048) eqn:E2.
    { pose proof (M c). assert (c / 64 < 32)%N by (apply N.div_lt_upper_bound; lia). repeat constructor; lia. }
    destruct (N.ltb c 65536) eqn:E3.
    { pose proof (M c). pose proof (M (c / 64)%N).
      assert (c / 4096 < 16)%N by (apply N.div_lt_upper_bound; lia). repeat constructor; lia. }
    pose proof (M c). pose proof (M (c / 64)%N). pose proof (M (c / 4096)%N).
    assert (c / 262144 < 5)%N by (apply N.div_lt_upper_bound; lia). repeat constructor; lia.
  Qed.
  Lemma utf8_char_length c : length (utf8_char c) = len_utf8 c.
  Proof.
    unfold utf8_char, len_utf8. destruct (N.ltb c 128), (N.ltb c 2048), (N.ltb c 65536); reflexivity.
  Qed.
  Lemma pcts_blen bs : Forall byte bs -> blen (flat_map pct bs) = 3 * length bs.
  Proof.
    induction 1 as [|b bs H F IH]; [reflexivity|]. cbn [flat_map length].
    rewrite blen_app, IH, pct_blen by assumption. lia.
  Qed.
  Lemma enc1_blen c : valid_char c -> blen (enc1 c) = if unreserved c then 1 else 3 * len_utf8 c.
  Proof.
    intro V. unfold enc1. destruct (unreserved c) eqn:U.
    - simpl. rewrite (unreserved_ascii c U). reflexivity.
    - rewrite pcts_blen by (apply utf8_bytes, V). rewrite utf8_char_length. reflexivity.
  Qed.
  Lemma enc1_decode c t bs : valid_char c -> pct_decodes t bs -> pct_decodes (enc1 c ++ t) (utf8_char c ++ bs).
  Proof.
    intros V Ht. unfold enc1. destruct (unreserved c) eqn:U.
    - assert (utf8_char c = [c]) as ->.
      { pose proof (unreserved_ascii c U) as H. unfold len_utf8, utf8_char in *.
        destruct (N.ltb c 128); [reflexivity|]. destruct (N.ltb c 2048); [discriminate|].
        destruct (N.ltb c 65536); discriminate. }
      apply pd_char; [apply unreserved_spec, U|exact Ht].
    - pose proof (utf8_bytes c V) as HB. induction HB as [|b l Hb HB IH]; [exact Ht|].
      cbn [flat_map]. rewrite <- app_assoc. apply pct_decode; assumption.
  Qed.
  Lemma encs_decode s : Forall valid_char s -> pct_decodes (flat_map enc1 s) (utf8 s).
  Proof.
    induction 1 as [|c s H F IH]; [constructor|]. cbn [flat_map utf8].
    unfold utf8 in *. cbn [flat_map]. apply enc1_decode; assumption.
  Qed.
  Lemma encs_size s : Forall valid_char s -> blen (flat_map enc1 s) = encoded_size s.
  Proof.
    induction 1 as [|c s H F IH]; [reflexivity|]. cbn [flat_map]. rewrite blen_app, IH, enc1_blen by assumption.
    unfold encoded_size. cbn [map list_sum fold_right]. f_equal.
    unfold unreserved, mem_ch. change (lit "-._~") with [45;46;95;126]%N. cbn [existsb].
    rewrite orb_false_r, !orb_assoc. reflexivity.
  Qed.
  Lemma encode_go_spec s : Forall valid_char s -> forall res, blen res <= max ->
    exists p r, s = p ++ r /\ encode_go max s res = res ++ flat_map enc1 p /\
      blen (res ++ flat_map enc1 p) <= max /\ (blen res + encoded_size s <= max -> r = []).
  Proof.
    induction s as [|c s IH]; intros F res H; cbn [encode_go].
    - exists [], []. simpl. rewrite (app_nil_r res). repeat split; auto.
    - inversion F as [|? ? V F']; subst.
      pose proof (enc1_blen c V) as Hc.
      assert (ES : encoded_size (c :: s) = blen (enc1 c) + encoded_size s).
      { rewrite <- !encs_size by assumption. cbn [flat_map]. apply blen_app. }
      destruct (unreserved c) eqn:U.
      + destruct (Nat.ltb (blen res) max) eqn:E.
        * apply Nat.ltb_lt in E. destruct (IH F' (res ++ [c])) as (p & r & Hs & Hq & Hb & Hr).
          { rewrite blen_app. simpl. rewrite (unreserved_ascii c U). lia. }
          exists (c :: p), r. subst s. rewrite Hq. cbn [flat_map].
          assert (EC : enc1 c = [c]) by (unfold enc1; rewrite U; reflexivity).
          rewrite EC in *. rewrite <- !app_assoc in *. cbn [app] in *. repeat split; auto.
          intro Hs. apply Hr. rewrite blen_app. lia.
        * apply Nat.ltb_ge in E. exists [], (c :: s). simpl. rewrite ?(app_nil_r res). repeat split; auto.
          intro Hs. exfalso. lia.
      + destruct (Nat.leb (blen res + len_utf8 c * 3) max) eqn:E.
        * apply Nat.leb_le in E. destruct (IH F' (res ++ flat_map pct (utf8_char c))) as (p & r & Hs & Hq & Hb & Hr).
          { rewrite blen_app. replace (flat_map pct (utf8_char c)) with (enc1 c) by (unfold enc1; rewrite U; reflexivity). lia. }
          exists (c :: p), r. subst s. rewrite Hq. cbn [flat_map].
          assert (EC : enc1 c = flat_map pct (utf8_char c)) by (unfold enc1; rewrite U; reflexivity).
          rewrite <- EC in *. rewrite <- !app_assoc in *. repeat split; auto.
          intro Hs. apply Hr. rewrite blen_app. lia.
        * apply Nat.leb_gt in E. exists [], (c :: s). simpl. rewrite ?(app_nil_r res). repeat split; auto.
          intro Hs. exfalso. lia.
  Qed.

  Lemma encodeurl_exact c n t : assignable c n -> Forall valid_char t ->
    exists p out, is_prefix p t /\ (encoded_size t <= max -> p = t) /\
      variable (fst (exec_set L max c [ModEncodeUrl] n (XText t))) n = Some (VStr out) /\
      pct_decodes out (utf8 p) /\ blen out <= max.
  Proof.
    intros A F. unfold exec_set. cbn [apply_mods eval_value v_text mod_apply].
    destruct (encode_go_spec t F [] (Nat.le_0_l _)) as (p & r & Hs & Hq & Hb & Hr).
    simpl app in *. exists p, (flat_map enc1 p).
    assert (Fp : Forall valid_char p) by (subst t; apply Forall_app in F; tauto).
    repeat split; auto.
    - exists r; exact Hs.
    - intro H. rewrite (Hr H), app_nil_r in Hs. auto.
    - rewrite Hq. assert (Hlim : limit L max (VStr (flat_map enc1 p)) = VStr (flat_map enc1 p)).
      { apply limit_other. simpl. exact Hb. }
      unfold set_variable. rewrite Hlim. destruct n; simpl in A; try contradiction; simpl.
      + apply nth_upd_same, A.
      + apply alookup_same.
      + apply envlookup_same.
    - apply encs_decode, Fp.
  Qed.
End S.

(** *** Order of modifiers *)
Definition add_mod (m : modifier) (acc : list modifier) : list modifier :=
  match m with
  | ModReplace _ _ => acc ++ [m]
  | _ => if existsb (same_simple m) acc then acc else acc ++ [m]
  end.
Lemma collect_cons m tags acc : collect_mods (m :: tags) acc = collect_mods tags (add_mod m acc).
Proof. destruct m; reflexivity. Qed.
Lemma existsb_perm {A} (f : A -> bool) l l' : Permutation l l' -> existsb f l = existsb f l'.
Proof.
  induction 1 as [|x l l' H IH|x y l|l1 l2 l3 H1 IH1 H2 IH2]; simpl; try congruence.
  destruct (f x), (f y); reflexivity.
Qed.
Lemma add_mod_perm m a b : Permutation a b -> Permutation (add_mod m a) (add_mod m b).
Proof.
  intro H. unfold add_mod. rewrite (existsb_perm (same_simple m) a b H).
  destruct m; try destruct (existsb _ b); auto; apply Permutation_app_tail; exact H.
Qed.
Lemma add_mod_swap m1 m2 a : Permutation (add_mod m1 (add_mod m2 a)) (add_mod m2 (add_mod m1 a)).
Proof.
  assert (S : Permutation ((a ++ [m2]) ++ [m1]) ((a ++ [m1]) ++ [m2])).
  { rewrite <- !app_assoc. simpl. apply Permutation_app_head, perm_swap. }
  destruct m1, m2; unfold add_mod; rewrite ?existsb_app; cbn [existsb same_simple];
    rewrite ?orb_false_r, ?orb_true_r;
    repeat (match goal with |- context [existsb ?f a] =>
              let E := fresh "E" in destruct (existsb f a) eqn:E end;
            rewrite ?existsb_app; cbn [existsb same_simple]; rewrite ?orb_false_r, ?orb_true_r);
    rewrite ?existsb_app; cbn [existsb same_simple]; rewrite ?orb_false_r, ?orb_true_r;
    repeat match goal with E : existsb _ a = _ |- _ => rewrite ?E in *; clear E end;
    try congruence; try apply Permutation_refl; try exact S.
Qed.
Lemma collect_perm t1 t2 : Permutation t1 t2 -> forall a b, Permutation a b ->
  Permutation (collect_mods t1 a) (collect_mods t2 b).
Proof.
  induction 1 as [|x l l' H IH|x y l|l1 l2 l3 H1 IH1 H2 IH2]; intros a b P.
  - exact P.
  - rewrite !collect_cons. apply IH, add_mod_perm, P.
  - rewrite !collect_cons.
    assert (G : forall l a b, Permutation a b -> Permutation (collect_mods l a) (collect_mods l b)).
    { clear. induction l as [|m l IH]; intros a b P; [exact P|]. rewrite !collect_cons. apply IH, add_mod_perm, P. }
    apply G. eapply Permutation_trans; [apply add_mod_perm, add_mod_perm, P|]. apply add_mod_swap.
  - eapply Permutation_trans; [apply IH1, P|apply IH2, Permutation_refl].
Qed.

Lemma sorted_desc_tail {A} (key : A -> nat) x l : sorted_desc key (x :: l) -> sorted_desc key l.
Proof. intro H. inversion H; subst; [constructor|assumption]. Qed.
Lemma sorted_desc_head {A} (key : A -> nat) x l : sorted_desc key (x :: l) -> forall y, In y l -> key y <= key x.
Proof.
  revert x. induction l as [|z l IH]; intros x H y Hy; [destruct Hy|].
  inversion H; subst. destruct Hy as [->|Hy]; [assumption|].
  transitivity (key z); [apply IH|]; assumption.
Qed.
Lemma sorted_unique {A} (key : A -> nat) l1 : forall l2,
  (forall a b, In a l1 -> In b l1 -> key a = key b -> a = b) ->
  sorted_desc key l1 -> sorted_desc key l2 -> Permutation l1 l2 -> l1 = l2.
Proof.
  induction l1 as [|x l1 IH]; intros l2 Inj S1 S2 P.
  - apply Permutation_nil in P. congruence.
  - destruct l2 as [|y l2]; [apply Permutation_sym, Permutation_nil in P; discriminate|].
    assert (E : x = y).
    { apply Inj.
      - left; reflexivity.
      - eapply Permutation_in; [apply Permutation_sym; exact P|left; reflexivity].
      - assert (Hx : In x (y :: l2)) by (eapply Permutation_in; [exact P|left; reflexivity]).
        assert (Hy : In y (x :: l1)) by (eapply Permutation_in; [apply Permutation_sym; exact P|left; reflexivity]).
        assert (key x <= key y) by (destruct Hx as [->|Hx]; [lia|apply (sorted_desc_head key y l2 S2 x Hx)]).
        assert (key y <= key x) by (destruct Hy as [->|Hy]; [lia|apply (sorted_desc_head key x l1 S1 y Hy)]).
        lia. }
    subst y. f_equal. apply IH.
    + intros a b Ha Hb. apply Inj; right; assumption.
    + eapply sorted_desc_tail, S1.
    + eapply sorted_desc_tail, S2.
    + eapply Permutation_cons_inv, P.
Qed.

Lemma insert_mod_perm m l : Permutation (m :: l) (insert_mod m l).
Proof.
  induction l as [|x l IH]; simpl; [apply Permutation_refl|].
  destruct (Nat.ltb (mod_order x) (mod_order m)); [apply Permutation_refl|].
  eapply Permutation_trans; [apply perm_swap|]. apply perm_skip, IH.
Qed.
Lemma sort_mods_perm l : Permutation l (sort_mods l).
Proof.
  induction l as [|m l IH]; simpl; [constructor|].
  eapply Permutation_trans; [apply perm_skip, IH|apply insert_mod_perm].
Qed.
Lemma insert_mod_sorted m l : sorted_desc mod_order l -> sorted_desc mod_order (insert_mod m l).
Proof.
  induction l as [|x l IH]; intro S; simpl; [constructor|].
  destruct (Nat.ltb (mod_order x) (mod_order m)) eqn:E.
  - apply Nat.ltb_lt in E. constructor; [lia|exact S].
  - apply Nat.ltb_ge in E. pose proof (IH (sorted_desc_tail _ _ _ S)) as S'.
    destruct l as [|y l]; simpl in *; [constructor; [lia|constructor]|].
    destruct (Nat.ltb (mod_order y) (mod_order m)); constructor; try assumption; try lia.
    inversion S; subst; assumption.
Qed.
Lemma sort_mods_sorted l : sorted_desc mod_order (sort_mods l).
Proof. induction l as [|m l IH]; simpl; [constructor|apply insert_mod_sorted, IH]. Qed.

Lemma collect_in tags : forall acc m, In m (collect_mods tags acc) -> In m tags \/ In m acc.
Proof.
  induction tags as [|x tags IH]; intros acc m H; [right; exact H|]. rewrite collect_cons in H.
  apply IH in H as [H|H]; [left; right; exact H|].
  assert (H' : In m (acc ++ [x]) \/ In m acc).
  { unfold add_mod in H. destruct x; try (destruct (existsb _ acc)); auto. }
  destruct H' as [H'|H']; [|right; exact H']. apply in_app_or in H' as [H'|[->|[]]]; [right; exact H'|].
  left; left; reflexivity.
Qed.

Lemma modifier_order_irrelevant t1 t2 s1 s2 :
  Permutation t1 t2 ->
  (forall a b, In a t1 -> In b t1 -> mod_order a = mod_order b -> a = b) ->
  Permutation (collect_mods t1 []) s1 -> sorted_desc mod_order s1 ->
  Permutation (collect_mods t2 []) s2 -> sorted_desc mod_order s2 ->
  s1 = s2.
Proof.
  intros P Inj P1 S1 P2 S2. apply (sorted_unique mod_order); try assumption.
  - intros a b Ha Hb. apply Inj.
    + eapply Permutation_in in Ha; [|apply Permutation_sym, P1]. apply collect_in in Ha as [Ha|[]]. exact Ha.
    + eapply Permutation_in in Hb; [|apply Permutation_sym, P1]. apply collect_in in Hb as [Hb|[]]. exact Hb.
  - eapply Permutation_trans; [apply Permutation_sym, P1|].
    eapply Permutation_trans; [|exact P2]. apply collect_perm; [exact P|constructor].
Qed.

Lemma quotewildcard_prefix_plain L max c n t :
  assignable c n ->
  exists p, is_prefix p t /\
    variable (fst (exec_set L max c [ModQuoteWildcard] n (XText t))) n =
      Some (VStr (flat_map (fun x => if N.eqb x c_star || N.eqb x c_quest || N.eqb x c_bslash
                                     then [c_bslash; x] else [x]) p)).
Proof.
  intro A. destruct (quotewildcard_prefix L max c n t A) as (p & Hp & _ & E).
  exists p. split; [exact Hp|]. rewrite E. unfold quoted. do 2 f_equal.
  apply flat_map_ext. intro x. rewrite mem_wildcard. reflexivity.
Qed.

Lemma stored_text L max c n s :
  assignable c n ->
  (exists p, variable (fst (set_variable L max c n (VStr s))) n = Some (VStr p) /\ longest_prefix max s p) /\
  (forall n', n <> n' -> variable (fst (set_variable L max c n (VStr s))) n' = variable c n').
Proof.
  intro A. split; [apply set_variable_stored, A|]. intros n' N. apply set_variable_frame, N.
Qed.

Lemma set_mods_bounded L max c n mods x :
  assignable c n -> mods <> [] ->
  exists p, variable (fst (exec_set L max c mods n x)) n = Some (VStr p) /\ blen p <= max.
Proof.
  intros A H. unfold exec_set. destruct (apply_mods_str L max c mods (eval_value L c x) H) as [s ->].
  destruct (set_variable_stored L max c n s A) as (p & E & _ & Hb & _). exists p. split; assumption.
Qed.

Lemma stored_other L max c n v :
  assignable c n -> (forall e, n <> TEnvelope e) ->
  (v_len v <= max -> variable (fst (set_variable L max c n v)) n = Some v) /\
  (max < v_len v -> exists p, variable (fst (set_variable L max c n v)) n = Some (VStr p) /\
                              longest_prefix max (v_text L v) p).
Proof.
  intros A NE. split; [apply set_variable_small; assumption|apply set_variable_big; assumption].
Qed.

Lemma modifier_order_exec t1 t2 s1 s2 :
  Permutation t1 t2 ->
  (forall a b, In a t1 -> In b t1 -> mod_order a = mod_order b -> a = b) ->
  Permutation (collect_mods t1 []) s1 -> sorted_desc mod_order s1 ->
  Permutation (collect_mods t2 []) s2 -> sorted_desc mod_order s2 ->
  forall L max c n x, exec_set L max c s1 n x = exec_set L max c s2 n x.
Proof. intros. rewrite (modifier_order_irrelevant t1 t2 s1 s2); auto. Qed.

Lemma parse_mods_sorts tags :
  Permutation (collect_mods tags []) (parse_mods tags) /\ sorted_desc mod_order (parse_mods tags).
Proof. split; [apply sort_mods_perm|apply sort_mods_sorted]. Qed.

Lemma mod_order_inj a b : mod_order a = mod_order b ->
  a = b \/ (exists f r, a = ModReplace f r /\ (b = ModUpper \/ exists f' r', b = ModReplace f' r')) \/
           (exists f r, b = ModReplace f r /\ a = ModUpper).
Proof.
  destruct a, b; intro H; try discriminate H; try (left; reflexivity).
  - right; right; eauto.
  - right; left; eauto.
  - right; left. do 2 eexists. split; [reflexivity|right; eauto].
Qed.

Lemma hexval_not_pct : hexval 37%N = None. Proof. reflexivity. Qed.
Lemma pct_decodes_det t b1 : pct_decodes t b1 -> forall b2, pct_decodes t b2 -> b1 = b2.
Proof.
  assert (NP : ~ uri_unreserved 37%N) by (unfold uri_unreserved; lia).
  induction 1 as [|c t bs U H IH|a b x y t bs Ha Hb H IH]; intros b2 H2.
  - inversion H2; reflexivity.
  - inversion H2; subst; [f_equal; apply IH; assumption|contradiction].
  - inversion H2; subst; [contradiction|].
    assert (x0 = x) as -> by congruence. assert (y0 = y) as -> by congruence.
    f_equal. apply IH. assumption.
Qed.
