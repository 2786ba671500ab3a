(** Proofs about the expression tokenizer. *)
From Verif Require Import Base Lib Var Value Expr ExprSpec ExprTok ExprTokSpec ExprProofs.

Definition delim_chars : list N := [38;124;33;94;40;41;43;42;47;45;61;62;60;44;91;93;34;39;32;13;10]%N.

Section T.
  Variable L : rustlib.
  Variable tm : text -> bool -> option token.
  Notation tokens := (tokens L tm).
  Notation spells := (spells L tm).
  Notation word := (word L tm).

  Lemma word_in st c : word_char c -> exists n d a, in_word st c = Some (tpush st c n d a) /\
    a = (is_alpha_ascii c || N.eqb c 95) /\ n = is_digit_ascii c /\ d = N.eqb c c_dot.
  Proof.
    intro W. unfold in_word. destruct (is_alpha_ascii c || N.eqb c 95) eqn:EA.
    - exists false, false, true. split; [reflexivity|]. split; [reflexivity|].
      unfold is_alpha_ascii, is_upper_ascii, is_lower_ascii, is_digit_ascii, between in *. unfold c_dot. lia.
    - destruct (is_digit_ascii c) eqn:ED.
      + exists true, false, false. repeat split. unfold is_digit_ascii, between in ED. unfold c_dot. lia.
      + destruct W as [W|[W|W]].
        * unfold is_alnum_ascii in W. apply orb_false_iff in EA as [EA _]. rewrite EA, ED in W. discriminate.
        * subst c. rewrite N.eqb_refl, orb_true_r in EA. discriminate.
        * subst c. exists false, true, false. repeat split.
  Qed.

  Definition wordst (w : text) (st : tst) : tst :=
    {| t_buf := t_buf st ++ w; t_number := t_number st || existsb is_digit_ascii w;
       t_dot := t_dot st || mem_ch c_dot w;
       t_alpha := t_alpha st || existsb (fun c => is_alpha_ascii c || N.eqb c 95) w;
       t_start := t_start st; t_depth := t_depth st |}.
  Lemma tokens_word : forall w f rest st, Forall word_char w ->
    tokens (length w + f) (w ++ rest) st = tokens f rest (wordst w st).
  Proof.
    induction w as [|c w IH]; intros f rest st F.
    - cbn [length app plus]. f_equal. destruct st. unfold wordst. simpl. rewrite app_nil_r, !orb_false_r. reflexivity.
    - inversion F; subst. cbn [length app plus ExprTok.tokens]. destruct (word_in st c H1) as (n & d & a & -> & -> & -> & ->).
      rewrite IH by assumption. f_equal. unfold wordst, tpush, mem_ch. cbn [t_buf t_number t_dot t_alpha t_start t_depth existsb].
      rewrite <- app_assoc, !orb_assoc. cbn [app]. rewrite (N.eqb_sym c c_dot). reflexivity.
  Qed.

  Lemma delim_not_word w st c : In c delim_chars -> plain_word w -> t_buf st = w -> in_word st c = None.
  Proof.
    intros D (NE & F & NH & NL) EB. unfold in_word. rewrite EB.
    assert (PH : prefix_header w = false).
    { unfold prefix_header. destruct (teqb (firstn 7 w) (lit "header.")) eqn:E; [|reflexivity]. apply teqb_spec in E. congruence. }
    assert (LB : forall x, (x = 91 \/ x = c_dot)%N -> N.eqb (last_ch w) x = false).
    { intros x X. apply N.eqb_neq. intro E. destruct (exists_last NE) as (p & y & ->). unfold last_ch in E. rewrite last_last in E. subst y.
      destruct X as [->| ->]; [|exact (NL p eq_refl)]. apply Forall_app in F as [_ F]. inversion F as [|? ? W _]; subst.
      destruct W as [W|[W|W]]; vm_compute in W; discriminate. }
    assert (MB : mem_ch 91%N w = false).
    { unfold mem_ch. destruct (existsb (N.eqb 91) w) eqn:E; [|reflexivity]. apply existsb_exists in E as (x & I & E). apply N.eqb_eq in E. subst x.
      rewrite Forall_forall in F. destruct (F _ I) as [W|[W|W]]; vm_compute in W; discriminate. }
    rewrite PH, (LB 91%N), (LB c_dot), MB by auto. rewrite !orb_false_r, !andb_false_r. cbn [orb].
    unfold delim_chars in D. cbn [In] in D. repeat (destruct D as [EE|D]; [subst c; reflexivity|]). destruct D.
  Qed.
  Lemma delim_not_word0 c start d : In c delim_chars -> in_word (tclear start d) c = None.
  Proof. intro D. unfold delim_chars in D. cbn [In] in D. repeat (destruct D as [EE|D]; [subst c; reflexivity|]). destruct D. Qed.

  Lemma tokens_prev w c s f t d st : In c delim_chars -> plain_word w -> t_buf st = w -> t_depth st = d -> parse_buf L tm st = Some t ->
    tokens (S f) (c :: s) st = option_map (cons t) (tokens (S f) (c :: s) (tclear false d)).
  Proof.
    intros D PW EB ED EP. cbn [ExprTok.tokens]. rewrite (delim_not_word w st c D PW EB), (delim_not_word0 c false d D).
    assert (N.eqb c 125 = false) as -> by (unfold delim_chars in D; cbn [In] in D; repeat (destruct D as [EE|D]; [subst c; reflexivity|]); destruct D).
    rewrite EB, EP, ED. destruct PW as (NE & _). destruct w as [|x w]; [congruence|]. cbn [tclear t_buf t_start t_depth option_map].
    destruct (delimiter false d c s); try reflexivity.
    - cbn [app]. destruct (tokens f rest _); reflexivity.
    - destruct (tokens f s _); reflexivity.
  Qed.

  (** the word of a token, and what [parse_buf] makes of it *)
  Lemma digit_word c : is_digit_ascii c = true -> word_char c.
  Proof. intro H. left. unfold is_alnum_ascii. rewrite H. apply orb_true_r. Qed.
  Lemma word_plain t w : word t w -> plain_word w.
  Proof.
    intros W; destruct W as [t0 w0 PW ? ? ? ? ?|z w0 NE F ?|f w0 PW ? ? ? ?| |]; auto.
    - assert (W : Forall word_char w0) by (eapply Forall_impl; [|exact F]; apply digit_word). split; [exact NE|]. split; [exact W|]. split.
      + intro E. destruct w0 as [|c w1]; [discriminate|]. inversion F as [|? ? HD ?]; subst. change (firstn 7 (c :: w1)) with (c :: firstn 6 w1) in E. injection E as -> _.
        vm_compute in HD. discriminate.
      + intros p ->. apply Forall_app in F as [_ F]. inversion F as [|? ? HD ?]; subst. vm_compute in HD. discriminate.
    - split; [discriminate|]. split; [repeat constructor|]. split; [discriminate|]. intros p E. apply (f_equal (@rev N)) in E. rewrite rev_app_distr in E. discriminate.
    - split; [discriminate|]. split; [repeat constructor|]. split; [discriminate|]. intros p E. apply (f_equal (@rev N)) in E. rewrite rev_app_distr in E. discriminate.
  Qed.
  Lemma named_spec w : existsb (fun c => is_alpha_ascii c || N.eqb c 95) w = true <-> named w.
  Proof.
    rewrite existsb_exists. split; intros (c & I & H); exists c; (split; [exact I|]).
    - apply orb_true_iff in H as [H|H]; [auto|]. apply N.eqb_eq in H. auto.
    - apply orb_true_iff. destruct H as [H| ->]; auto.
  Qed.
  Lemma word_token t w start d : word t w -> parse_buf L tm (wordst w (tclear start d)) = Some t.
  Proof.
    intros H. unfold parse_buf, wordst, tclear. cbn [t_buf t_number t_dot t_alpha orb app]. destruct H as [t w PW NM NT NF TM _|z w NE F P|f w PW NN D (c & I & DC) P| |].
    - apply named_spec in NM. rewrite NM. rewrite andb_false_r.
      assert (teqb w (lit "true") = false) as ->. { destruct (teqb w (lit "true")) eqn:E; [|reflexivity]. apply teqb_spec in E. congruence. }
      assert (teqb w (lit "false") = false) as ->. { destruct (teqb w (lit "false")) eqn:E; [|reflexivity]. apply teqb_spec in E. congruence. }
      rewrite !andb_false_r. exact TM.
    - assert (existsb is_digit_ascii w = true) as ->.
      { destruct w as [|c w]; [congruence|]. inversion F; subst. cbn [existsb]. rewrite H1. reflexivity. }
      assert (existsb (fun c => is_alpha_ascii c || N.eqb c 95) w = false) as ->.
      { destruct (existsb (fun c => is_alpha_ascii c || N.eqb c 95) w) eqn:E; [|reflexivity]. apply existsb_exists in E as (c & I & E). rewrite Forall_forall in F. specialize (F c I).
        unfold is_alpha_ascii, is_upper_ascii, is_lower_ascii, is_digit_ascii, between in *. lia. }
      assert (mem_ch c_dot w = false) as ->.
      { unfold mem_ch. destruct (existsb (N.eqb c_dot) w) eqn:E; [|reflexivity]. apply existsb_exists in E as (c & I & E). rewrite Forall_forall in F. specialize (F c I).
        unfold is_digit_ascii, between, c_dot in *. lia. }
      cbn [andb negb]. rewrite P. reflexivity.
    - assert (existsb is_digit_ascii w = true) as -> by (apply existsb_exists; eauto).
      destruct (existsb (fun c => is_alpha_ascii c || N.eqb c 95) w) eqn:E; [apply named_spec in E; contradiction|].
      assert (mem_ch c_dot w = true) as -> by (unfold mem_ch; apply existsb_exists; exists c_dot; split; [exact D|apply N.eqb_refl]).
      cbn [andb negb]. rewrite P. reflexivity.
    - reflexivity.
    - reflexivity.
  Qed.

  Lemma spells_head start ts s : spells start ts s -> forall c s', s = c :: s' -> word_char c \/ In c delim_chars.
  Proof.
    destruct 1 as [|start c0 ts s B _|start t w ts s W _ _|start q b ts s Q _ _ _|start t w ts s Y _ _ _ _]; intros c s' E.
    - discriminate.
    - injection E as -> _. right. destruct B as [->|[->| ->]]; vm_compute; tauto.
    - destruct (word_plain _ _ W) as (NE & F & _). destruct w as [|x w]; [congruence|]. injection E as -> _. inversion F; subst. auto.
    - injection E as -> _. right. destruct Q as [->| ->]; vm_compute; tauto.
    - right. destruct Y; cbn in E; injection E as <- _; vm_compute; tauto.
  Qed.

  Lemma string_lit_ok q rest : forall b last acc, last <> c_bslash -> ~ In q b -> ~ In c_bslash b -> 
    string_lit q last acc (b ++ q :: rest) = Some (acc ++ b, rest).
  Proof.
    induction b as [|c b IH]; intros last acc NL NQ NB; cbn [app string_lit].
    - apply N.eqb_neq in NL. rewrite NL, N.eqb_refl. cbn [negb]. rewrite app_nil_r. reflexivity.
    - pose proof NL as NL'. apply N.eqb_neq in NL'. rewrite NL'. cbn [negb].
      assert (N.eqb c q = false) as -> by (apply N.eqb_neq; intro X; apply NQ; left; exact X). cbn [negb].
      rewrite IH.
      + rewrite <- app_assoc. reflexivity.
      + intro X. apply NB. left. exact X.
      + intro X. apply NQ. right. exact X.
      + intro X. apply NB. right. exact X.
  Qed.

  Lemma tokens_delim c s start d f t rest : In c delim_chars -> delimiter start d c s = DTok t rest ->
    tokens (S f) (c :: s) (tclear start d) = option_map (cons t) (tokens f rest (tclear (is_start_after t) (depth_after t d))).
  Proof.
    intros D E. cbn [ExprTok.tokens]. rewrite (delim_not_word0 c start d D).
    assert (N.eqb c 125 = false) as -> by (unfold delim_chars in D; cbn [In] in D; repeat (destruct D as [EE|D]; [subst c; reflexivity|]); destruct D).
    cbn [tclear t_buf t_start t_depth]. rewrite E. reflexivity.
  Qed.

  Lemma spells_tokens : forall start ts s, spells start ts s -> forall d f, length s < f -> balance d ts = Some 0 ->
    tokens f s (tclear start d) = Some ts.
  Proof.
    induction 1 as [start|start c ts s B SP IH|start t w ts s W NG SP IH|start q b ts s Q NQ NB SP IH|start t w ts s Y M1 M2 G SP IH]; intros d f LF BAL.
    - destruct f as [|f]; [lia|]. cbn [balance] in BAL. injection BAL as ->. reflexivity.
    - destruct f as [|f]; [simpl in LF; lia|]. cbn [ExprTok.tokens].
      assert (D : In c delim_chars) by (destruct B as [->|[->| ->]]; vm_compute; tauto). rewrite (delim_not_word0 c start d D).
      assert (DE : delimiter start d c s = DSpace) by (destruct B as [->|[->| ->]]; reflexivity).
      assert (N.eqb c 125 = false) as -> by (destruct B as [->|[->| ->]]; reflexivity).
      cbn [tclear t_buf t_start t_depth]. rewrite DE. fold (tclear start d). rewrite IH; [reflexivity|simpl in LF; lia|exact BAL].
    - pose proof (word_plain _ _ W) as PW. destruct PW as (NE & F & NH & NL).
      rewrite app_length in LF. replace f with (length w + (f - length w)) by lia. rewrite tokens_word by exact F.
      assert (BAL' : balance d ts = Some 0) by (destruct W as [t w ? ? ? ? ? [(v & ->)|(id & n & ->)]| | | |]; exact BAL).
      destruct (f - length w) as [|g] eqn:EG; [lia|].
      destruct s as [|c s].
      + assert (ts = []) as ->.
        { inversion SP as [|? c0|? t0 w0 ? s0 W0|? q0 b0|? t0 w0 ? s0 Y0]; subst; try reflexivity.
          - apply word_plain in W0 as [NW _]. match goal with E : _ ++ _ = [] |- _ => apply app_eq_nil in E as [E _] end. congruence.
          - match goal with E : _ ++ _ = [] |- _ => apply app_eq_nil in E as [E _] end. destruct Y0; discriminate. }
        cbn [balance] in BAL'. injection BAL' as ->. cbn [ExprTok.tokens]. unfold tfinish. cbn [wordst tclear t_depth t_buf app].
        destruct w as [|x w]; [congruence|]. rewrite <- (app_nil_l (x :: w)). pose proof (word_token _ _ start 0 W) as WT. unfold wordst, tclear in WT. cbn [t_buf t_depth t_start t_number t_dot t_alpha] in WT.
        unfold wordst, tclear. cbn [t_buf t_depth t_start t_number t_dot t_alpha app] in *. rewrite WT. reflexivity.
      + assert (D : In c delim_chars).
        { destruct (spells_head _ _ _ SP c s eq_refl) as [WC|D]; [|exact D]. exfalso. exact (NG c s eq_refl WC). }
        etransitivity.
        * apply (tokens_prev w c s g t d (wordst w (tclear start d)) D); try reflexivity; [|apply word_token, W].
          split; [exact NE|]. split; [exact F|]. split; assumption.
        * unfold ch in *. rewrite IH; [reflexivity| |exact BAL']. simpl in LF |- *. lia.
    - assert (D : In q delim_chars) by (destruct Q as [->| ->]; vm_compute; tauto).
      destruct f as [|f]; [simpl in LF; lia|].
      assert (DL : delimiter start d q (b ++ q :: s) = DTok (TStr b) s); [|etransitivity; [exact (tokens_delim q (b ++ q :: s) start d f (TStr b) s D DL)|]].
      2: { unfold ch in *. rewrite IH; [reflexivity| |exact BAL]. cbn [length] in LF. rewrite app_length in LF. simpl in LF. lia. }
      + assert (SL : string_lit q 0%N [] (b ++ q :: s) = Some (b, s)) by (apply string_lit_ok; [discriminate|assumption|assumption]).
        unfold delimiter. rewrite SL. destruct Q as [->| ->]; reflexivity.
    - assert (DD : exists c w0, w = c :: w0 /\ In c delim_chars).
      { destruct Y; cbn; eexists; eexists; (split; [reflexivity|]); vm_compute; tauto. }
      destruct DD as (c & w0 & -> & D). cbn [app].
      destruct f as [|f]; [simpl in LF; lia|]. rewrite app_length in LF. cbn [length] in LF.
      assert (NEQ : t = TUn UNot \/ t = TBin BLt \/ t = TBin BGt -> peek_is 61 s = false).
      { intro T. destruct s as [|x s]; [reflexivity|]. cbn [peek_is]. apply N.eqb_neq. intros ->. exact (G T s eq_refl). }
      assert (DL : delimiter start d c (w0 ++ s) = DTok t s); [|etransitivity; [exact (tokens_delim c (w0 ++ s) start d f t s D DL)|]].
      2: { replace (is_start_after t) with (expects_operand t) by reflexivity. rewrite IH; [reflexivity|lia|].
        destruct Y; cbn [depth_after balance] in *; try exact BAL. destruct d; [discriminate|]. cbn [Nat.sub]. rewrite Nat.sub_0_r. exact BAL. }
      + inversion Y; subst; cbn in *; unfold delimiter; cbn; try reflexivity.
        * rewrite NEQ by tauto. reflexivity.
        * rewrite NEQ by tauto. reflexivity.
        * rewrite M2 by reflexivity. reflexivity.
        * rewrite NEQ by tauto. reflexivity.
        * rewrite M1 by reflexivity. reflexivity.
        * destruct d; [discriminate|reflexivity].
  Qed.
End T.

Lemma expr_balance :
  (forall p ts e, expr p ts e -> forall d rest, balance d (ts ++ rest) = balance d rest) /\
  (forall arr ts es, exprs arr ts es -> forall d rest, balance d (ts ++ rest) = balance d rest) /\
  (forall arr ts es, exprs1 arr ts es -> forall d rest, balance d (ts ++ rest) = balance d rest).
Proof.
  apply expr_mut; intros; cbn [app balance]; auto.
  - rewrite <- app_assoc, H. reflexivity.
  - rewrite <- app_assoc, H. reflexivity.
  - rewrite <- app_assoc, H. reflexivity.
  - rewrite <- app_assoc. rewrite H. cbn [app balance]. rewrite <- app_assoc, H0. reflexivity.
  - rewrite <- app_assoc, H. cbn [app balance]. apply H0.
  - rewrite <- app_assoc, H. cbn [app balance]. apply H0.
Qed.
Lemma tokenize_spells L tm ts s p e : spells L tm true ts s -> expr p ts e -> tokenize L tm s = Some ts.
Proof.
  intros SP X. unfold tokenize. apply (spells_tokens L tm true ts s SP); [lia|].
  pose proof (proj1 expr_balance p ts e X 0 []) as B. rewrite app_nil_r in B. exact B.
Qed.
