(** Property C89: bytes that are not text. *)
From Verif Require Import Base Lib Var Value Utf8 Lexer LexerSpec LexerProofs StringProofs PropertiesCompare Message Build HeaderVar HeaderEval
  PropertiesBuild PropertiesAddrTest PropertiesHeaderVar DecodeSpec DecodeProofs.

(** Any bytes are read as exactly one text: of the strings of a script
    ([into_string]), raw header fields ([sanitize_raw_header]) and parts that are no text ([utf8_lossy]). *)
Theorem C89_decoding : forall bs t, (into_string bs = t <-> decodes bs t) /\ (utf8_lossy bs = t <-> decodes bs t).
Proof.
  intros bs t. assert (G : utf8_lossy bs = t <-> decodes bs t).
  { split; intro H.
    - subst t. apply (lossy_decodes (length bs)). reflexivity.
    - eapply decodes_unique; [apply (lossy_decodes (length bs)); reflexivity|reflexivity|exact H]. }
  rewrite into_lossy. auto.
Qed.
Print Assumptions C89_decoding.

(** What is UTF-8 is read as it is written, and nothing else is (C89_decoding: the replacement
    character stands for something else). *)
Theorem C89_text : forall t, Forall scalar t -> decodes (utf8 t) t /\ utf8_strict (utf8 t) = Some t.
Proof.
  intros t F. split; [|apply strict_utf8, F].
  induction F as [|c t S F IH]; [apply d_end|]. unfold utf8 in *. cbn [flat_map]. apply d_char; assumption.
Qed.
Print Assumptions C89_text.
Theorem C89_strict : forall bs t, utf8_strict bs = Some t <-> Forall scalar t /\ bs = utf8 t.
Proof.
  intros bs t. split.
  - intro H. destruct (strict_inv _ _ H). auto.
  - intros [F ->]. apply strict_utf8, F.
Qed.
Print Assumptions C89_strict.

(** Broken bytes change nothing beyond the next ASCII character: it stays, and what is before and after it is
    read as if it stood alone. *)
Theorem C89_ascii_stays : forall a x b t, (x < 128)%N -> decodes (a ++ x :: b) t ->
  exists ta tb, t = ta ++ x :: tb /\ decodes a ta /\ decodes b tb.
Proof. intros a x b t Lx D. eapply ascii_cuts; eauto. Qed.
Print Assumptions C89_ascii_stays.

(** A quoted string of any bytes but quote and backslash is one token: of these bytes, if
    it has to be searched for variables (C41), or of the text they are read as. *)
Theorem C89_quoted : forall L max_string bs rest l,
  Forall (fun b => b <> 34%N /\ b <> 92%N) bs -> length bs < max_string ->
  at_input l (34%N :: bs ++ 34%N :: rest) ->
  exists k l', lex_next L max_string l = LTok k l' /\ at_input l' rest /\
    (k = TVar bs \/ exists t, decodes bs t /\ denotes L k t).
Proof.
  intros L M bs rest l F Ln (I & B & T & S & Nx). unfold lex_next. rewrite Nx, I, B, T, S.
  rewrite go_none. change (word_byte 34) with false. change (is_upper_ascii 34%N) with false.
  change (N.eqb 34 58) with false. change (N.eqb 34 34) with true. cbn [flush].
  assert (G : forall bs b last t, Forall (fun b => b <> 34%N /\ b <> 92%N) bs -> last <> 92%N ->
    exists last' t', last' <> 92%N /\ lex_go L M (bs ++ 34%N :: rest) b false last (SQuoted t) = lex_go L M (34%N :: rest) (b ++ bs) false last' (SQuoted t')).
  { clear. induction bs as [|c bs IH]; intros b last t F Nl.
    - exists last, t. rewrite app_nil_r. auto.
    - inversion F as [|? ? [Q W] F']; subst. destruct (quoted_byte L M c (bs ++ 34%N :: rest) b false last t) as [t' E]; try congruence.
      cbn [app]. rewrite E. destruct (IH (b ++ [c]) c t' F' W) as (la & t2 & N2 & E2). exists la, t2. rewrite E2, <- app_assoc. auto. }
  destruct (G bs [] 34%N st_default F ltac:(discriminate)) as (la & t' & N' & E). rewrite E, go_quoted.
  change (N.eqb 34 34) with true. rewrite (proj2 (N.eqb_neq _ _) N'). cbn [andb negb app].
  unfold get_string. rewrite (proj2 (Nat.ltb_lt _ _) Ln).
  eexists _, _. split; [reflexivity|]. split; [repeat split|].
  unfold string_token. destruct (st_var t'); [left; reflexivity|right]. exists (into_string bs).
  split; [apply (proj1 (C89_decoding _ _)); reflexivity|]. cbn [denotes]. set (s := into_string bs).
  destruct (negb (st_other t') && st_digits t'); [|reflexivity].
  destruct (negb (st_dots t')).
  - destruct (parse_i64 s) as [n|]; [|reflexivity]. destruct (teqb (show_Z n) s) eqn:X; [|reflexivity]. apply teqb_spec in X. exact X.
  - destruct (f64_parse L s) as [f|]; [|reflexivity]. destruct (teqb (f64_show L f) s) eqn:X; [|reflexivity]. apply teqb_spec in X. exact X.
Qed.
Print Assumptions C89_quoted.

(** ${part.text}: of a text its text, of a part that is no text its bytes, decoded; a multipart or
    a message has none. *)
Theorem C89_part_text : forall L A P tb hb st part p, nth_error (fs_parts st) part = Some p ->
  exists r, eval_message L A P tb hb st part MvContents = Some r /\
  match fp_body p with
  | FText t | FHtml t => r = Some (VStr t)
  | FBinary b => exists t, r = Some (VStr t) /\ decodes b t
  | FMulti _ | FMessage _ _ => r = None
  end.
Proof.
  intros L A P tb hb st part p N. cbn [eval_message]. rewrite N. eexists. split; [reflexivity|].
  destruct (fp_body p); try reflexivity. eexists. split; [reflexivity|]. apply (proj2 (C89_decoding _ _)). reflexivity.
Qed.
Print Assumptions C89_part_text.
(** ${part.raw}: the bytes of the body of the part, decoded. *)
Theorem C89_part_raw : forall L A P tb hb st part p pre body post, nth_error (fs_parts st) part = Some p ->
  fs_raw st = pre ++ body ++ post -> fp_ob p = length pre -> fp_oe p = length pre + length body ->
  exists t, eval_message L A P tb hb st part MvRaw = Some (Some (VStr t)) /\ decodes body t.
Proof.
  intros L A P tb hb st part p pre body post N E O1 O2. cbn [eval_message]. rewrite N.
  exists (utf8_lossy body). split; [|apply (proj2 (C89_decoding _ _)); reflexivity].
  unfold get_range, Build.slice. rewrite E, O1, O2, !app_length.
  replace (Nat.leb (length pre) (length pre + length body)) with true by (symmetry; apply Nat.leb_le; lia).
  replace (Nat.leb (length pre + length body) (length pre + (length body + length post))) with true by (symmetry; apply Nat.leb_le; lia).
  cbn [andb option_map]. do 3 f_equal. rewrite skipn_app, skipn_all, Nat.sub_diag. cbn [app skipn].
  replace (length pre + length body - length pre) with (length body + 0) by lia. rewrite firstn_app_2. cbn [firstn]. rewrite app_nil_r. reflexivity.
Qed.
Print Assumptions C89_part_raw.

(** An e with an accent in Latin-1, a lone lead byte and an overlong slash: four replacement characters. *)
Example C89_example :
  decodes ([233; 32; 226; 130; 65; 192; 175] ++ utf8 [8364])%N [65533; 32; 65533; 65; 65533; 65533; 8364]%N.
Proof. apply (proj2 (C89_decoding _ _)). vm_compute. reflexivity. Qed.
Example C89_quoted_example :
  exists l', lex_next ascii_lib 4096 (lex_start (34 :: [99; 97; 102; 233] ++ [34; 59])%N) = LTok (TStr (CText [99; 97; 102; 65533]%N)) l'.
Proof. eexists. vm_compute. reflexivity. Qed.
Example C89_raw_example :
  exists t, eval_message ascii_lib toy_ap plain_parser [1] [2] sample_state 1 MvRaw = Some (Some (VStr t)) /\ decodes (lit "one") t.
Proof.
  apply C89_part_raw with (p := nth 1 sample_parts (FPart [] None (FMulti []) false 0 0 0)) (pre := firstn 119 sample_raw) (post := skipn 122 sample_raw);
  vm_compute; reflexivity.
Qed.
