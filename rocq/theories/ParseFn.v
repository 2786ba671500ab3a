(** Proofs: functions under further names do not change what the compiler makes of a script that it accepts. *)
From Coq Require Import Lia.
From Verif Require Import Base Lib Address Var Value SetVar Flags Comparator Message EditHeader
  Expr ExprTok Event Notify AddrTest Vacation Sieve Utf8 Lexer Scope StringTok Compile ParseArgs ParseBase Parse FnSpec ParseLimit.
Import ListNotations.

Section Tokens.
  Variable L : rustlib.
  Variables tm tm' : text -> bool -> option Expr.token.
  Hypothesis H : forall n b t, tm n b = Some t -> tm' n b = Some t.
  Lemma buf_more st t : parse_buf L tm st = Some t -> parse_buf L tm' st = Some t.
  Proof. unfold parse_buf. destruct (t_number st && negb (t_alpha st)); [auto|]. destruct (_ && _); [auto|]. destruct (_ && _); [auto|]. apply H. Qed.
  Lemma finish_more st ts : tfinish L tm st = Some ts -> tfinish L tm' st = Some ts.
  Proof.
    unfold tfinish. destruct (t_depth st); [|auto]. destruct (t_buf st); [auto|]. destruct (parse_buf L tm st) eqn:E; [|discriminate].
    now rewrite (buf_more _ _ E).
  Qed.
  Lemma tokens_more f : forall s st ts, tokens L tm f s st = Some ts -> tokens L tm' f s st = Some ts.
  Proof.
    induction f as [|f IH]; intros s st ts; [auto|]. cbn [tokens]. destruct s as [|c s]; [apply finish_more|].
    destruct (in_word st c); [apply IH|]. destruct (N.eqb c 125); [apply finish_more|].
    set (start := match t_buf st with [] => t_start st | _ => false end).
    assert (B : forall p, match t_buf st with [] => Some [] | _ :: _ => option_map (fun t => [t]) (parse_buf L tm st) end = Some p ->
      match t_buf st with [] => Some [] | _ :: _ => option_map (fun t => [t]) (parse_buf L tm' st) end = Some p).
    { intro p. destruct (t_buf st); [auto|]. destruct (parse_buf L tm st) eqn:E; [|discriminate]. now rewrite (buf_more _ _ E). }
    destruct (match t_buf st with [] => Some [] | _ :: _ => option_map (fun t => [t]) (parse_buf L tm st) end) as [p|]; [|discriminate].
    rewrite (B p eq_refl). destruct (delimiter start (t_depth st) c s) as [t rest| |]; [| |auto].
    - destruct (tokens L tm f rest _) eqn:E; [|discriminate]. now rewrite (IH _ _ _ E).
    - destruct (tokens L tm f s _) eqn:E; [|discriminate]. now rewrite (IH _ _ _ E).
  Qed.
  Lemma text_more s code : compile_text L tm s = Parsed code -> compile_text L tm' s = Parsed code.
  Proof.
    unfold compile_text, ExprTok.tokenize. intro E.
    destruct (tokens L tm (S (length s)) s (tclear true 0)) as [ts|] eqn:F.
    - now rewrite (tokens_more _ _ _ _ F).
    - discriminate E.
  Qed.
End Tokens.

Section Functions.
  Variable K : cenv.
  Variable f : text -> option (N * nat).
  Hypothesis Hf : forall n y, C_fns K n = Some y -> f n = Some y.
  Variable FU : nat.
  Notation K' := (with_known K f).

  Lemma le_expr : le (parse_expr K) (parse_expr K').
  Proof.
    unfold parse_expr. apply le_bind; [apply le_refl|]. intro t. apply le_bind; [apply le_refl|]. intros src s a s' E.
    destruct (compile_text (C_L K) (token_map K s) src) eqn:C; try discriminate.
    rewrite (text_more (C_L K) (token_map K s) (token_map K' s)) with (code := code); [exact E| |exact C].
    intros n b tk. unfold token_map. cbn [with_known C_L C_M C_fns]. destruct (parse_variable _ _ _ _ _); [auto|..];
      (destruct (C_fns K n) as [[id k]|] eqn:F; [|discriminate]; now rewrite (Hf _ _ F)).
  Qed.
  Lemma le_leaf w : le (leaf K FU w) (leaf K' FU w).
  Proof.
    unfold leaf. destruct (word "eval" w); [|apply le_refl]. apply le_bind; [apply le_refl|]. intros _. apply le_bind; [apply le_expr|intro; apply le_refl].
  Qed.
  Lemma le_test_step st : le (test_step K FU st) (test_step K' FU st).
  Proof.
    unfold test_step. destruct st as [[bl stk] is_not]. apply le_bind; [apply le_refl|]. intro tk. apply le_bind; [apply le_refl|]. intros _.
    destruct tk; try apply le_refl. destruct (word "not" w); [apply le_refl|]. destruct (oneof _ w); [apply le_refl|].
    destruct (word "true" w); [apply le_refl|]. destruct (word "false" w); [apply le_refl|].
    apply le_bind; [apply le_leaf|intro; apply le_refl].
  Qed.
  Lemma le_parse_test : le (parse_test K FU) (parse_test K' FU).
  Proof. unfold parse_test. apply le_bind; [|intro; apply le_refl]. apply le_loop. apply le_test_step. Qed.
  Lemma le_let : le (cmd_let K) (cmd_let K').
  Proof. unfold cmd_let. do 2 (apply le_bind; [apply le_refl|intro]). apply le_bind; [apply le_expr|intro; apply le_refl]. Qed.
  Lemma le_eval : le (e <- parse_expr K ;; ret (IxEval e)) (e <- parse_expr K' ;; ret (IxEval e)).
  Proof. apply le_bind; [apply le_expr|intro; apply le_refl]. Qed.
  Lemma find_more w :
    match find_word w (commands K FU), find_word w (commands K' FU) with
    | Some (c, m), Some (c', m') => c' = c /\ le m m'
    | None, None => True
    | _, _ => False
    end.
  Proof.
    assert (G : forall l l' : list (String.string * (option capability * P instruction)),
      Forall2 (fun p p' => fst p' = fst p /\ fst (snd p') = fst (snd p) /\ le (snd (snd p)) (snd (snd p'))) l l' ->
      match find_word w l, find_word w l' with Some (c, m), Some (c', m') => c' = c /\ le m m' | None, None => True | _, _ => False end).
    { intros l l' F. induction F as [|[x [c m]] [x' [c' m']] l l' (E1 & E2 & E3) F IH]; cbn [find_word]; [exact I|]. cbn [fst snd] in *. subst x' c'.
      destruct (word x w); [now split|exact IH]. }
    apply G. unfold commands.
    repeat (apply Forall2_cons; [split; [reflexivity|split; [reflexivity|cbn [snd]; lazymatch goal with |- le (cmd_let _) _ => exact le_let | |- le (bind (parse_expr _) _) _ => exact le_eval | _ => apply le_refl end]]|]). apply Forall2_nil.
  Qed.
  Lemma le_command w : le (command K FU w) (command K' FU w).
  Proof.
    unfold command. destruct (word "require" w); [apply le_refl|].
    destruct (word "if" w); [apply le_bind; [apply le_parse_test|intro; apply le_refl]|].
    destruct (word "elsif" w).
    { apply le_bind; [apply le_refl|]. intros []; lazymatch goal with |- le (bind (parse_test _ _) _) _ => apply le_bind; [apply le_parse_test|intro; apply le_refl] | _ => apply le_refl end. }
    destruct (word "else" w); [apply le_refl|]. destruct (word "foreverypart" w); [apply le_refl|]. destruct (word "break" w); [apply le_refl|].
    destruct (word "vacation" w); [apply le_refl|]. destruct (word "include" w); [apply le_refl|].
    destruct (word "return" w); [apply le_refl|]. destruct (word "global" w); [apply le_refl|].
    destruct (word "while" w).
    { apply le_bind; [apply le_refl|intro]. apply le_bind; [apply le_expr|intro; apply le_refl]. }
    destruct (word "continue" w); [apply le_refl|].
    pose proof (find_more w) as F. destruct (find_word w (commands K FU)) as [[c m]|], (find_word w (commands K' FU)) as [[c' m']|]; try contradiction; [|apply le_refl].
    destruct F as [-> F]. unfold simple. apply le_bind; [apply le_refl|intros _]. apply le_bind; [exact F|intro; apply le_refl].
  Qed.
  Lemma le_main_step u : le (main_step K FU u) (main_step K' FU u).
  Proof.
    unfold main_step. apply le_bind; [apply le_refl|]. intros [tk|]; [|apply le_refl]. apply le_bind; [apply le_refl|]. intros _.
    destruct tk; lazymatch goal with |- le (bind (command _ _ _) _) _ => apply le_bind; [apply le_command|intros []; apply le_refl] | _ => apply le_refl end.
  Qed.
  Lemma compile_with_fns script x : compile_with K FU script = Compiled x -> compile_with K' FU script = Compiled x.
  Proof.
    unfold compile_with. change (C_script K') with (C_script K). destruct (Nat.ltb (C_script K) (length script)); [auto|].
    destruct (loop FU (main_step K FU) tt (init script)) as [u s| | |] eqn:E; try discriminate.
    rewrite (le_loop _ _ le_main_step _ _ _ _ _ E). auto.
  Qed.
End Functions.
