(** Proofs: the functions called by an expression are those its words name. *)
From Coq Require Import Lia.
From Verif Require Import Base Lib Var Value Expr ExprTok.
Import ListNotations.

Section Ids.
  (** The numbers that words stand for. *)
  Variable ok : N -> Prop.
  Definition ti (t : token) : Prop := match t with TFun id _ => ok id | _ => True end.
  Definition ii (i : instr) : Prop := match i with IFun id _ => ok id | _ => True end.
  Definition oi (o : op) : Prop := match o with OFun id _ => id = id_array_access \/ id = id_array_build \/ ok id | _ => True end.

  Lemma patch_ids out j out' : Forall ii out -> patch out j = Some out' -> Forall ii out'.
  Proof.
    unfold patch. destruct j as [j|]; [|now intros H [= <-]]. destruct (nth_error out j) as [i|]; [|discriminate].
    intros H E. destruct i; injection E as <-; try exact H. clear -H. generalize (length out - j). intro k. revert j. induction H as [|x l X H IH]; intros [|j]; cbn; constructor; auto. exact I.
  Qed.
  Lemma emit_ids b j out out' : Forall ii out -> emit_bin b j out = Some out' -> Forall ii out'.
  Proof.
    unfold emit_bin. destruct (patch out j) eqn:E; [|discriminate]. intros H [= <-]. apply Forall_app. split; [eapply patch_ids; eassumption|].
    constructor; [exact I|constructor].
  Qed.
  Lemma snoc_ids out i : Forall ii out -> ii i -> Forall ii (out ++ [i]).
  Proof. intros H X. apply Forall_app. split; [exact H|]. constructor; [exact X|constructor]. Qed.
  Definition popped (r : popres) : Prop := match r with PopOk ops out => Forall oi ops /\ Forall ii out | _ => True end.
  Lemma close_ids br ops : forall out, Forall oi ops -> Forall ii out -> popped (close_loop br ops out).
  Proof.
    induction ops as [|o ops IH]; intros out HO HI; cbn [close_loop]; [exact I|]. inversion HO; subst.
    destruct o; try exact I; try (destruct br; cbn; auto).
    - destruct (emit_bin _ _ out) eqn:E; [|exact I]. apply IH; [assumption|eapply emit_ids; eassumption].
    - destruct (emit_bin _ _ out) eqn:E; [|exact I]. apply IH; [assumption|eapply emit_ids; eassumption].
    - apply IH; [assumption|now apply snoc_ids].
    - apply IH; [assumption|now apply snoc_ids].
  Qed.
  Lemma bin_ids b ops : forall out, Forall oi ops -> Forall ii out -> popped (bin_loop b ops out).
  Proof.
    induction ops as [|o ops IH]; intros out HO HI; cbn [bin_loop]; [now split|]. inversion HO; subst.
    destruct o; try (now split).
    - destruct (Nat.leb _ _); [|now split]. destruct (emit_bin _ _ out) eqn:E; [|exact I]. apply IH; [assumption|eapply emit_ids; eassumption].
    - apply IH; [assumption|now apply snoc_ids].
  Qed.
  Lemma comma_ids ops : forall out, Forall oi ops -> Forall ii out -> popped (comma_loop ops out).
  Proof.
    induction ops as [|o ops IH]; intros out HO HI; cbn [comma_loop]; [now split|]. inversion HO; subst.
    destruct o; try (now split).
    - destruct (emit_bin _ _ out) eqn:E; [|exact I]. apply IH; [assumption|eapply emit_ids; eassumption].
    - apply IH; [assumption|now apply snoc_ids].
  Qed.
  Lemma end_ids ops : forall out, Forall oi ops -> Forall ii out -> popped (end_loop ops out).
  Proof.
    induction ops as [|o ops IH]; intros out HO HI; cbn [end_loop]; [now split|]. inversion HO; subst.
    destruct o; try exact I.
    - destruct (emit_bin _ _ out) eqn:E; [|exact I]. apply IH; [assumption|eapply emit_ids; eassumption].
    - apply IH; [assumption|now apply snoc_ids].
  Qed.
  Lemma bump_ids o : oi o -> oi (bump o).
  Proof. destruct o; auto. cbn. destruct (N.eqb id id_array_build); auto. Qed.
  Lemma inc_ids ops cnt : Forall oi ops -> Forall oi (fst (inc_args ops cnt)).
  Proof.
    intro H. unfold inc_args. destruct cnt; [exact H|]. cbn [fst]. destruct H as [|o ops X H]; [constructor|].
    destruct H as [|o' ops X' H]; [constructor; [now apply bump_ids|constructor]|]. constructor; [exact X|]. constructor; [now apply bump_ids|exact H].
  Qed.
  Definition stok (r : pres) : Prop := match r with POk st => Forall oi (p_ops st) /\ Forall ii (p_out st) | _ => True end.
  Lemma operand_ids i last st : ii i -> Forall oi (p_ops st) -> Forall ii (p_out st) -> stok (push_operand i last st).
  Proof.
    intros X HO HI. unfold push_operand. pose proof (inc_ids (p_ops st) (p_cnt st) HO) as Y. destruct (inc_args _ _) as [ops cnt].
    split; [exact Y|now apply snoc_ids].
  Qed.
  Lemma finish_ids ops cnt out : Forall oi ops -> Forall ii out -> stok (finish_call ops cnt out).
  Proof.
    intros HO HI. unfold finish_call. destruct ops as [|o ops]; [now split|]. inversion HO; subst. destruct o; try (now split).
    destruct cnt; [exact I|]. destruct (negb _); [exact I|]. split; [assumption|]. cbn [p_out]. apply snoc_ids; [exact HI|].
    destruct (N.eqb_spec id id_array_access); [exact I|]. destruct (N.eqb_spec id id_array_build); [exact I|]. cbn in *. tauto.
  Qed.
  Lemma ptok_ids t st : ti t -> Forall oi (p_ops st) -> Forall ii (p_out st) -> stok (ptok t st).
  Proof.
    intros T HO HI.
    assert (CL : forall br, stok (match close_loop br (p_ops st) (p_out st) with
        | PopErr => PErr | PopPanic => PPanic | PopOk ops out => finish_call ops (p_cnt st) out end)).
    { intro br. pose proof (close_ids br _ _ HO HI) as X. destruct (close_loop _ _ _); try exact I. destruct X. now apply finish_ids. }
    pose proof (inc_ids (p_ops st) (p_cnt st) HO) as Y.
    destruct t; cbn [ptok]; try (now apply operand_ids); try (apply CL).
    all: try (split; [constructor; [exact I|assumption]|assumption]).
    - destruct (inc_args _ _) as [ops cnt]. split; [constructor; [right; right; exact T|exact Y]|exact HI].
    - pose proof (bin_ids b _ _ HO HI) as X. destruct (bin_loop _ _ _) as [ops out| |]; try exact I. destruct X as [X1 X2].
      destruct b; (split; [constructor; [exact I|assumption]|try (apply snoc_ids; [|exact I]); assumption]).
    - destruct (p_last st).
      + split; [|exact HI]. constructor; [exact I|]. constructor; [now left|exact HO].
      + destruct (inc_args _ _) as [ops cnt]. split; [|exact HI]. constructor; [exact I|]. constructor; [right; now left|exact Y].
    - pose proof (comma_ids _ _ HO HI) as X. destruct (comma_loop _ _) as [ops out| |]; try exact I. exact X.
  Qed.
  Lemma ptoks_ids ts : forall st, Forall ti ts -> Forall oi (p_ops st) -> Forall ii (p_out st) -> stok (ptoks ts st).
  Proof.
    induction ts as [|t ts IH]; intros st HT HO HI; cbn [ptoks]; [now split|]. inversion HT; subst.
    pose proof (ptok_ids t st ltac:(assumption) HO HI) as X. destruct (ptok t st); [|exact I|exact I]. apply IH; [assumption|apply X|apply X].
  Qed.
  Lemma parse_ids ts code : Forall ti ts -> parse ts = Parsed code -> Forall ii code.
  Proof.
    intros HT. unfold parse. pose proof (ptoks_ids ts pinit HT ltac:(constructor) ltac:(constructor)) as X.
    destruct (ptoks ts pinit) as [st| |]; try discriminate. pose proof (end_ids _ _ (proj1 X) (proj2 X)) as Y.
    destruct (end_loop _ _); try discriminate. intros [= <-]. apply Y.
  Qed.

  Variable L : rustlib.
  Variable tm : text -> bool -> option token.
  Hypothesis Htm : forall n b t, tm n b = Some t -> ti t.
  Lemma buf_ids st t : parse_buf L tm st = Some t -> ti t.
  Proof.
    unfold parse_buf. destruct (_ && _).
    - destruct (t_dot st); [destruct (f64_parse L (t_buf st))|destruct (parse_i64 (t_buf st))]; try discriminate; intros [= <-]; exact I.
    - destruct (_ && _); [intros [= <-]; exact I|]. destruct (_ && _); [intros [= <-]; exact I|]. apply Htm.
  Qed.
  Lemma finish_toks st ts : tfinish L tm st = Some ts -> Forall ti ts.
  Proof.
    unfold tfinish. destruct (t_depth st); [|discriminate]. destruct (t_buf st); [intros [= <-]; constructor|].
    destruct (parse_buf L tm st) eqn:E; [|discriminate]. intros [= <-]. constructor; [eapply buf_ids; eassumption|constructor].
  Qed.
  Lemma delimiter_ids start d c s t rest : delimiter start d c s = DTok t rest -> ti t.
  Proof.
    unfold delimiter. repeat match goal with |- context [if ?b then _ else _] => destruct b end;
      try (intros [= <- <-]; exact I); try discriminate.
    all: try (destruct d; [discriminate|intros [= <- <-]; exact I]).
    all: try (destruct (string_lit _ _ _ _) as [[? ?]|]; [intros [= <- <-]; exact I|discriminate]).
  Qed.
  Lemma tokens_ids f : forall s st ts, tokens L tm f s st = Some ts -> Forall ti ts.
  Proof.
    induction f as [|f IH]; intros s st ts; [discriminate|]. cbn [tokens]. destruct s as [|c s]; [apply finish_toks|].
    destruct (in_word st c); [apply IH|]. destruct (N.eqb c 125); [apply finish_toks|].
    set (start := match t_buf st with [] => t_start st | _ => false end).
    assert (B : forall p, match t_buf st with [] => Some [] | _ :: _ => option_map (fun t => [t]) (parse_buf L tm st) end = Some p -> Forall ti p).
    { intro p. destruct (t_buf st); [intros [= <-]; constructor|]. destruct (parse_buf L tm st) eqn:E; [|discriminate]. intros [= <-].
      constructor; [eapply buf_ids; eassumption|constructor]. }
    destruct (match t_buf st with [] => Some [] | _ :: _ => option_map (fun t => [t]) (parse_buf L tm st) end) as [p|]; [|discriminate].
    specialize (B p eq_refl). destruct (delimiter start (t_depth st) c s) as [t rest| |] eqn:D; [| |discriminate].
    - destruct (tokens L tm f rest _) eqn:E; [|discriminate]. intros [= <-]. apply Forall_app. split; [exact B|]. constructor; [eapply delimiter_ids; eassumption|eapply IH; eassumption].
    - destruct (tokens L tm f s _) eqn:E; [|discriminate]. intros [= <-]. apply Forall_app. split; [exact B|]. eapply IH; eassumption.
  Qed.
  Lemma text_ids s code : compile_text L tm s = Parsed code -> Forall ii code.
  Proof.
    unfold compile_text, ExprTok.tokenize. intro E. destruct (tokens L tm (S (length s)) s (tclear true 0)) as [ts|] eqn:F; [|discriminate E].
    eapply parse_ids; [eapply tokens_ids; exact F|exact E].
  Qed.
End Ids.

(** The machine asks about the functions of the code only. *)
Lemma exec_same L strict fns fns' ctx code :
  Forall (ii (fun id => fns id = fns' id)) code ->
  forall f pos st, exec L strict fns ctx f code pos st = exec L strict fns' ctx f code pos st.
Proof.
  intros H f. induction f as [|f IH]; intros pos st; [reflexivity|]. cbn [exec].
  destruct (nth_error code pos) as [i|] eqn:N; [|reflexivity]. apply nth_error_In in N. rewrite Forall_forall in H. apply H in N.
  destruct i; rewrite ?IH; try reflexivity.
  all: try (destruct (popn strict _ [] st) as [[[|? [|? [|? ?]]] ?]|]; rewrite ?IH; reflexivity).
  - destruct (pop strict st) as [[? ?]|]; [|reflexivity]. destruct (un_sem _ _ _); [apply IH|reflexivity].
  - cbn in N. rewrite N. destruct (popn _ _ _ _) as [[? ?]|]; [|reflexivity]. destruct (fns' id); [apply IH|reflexivity].
Qed.
Lemma converse_same L strict fns fns' ctx code : Forall (ii (fun id => fns id = fns' id)) code ->
  forall answers pos st, converse L strict fns ctx answers code pos st = converse L strict fns' ctx answers code pos st.
Proof.
  intros H answers. induction answers as [|a answers IH]; intros pos st; cbn [converse]; unfold eval_expression; rewrite (exec_same _ _ _ _ _ _ H);
    destruct (exec _ _ _ _ _ _ _ _); try reflexivity. now rewrite IH.
Qed.
