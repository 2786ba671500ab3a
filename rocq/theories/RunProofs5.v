(** Proofs about whole runs: limits on redirects, includes, and the script stack. *)
From Coq Require Import Lia.
From Verif Require Import Base Lib Address Var Value SetVar Flags Comparator Message EditHeader Expr Event
  Notify Vacation Spam AddrTest Mime Sieve Run RunSpec RunProofs RunProofs2 RunProofs3.

Section P.
  Variable E : renv.

  Lemma finish_redirects s : r_redirects (finish_loop E s) = r_redirects s.
  Proof.
    unfold finish_loop. cbn. destruct (r_final s) as [[]|]; try reflexivity.
    rewrite build_id_eq. cbn. destruct (ms_changed (r_msg s)); reflexivity.
  Qed.
  Definition rcount (log : list entry) : nat := length (redirects_in E log).
  Lemma rcount_app a b : rcount (a ++ b) = rcount a + rcount b.
  Proof. unfold rcount, redirects_in. now rewrite filter_app, app_length. Qed.

  Lemma exec_redirect_count address copy list_ opts s s' :
    state_of (exec_redirect E address copy list_ opts s) = Some s' ->
    r_redirects s' = r_redirects s + rcount [(IxRedirect address copy list_ opts, s)] /\
    (r_redirects s <= E_max_redirects E -> r_redirects s' <= E_max_redirects E).
  Proof.
    unfold exec_redirect, rcount, redirects_in. cbn [filter]. intros H. unfold redirect_target.
    destruct (sanitize_address (tx E s address)) as [a|].
    2:{ apply take_queue_state in H. destruct H as [q ->]. cbn. lia. }
    destruct (Nat.ltb (r_redirects s) (E_max_redirects E)) eqn:L1; cbn [andb] in *.
    2:{ apply take_queue_state in H. destruct H as [q ->]. destruct (parts s); cbn; lia. }
    destruct (Nat.ltb (r_out s) (E_max_out E)); cbn [andb] in *.
    2:{ apply take_queue_state in H. destruct H as [q ->]. destruct (parts s); cbn; lia. }
    destruct (parts s) as [|root pt]; [discriminate|].
    destruct (Nat.ltb (received_count root) (E_max_received E)); cbn [andb] in *.
    2:{ apply take_queue_state in H. destruct H as [q ->]. cbn; lia. }
    apply Nat.ltb_lt in L1.
    destruct (negb list_ && teqb_ic a (E_user E)) eqn:Own.
    - apply take_queue_state in H. destruct H as [q ->]. destruct list_; [discriminate|]. cbn in *. rewrite Own. cbn. lia.
    - assert (Y : list_ || negb (teqb_ic a (E_user E)) = true).
      { destruct list_; [reflexivity|]. cbn in *. now rewrite Own. }
      rewrite Y. cbn [length].
      destruct (build_message_id E _) as [s2 created] eqn:B. apply build_id_stack in B.
      apply take_queue_state in H. destruct H as [q ->]. cbn.
      assert (R : r_redirects s2 = r_redirects s).
      { destruct B as (_ & _ & _ & _ & _ & _ & _ & _ & _ & _ & _ & -> & _). destruct copy; [reflexivity|].
        destruct (r_final s) as [[]|]; reflexivity. }
      rewrite R. lia.
  Qed.
  Lemma exec_instr_redirects i s s' : state_of (exec_instr E i s) = Some s' ->
    r_redirects s' = r_redirects s + rcount [(i, s)] /\
    (r_redirects s <= E_max_redirects E -> r_redirects s' <= E_max_redirects E).
  Proof.
    intros H.
    assert (K : r_redirects s' = r_redirects s -> rcount [(i, s)] = 0 ->
                r_redirects s' = r_redirects s + rcount [(i, s)] /\
                (r_redirects s <= E_max_redirects E -> r_redirects s' <= E_max_redirects E)) by lia.
    destruct i; try (apply exec_redirect_count; exact H);
      apply K; try reflexivity; instr_cases H; goal_ifs; hyp_ifs; cbn in *; rewrite ?finish_redirects; cbn; congruence.
  Qed.
  Lemma step_redirects s s' : state_of (step E s) = Some s' ->
    r_redirects s' = r_redirects s + rcount (executed E s) /\
    (r_redirects s <= E_max_redirects E -> r_redirects s' <= E_max_redirects E).
  Proof.
    unfold step, executed, next_instr. destruct (r_stack s) as [|f rest] eqn:St.
    { intros H; injection H as <-. cbn. lia. }
    destruct (Nat.ltb (length _) _) eqn:Rg.
    { intros H; injection H as <-. apply Nat.ltb_lt in Rg.
      rewrite (proj2 (nth_error_None _ _)) by lia. cbn. lia. }
    destruct (nth_error _ _) as [i|] eqn:N.
    - change (r_instrs (w_instrs (r_instrs s + 1) s)) with (r_instrs s + 1). cbv zeta.
      destruct (Nat.ltb (E_cpu E) (r_instrs s + 1)) eqn:C.
      + intros H. injection H as <-. apply Nat.ltb_lt in C. rewrite finish_redirects. cbn [r_redirects w_instrs].
        rewrite (proj2 (Nat.leb_gt _ _)) by lia. cbn. lia.
      + intros H. apply Nat.ltb_ge in C. apply exec_instr_redirects in H. rewrite (proj2 (Nat.leb_le _ _)) by lia. exact H.
    - unfold pop_frame. rewrite St. destruct rest; intros H; injection H as <-; cbn; lia.
  Qed.
  Lemma finale_redirects s s' o : finale E s = (s', o) -> r_redirects s' = r_redirects s.
  Proof.
    unfold finale. destruct (r_final s) as [[]|]; rewrite ?build_id_eq; cbn;
      try (destruct (ms_changed (r_msg s))); intros H; inversion H; subst; reflexivity.
  Qed.
  Lemma loop_redirects n : forall s s' o, loop E n s = RRet s' o ->
    r_redirects s' = r_redirects s + rcount (g_log (loop_log E n s)) /\
    (r_redirects s <= E_max_redirects E -> r_redirects s' <= E_max_redirects E).
  Proof.
    induction n as [|n IH]; intros s s' o; [discriminate|]. cbn [loop loop_log].
    pose proof (step_redirects s) as T. destruct (step E s) eqn:St; cbn [state_of] in T; intros H; try discriminate;
      destruct (T _ eq_refl) as (A & B).
    - destruct (IH _ _ _ H) as [D F]. cbn [join g_log turn]. rewrite rcount_app. lia.
    - injection H as <- <-. cbn [turn g_log]. lia.
    - destruct (finale E s0) as [s1 o1] eqn:Fi. injection H as <- <-. rewrite (finale_redirects _ _ _ Fi). cbn [turn g_log]. lia.
    - injection H as <- <-. cbn [turn g_log]. lia.
  Qed.
  Theorem conversation_redirects inputs : forall s outs s', converse_run E inputs s = Some (outs, s') ->
    r_redirects s' = r_redirects s + rcount (g_log (log_of E inputs s)) /\
    (r_redirects s <= E_max_redirects E -> r_redirects s' <= E_max_redirects E).
  Proof.
    induction inputs as [|i rest IH]; intros s outs s' H; cbn in H.
    { injection H as <- <-. cbn. lia. }
    cbn [log_of]. destruct (run E i s) as [s1 o| |] eqn:R; try discriminate.
    destruct (converse_run E rest s1) as [[outs' s2]|] eqn:Cv; [|discriminate]. injection H as <- <-. cbn [snd].
    destruct (IH _ _ _ Cv) as [I1 I2]. cbn [join g_log]. rewrite rcount_app.
    assert (F : r_redirects (feed i s) = r_redirects s).
    { destruct i; cbn; try reflexivity. destruct (_ && _); reflexivity. }
    assert (K : r_redirects s1 = r_redirects s + rcount (g_log (run_log E i s)) /\
                (r_redirects s <= E_max_redirects E -> r_redirects s1 <= E_max_redirects E)).
    { rewrite <- F. unfold run, run_log in *. set (s0 := feed i s) in *. destruct (r_queue s0); [destruct (r_stack s0) eqn:St|].
      - injection R as <- <-. cbn. lia.
      - exact (loop_redirects _ _ _ _ R).
      - injection R as <- <-. destruct (r_stack s0); cbn; lia. }
    lia.
  Qed.

  (** *** Sends *)
  Definition sends (l : list event) : nat := length (filter is_send l).
  Lemma sends_app a b : sends (a ++ b) = sends a + sends b.
  Proof. unfold sends. now rewrite filter_app, app_length. Qed.
  Lemma sends_actions l : sends (actions l) = sends l.
  Proof. unfold sends, actions. induction l as [|e l IH]; [reflexivity|]. destruct e; cbn in *; auto. Qed.
  Definition mails (log : list entry) : nat :=
    length (filter (fun x => match fst x with IxVacation _ _ _ _ _ | IxNotify _ _ _ _ _ _ => true | _ => false end) log).
  Lemma announce_sends s : sends (announce E s) = 0.
  Proof. unfold announce. destruct (ms_changed _); reflexivity. Qed.
  Lemma actions_sends x : sends (actions_of E x) <= rcount [x] + mails [x].
  Proof.
    destruct x as [i s]. destruct i; unfold actions_of; try (unfold sends; cbn; lia).
    - rewrite announce_sends. lia.
    - rewrite sends_app, announce_sends. unfold sends. cbn. lia.
    - unfold rcount, redirects_in. cbn [filter]. destruct (redirect_target E s address list_); [|unfold sends; cbn; lia].
      rewrite sends_app, announce_sends. unfold sends. cbn. lia.
    - destruct (notify_result _ _ _ _ _ _ _ _) as [[[ev l] o]|] eqn:N; [|unfold sends; cbn; lia].
      destruct (notify_batch _ _ _ _ _ _ _ N) as [[_ _ _ _ _ B] _]. unfold sends, mails. cbn [filter fst length]. lia.
    - destruct (vacation_result _ _ _ _ _ _ _) as [[ev l] o] eqn:N.
      destruct (vacation_batch _ _ _ _ _ _ _ _ N) as [[_ _ _ _ _ B] _]. unfold sends, mails. cbn [filter fst length]. lia.
  Qed.
  Lemma log_sends log : sends (flat_map (actions_of E) log) <= rcount log + mails log.
  Proof.
    induction log as [|x log IH]; [unfold sends; cbn; lia|]. cbn [flat_map]. rewrite sends_app.
    change (x :: log) with ([x] ++ log). rewrite rcount_app. pose proof (actions_sends x).
    assert (mails ([x] ++ log) = mails [x] + mails log) by (unfold mails; now rewrite filter_app, app_length). lia.
  Qed.
  Lemma deliver_sends d s : fin d -> sends (deliver E d s) = 0.
  Proof.
    destruct d as [[]|]; cbn [deliver fin]; try contradiction; try reflexivity. intros _.
    destruct (ms_changed _) eqn:C; [|reflexivity]. rewrite sends_app, announce_sends. reflexivity.
  Qed.
  Theorem conversation_sends inputs s asked outs s' : fin (r_final s) -> r_queue s = [] -> r_redirects s <= E_max_redirects E ->
    polite asked inputs outs -> converse_run E inputs s = Some (outs, s') ->
    sends (events_of outs) + r_redirects s <= E_max_redirects E + mails (g_log (log_of E inputs s)).
  Proof.
    intros F Q R P H. destruct (conversation_redirects _ _ _ _ H) as [C1 C2]. specialize (C2 R).
    pose proof (log_sends (g_log (log_of E inputs s))) as LS.
    assert (T : sends (events_of outs ++ r_queue s') = sends (flat_map (actions_of E) (g_log (log_of E inputs s)))).
    { rewrite <- sends_actions.
      destruct (conversation_trace E _ _ _ _ _ F P H) as [(_ & A & _) | (se & _ & A & _)]; rewrite A, Q; cbn [actions filter app]; [reflexivity|].
      rewrite sends_app, deliver_sends by (now apply after_fin). lia. }
    rewrite sends_app in T. lia.
  Qed.
End P.
