(** Proofs about whole runs: the final disposition. *)
From Coq Require Import Lia.
From Verif Require Import Base Lib Address Var Value SetVar Flags Comparator Message EditHeader Expr Event
  Notify Vacation Spam AddrTest Mime Sieve Run RunSpec RunProofs RunProofs2 RunProofs3 RunProofs4 RunProofs5 RunProofs6.

Section P.
  Variable E : renv.

  Theorem accounting m size c inputs outs s' : polite true inputs outs ->
    converse_run E inputs (initial m size c) = Some (outs, s') ->
    let g := log_of E inputs (initial m size c) in
    (g_end g = [] /\ actions (events_of outs ++ r_queue s') = flat_map (actions_of E) (g_log g)) \/
    (exists se, g_end g = [se] /\ actions (events_of outs ++ r_queue s') =
       flat_map (actions_of E) (g_log g) ++ deliver E (pending E (g_log g)) se).
  Proof.
    intros P H g. destruct (conversation_trace E inputs (initial m size c) true outs s' I P H) as [(A & B & _) | (se & A & B & _)].
    - left. now split.
    - right. exists se. now split.
  Qed.

  Lemma actions_no_disposition x : dispositions (actions_of E x) = [].
  Proof.
    assert (A : forall s, dispositions (announce E s) = []) by (intros s; unfold announce; destruct (ms_changed _); reflexivity).
    destruct x as [i s]. destruct i; unfold actions_of; try reflexivity.
    - apply A.
    - unfold dispositions. rewrite filter_app. fold (dispositions (announce E s)). now rewrite A.
    - destruct (redirect_target _ _ _ _); [|reflexivity].
      unfold dispositions. rewrite filter_app. fold (dispositions (announce E s)). now rewrite A.
    - destruct (notify_result _ _ _ _ _ _ _ _) as [[[ev l] o]|] eqn:N; [|reflexivity].
      now destruct (notify_batch _ _ _ _ _ _ _ N) as [[_ _ _ _ B _] _].
    - destruct (vacation_result _ _ _ _ _ _ _) as [[ev l] o] eqn:N.
      now destruct (vacation_batch _ _ _ _ _ _ _ _ N) as [[_ _ _ _ B _] _].
  Qed.
  Lemma log_no_disposition log : dispositions (flat_map (actions_of E) log) = [].
  Proof.
    induction log as [|x log IH]; [reflexivity|]. cbn [flat_map]. unfold dispositions. rewrite filter_app.
    fold (dispositions (actions_of E x)). fold (dispositions (flat_map (actions_of E) log)).
    now rewrite actions_no_disposition, IH.
  Qed.
  Lemma dispositions_actions l : dispositions (actions l) = dispositions l.
  Proof. unfold dispositions, actions. induction l as [|e l IH]; [reflexivity|]. destruct e; cbn in *; rewrite ?IH; auto. Qed.

  Theorem completed m size c n x rest outs s' :
    s_match_vars x <= 63 -> s_vars x <= 256 ->
    (forall t y, E_scripts E t = Some y -> jumps_inside y) ->
    (forall i y, In i (InScript n x :: rest) -> In y (input_script i) -> jumps_inside y) ->
    polite true (InScript n x :: rest) outs ->
    converse_run E (InScript n x :: rest) (initial m size c) = Some (outs, s') -> In None outs ->
    let g := log_of E (InScript n x :: rest) (initial m size c) in
    exists se, g_end g = [se] /\
      actions (events_of outs) = flat_map (actions_of E) (g_log g) ++ deliver E (pending E (g_log g)) se.
  Proof.
    intros M V Sc J P H No g.
    assert (F : alive (feed (InScript n x) (initial m size c))).
    { cbn. rewrite (proj2 (Nat.leb_le _ _) M), (proj2 (Nat.leb_le _ _) V). cbn. split; cbn; auto.
      - discriminate.
      - split; [|split; [lia|exact I]]. apply (J (InScript n x)); now left.
      - intros k y [Hy|[]]. injection Hy as <- <-. apply (J (InScript n x)); now left. }
    assert (Q : g_end g <> [] /\ actions (r_queue s') = []).
    { pose proof H as H0. cbn [converse_run] in H0. destruct (run E (InScript n x) (initial m size c)) as [s1 o| |] eqn:R; try discriminate.
      destruct (converse_run E rest s1) as [[outs' s2]|] eqn:Cv; [|discriminate].
      assert (E1 : outs = o :: outs') by (cbn in H0; congruence). assert (E2 : s2 = s') by (cbn in H0; congruence).
      clear H0. subst outs s2. destruct P as [_ P]. unfold g. cbn [log_of]. rewrite R. clear g.
      destruct (run_alive E Sc _ _ _ _ F R) as [(I1 & I2 & I3) | (I1 & I2 & I3 & I4)].
      - destruct No as [No|No]; [congruence|].
        destruct (conversation_ends E Sc rest s1 _ outs' s' I2 (fun i y Hi => J i y (or_intror Hi)) P Cv No) as [B1 B2].
        split; [|exact B2]. cbn [join g_end]. rewrite I1. exact B1.
      - split. { cbn [join g_end]. intros Hn. apply app_eq_nil in Hn. now apply I1. }
        unfold seen in I3. rewrite forallb_app in I3. apply andb_prop in I3 as [Qo Qs].
        assert (Pf : polite false rest outs').
        { destruct o as [[e|]|]; try exact P. cbn in Qo. destruct e; try exact P. discriminate. }
        destruct No as [-> | No].
        + destruct (over_conv E rest s1 outs' s' I2 Qs Pf Cv) as (_ & B & _ & _).
          specialize (I4 eq_refl). rewrite <- B, actions_app in I4. now apply app_eq_nil in I4.
        + rewrite (over_none E rest s1 outs' s' I2 Qs Pf Cv No). reflexivity. }
    destruct Q as [Q1 Q2]. destruct (accounting m size c _ _ _ P H) as [[A _] | (se & A & B)]; [contradiction|].
    exists se. split; [exact A|]. rewrite actions_app, Q2, app_nil_r in B. exact B.
  Qed.

  Lemma deliver_dispositions d s : fin d ->
    match d with
    | None => deliver E d s = []
    | Some _ => exists l e, deliver E d s = l ++ [e] /\ is_disposition e = true /\ dispositions l = []
    end.
  Proof.
    destruct d as [[]|]; cbn [fin deliver]; try contradiction; intros _; try reflexivity.
    - destruct (ms_changed _) eqn:C.
      + eexists _, _. split; [reflexivity|]. split; [reflexivity|]. unfold announce. rewrite C. reflexivity.
      + exists [], (EKeep match flags with [] => global_flags (E_L E) (vw E s) | _ => flags end id). now repeat split.
    - exists [], EDiscard. now repeat split.
  Qed.
  (** The shape of a completed run: at most one disposition, and it comes last. *)
  Theorem one_disposition log se : 
    let all := flat_map (actions_of E) log ++ deliver E (pending E log) se in
    match pending E log with
    | None => dispositions all = []
    | Some _ => exists l e, all = l ++ [e] /\ is_disposition e = true /\ dispositions l = []
    end.
  Proof.
    intros all. pose proof (deliver_dispositions (pending E log) se (after_fin E log implicit_keep I)) as D.
    subst all. destruct (pending E log) as [p|].
    - destruct D as (l & e & -> & De & Dl). exists (flat_map (actions_of E) log ++ l), e. split; [now rewrite app_assoc|].
      split; [exact De|]. unfold dispositions. rewrite filter_app.
      fold (dispositions (flat_map (actions_of E) log)). fold (dispositions l). now rewrite log_no_disposition, Dl.
    - rewrite D, app_nil_r. apply log_no_disposition.
  Qed.

  Lemma implicit log : forall d, fin d -> Forall (leaves_keep E) log -> fold_left (pending_after E) log d = d.
  Proof.
    induction log as [|[i s] log IH]; intros d F H; [reflexivity|]. inversion H as [|? ? H1 H2]; subst. cbn [fold_left].
    replace (pending_after E d (i, s)) with d; [now apply IH|].
    destruct i; try reflexivity; cbn in H1 |- *; try contradiction.
    - now rewrite H1.
    - destruct H1 as [-> | ->]; [|reflexivity]. destruct (redirect_target _ _ _ _); [|reflexivity].
      destruct d as [[]|]; reflexivity.
  Qed.

  (** Errors end the script. *)
  Lemma run_error inp s s' e : run E inp s = RRet s' (Some (OError e)) -> g_end (run_log E inp s) <> [].
  Proof.
    unfold run, run_log. set (s0 := feed inp s). destruct (r_queue s0); [|discriminate].
    destruct (r_stack s0) eqn:St; [discriminate|]. generalize (enough E s0). clearbody s0. clear. intros n. revert s0.
    induction n as [|n IH]; intros s0; [discriminate|]. cbn [loop loop_log].
    assert (En : ends E s0 = match step E s0 with
      | SEnd s' => Some s' | SYield _ (OError _) => Some s0 | _ => None end) by reflexivity.
    destruct (step E s0) as [s1|s1 [e1|e1]|s1|s1|]; try discriminate.
    - intros H. cbn. rewrite En. now apply IH.
    - intros _. cbn. rewrite En. discriminate.
    - destruct (finale E s1) as [s2 o] eqn:Fi. intros H. injection H as <- ->.
      unfold finale in Fi. destruct (r_final s1) as [[]|]; rewrite ?build_id_eq in Fi; cbn in Fi;
        try (destruct (ms_changed (r_msg s1))); discriminate.
  Qed.
  Lemma conversation_error inputs : forall s outs s' e, converse_run E inputs s = Some (outs, s') ->
    In (Some (OError e)) outs -> g_end (log_of E inputs s) <> [].
  Proof.
    induction inputs as [|i rest IH]; intros s outs s' e H I; cbn in H.
    { injection H as <- <-. destruct I. }
    destruct (run E i s) as [s1 o| |] eqn:R; try discriminate.
    destruct (converse_run E rest s1) as [[outs' s2]|] eqn:Cv; [|discriminate]. injection H as <- <-.
    cbn [log_of]. rewrite R. cbn. destruct I as [-> | I].
    - apply run_error in R. intros Hn. apply app_eq_nil in Hn. now apply R.
    - intros Hn. apply app_eq_nil in Hn. now apply (IH _ _ _ e Cv I).
  Qed.

  Lemma over_budget inp s i : (forall n x, inp <> InScript n x) -> r_queue s = [] -> next_instr s = Some i ->
    E_cpu E <= r_instrs s -> exists s', run E inp s = RRet s' (Some (OError ErCpu)).
  Proof.
    intros Ni Q N C.
    assert (F : exists t es, feed inp s = w_test t (w_estack es s)).
    { destruct inp; cbn.
      - exists (xorb (r_test s) true), (r_estack s). destruct s; reflexivity.
      - exists (xorb (r_test s) false), (r_estack s). destruct s; reflexivity.
      - exists (r_test s), (v :: r_estack s). destruct s; reflexivity.
      - now destruct (Ni n s0). }
    destruct F as (t & es & F). unfold run. rewrite F. cbn [r_queue w_test w_estack r_stack]. rewrite Q.
    set (s0 := w_test t (w_estack es s)).
    assert (N0 : next_instr s0 = Some i) by exact N. assert (C0 : E_cpu E <= r_instrs s0) by exact C.
    unfold next_instr in N. destruct (r_stack s) as [|f rest] eqn:St; [discriminate|].
    unfold enough. rewrite Nat.add_1_r. cbn [loop].
    assert (St0 : r_stack s0 = f :: rest) by exact St.
    unfold step. rewrite St0.
    assert (Lt : r_pos s0 < length (s_code (f_script f))) by (apply nth_error_Some; unfold s0; cbn; congruence).
    rewrite (proj2 (Nat.ltb_ge _ _)) by lia. rewrite N0. cbv zeta.
    change (r_instrs (w_instrs (r_instrs s0 + 1) s0)) with (r_instrs s0 + 1).
    rewrite (proj2 (Nat.ltb_lt _ _)) by lia. eexists. reflexivity.
  Qed.
End P.
