(** The interpreter follows the meaning of the script: whole conversations. *)
From Coq Require Import Lia.
From Verif Require Import Base Lib Address Var Value SetVar Flags Comparator Message EditHeader Expr Event
  Notify Vacation Spam AddrTest Mime Sieve Run RunSpec RunProofs RunProofs2 RunProofs3 RunProofs4 RunProofs5 RunProofs6 RunProofs7 RunProofs8
  Compile CompileSpec CompileProofs1 CompileProofs2 CompileProofs4 CompileProofs5 CompileProofs6.

Lemma visible_app a b : visible (a ++ b) = visible a ++ visible b.
Proof. apply filter_app. Qed.

Section Talk.
  Variable E : renv.
  Variable Progs : sieve -> prog -> Prop.
  Hypothesis progs_ok : forall y p, Progs y p -> exists lim, ok_prog lim p = true /\ s_code y = gprog p.
  Variable c0 : kont * rst.
  Notation M := (M E Progs).

  Definition reach (log : list entry) (c : kont * rst) : Prop := srcs E Progs c0 (visible log) c.
  (** It runs. *)
  Definition running (log : list entry) (s : rst) : Prop :=
    exists k, reach log (k, s) /\ M s k /\ r_instrs s = length log.
  (** It has ended. *)
  Definition ended (log : list entry) : Prop := exists k s, reach log (k, s) /\ over E k log.
  Definition silent_out (o : option out) : Prop := match o with Some (OEvent (EInclude _ _)) => False | _ => True end.
  Definition dead (s : rst) (o : option out) : Prop :=
    r_stack s = [] /\ forallb quiet (r_queue s) = true /\ silent_out o.
  (** It waits for an answer. *)
  Definition waiting (log : list entry) (s : rst) (e : event) : Prop :=
    forallb quiet (r_queue s) = true /\ ended log /\
    forall inp s', replies Progs e inp -> settles (feed inp s) s' -> running log s'.

  Lemma settles_instrs s s' : settles s s' -> r_instrs s' = r_instrs s.
  Proof. induction 1; [reflexivity|]. rewrite IHsettles, feed_instrs. reflexivity. Qed.
  Lemma M_stack s k : M s k -> r_stack s <> [].
  Proof. intros (f & rest & base & lim & [S _ _ _ _ _ _]). rewrite S. discriminate. Qed.
  Lemma M_calm s k : M s k -> calm s.
  Proof. intros (f & rest & base & lim & [_ _ _ X _ _ _]). exact X. Qed.
  Lemma M_fin s k : M s k -> fin (r_final s).
  Proof. intros (f & rest & base & lim & [_ _ _ _ X _ _]). exact X. Qed.

  Lemma finale_dead s s' o : r_stack s = [] -> calm s -> fin (r_final s) -> finale E s = (s', o) -> dead s' o.
  Proof.
    intros S Ca Fi H. unfold dead. destruct (finale_keeps _ _ _ _ H) as (_ & -> & _). split; [exact S|].
    unfold finale in H. destruct (r_final s) as [[]|] eqn:F; cbn in Fi; try contradiction.
    - rewrite build_id_eq in H. cbn in H. destruct (ms_changed _); injection H as <- <-; cbn; split; auto. now apply calm_quiet.
    - injection H as <- <-. cbn. split; auto. now apply calm_quiet.
    - injection H as <- <-. cbn. split; auto. now apply calm_quiet.
  Qed.

  Lemma loop_sim n : forall log s, running log s ->
    let log' := log ++ g_log (loop_log E n s) in
    loop E n s = RFuel \/
    (ended log' /\ forall s' o, loop E n s = RRet s' o -> dead s' o) \/
    (exists s' e, loop E n s = RRet s' (Some (OEvent e)) /\ waiting log' s' e).
  Proof.
    induction n as [|n IH]; intros log s (k & Re & Mo & Ct); [now left|]. cbv zeta. cbn [loop loop_log].
    destruct (step_sim E Progs progs_ok s k Mo) as [(s' & St & Ex & Si & Sk & Ca & Fi)|[(St & Ex & Cp)|[(s' & k' & St & Sr & Mo')|(i & St & Ex & Ha & W)]]].
    - right; left. rewrite St. cbn [turn g_log]. rewrite Ex, app_nil_r. split.
      + exists (Run_ []), s. split; [|right; left; reflexivity]. unfold reach in *. rewrite <- (app_nil_r (visible log)).
        eapply srcs_app; [exact Re|apply Si].
      + intros s1 o H. destruct (finale E s') as [s2 o2] eqn:Fn. injection H as <- <-. eapply finale_dead; eauto.
    - right; left. rewrite St. unfold fail. cbn [turn g_log]. rewrite Ex, app_nil_r. split.
      + exists k, s. split; [exact Re|]. right; right. lia.
      + intros s1 o H. injection H as <- <-.
        destruct (finish_emits E (w_instrs (r_instrs s + 1) s) (M_calm _ _ Mo) (M_fin _ _ Mo)) as (_ & _ & F3 & F4).
        repeat split; assumption.
    - rewrite St. cbn [join turn g_log]. rewrite app_assoc. apply IH. exists k'. split; [|split; [exact Mo'|]].
      + unfold reach in *. rewrite visible_app. eapply srcs_app; [exact Re|exact Sr].
      + destruct (step_instrs E s s') as (_ & _ & I); [now rewrite St|]. rewrite (I St), app_length. lia.
    - right. destruct W as (k1 & y & Si & Hl & Wa).
      assert (Re1 : reach log (k1, s)).
      { unfold reach in *. rewrite <- (app_nil_r (visible log)). eapply srcs_app; [exact Re|apply Si]. }
      assert (En : ended (log ++ [(i, now s)])).
      { exists Halt, y. split; [|left; split; [reflexivity|exists log, i, (now s); now split]].
        unfold reach in *. rewrite visible_app. eapply srcs_snoc; [exact Re1|exact Hl]. }
      pose proof (exec_emits E i (now s) (M_calm _ _ Mo) (M_fin _ _ Mo) (M_stack _ _ Mo)) as Em.
      rewrite <- St in Em. unfold halts in Ha. rewrite <- St in Ha.
      destruct (step E s) as [s'|s' [e|e]|s'|s'|] eqn:St'; [destruct Ha|..]; cbn [turn g_log]; rewrite Ex; cbn [emits snd] in Em.
      + right. exists s', e. split; [reflexivity|]. pose proof (Wa _ _ eq_refl) as Wb. split; [apply Em|]. split; [exact En|].
        intros inp s2 NS Se. destruct (Wb inp s2 NS Se) as (k' & Sr & Mo'). exists k'. split; [|split; [exact Mo'|]].
        * unfold reach in *. rewrite visible_app. eapply srcs_snoc; [exact Re1|exact Sr].
        * rewrite (settles_instrs _ _ Se), feed_instrs, app_length. cbn [length].
          destruct (exec_instr_counts E i (now s) s') as (I & _ & _); [now rewrite <- St|]. rewrite I. cbn. lia.
      + left. split; [exact En|]. intros s1 o H. injection H as <- <-. destruct Em as (_ & _ & _ & _ & E1 & E2). repeat split; assumption.
      + left. split; [exact En|]. intros s1 o H. destruct (finale E s') as [s2 o2] eqn:Fn. injection H as <- <-.
        destruct Em as (_ & E1 & E2 & E3). eapply finale_dead; eauto. rewrite E2. apply pending_fin, (M_fin _ _ Mo).
      + destruct Em.
      + left. split; [exact En|]. discriminate.
  Qed.

  Lemma answers_quiet o inp : silent_out o -> answers Progs o inp -> no_script inp.
  Proof. intros S [A|(n & y & p & m & o1 & _ & _ & _ & ->)]; [exact A|destruct S]. Qed.
  Lemma quiet_out e : quiet e = true -> silent_out (Some (OEvent e)).
  Proof. destruct e; cbn; try discriminate; auto. Qed.
  Lemma feed_queue inp s : r_queue (feed inp s) = r_queue s.
  Proof. destruct inp; try reflexivity. cbn. destruct (_ && _); reflexivity. Qed.
  Lemma run_stopped inp s o : dead s o -> answers Progs o inp -> g_log (run_log E inp s) = [] /\
    forall s' o, run E inp s = RRet s' o -> dead s' o.
  Proof.
    intros (S & Qu & So) N. apply (answers_quiet _ _ So) in N. destruct (feed_keeps inp s N) as ((S1 & _ & _) & _ & _ & _).
    unfold run_log, run. rewrite S1, feed_queue, S. destruct (r_queue s) as [|e q] eqn:Q; (split; [reflexivity|]); intros s' o' H; injection H as <- <-.
    - repeat split; [congruence|]. now rewrite feed_queue, Q.
    - cbn in Qu. apply andb_true_iff in Qu as [Q1 Q2]. split; [cbn; congruence|]. split; [exact Q2|now apply quiet_out].
  Qed.
  Lemma log_stopped inputs : forall s o, dead s o -> fitting E Progs o inputs s -> g_log (log_of E inputs s) = [].
  Proof.
    induction inputs as [|inp inputs IH]; intros s o S F; [reflexivity|]. cbn [fitting] in F. destruct F as [F1 F2]. cbn [log_of].
    destruct (run_stopped inp s o S F1) as [A B]. destruct (run E inp s) as [s' o'| |] eqn:R; auto. cbn. rewrite A. cbn. eapply IH; eauto.
  Qed.
  Lemma run_eq inp s : r_queue (feed inp s) = [] -> r_stack (feed inp s) <> [] ->
    run E inp s = loop E (enough E (feed inp s)) (feed inp s) /\ run_log E inp s = loop_log E (enough E (feed inp s)) (feed inp s).
  Proof. intros Q S. unfold run, run_log. rewrite Q. destruct (r_stack (feed inp s)); [congruence|]. now split. Qed.
  Lemma answers_replies e inp : answers Progs (Some (OEvent e)) inp -> replies Progs e inp.
  Proof.
    intros [A|(n & y & p & m & o & -> & Ad & P & Q)]; [now left|]. injection Q as ->. right.
    exists n, y, m, o. split; [reflexivity|]. split; [exact Ad|]. split; [now exists p|reflexivity].
  Qed.

  Lemma log_waiting inputs : forall log s e, waiting log s e -> fitting E Progs (Some (OEvent e)) inputs s ->
    ended (log ++ g_log (log_of E inputs s)).
  Proof.
    induction inputs as [|inp inputs IH]; intros log s e W F.
    - cbn. rewrite app_nil_r. apply W.
    - cbn [fitting] in F. destruct F as [NS F']. apply answers_replies in NS. cbn [log_of].
      destruct W as (Qu & En & W).
      destruct (r_queue (feed inp s)) as [|e' q] eqn:Q.
      + assert (Ru : running log (feed inp s)) by (apply (W inp); [exact NS|now apply settles_now]).
        assert (Sk : r_stack (feed inp s) <> []) by (destruct Ru as (k & _ & Mo & _); exact (M_stack _ _ Mo)).
        destruct (run_eq inp s Q Sk) as [R1 R2]. rewrite R2.
        destruct (loop_sim (enough E (feed inp s)) log (feed inp s) Ru) as [Bad|[(En' & Stp)|(s' & e1 & R & W')]].
        * exfalso. apply (run_fuel E inp s). now rewrite R1.
        * rewrite R1 in F' |- *. destruct (loop E _ _) as [s' o| |] eqn:R; auto. cbn [join g_log].
          rewrite (log_stopped inputs s' o (Stp _ _ eq_refl) F'), app_nil_r. exact En'.
        * rewrite R1, R in F' |- *. cbn [join g_log]. rewrite app_assoc. eapply IH; eauto.
      + unfold run in F'. unfold run, run_log. rewrite Q in F' |- *. cbn [join nothing g_log app].
        assert (Qq : quiet e' = true /\ forallb quiet q = true).
        { rewrite feed_queue in Q. rewrite Q in Qu. cbn in Qu. now apply andb_true_iff in Qu. }
        apply (IH _ _ e'); auto. split; [apply Qq|]. split; [exact En|]. intros inp' s' NS' Se. apply (W inp); [exact NS|].
        eapply settles_more; eauto.
        destruct NS' as [NS'|(n & y & m & o & _ & _ & _ & ->)]; [exact NS'|]. destruct Qq as [Qq _]. discriminate Qq.
  Qed.
End Talk.

Theorem control_flow E (Progs : sieve -> prog -> Prop) umax p n x m size c rest :
  (forall y q, Progs y q -> exists lim, ok_prog lim q = true /\ compile umax lim (rprog q) = Some (s_code y)) ->
  Progs x p -> admitted x ->
  let s0 := initial m size c in
  scripts_known E Progs x -> host_fits E Progs n x rest s0 ->
  let log := g_log (log_of E (InScript n x :: rest) s0) in
  exists k s', srcs E Progs (begin p, feed (InScript n x) s0) (visible log) (k, s') /\ over E k log.
Proof.
  intros PO' Px Ad s0 Kn F log.
  assert (PO : forall y q, Progs y q -> exists lim, ok_prog lim q = true /\ s_code y = gprog q).
  { intros y q H. destruct (PO' y q H) as (l & O & Cm). exists l. split; [exact O|].
    rewrite (compile_layout umax l q O) in Cm. injection Cm as ->. reflexivity. }
  destruct (PO x p Px) as (lim & O & Co).
  set (c0 := (begin p, feed (InScript n x) s0)).
  set (s1 := feed (InScript n x) s0) in *.
  assert (S1 : exists f, r_stack s1 = [f] /\ f_script f = x /\ r_queue s1 = [] /\ r_pos s1 = 0 /\ r_iter s1 = [] /\ r_iters s1 = [] /\
               r_instrs s1 = 0 /\ r_final s1 = Some (EKeep [] 0) /\ r_cache s1 = [(n, x)]).
  { unfold s1, s0, initial. cbn [feed]. destruct Ad as [Mv Lv]. rewrite (proj2 (Nat.leb_le _ _) Mv), (proj2 (Nat.leb_le _ _) Lv). cbn.
    eexists. repeat split. }
  destruct S1 as (f & Sf & Fx & Q & Po & It & Its & Ct & Fi & Cc).
  assert (Ru : running E Progs c0 [] s1).
  { exists (begin p). split; [constructor|]. split; [|exact Ct]. exists f, [], [], lim. constructor; auto.
    - constructor.
    - rewrite Po, It, Its, Fx, Co. destruct (T_begin Progs PO lim p [] O) as [env Tb]. rewrite app_nil_r in Tb. unfold begin.
      eapply K_run; [exact Tb| |]; unfold tasks; destruct (p_require p); reflexivity.
    - unfold calm. now rewrite Q.
    - now rewrite Fi.
    - rewrite Cc. intros n' y [Y|[]]. injection Y as _ <-. now exists p.
    - rewrite Sf. intros g [<-|[]] (i & Ii & Ic). rewrite Fx in Ii. exact (Kn (ex_intro _ i (conj Ii Ic))). }
  change (ended E Progs c0 log). unfold log. cbn [log_of].
  destruct (run_eq E (InScript n x) s0) as [R1 R2]; [exact Q|fold s1; rewrite Sf; discriminate|]. fold s1 in R1, R2. rewrite R2.
  unfold host_fits in F.
  destruct (loop_sim E Progs PO c0 (enough E s1) [] s1 Ru) as [Bad|[(En' & Stp)|(s' & e & R & W')]].
  - exfalso. apply (run_fuel E (InScript n x) s0). now rewrite R1.
  - rewrite R1 in F |- *. destruct (loop E _ _) as [s' o| |] eqn:R; auto. cbn [join g_log].
    rewrite (log_stopped E Progs rest s' o (Stp _ _ eq_refl) F), app_nil_r. exact En'.
  - rewrite R1, R in F |- *. cbn [join g_log]. eapply log_waiting; eauto.
Qed.
