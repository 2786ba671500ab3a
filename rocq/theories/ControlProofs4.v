(** Compiled code does what the script says, command by command. *)
From Coq Require Import Lia.
From Verif Require Import Base Lib Address Var Value SetVar Flags Comparator Message EditHeader Expr Event
  Notify Vacation Spam AddrTest Mime Sieve Run RunSpec RunProofs
  Compile CompileSpec CompileProofs1 ControlSpec ControlProofs1 CompileProofs5 CompileProofs6 CompileProofs7
  ControlProofs2 ControlProofs3.

Lemma ok_tidy lim :
  (forall c e, ok_cmd lim e c = true -> fresh_cmd c = true -> tidy c = true /\ (continue_ok e = false -> continues c = false)) /\
  (forall cs e, ok_cmds lim e cs = true -> fresh_cmds cs = true -> tidy_all cs = true /\ (continue_ok e = false -> continues_all cs = false)) /\
  (forall r e, ok_rest lim e r = true -> fresh_rest r = true -> tidy_rest r = true /\ (continue_ok e = false -> continues_rest r = false)).
Proof.
  apply cmd_ind3; cbn [ok_cmd ok_cmds ok_rest fresh_cmd fresh_cmds fresh_rest tidy tidy_all tidy_rest continues continues_all continues_rest];
    intros; auto; repeat match goal with H : _ && _ = true |- _ => apply andb_true_iff in H as [? ?] end;
    repeat match goal with
      | IH : forall e, ok_cmds lim e ?b = true -> _, O : ok_cmds lim ?e ?b = true |- _ => specialize (IH e O); clear O
      | IH : forall e, ok_cmd lim e ?b = true -> _, O : ok_cmd lim ?e ?b = true |- _ => specialize (IH e O); clear O
      | IH : forall e, ok_rest lim e ?b = true -> _, O : ok_rest lim ?e ?b = true |- _ => specialize (IH e O); clear O
      | IH : fresh_cmds ?b = true -> _, O : fresh_cmds ?b = true |- _ => specialize (IH O) as [? ?]; clear O
      | IH : fresh_cmd ?b = true -> _, O : fresh_cmd ?b = true |- _ => specialize (IH O) as [? ?]; clear O
      | IH : fresh_rest ?b = true -> _, O : fresh_rest ?b = true |- _ => specialize (IH O) as [? ?]; clear O
      end;
    repeat match goal with H : ?a = true |- context [?a] => rewrite H end; cbn [continue_ok negb andb] in *.
  all: try (split; [reflexivity|]; intros X;
      repeat match goal with H : continue_ok _ = false -> _ |- _ => rewrite (H X); clear H end; reflexivity).
  all: try (split; [reflexivity|congruence]).
  match goal with H : false = false -> _ |- _ => specialize (H eq_refl); rewrite H end. auto.
Qed.

Section Script.
  Variable E : renv.
  Variable Progs : sieve -> prog -> Prop.
  Hypothesis progs_tidy : forall y p, Progs y p -> tidy_all (p_cmds p) = true.

  Lemma from_end n : forall s tr c, srcsn E Progs n (Run_ [], s) tr c -> tr = [].
  Proof.
    induction n as [|n IH]; intros s tr c H; inversion H; subst; [auto|].
    match goal with A : src _ _ _ _ _ |- _ => inversion A; subst; try discriminate end.
    match goal with A : srcsn _ _ _ _ _ _ |- _ => apply IH in A as -> end. auto.
  Qed.

  Lemma script_sound p s tr k s' : tidy_all (p_cmds p) = true ->
    srcs E Progs (begin p, s) tr (k, s') -> k = Halt \/ k = Run_ [] -> script_runs E Progs p s tr.
  Proof.
    intros T H F. apply srcs_n in H as [N H]. unfold begin in H. rewrite <- (app_nil_r (tasks p)) in H.
    destruct (prog_from E Progs progs_tidy N p [] s tr (k, s')) as (M & tr1 & tr2 & o & s1 & L & -> & Ru & Fo); auto.
    { intros M _. apply (all_ok E Progs progs_tidy M). }
    destruct o as [|[l|]| | |]; cbn in Fo.
    - apply from_end in Fo as ->. rewrite app_nil_r. eapply sr_whole; eauto.
    - destruct Fo as (? & ? & ? & ? & _). discriminate.
    - destruct Fo as (? & ? & ? & ? & _). discriminate.
    - destruct Fo as (? & ? & ? & _). discriminate.
    - destruct Fo as (s2 & A & Fo).
      destruct (head_sound E Progs IxReturn _ (Run_ [KDo IxReturn]) eq_refl eq_refl M s2 tr2 _ Fo F) as (M2 & tr3 & tr4 & r & L2 & -> & Ex & Fo2).
      assert (Q : tr4 = []) by (destruct r; [eapply from_end; exact Fo2|apply Fo2]). subst tr4. rewrite app_nil_r.
      eapply sr_return; [exact Ru|]. eapply ex_alike; [exact A|exact Ex].
    - destruct Fo as [-> _]. rewrite app_nil_r. eapply sr_whole; eauto.
  Qed.
End Script.

Theorem script_meaning E (Progs : sieve -> prog -> Prop) umax p n x m size c rest :
  (forall y q, Progs y q -> written umax y q) -> Progs x p -> admitted x ->
  let s0 := initial m size c in
  scripts_known E Progs x -> host_fits E Progs n x rest s0 ->
  let log := g_log (log_of E (InScript n x :: rest) s0) in
  length log < E_cpu E -> script_runs E Progs p (feed (InScript n x) s0) (visible log).
Proof.
  intros W Px Ad s0 Kn Ho log Lt.
  assert (W' : forall y q, Progs y q -> exists lim, ok_prog lim q = true /\ compile umax lim (rprog q) = Some (s_code y)).
  { intros y q H. destruct (W y q H) as (lim & O & _ & Cm). eauto. }
  assert (Td : forall y q, Progs y q -> tidy_all (p_cmds q) = true).
  { intros y q H. destruct (W y q H) as (lim & O & Fr & _). eapply ok_tidy; eauto. }
  destruct (control_flow E Progs umax p n x m size c rest W' Px Ad Kn Ho) as (k & s' & H & Ov).
  eapply script_sound; [exact Td|exact (Td x p Px)|exact H|].
  destruct Ov as [[-> _]|[->|Ge]]; auto. unfold log, s0 in Lt. lia.
Qed.

(** A script that includes nothing, and a host that gives no scripts. *)
Lemma no_scripts_fit E Progs inputs : Forall no_script inputs -> forall o s, fitting E Progs o inputs s.
Proof.
  induction 1 as [|inp inputs N F IH]; intros o s; [exact I|]. cbn [fitting]. split; [now left|].
  destruct (run E inp s); auto.
Qed.
Lemma no_scripts_host E Progs n x inputs s : Forall no_script inputs -> host_fits E Progs n x inputs s.
Proof. intros F. unfold host_fits. destruct (run E _ s); auto. now apply no_scripts_fit. Qed.

(** *** Tests *)

(** The outcome of a test is that of left-to-right short-circuit evaluation. *)
Lemma decides_truth E inl v t s l tr r : decides E inl t s l tr r -> v (IxTest TeTrue) = true -> v (IxTest TeFalse) = false ->
  agrees v l -> forall b s', r = Some (b, s') -> b = truth v t /\ map fst l = consulted v t.
Proof.
  induction 1; intros V1 V2 A b0 s0 Q; try discriminate; cbn [truth any_true all_true consulted consulted_any consulted_all].
  - eauto.
  - injection Q as <- <-. inversion A; subst. cbn [fst snd] in *.
    destruct t as [[]| | | |]; try discriminate; match goal with H : leaf_of _ = Some _ |- _ => injection H as <- end;
      cbn [truth consulted map fst]; split; congruence.
  - eauto.
  - destruct r as [[b1 s1]|]; [|discriminate]. injection Q as <- <-. destruct (IHdecides V1 V2 A _ _ eq_refl) as [-> ->]. auto.
  - eauto.
  - apply Forall_app in A as [A1 A2]. destruct (IHdecides1 V1 V2 A1 _ _ eq_refl) as [Q1 Q2].
    destruct (IHdecides2 V1 V2 A2 _ _ Q) as [Q3 Q4]. rewrite <- Q1, map_app, Q2. cbn. cbn in Q3, Q4. now rewrite Q4.
  - destruct (IHdecides V1 V2 A _ _ eq_refl) as [Q1 Q2]. injection Q as <- <-. rewrite <- Q1, app_nil_r. auto.
  - eauto.
  - apply Forall_app in A as [A1 A2]. destruct (IHdecides1 V1 V2 A1 _ _ eq_refl) as [Q1 Q2].
    destruct (IHdecides2 V1 V2 A2 _ _ Q) as [Q3 Q4]. rewrite <- Q1, map_app, Q2. cbn. cbn in Q3, Q4. now rewrite Q4.
  - destruct (IHdecides V1 V2 A _ _ eq_refl) as [Q1 Q2]. injection Q as <- <-. rewrite <- Q1, app_nil_r. auto.
Qed.
