(** From the steps of a script to its meaning command by command: commands. *)
From Coq Require Import Lia Wf_nat.
From Verif Require Import Base Lib Address Var Value SetVar Flags Comparator Message EditHeader Expr Event
  Notify Vacation Spam AddrTest Mime Sieve Run RunSpec RunProofs
  Compile CompileSpec CompileProofs1 ControlSpec ControlProofs1 CompileProofs5 CompileProofs6 ControlProofs2.

Section Commands.
  Variable E : renv.
  Variable Progs : sieve -> prog -> Prop.
  Hypothesis progs_tidy : forall y p, Progs y p -> tidy_all (p_cmds p) = true.
  Notation srcsn := (srcsn E Progs).
  Notation follows := (follows E Progs).

  Definition goal N inl cd ts s tr c : Prop :=
    exists M tr1 tr2 o s1, M < N /\ tr = tr1 ++ tr2 /\ runs E Progs inl cd s tr1 o s1 /\ follows ts o s1 M tr2 c.

  Lemma goal_le N N' inl cd ts s tr c : N <= N' -> goal N inl cd ts s tr c -> goal N' inl cd ts s tr c.
  Proof. intros L (M & tr1 & tr2 & o & s1 & A & B). exists M, tr1, tr2, o, s1. split; [lia|exact B]. Qed.
  Lemma goal_alike N inl cd ts s s' tr c : alike s s' -> goal N inl cd ts s' tr c -> goal N inl cd ts s tr c.
  Proof.
    intros L (M & tr1 & tr2 & o & s1 & A & B & C & D). exists M, tr1, tr2, o, s1. split; [exact A|]. split; [exact B|].
    split; [|exact D]. eapply rn_alike; eauto.
  Qed.

  Definition seq_ok N : Prop := forall cs ts s tr c, tidy_all cs = true ->
    srcsn N (Run_ (KSeq cs :: ts), s) tr c -> final c -> goal N (in_for ts) (Cmds cs) ts s tr c.
  Definition rest_ok N : Prop := forall r ts s tr c, tidy_rest r = true ->
    srcsn N (Run_ (KRest r :: ts), s) tr c -> final c -> goal N (in_for ts) (Else r) ts s tr c.
  Definition body_ok N : Prop := forall b k ts s tr c, tidy_all b = true ->
    srcsn N (Run_ (block b k ts), s) tr c -> final c -> goal N (in_for ts) (Body b k) ts s tr c.
  Definition rounds_ok N : Prop := forall l ids saved b k ts s tr c, tidy_all b = true ->
    srcsn N (Run_ (KFor l ids saved b k :: ts), s) tr c -> final c ->
    exists M tr1 tr2 o s1, M < N /\ tr = tr1 ++ tr2 /\ runs E Progs true (Rounds b k ids) s tr1 o s1 /\
      match o with
      | LNext => exists s2, alike (w_part saved s1) s2 /\ srcsn M (Run_ ts, s2) tr2 c
      | _ => follows (KFor l [] saved b k :: ts) o s1 M tr2 c
      end.
  Definition loop_ok N : Prop := forall e b k ts s tr c, tidy_all b = true ->
    srcsn N (Run_ (KLoop e b k :: ts), s) tr c -> final c -> goal N (in_for ts) (Loop e b k) ts s tr c.

  Ltac idle H F P :=
    match type of H with
    | srcsn _ (?k, _) _ _ =>
        let M := fresh "M" in let s0 := fresh "s0" in let tr0 := fresh "tr0" in let y := fresh "y" in
        let tr' := fresh "tr'" in let ML := fresh "ML" in let A := fresh "A" in let Q := fresh "Q" in let Re := fresh "Re" in
        destruct (skip E Progs k P) with (4 := H) (5 := F) as (M & s0 & tr0 & y & tr' & ML & A & Q & -> & Re);
        [ let St := fresh in intros ? ? ? St; inversion St; subst; try discriminate; eauto 8 | discriminate | discriminate | ]
    end.

  Lemma in_for_do k ts : in_for (do_opt k ++ ts) = in_for ts.
  Proof. destruct k; reflexivity. Qed.

  (** A command followed by others. *)
  Lemma then_seq N cmd cs ts s tr c : (forall M, M < N -> seq_ok M) -> tidy_all cs = true -> final c ->
    goal N (in_for ts) (Cmd cmd) (KSeq cs :: ts) s tr c -> goal N (in_for ts) (Cmds (CCons cmd cs)) ts s tr c.
  Proof.
    intros IH T F (M & tr1 & tr2 & o & s1 & L & -> & Ru & Fo).
    assert (D : o = LNext \/ o <> LNext) by (destruct o; (now left) || (right; discriminate)).
    destruct D as [->|D].
    - destruct (IH M L _ _ _ _ _ T Fo F) as (M2 & tr3 & tr4 & o & s2 & L2 & -> & Ru2 & Fo2).
      exists M2, (tr1 ++ tr3), tr4, o, s2. split; [lia|]. split; [apply app_assoc|]. split; [|exact Fo2].
      eapply rn_next; eauto.
    - exists M, tr1, tr2, o, s1. split; [exact L|]. split; [reflexivity|]. split; [now apply rn_leave|].
      eapply follows_skip; [exact D| |exact Fo]. exact I.
  Qed.

  (** The commands of a whole script. *)
  Lemma prog_from N p ts s tr c : (forall M, M <= N -> seq_ok M) -> tidy_all (p_cmds p) = true ->
    srcsn N (Run_ (tasks p ++ ts), s) tr c -> final c -> goal (S N) (in_for ts) (Cmds (script_cmds p)) ts s tr c.
  Proof.
    intros IH T H F. unfold tasks in H. unfold script_cmds. destruct (p_require p) as [|cp caps]; cbn [app] in H.
    - eapply goal_le; [|apply (IH N (le_n N) (p_cmds p) ts s tr c T H F)]. lia.
    - destruct (head_sound E Progs (IxRequire (cp :: caps)) _ (Run_ (KDo (IxRequire (cp :: caps)) :: KSeq (p_cmds p) :: ts)) eq_refl eq_refl N s tr c H F)
        as (M & tr1 & tr2 & r & L & -> & Ex & Fo).
      apply (then_seq (S N) (CAct (IxRequire (cp :: caps))) (p_cmds p) ts); auto.
      { intros M' L'. apply IH. lia. }
      destruct r as [s1|].
      + exists M, tr1, tr2, LNext, s1. split; [lia|]. split; [reflexivity|]. split; [now apply rn_act|exact Fo].
      + exists M, tr1, tr2, LHalt, s. split; [lia|]. split; [reflexivity|]. split; [now apply rn_act_halt|exact Fo].
  Qed.

  Lemma leave_sound N : forall ts s tr c, srcsn N (Run_ (KLeave :: ts), s) tr c -> final c ->
    exists M s', M < N /\ comes_back s s' /\ srcsn M (Run_ ts, s') tr c.
  Proof.
    induction N as [|N IH]; intros ts s tr c H F; inversion H; subst.
    { destruct F as [F|F]; discriminate F. }
    match goal with A : src _ _ _ _ _, B : srcsn N _ _ _ |- _ => rename A into St; rename B into Re end.
    inversion St; subst; try (match goal with A : head _ = Some _ |- _ => discriminate A end).
    - match goal with A : pop_frame s = SCont _, B : same _ _ |- _ => rename A into P; rename B into Sm end.
      exists N, s'. split; [lia|]. split; [|exact Re]. unfold pop_frame in P. unfold comes_back.
      destruct (r_stack s) as [|f [|g rest]]; try discriminate. injection P as <-. exists f, g, rest. split; [reflexivity|].
      apply same_alike in Sm. exact Sm.
    - match goal with B : same _ _ |- _ => rename B into Sm end.
      destruct (IH _ _ _ _ Re F) as (M & s2 & L & (f & g & rest & Sk & Al) & R2). exists M, s2. split; [lia|]. split; [|exact R2].
      exists f, g, rest. apply same_alike in Sm. unfold alike in Sm.
      assert (Sk' : r_stack s = r_stack s') by (apply (f_equal r_stack) in Sm; exact Sm).
      split; [congruence|]. eapply alike_trans; [|exact Al].
      unfold alike. apply (f_equal (fun z => w_vars (set_vars (f_local f) (f_match f) (r_vars z)) (w_stack (g :: rest) z))) in Sm. exact Sm.
  Qed.

  (** An action, which may include a script. *)
  Lemma act_from i ks ts : head (Run_ ks) = Some (i, fun _ => Run_ ts) -> in_for ks = in_for ts ->
    forall N, (forall M, M < N -> seq_ok M) -> forall s tr c, srcsn N (Run_ ks, s) tr c -> final c ->
    goal N (in_for ts) (Cmd (CAct i)) ts s tr c.
  Proof.
    intros Hd Il. induction N as [|N IH]; intros SO s tr c H F; inversion H; subst.
    { destruct F as [F|F]; cbn in F; [discriminate F|]. injection F as ->. discriminate Hd. }
    match goal with A : src _ _ _ _ _, B : srcsn N _ _ _ |- _ => rename A into St; rename B into Re end.
    assert (IH' := IH (fun M L => SO M (Nat.lt_lt_succ_r _ _ L))). clear IH.
    inversion St; subst; try discriminate Hd;
      repeat match goal with A : head ?k = Some (?a, ?b), B : head ?k = Some (_, _) |- _ => rewrite A in B; injection B as <- <- end;
      try (match goal with A : sees _ _ _ |- _ => apply sees_view in A as V end; cbn [in_loop] in V; rewrite Il in V).
    - exists N, [(i, x)], tr', LNext, s'. split; [lia|]. split; [reflexivity|]. split; [|exact Re]. apply rn_act. now apply ex_done.
    - destruct (is_include i) eqn:Inc.
      { exfalso. match goal with A : does _ _ _ false _ |- _ => remember false as fl eqn:Qf; destruct A; [discriminate|] end.
        match goal with A : exec_instr _ _ _ = SYield _ _ |- _ => apply (include_yield E i) in A as (_ & n0 & o0 & ->); [discriminate Qf|exact Inc] end. }
      destruct (head_sound E Progs i _ (Run_ ks) Inc Hd N _ _ _ Re F) as (M & tr1 & tr2 & r & L & -> & Ex & Fo).
      cbn [in_loop] in Ex. rewrite Il in Ex. destruct r as [s1|].
      + exists M, ((i, x) :: tr1), tr2, LNext, s1. split; [lia|]. split; [reflexivity|]. split; [|exact Fo]. apply rn_act. eapply ex_wait; eauto.
      + exists M, ((i, x) :: tr1), tr2, LHalt, s. split; [lia|]. split; [reflexivity|]. split; [|exact Fo]. apply rn_act_halt. eapply ex_wait; eauto.
    - apply from_halt in Re as [-> Fh]. exists 0, [(i, x)], [], LHalt, s. split; [lia|]. split; [now rewrite app_nil_r|]. split; [|now split].
      apply rn_act_halt. now apply ex_halt.
    - match goal with A : Run_ ts = Run_ _ |- _ => injection A as <- end.
      match goal with A : enters _ _ _ _ _, B : Progs _ _ |- _ => rename A into En; rename B into Pr end.
      destruct (prog_from N p (KLeave :: ts) s' tr' c) as (M & tr1 & tr2 & o & s2 & L & -> & Ru & Fo); auto.
      { intros M L. apply SO. lia. }
      { eapply progs_tidy; exact Pr. }
      change (in_for (KLeave :: ts)) with (in_for ts) in Ru.
      destruct o as [|[n|]| | |]; cbn in Fo.
      + destruct (leave_sound _ _ _ _ _ Fo F) as (M2 & s3 & L2 & Cb & R2).
        exists M2, ((i, x) :: tr1), tr2, LNext, s3. split; [lia|]. split; [reflexivity|]. split; [|exact R2].
        eapply rn_include; eauto.
      + destruct Fo as (? & ? & ? & Q & _). discriminate Q.
      + destruct Fo as (? & ? & ? & Q & _). discriminate Q.
      + destruct Fo as (? & ? & Q & _). discriminate Q.
      + destruct Fo as (s3 & Al & R2).
        destruct (head_sound E Progs IxReturn _ (Run_ (KDo IxReturn :: ts)) eq_refl eq_refl M s3 tr2 c R2 F) as (M2 & tr3 & tr4 & r & L2 & -> & Ex & Fo2).
        change (in_loop (Run_ (KDo IxReturn :: ts))) with (in_for ts) in Ex.
        assert (Ex' : executes E (in_for ts) IxReturn s2 tr3 r) by (eapply ex_alike; [exact Al|exact Ex]).
        destruct r as [s4|].
        * exists M2, ((i, x) :: tr1 ++ tr3), tr4, LNext, s4. split; [lia|]. split; [cbn; now rewrite app_assoc|]. split; [|exact Fo2].
          eapply rn_include_return; eauto.
        * exists M2, ((i, x) :: tr1 ++ tr3), tr4, LHalt, s. split; [lia|]. split; [cbn; now rewrite app_assoc|]. split; [|exact Fo2].
          eapply rn_include_return_halt; eauto.
      + exists M, ((i, x) :: tr1), tr2, LHalt, s. split; [lia|]. split; [reflexivity|]. split; [|exact Fo]. eapply rn_include_halt; eauto.
    - match goal with B : same _ _ |- _ => rename B into Sm end.
      eapply goal_le; [|eapply goal_alike; [apply same_alike; exact Sm|apply IH'; assumption]]. lia.
  Qed.

  Lemma do_sound N k ts s tr c : (forall M, M < N -> seq_ok M) -> srcsn N (Run_ (do_opt k ++ ts), s) tr c -> final c ->
    exists M tr1 tr2 o s1, M <= N /\ tr = tr1 ++ tr2 /\
      runs E Progs (in_for ts) (Cmds (match k with Some i => CCons (CAct i) CNil | None => CNil end)) s tr1 o s1 /\
      follows ts o s1 M tr2 c.
  Proof.
    intros SO H F. destruct k as [i|]; cbn [do_opt app] in H.
    - destruct (act_from i (KDo i :: ts) ts eq_refl eq_refl N SO s tr c H F) as (M & tr1 & tr2 & o & s1 & L & -> & Ru & Fo).
      assert (D : o = LNext \/ o <> LNext) by (destruct o; (now left) || (right; discriminate)). destruct D as [->|D].
      + exists M, (tr1 ++ []), tr2, LNext, s1. split; [lia|]. split; [now rewrite app_nil_r|]. split; [|exact Fo].
        eapply rn_next; [exact Ru|apply rn_nil; reflexivity].
      + exists M, tr1, tr2, o, s1. split; [lia|]. split; [reflexivity|]. split; [|exact Fo]. now apply rn_leave.
    - exists N, [], tr, LNext, s. split; [lia|]. split; [reflexivity|]. split; [apply rn_nil; reflexivity|exact H].
  Qed.

  Lemma body_from N : (forall M, M <= N -> seq_ok M) -> body_ok N.
  Proof.
    intros IH b k ts s tr c T H F. destruct (IH N (le_n N) b _ s tr c T H F) as (M & tr1 & tr2 & o & s1 & L & -> & Ru & Fo).
    rewrite in_for_do in Ru. destruct o as [|l| | |].
    - destruct (do_sound _ _ _ _ _ _ (fun M' L' => IH M' (Nat.lt_le_incl _ _ (Nat.lt_trans _ _ _ L' L))) Fo F) as (M2 & tr3 & tr4 & o & s2 & L2 & -> & Ru2 & Fo2).
      exists M2, (tr1 ++ tr3), tr4, o, s2. split; [lia|]. split; [cbn [app]; apply app_assoc|]. split; [|exact Fo2].
      eapply rn_body; eauto.
    - eexists M, tr1, tr2, _, s1. split; [lia|]. split; [reflexivity|]. split; [refine (rn_body_leave _ _ _ _ _ _ _ _ _ _ Ru); discriminate|].
      destruct k; [eapply follows_skip; [discriminate| |exact Fo]; exact I|exact Fo].
    - eexists M, tr1, tr2, _, s1. split; [lia|]. split; [reflexivity|]. split; [refine (rn_body_leave _ _ _ _ _ _ _ _ _ _ Ru); discriminate|].
      destruct k; [eapply follows_skip; [discriminate| |exact Fo]; exact I|exact Fo].
    - eexists M, tr1, tr2, _, s1. split; [lia|]. split; [reflexivity|]. split; [refine (rn_body_leave _ _ _ _ _ _ _ _ _ _ Ru); discriminate|].
      destruct k; [eapply follows_skip; [discriminate| |exact Fo]; exact I|exact Fo].
    - eexists M, tr1, tr2, _, s1. split; [lia|]. split; [reflexivity|]. split; [refine (rn_body_leave _ _ _ _ _ _ _ _ _ _ Ru); discriminate|].
      exact Fo.
  Qed.

  Lemma rounds_from N : (forall M, M < N -> body_ok M /\ rounds_ok M) -> rounds_ok N.
  Proof.
    intros IH l ids saved b k ts s tr c T H F. destruct ids as [|id ids].
    - idle H F (fun (s : rst) (tr : list entry) (y : kont * rst) => tr = [] /\ exists s', y = (Run_ ts, s') /\ same (w_part saved s) s').
      destruct Q as (-> & s' & -> & Sm).
      exists M, [], tr', LNext, s0. split; [exact ML|]. split; [reflexivity|]. split; [now apply rn_last|].
      exists s'. split; [now apply same_alike|exact Re].
    - idle H F (fun (s : rst) (tr : list entry) (y : kont * rst) => tr = [] /\ exists s', y = (Run_ (block b k (KFor l ids saved b k :: ts)), s') /\ same (w_part id s) s').
      destruct Q as (-> & s' & -> & Sm).
      destruct (IH M ML) as [IB _]. destruct (IB _ _ _ _ _ _ T Re F) as (M1 & tr1 & tr2 & o & s1 & L1 & -> & Ru & Fo).
      assert (Ru' : runs E Progs true (Body b k) (w_part id s) tr1 o s1).
      { eapply rn_alike; [|exact Ru]. eapply alike_trans; [apply alike_part; exact A|now apply same_alike]. }
      destruct o as [|[n|]| | |].
      + cbn in Fo. assert (L2 : M1 < N) by lia. destruct (IH M1 L2) as [_ IR].
        destruct (IR _ _ _ _ _ _ _ _ _ T Fo F) as (M2 & tr3 & tr4 & o & s2 & L3 & -> & Ru2 & Fo2).
        exists M2, (tr1 ++ tr3), tr4, o, s2. split; [lia|]. split; [cbn [app]; apply app_assoc|]. split; [|exact Fo2].
        eapply rn_round; eauto.
      + eexists M1, tr1, tr2, _, s1. split; [lia|]. split; [reflexivity|]. split; [refine (rn_round_leave _ _ _ _ _ _ _ _ _ _ _ _ Ru'); discriminate|exact Fo].
      + eexists M1, tr1, tr2, _, s1. split; [lia|]. split; [reflexivity|]. split; [refine (rn_round_leave _ _ _ _ _ _ _ _ _ _ _ _ Ru'); discriminate|exact Fo].
      + eexists M1, tr1, tr2, _, s1. split; [lia|]. split; [reflexivity|]. split; [refine (rn_round_leave _ _ _ _ _ _ _ _ _ _ _ _ Ru'); discriminate|exact Fo].
      + eexists M1, tr1, tr2, _, s1. split; [lia|]. split; [reflexivity|]. split; [refine (rn_round_leave _ _ _ _ _ _ _ _ _ _ _ _ Ru'); discriminate|exact Fo].
      + eexists M1, tr1, tr2, _, s1. split; [lia|]. split; [reflexivity|]. split; [refine (rn_round_leave _ _ _ _ _ _ _ _ _ _ _ _ Ru'); discriminate|exact Fo].
  Qed.

  Lemma loop_from N : (forall M, M < N -> body_ok M /\ loop_ok M) -> loop_ok N.
  Proof.
    intros IH e b k ts s tr c T H F.
    destruct (cond_sound E Progs e b k ts N s tr c H F) as (M & r & ML & Co & Fo).
    destruct r as [[[] s1]|].
    - destruct (IH M ML) as [IB _]. destruct (IB _ _ _ _ _ _ T Fo F) as (M1 & tr1 & tr2 & o & s2 & L1 & -> & Ru & Fo1).
      change (in_for (KLoop e b k :: ts)) with (in_for ts) in Ru.
      assert (AG : forall s3, o = LNext \/ o = LContinue -> alike s2 s3 -> srcsn M1 (Run_ (KLoop e b k :: ts), s3) tr2 c ->
        goal N (in_for ts) (Loop e b k) ts s (tr1 ++ tr2) c).
      { intros s3 Q A R. assert (L2 : M1 < N) by lia. destruct (IH M1 L2) as [_ IL].
        destruct (IL _ _ _ _ _ _ _ T R F) as (M2 & tr3 & tr4 & o2 & s4 & L3 & -> & Ru2 & Fo2).
        exists M2, (tr1 ++ tr3), tr4, o2, s4. split; [lia|]. split; [cbn [app]; apply app_assoc|]. split; [|exact Fo2].
        eapply rn_again; eauto. eapply rn_alike; eauto. }
      destruct o as [|[n|]| | |].
      + exact (AG s2 (or_introl eq_refl) eq_refl Fo1).
      + exists M1, tr1, tr2, (LBreak (Some n)), s2. split; [lia|]. split; [reflexivity|]. split; [|exact Fo1].
        change (LBreak (Some n)) with (past_while (LBreak (Some n))). eapply rn_loop_leave; eauto; try discriminate; reflexivity.
      + cbn in Fo1. destruct Fo1 as (ts' & p & s' & Q & A & R). injection Q as <- <-.
        exists M1, tr1, tr2, LNext, s'. split; [lia|]. split; [reflexivity|]. split; [|exact R].
        change LNext with (past_while (LBreak None)).
        assert (Ru' : runs E Progs (in_for ts) (Body b k) s1 tr1 (LBreak None) s2) by exact Ru.
        eapply rn_loop_leave; eauto; discriminate.
      + cbn in Fo1. destruct Fo1 as (ts' & s' & Q & A & R). injection Q as <-. exact (AG s' (or_intror eq_refl) A R).
      + exists M1, tr1, tr2, LReturn, s2. split; [lia|]. split; [reflexivity|]. split; [|exact Fo1].
        change LReturn with (past_while LReturn). eapply rn_loop_leave; eauto; try discriminate; reflexivity.
      + exists M1, tr1, tr2, LHalt, s2. split; [lia|]. split; [reflexivity|]. split; [|exact Fo1].
        change LHalt with (past_while LHalt). eapply rn_loop_leave; eauto; try discriminate; reflexivity.
    - exists M, [], tr, LNext, s1. split; [exact ML|]. split; [reflexivity|]. split; [|exact Fo]. now apply rn_stop.
    - destruct Fo as [-> Fh]. exists M, [], [], LHalt, s. split; [exact ML|]. split; [reflexivity|]. split; [|split; [reflexivity|exact Fh]].
      now apply rn_loop_halt.
  Qed.

  Lemma rest_from N : (forall M, M < N -> body_ok M /\ rest_ok M) -> rest_ok N.
  Proof.
    intros IH r ts s tr c T H F. destruct r as [|b k|t b k r]; cbn [tidy_rest] in T.
    - idle H F (fun (s : rst) (tr : list entry) (y : kont * rst) => tr = [] /\ exists s', y = (Run_ ts, s') /\ same s s').
      destruct Q as (-> & s' & -> & Sm). pose proof (alike_trans _ _ _ A (same_alike _ _ Sm)) as Al.
      exists M, [], tr', LNext, s'. split; [exact ML|]. split; [reflexivity|]. split; [now apply rn_none|exact Re].
    - idle H F (fun (s : rst) (tr : list entry) (y : kont * rst) => tr = [] /\ exists s', y = (Run_ (block b k ts), s') /\ same s s').
      destruct Q as (-> & s' & -> & Sm). pose proof (alike_trans _ _ _ A (same_alike _ _ Sm)) as Al.
      destruct (IH M ML) as [IB _]. destruct (IB _ _ _ _ _ _ T Re F) as (M1 & tr1 & tr2 & o & s1 & L1 & -> & Ru & Fo).
      exists M1, tr1, tr2, o, s1. split; [lia|]. split; [reflexivity|]. split; [|exact Fo].
      eapply rn_alike; [exact Al|]. now apply rn_else.
    - apply andb_true_iff in T as [T T3]. apply andb_true_iff in T as [T T2]. apply andb_true_iff in T as [T0 T1].
      idle H F (fun (s : rst) (tr : list entry) (y : kont * rst) => tr = [] /\
        exists s', y = (Test_ false t (Run_ (block b k ts)) (Run_ (KRest r :: ts)), s') /\ same s s').
      destruct Q as (-> & s' & -> & Sm). pose proof (alike_trans _ _ _ A (same_alike _ _ Sm)) as Al.
      assert (IL : in_loop (Run_ (block b k ts)) = in_for ts) by (unfold block; cbn; apply in_for_do).
      destruct (test_sound E Progs t T0 T1 M (in_for ts) false _ (Run_ (KRest r :: ts)) _ _ _ IL eq_refl Re F) as (M1 & l & tr1 & tr2 & res & L1 & -> & De & Fo).
      assert (L2 : M1 < N) by lia. destruct (IH M1 L2) as [IB IR].
      destruct res as [[[] s1]|]; cbn [dec_follows] in Fo.
      + destruct (IB _ _ _ _ _ _ T2 Fo F) as (M2 & tr3 & tr4 & o & s2 & L3 & -> & Ru & Fo2).
        exists M2, (tr1 ++ tr3), tr4, o, s2. split; [lia|]. split; [cbn [app]; apply app_assoc|]. split; [|exact Fo2].
        eapply rn_alike; [exact Al|]. apply rn_elsif. eapply rn_if; eauto.
      + destruct (IR _ _ _ _ _ T3 Fo F) as (M2 & tr3 & tr4 & o & s2 & L3 & -> & Ru & Fo2).
        exists M2, (tr1 ++ tr3), tr4, o, s2. split; [lia|]. split; [cbn [app]; apply app_assoc|]. split; [|exact Fo2].
        eapply rn_alike; [exact Al|]. apply rn_elsif. eapply rn_if_else; eauto.
      + exists M1, tr1, tr2, LHalt, s'. split; [lia|]. split; [reflexivity|]. split; [|exact Fo].
        eapply rn_alike; [exact Al|]. apply rn_elsif. eapply rn_if_halt; eauto.
  Qed.

  Lemma seq_from N : (forall M, M < N -> seq_ok M /\ body_ok M /\ rest_ok M /\ rounds_ok M /\ loop_ok M) -> seq_ok N.
  Proof.
    intros IH cs ts s tr c T H F. destruct cs as [|cmd cs].
    { idle H F (fun (s : rst) (tr : list entry) (y : kont * rst) => tr = [] /\ exists s', y = (Run_ ts, s') /\ same s s').
      destruct Q as (-> & s' & -> & Sm). pose proof (alike_trans _ _ _ A (same_alike _ _ Sm)) as Al.
      exists M, [], tr', LNext, s'. split; [exact ML|]. split; [reflexivity|]. split; [now apply rn_nil|exact Re]. }
    cbn [tidy_all] in T. apply andb_true_iff in T as [T Ts].
    apply then_seq; auto. { intros M L. apply (IH M L). }
    destruct cmd as [i| |t v|t b k r|l b k|e b k|[n|]| |].
    - (* action *)
      apply (act_from i (KSeq (CCons (CAct i) cs) :: ts) (KSeq cs :: ts) eq_refl eq_refl N); auto. intros M L. apply (IH M L).
    - idle H F (fun (s : rst) (tr : list entry) (y : kont * rst) => tr = [] /\ exists s', y = (Run_ (KSeq cs :: ts), s') /\ same s s').
      destruct Q as (-> & s' & -> & Sm). pose proof (alike_trans _ _ _ A (same_alike _ _ Sm)) as Al.
      exists M, [], tr', LNext, s'. split; [exact ML|]. split; [reflexivity|]. split; [now apply rn_quiet|exact Re].
    - idle H F (fun (s : rst) (tr : list entry) (y : kont * rst) => tr = [] /\ exists s', y =
        (Test_ false (TLeaf (IxTest t)) (Run_ (KDo v :: KSeq cs :: ts)) (Run_ (KSeq cs :: ts)), s') /\ same s s').
      destruct Q as (-> & s' & -> & Sm). pose proof (alike_trans _ _ _ A (same_alike _ _ Sm)) as Al.
      destruct (head_sound E Progs (IxTest t) _ (Test_ false (TLeaf (IxTest t)) (Run_ (KDo v :: KSeq cs :: ts)) (Run_ (KSeq cs :: ts))) eq_refl eq_refl M s' tr' c Re F) as (M1 & tr1 & tr2 & r & L & -> & Ex & Fo).
      change (in_loop (Test_ false (TLeaf (IxTest t)) (Run_ (KDo v :: KSeq cs :: ts)) (Run_ (KSeq cs :: ts)))) with (in_for ts) in Ex.
      destruct r as [s1|].
      + rewrite xorb_false_r in Fo. destruct (r_test s1) eqn:Rt.
        * destruct (act_from v (KDo v :: KSeq cs :: ts) (KSeq cs :: ts) eq_refl eq_refl M1) with (2 := Fo) (3 := F)
            as (M2 & tr3 & tr4 & o & s2 & L2 & -> & Ru2 & Fo2). { intros M' L'. apply (IH M'). lia. }
          exists M2, (tr1 ++ tr3), tr4, o, s2. split; [lia|]. split; [cbn [app]; apply app_assoc|]. split; [|exact Fo2].
          eapply rn_alike; [exact Al|]. eapply rn_vacation; eauto.
        * exists M1, tr1, tr2, LNext, s1. split; [lia|]. split; [reflexivity|]. split; [|exact Fo].
          eapply rn_alike; [exact Al|]. now apply rn_vacation_no.
      + exists M1, tr1, tr2, LHalt, s. split; [lia|]. split; [reflexivity|]. split; [|exact Fo].
        eapply rn_alike; [exact Al|]. now apply rn_vacation_halt.
    - cbn [tidy] in T. apply andb_true_iff in T as [T T3]. apply andb_true_iff in T as [T T2]. apply andb_true_iff in T as [T0 T1].
      idle H F (fun (s : rst) (tr : list entry) (y : kont * rst) => tr = [] /\
        exists s', y = (Test_ false t (Run_ (block b k (KSeq cs :: ts))) (Run_ (KRest r :: KSeq cs :: ts)), s') /\ same s s').
      destruct Q as (-> & s' & -> & Sm). pose proof (alike_trans _ _ _ A (same_alike _ _ Sm)) as Al.
      assert (IL : in_loop (Run_ (block b k (KSeq cs :: ts))) = in_for ts) by (unfold block; cbn; now rewrite in_for_do).
      destruct (test_sound E Progs t T0 T1 M (in_for ts) false _ (Run_ (KRest r :: KSeq cs :: ts)) _ _ _ IL eq_refl Re F) as (M1 & l & tr1 & tr2 & res & L1 & -> & De & Fo).
      assert (L2 : M1 < N) by lia. destruct (IH M1 L2) as (_ & IB & IR & _).
      destruct res as [[[] s1]|]; cbn [dec_follows] in Fo.
      + destruct (IB _ _ _ _ _ _ T2 Fo F) as (M2 & tr3 & tr4 & o & s2 & L3 & -> & Ru & Fo2).
        exists M2, (tr1 ++ tr3), tr4, o, s2. split; [lia|]. split; [cbn [app]; apply app_assoc|]. split; [|exact Fo2].
        eapply rn_alike; [exact Al|]. eapply rn_if; eauto.
      + destruct (IR _ _ _ _ _ T3 Fo F) as (M2 & tr3 & tr4 & o & s2 & L3 & -> & Ru & Fo2).
        exists M2, (tr1 ++ tr3), tr4, o, s2. split; [lia|]. split; [cbn [app]; apply app_assoc|]. split; [|exact Fo2].
        eapply rn_alike; [exact Al|]. eapply rn_if_else; eauto.
      + exists M1, tr1, tr2, LHalt, s'. split; [lia|]. split; [reflexivity|]. split; [|exact Fo].
        eapply rn_alike; [exact Al|]. eapply rn_if_halt; eauto.
    - (* foreverypart *)
      cbn [tidy] in T. apply andb_true_iff in T as [T T2]. apply negb_true_iff in T2.
      idle H F (fun (s : rst) (tr : list entry) (y : kont * rst) => tr = [] /\
        ((exists ids s', nested_ids (parts s) (r_part s) (negb (in_for ts)) = Some ids /\
            y = (Run_ (KFor l ids (r_part s) b k :: KSeq cs :: ts), s') /\ same s s') \/
         (exists s', nested_ids (parts s) (r_part s) (negb (in_for ts)) = None /\ y = (Halt, s')))).
      destruct Q as (-> & [(ids & s' & Ni & -> & Sm)|(s' & Ni & ->)]).
      2: { apply from_halt in Re as [-> Fh]. exists 0, [], [], LHalt, s. split; [lia|]. split; [reflexivity|].
           split; [|split; [reflexivity|exact Fh]]. eapply rn_alike; [exact A|]. now apply rn_for_panic. }
      destruct (IH M ML) as (_ & _ & _ & IR & _).
      destruct (IR _ _ _ _ _ _ _ _ _ T Re F) as (M1 & tr1 & tr2 & o & s1 & L1 & -> & Ru & Fo).
      assert (NC : o <> LContinue).
      { intros ->. apply runs_continue in Ru; [|reflexivity]. cbn in Ru. congruence. }
      assert (Ru' : runs E Progs true (Rounds b k ids) s0 tr1 o s1) by (eapply rn_alike; [apply same_alike; exact Sm|exact Ru]).
      assert (R : forall s2, alike (w_part (r_part s0) s1) s2 -> runs E Progs (in_for ts) (Cmd (CFor l b k)) s tr1 (past_for l o) s2).
      { intros s2 A2. eapply rn_alike; [exact A|]. eapply rn_for; eauto. }
      destruct o as [|[n|]| | |].
      + destruct Fo as (s2 & A2 & Fo). exists M1, tr1, tr2, LNext, s2. split; [lia|]. split; [reflexivity|]. split; [exact (R _ A2)|exact Fo].
      + cbn in Fo. destruct Fo as (ts' & p & s2 & Q & A2 & Fo). cbn [past_for] in R. destruct (label_eqb l n).
        * injection Q as <- <-. exists M1, tr1, tr2, LNext, s2. split; [lia|]. split; [reflexivity|]. split; [exact (R _ A2)|exact Fo].
        * exists M1, tr1, tr2, (LBreak (Some n)), (w_part (r_part s0) s1). split; [lia|]. split; [reflexivity|].
          split; [apply R; reflexivity|]. exists ts', p, s2. split; [exact Q|]. split; [exact A2|exact Fo].
      + cbn in Fo. destruct Fo as (ts' & p & s2 & Q & A2 & Fo). injection Q as <- <-. cbn [past_for] in R.
        exists M1, tr1, tr2, LNext, s2. split; [lia|]. split; [reflexivity|]. split; [exact (R _ A2)|exact Fo].
      + now elim NC.
      + cbn in Fo. destruct Fo as (s2 & A2 & Fo). cbn [past_for] in R.
        exists M1, tr1, tr2, LReturn, (w_part (r_part s0) s1). split; [lia|]. split; [reflexivity|].
        split; [apply R; reflexivity|]. exists s2. split; [|exact Fo]. cbn [first_part]. destruct (first_part ts); exact A2.
      + exists M1, tr1, tr2, LHalt, (w_part (r_part s0) s1). split; [lia|]. split; [reflexivity|]. split; [apply R; reflexivity|exact Fo].
    - (* while *)
      cbn [tidy] in T.
      idle H F (fun (s : rst) (tr : list entry) (y : kont * rst) => tr = [] /\
        exists s', y = (Run_ (KLoop e b k :: KSeq cs :: ts), s') /\ same s s').
      destruct Q as (-> & s' & -> & Sm). pose proof (alike_trans _ _ _ A (same_alike _ _ Sm)) as Al.
      destruct (IH M ML) as (_ & _ & _ & _ & IL).
      destruct (IL _ _ _ _ _ _ _ T Re F) as (M1 & tr1 & tr2 & o & s1 & L1 & -> & Ru & Fo).
      exists M1, tr1, tr2, o, s1. split; [lia|]. split; [reflexivity|]. split; [|exact Fo].
      eapply rn_alike; [exact Al|]. now apply rn_while.
    - idle H F (fun (s : rst) (tr : list entry) (y : kont * rst) => tr = [] /\
        exists ts' p s', leave_named n ts = Some (ts', p) /\ y = (Run_ ts', s') /\ same (w_part p s) s').
      destruct Q as (-> & ts' & p & s' & Lv & -> & Sm).
      exists M, [], tr', (LBreak (Some n)), s0. split; [exact ML|]. split; [reflexivity|]. split; [now apply rn_break|].
      exists ts', p, s'. split; [exact Lv|]. split; [now apply same_alike|exact Re].
    - idle H F (fun (s : rst) (tr : list entry) (y : kont * rst) => tr = [] /\
        exists ts' p s', leave_loop ts = Some (ts', p) /\ y = (Run_ ts', s') /\ same (go_part p s) s').
      destruct Q as (-> & ts' & p & s' & Lv & -> & Sm).
      exists M, [], tr', (LBreak None), s0. split; [exact ML|]. split; [reflexivity|]. split; [now apply rn_break|].
      exists ts', p, s'. split; [exact Lv|]. split; [now apply same_alike|exact Re].
    - idle H F (fun (s : rst) (tr : list entry) (y : kont * rst) => tr = [] /\
        exists ts' s', restart ts = Some ts' /\ y = (Run_ ts', s') /\ same s s').
      destruct Q as (-> & ts' & s' & Lv & -> & Sm).
      exists M, [], tr', LContinue, s0. split; [exact ML|]. split; [reflexivity|]. split; [now apply rn_continue|].
      exists ts', s'. split; [exact Lv|]. split; [now apply same_alike|exact Re].
    - idle H F (fun (s : rst) (tr : list entry) (y : kont * rst) => tr = [] /\
        exists s', y = (Run_ (KDo IxReturn :: after ts), s') /\ same (go_part (first_part ts) s) s').
      destruct Q as (-> & s' & -> & Sm).
      exists M, [], tr', LReturn, s0. split; [exact ML|]. split; [reflexivity|]. split; [now apply rn_return|].
      exists s'. split; [now apply same_alike|exact Re].
  Qed.

  Lemma all_ok : forall N, seq_ok N /\ body_ok N /\ rest_ok N /\ rounds_ok N /\ loop_ok N.
  Proof.
    induction N as [N IH] using lt_wf_ind.
    assert (S1 : seq_ok N) by now apply seq_from.
    split; [exact S1|]. split.
    { apply body_from. intros M L. destruct (Nat.eq_dec M N) as [->|Ne]; [exact S1|]. apply IH. lia. } repeat split.
    - apply rest_from. intros M L. split; apply (IH M L).
    - apply rounds_from. intros M L. split; apply (IH M L).
    - apply loop_from. intros M L. split; apply (IH M L).
  Qed.
End Commands.
