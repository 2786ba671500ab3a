(** Proofs about whole runs: scripts run to their end. *)
From Coq Require Import Lia.
From Verif Require Import Base Lib Address Var Value SetVar Flags Comparator Message EditHeader Expr Event
  Notify Vacation Spam AddrTest Mime Sieve Run RunSpec RunProofs RunProofs2.

(** Case analysis on the outcome of an instruction. *)
Ltac ic :=
  repeat match goal with
  | H : Some _ = Some _ |- _ => injection H as H; subst
  | H : None = Some _ |- _ => discriminate H
  | H : state_of (take_queue _) = Some _ |- _ => apply take_queue_state in H; destruct H as [? ->]
  | H : state_of (SCont _) = Some _ |- _ => cbn [state_of] in H
  | H : state_of (SYield _ _) = Some _ |- _ => cbn [state_of] in H
  | H : state_of (SEnd _) = Some _ |- _ => cbn [state_of] in H
  | H : state_of SPanic = Some _ |- _ => discriminate H
  | H : state_of (let '(_, _) := ?x in _) = Some _ |- _ => destruct x as [? ?] eqn:?
  | H : state_of (match ?x with _ => _ end) = Some _ |- _ => destruct x eqn:?
  end.
Ltac instr_cases H :=
  unfold exec_instr, exec_fileinto, exec_redirect, exec_include, with_value, edit_msg, fail, pop_frame in H; ic;
  repeat match goal with
  | |- context [assign ?r ?s] => destruct (assign_eq r s) as [? ->]
  | |- context [pop_parts ?n ?s] => destruct (pop_parts_eq n s) as (? & ? & ? & ->)
  | H : build_message_id _ _ = (_, _) |- _ => apply build_id_stack in H; cbn in H; decompose [and] H; clear H
  | H : exec_test _ _ _ = XBool _ _ |- _ => apply exec_test_state in H; destruct H as (? & ? & ->)
  end.
Ltac goal_ifs :=
  repeat match goal with
  | |- context [if ?x then _ else _] => destruct x
  | |- context [match ?x with Some _ => _ | None => _ end] => destruct x
  | |- context [match ?x with [] => _ | _ :: _ => _ end] => destruct x
  | |- context [match ?x with EKeep _ _ => _ | _ => _ end] => destruct x
  end.
Ltac hyp_ifs :=
  repeat match goal with
  | H : _ = _ (if ?x then _ else _) |- _ => destruct x
  | H : _ = _ (match ?x with Some _ => _ | None => _ end) |- _ => destruct x
  | H : _ = _ (match ?x with EKeep _ _ => _ | _ => _ end) |- _ => destruct x
  end.

(** Positions are inside the scripts they belong to. *)
Fixpoint stack_ok (pos : nat) (l : list frame) : Prop :=
  match l with
  | [] => True
  | f :: rest => jumps_inside (f_script f) /\ pos <= length (s_code (f_script f)) /\ stack_ok (f_pos f) rest
  end.
Definition cache_ok (l : list (script_name * sieve)) : Prop := forall n x, In (n, x) l -> jumps_inside x.

Lemma cache_get_ok n l x : cache_ok l -> cache_get n l = Some x -> jumps_inside x.
Proof.
  intros C. induction l as [|[k y] l IH]; cbn; [discriminate|].
  destruct (script_name_eqb n k); intros H.
  - injection H as <-. apply (C k y). now left.
  - apply IH; auto. intros m z I. apply (C m z). now right.
Qed.
Lemma cache_insert_ok n x l : jumps_inside x -> cache_ok l -> cache_ok (cache_insert n x l).
Proof.
  intros J C. induction l as [|[k y] l IH]; cbn.
  - intros m z [H|[]]. now injection H as <- <-.
  - destruct (script_name_eqb n k).
    + intros m z [H|H]; [now injection H as <- <- | apply (C m z); now right].
    + intros m z [H|H]; [injection H as <- <-; apply (C k y); now left |].
      apply (IH (fun m z I => C m z (or_intror I)) m z H).
Qed.

Section P.
  Variable E : renv.
  Hypothesis scripts_ok : forall t x, E_scripts E t = Some x -> jumps_inside x.

  Lemma exec_instr_ok i s s' f rest : r_stack s = f :: rest -> In i (s_code (f_script f)) ->
    stack_ok (r_pos s) (r_stack s) -> cache_ok (r_cache s) -> state_of (exec_instr E i s) = Some s' ->
    stack_ok (r_pos s') (r_stack s').
  Proof.
    intros St I O C H. assert (J : forall p, In p (targets i) -> stack_ok p (r_stack s)).
    { rewrite St in O |- *. cbn in O |- *. intros p Hp. destruct O as (O1 & O2 & O3). repeat split; auto.
      apply (O1 i p I Hp). }
    assert (K : stack_ok (r_pos s - 1) (r_stack s)).
    { rewrite St in O |- *. cbn in O |- *. destruct O as (O1 & O2 & O3). repeat split; auto. lia. }
    destruct i; instr_cases H; goal_ifs; hyp_ifs; cbn in *; rewrite ?finish_stack;
      repeat match goal with
      | H : r_stack ?r = r_stack s |- context [r_stack ?r] => rewrite H
      | H : r_pos ?r = r_pos s |- context [r_pos ?r] => rewrite H
      end; try exact O; try exact I; try exact K; try (apply J; now left);
      try (rewrite ?Heql in O; cbn in O; tauto).
    all: try exact Logic.I; try congruence.
    split; [|split; [lia | exact O]].
    destruct (cache_get _ (r_cache s)) as [y|] eqn:G.
    - injection Heqo as ->. eapply cache_get_ok; eauto.
    - eapply scripts_ok; exact Heqo.
  Qed.
  Lemma step_ok s s' : calm s -> fin (r_final s) -> r_stack s <> [] -> stack_ok (r_pos s) (r_stack s) -> cache_ok (r_cache s) ->
    state_of (step E s) = Some s' ->
    stack_ok (r_pos s') (r_stack s') /\ cache_ok (r_cache s') /\ (forall x, step E s <> SNone x).
  Proof.
    intros Ca Fi S O C. unfold step, next_instr. destruct (r_stack s) as [|f rest] eqn:St; [congruence|].
    cbn in O. destruct O as (O1 & O2 & O3).
    rewrite (proj2 (Nat.ltb_ge _ _)) by lia.
    destruct (nth_error (s_code (f_script f)) (r_pos s)) as [i|] eqn:N.
    - change (r_instrs (w_instrs (r_instrs s + 1) s)) with (r_instrs s + 1).
      change (r_pos (w_instrs (r_instrs s + 1) s)) with (r_pos s). cbv zeta.
      assert (Lt : r_pos s < length (s_code (f_script f))) by (apply nth_error_Some; congruence).
      destruct (Nat.ltb _ _).
      + unfold fail. cbn [state_of]. intros H. injection H as <-. rewrite finish_stack, finish_cache. cbn.
        repeat split; auto. discriminate.
      + set (s2 := w_pos (r_pos s + 1) (w_instrs (r_instrs s + 1) s)). intros H.
        assert (St2 : r_stack s2 = f :: rest) by exact St.
        assert (O' : stack_ok (r_pos s2) (r_stack s2)) by (rewrite St2; cbn; repeat split; auto; lia).
        destruct (exec_instr_counts E i s2 s' H) as (_ & K & _). rewrite K.
        split; [|split; [exact C|]].
        * apply (exec_instr_ok i s2 s' f rest St2 (nth_error_In _ _ N) O' C H).
        * intros x Hx. assert (S2 : r_stack s2 <> []) by (rewrite St2; discriminate).
          pose proof (exec_emits E i s2 Ca Fi S2) as Em. now rewrite Hx in Em.
    - intros H. destruct (pop_counts s s' H) as (_ & K & _). rewrite K.
      unfold pop_frame in *. rewrite St in *. cbn in O3. destruct rest; injection H as <-; repeat split; auto;
        try discriminate; cbn; cbn in O3; tauto.
  Qed.

  Record alive (s : rst) : Prop := {
    a_stack : r_stack s <> [];
    a_ok : stack_ok (r_pos s) (r_stack s);
    a_cache : cache_ok (r_cache s);
    a_fin : fin (r_final s)
  }.
  (** A call returns [None] only when the script is over. *)
  Lemma loop_alive n : forall s s' o, calm s -> alive s -> loop E n s = RRet s' o ->
    (g_end (loop_log E n s) = [] /\ alive s' /\ o <> None) \/
    (g_end (loop_log E n s) <> [] /\ r_stack s' = [] /\ forallb quiet (seen s' o) = true /\ (o = None -> actions (r_queue s') = [])).
  Proof.
    induction n as [|n IH]; intros s s' o Ca [S O C F]; [discriminate|]. cbn [loop loop_log].
    pose proof (step_trace E s Ca F S) as T. unfold step_traced in T.
    pose proof (fun s' => step_ok s s' Ca F S O C) as K.
    destruct (step E s) as [s1|s1 [e|e]|s1|s1|] eqn:St; intros H; [| | | | |discriminate]; cbn [state_of] in K.
    - destruct T as (T1 & T2 & T3 & T4 & T5). destruct (K s1 eq_refl) as (K1 & K2 & _).
      assert (A1 : alive s1) by (split; auto; rewrite T3; now apply after_fin).
      destruct (IH s1 s' o T2 A1 H) as [(I1 & I2 & I3) | (I1 & I2 & I3)]; [left | right];
        unfold turn, join; cbn [g_end]; rewrite T5; cbn [app]; auto.
    - destruct T as (T1 & T2 & T3 & T4 & T5). destruct (K s1 eq_refl) as (K1 & K2 & _). injection H as <- <-. left.
      unfold turn; cbn [g_end]; rewrite T5. repeat split; auto; [|discriminate]. rewrite T2. now apply after_fin.
    - destruct T as (T1 & T2 & T3 & T4 & T5). injection H as <- <-. right.
      unfold turn; cbn [g_end]; rewrite T5. repeat split; auto; discriminate.
    - destruct T as (T1 & T2 & T3 & T4 & T5). destruct (finale E s1) as [s2 o2] eqn:Fi. injection H as <- <-. right.
      assert (F1 : fin (r_final s1)) by (rewrite T3; now apply after_fin).
      destruct (finale_trace E s1 s2 o2 T2 F1 T4 Fi) as (A1 & A2 & A3 & A4).
      unfold turn; cbn [g_end]; rewrite T5. repeat split; auto; [discriminate|]. intros ->.
      unfold finale in Fi. destruct (r_final s1) as [[]|]; try (injection Fi as _ Fi; discriminate Fi);
        try (rewrite build_id_eq in Fi; cbn in Fi; destruct (ms_changed (r_msg s1)); discriminate Fi).
      injection Fi as <-. now apply act_nil.
    - destruct (K s1 eq_refl) as (_ & _ & K3). now destruct (K3 s1).
  Qed.
  Lemma run_alive inp s s' o : alive (feed inp s) -> run E inp s = RRet s' o ->
    (g_end (run_log E inp s) = [] /\ alive s' /\ o <> None) \/
    (g_end (run_log E inp s) <> [] /\ r_stack s' = [] /\ forallb quiet (seen s' o) = true /\ (o = None -> actions (r_queue s') = [])).
  Proof.
    intros A H. unfold run, run_log in *. set (s0 := feed inp s) in *. clearbody s0.
    destruct (r_queue s0) as [|e q] eqn:Q.
    - destruct (r_stack s0) as [|f rest] eqn:St; [destruct A; congruence|].
      apply loop_alive; auto. unfold calm. now rewrite Q.
    - injection H as <- <-. left. split; [destruct (r_stack s0); reflexivity|]. split; [|discriminate].
      destruct A; split; auto.
  Qed.
  Lemma feed_alive inp s : (forall x, In x (input_script inp) -> jumps_inside x) -> alive s -> alive (feed inp s).
  Proof.
    intros J [S O C F]. destruct inp; cbn; try (split; assumption).
    destruct (_ && _); [|split; assumption]. split; cbn; auto.
    - discriminate.
    - split; [|split; [lia | exact O]]. apply J. now left.
    - apply cache_insert_ok; auto. apply J. now left.
  Qed.
  Lemma over_none inputs : forall s outs s', r_stack s = [] -> forallb quiet (r_queue s) = true ->
    polite false inputs outs -> converse_run E inputs s = Some (outs, s') -> In None outs -> r_queue s' = [].
  Proof.
    intros s outs s' S Q P H I. apply in_split in I. destruct I as (o1 & o2 & ->).
    revert s Q S P H. revert o1. induction inputs as [|i rest IH]; intros o1 s Q S P H; cbn in H.
    { destruct o1; discriminate. }
    destruct (run E i s) as [s1 o| |] eqn:R; try discriminate.
    destruct (converse_run E rest s1) as [[outs' s2]|] eqn:Cv; [|discriminate]. cbn in H.
    assert (Fd : polite false (i :: rest) (o :: outs') -> r_stack (feed i s) = [] /\ r_queue (feed i s) = r_queue s).
    { intros [P1 _]. destruct i; cbn; auto. discriminate. }
    assert (E1 : o :: outs' = o1 ++ None :: o2) by congruence. assert (E2 : s2 = s') by congruence. subst s2.
    rewrite <- E1 in P. destruct (Fd P) as [F1 F2]. cbn in P. destruct P as [_ P].
    unfold run in R. rewrite F1 in R.
    destruct o1 as [|o1 o1'].
    - injection E1 as -> ->. destruct (r_queue (feed i s)) eqn:Q2; [|discriminate]. injection R as <-.
      assert (Q0 : forallb quiet (r_queue (feed i s)) = true) by now rewrite Q2.
      destruct (over_conv E rest _ _ _ F1 Q0 P Cv) as (_ & B & _ & _). rewrite Q2 in B. now apply app_eq_nil in B.
    - injection E1 as <- ->. rewrite <- F2 in Q. destruct (r_queue (feed i s)) as [|e q] eqn:Q2.
      + injection R as <- <-. apply (IH o1' (feed i s)); auto. now rewrite Q2.
      + injection R as <- <-. cbn in Q. apply andb_prop in Q as [Qa Qb]. apply (IH o1' (w_queue q (feed i s))); auto.
        destruct e; try exact P; discriminate.
  Qed.
  Theorem conversation_ends inputs : forall s asked outs s', alive s ->
    (forall i x, In i inputs -> In x (input_script i) -> jumps_inside x) ->
    polite asked inputs outs -> converse_run E inputs s = Some (outs, s') -> In None outs ->
    g_end (log_of E inputs s) <> [] /\ actions (r_queue s') = [].
  Proof.
    induction inputs as [|i rest IH]; intros s asked outs s' A J P H I; cbn in H.
    { injection H as <- <-. destruct I. }
    destruct (run E i s) as [s1 o| |] eqn:R; try discriminate.
    destruct (converse_run E rest s1) as [[outs' s2]|] eqn:Cv; [|discriminate]. cbn in H.
    assert (outs = o :: outs') by congruence. assert (s2 = s') by congruence. subst outs s2. clear H.
    cbn in P. destruct P as [_ P]. cbn [log_of]. rewrite R.
    pose proof (feed_alive i s (fun x => J i x (or_introl eq_refl)) A) as A0.
    destruct (run_alive i s s1 o A0 R) as [(I1 & I2 & I3) | (I1 & I2 & I3 & I4)].
    - destruct I as [I|I]; [congruence|].
      destruct (IH s1 _ outs' s' I2 (fun i x Hi => J i x (or_intror Hi)) P Cv I) as [B1 B2].
      split; [|exact B2]. cbn. rewrite I1. exact B1.
    - split. { cbn. intros Hn. apply app_eq_nil in Hn. now apply I1. }
      unfold seen in I3. rewrite forallb_app in I3. apply andb_prop in I3 as [Qo Qs].
      assert (Pf : polite false rest outs').
      { destruct o as [[e|]|]; try exact P. cbn in Qo. destruct e; try exact P. discriminate. }
      destruct I as [-> | I].
      + destruct (over_conv E rest s1 outs' s' I2 Qs Pf Cv) as (_ & B & _ & _).
        specialize (I4 eq_refl). rewrite <- B, actions_app in I4. now apply app_eq_nil in I4.
      + rewrite (over_none rest s1 outs' s' I2 Qs Pf Cv I). reflexivity.
  Qed.
End P.
