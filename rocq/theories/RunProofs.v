(** Proofs about whole runs. *)
From Coq Require Import Lia.
From Verif Require Import Base Lib Address Var Value SetVar Flags Comparator Message EditHeader Expr Event
  Notify Vacation Spam AddrTest Mime Sieve Run RunSpec.

Section P.
  Variable E : renv.

  (** *** Small facts *)
  Lemma build_id_eq s : build_message_id E s =
    if ms_changed (r_msg s)
    then (w_msg {| ms_parts := ms_parts (r_msg s); ms_changed := false; ms_size := ms_size (r_msg s) |}
            (w_main (r_last s + 1) (w_last (r_last s + 1) s)),
          Some (ECreated (r_last s + 1) (E_bytes E (r_msg s))))
    else (s, None).
  Proof. reflexivity. Qed.

  Lemma rst_vars_id s : w_vars (set_vars (c_local (r_vars s)) (c_match (r_vars s)) (r_vars s)) s = s.
  Proof. destruct s as [v]; destruct v; reflexivity. Qed.
  Lemma rst_msg_id s : w_msg (r_msg s) s = s.
  Proof. destruct s; reflexivity. Qed.

  (** A test changes at most the match variables and, for convert, the message. *)
  Definition test_state (s s' : rst) : Prop :=
    exists mv m, s' = w_msg m (w_vars (set_vars (c_local (r_vars s)) mv (r_vars s)) s).
  Lemma test_state_refl s : test_state s s.
  Proof. exists (c_match (r_vars s)), (r_msg s). now rewrite rst_vars_id, rst_msg_id. Qed.
  Lemma of_tres_state s neg t b s' : of_tres s neg t = XBool b s' -> test_state s s'.
  Proof.
    destruct t as [[|b' set|]|]; cbn; intros H; try discriminate. inversion H; subst.
    eexists _, (r_msg s). destruct s; reflexivity.
  Qed.
  Lemma of_bool_state s t b s' : of_bool s t = XBool b s' -> test_state s s'.
  Proof. destruct t; cbn; intros H; inversion H; subst. apply test_state_refl. Qed.

  Ltac tstate :=
    match goal with
    | H : XBool _ _ = XBool _ _ |- _ => inversion H; subst; clear H; try apply test_state_refl
    | H : of_tres _ _ _ = XBool _ _ |- _ => exact (of_tres_state _ _ _ _ _ H)
    | H : of_bool _ _ = XBool _ _ |- _ => exact (of_bool_state _ _ _ _ H)
    | H : match ?x with _ => _ end = XBool _ _ |- _ => destruct x eqn:?; try discriminate H
    end.
  Lemma exec_test_state s t b s' : exec_test E s t = XBool b s' -> test_state s s'.
  Proof.
    destruct t; unfold exec_test; intros H; try discriminate; repeat tstate.
    exists (c_match (r_vars s)), m. now rewrite rst_vars_id.
  Qed.

  (** Questions of tests are not actions. *)
  Lemma exec_test_ask s t e neg : exec_test E s t = XAsk e neg -> is_action e = false.
  Proof.
    assert (T : forall s neg t e n, of_tres s neg t = XAsk e n -> is_action e = false).
    { intros s0 n0 [[]|]; cbn; intros e0 n1 H; inversion H; reflexivity. }
    assert (B : forall s t e n, of_bool s t = XAsk e n -> is_action e = false).
    { intros s0 [] e0 n; discriminate. }
    destruct t; unfold exec_test; intros H; try discriminate;
      repeat match goal with
        | H : XAsk _ _ = XAsk _ _ |- _ => inversion H; subst; clear H; try reflexivity
        | H : of_tres _ _ _ = XAsk _ _ |- _ => exact (T _ _ _ _ _ H)
        | H : of_bool _ _ = XAsk _ _ |- _ => exact (B _ _ _ _ H)
        | H : match ?x with _ => _ end = XAsk _ _ |- _ => destruct x eqn:?; try discriminate H
        end.
  Qed.

  (** *** The log is the log of the interpreter: erasing it gives the same outputs
      (both are defined by the same [step]), so nothing is to be shown here; what
      is shown is that the fuel is enough. *)
  Definition measure (s : rst) : nat := 2 * (E_cpu E + 1 - r_instrs s) + length (r_stack s).

  (** What an instruction does to the counters and to the script stack. *)
  Inductive stack_change (s : rst) : list frame -> Prop :=
  | sc_same : stack_change s (r_stack s)
  | sc_push x : stack_change s ({| f_script := x; f_pos := r_pos s; f_local := c_local (r_vars s);
                                   f_match := c_match (r_vars s) |} :: r_stack s)
  | sc_pop f rest : r_stack s = f :: rest -> stack_change s rest
  | sc_clear : stack_change s [].

  Definition state_of (r : sres) : option rst :=
    match r with SCont s | SYield s _ | SEnd s | SNone s => Some s | SPanic => None end.

  Lemma build_id_stack s s' o : build_message_id E s = (s', o) ->
    r_stack s' = r_stack s /\ r_instrs s' = r_instrs s /\ r_vars s' = r_vars s /\ r_queue s' = r_queue s
    /\ r_final s' = r_final s /\ r_pos s' = r_pos s /\ r_cache s' = r_cache s /\ r_estack s' = r_estack s
    /\ r_part s' = r_part s /\ r_iter s' = r_iter s /\ r_iters s' = r_iters s
    /\ r_redirects s' = r_redirects s /\ r_out s' = r_out s /\ r_test s' = r_test s /\ r_epos s' = r_epos s.
  Proof.
    rewrite build_id_eq. destruct (ms_changed (r_msg s)); intros H; inversion H; subst; cbn; repeat split.
  Qed.
  Lemma finish_stack s : r_stack (finish_loop E s) = [].
  Proof.
    unfold finish_loop. cbn. destruct (r_final s) as [[]|]; try reflexivity.
    rewrite build_id_eq. cbn. destruct (ms_changed (r_msg s)); reflexivity.
  Qed.
  Lemma finish_instrs s : r_instrs (finish_loop E s) = r_instrs s.
  Proof.
    unfold finish_loop. cbn. destruct (r_final s) as [[]|]; try reflexivity.
    rewrite build_id_eq. cbn. destruct (ms_changed (r_msg s)); reflexivity.
  Qed.
  Lemma take_queue_cases s :
    (r_queue s = [] /\ take_queue s = SCont s) \/
    (exists e q, r_queue s = e :: q /\ take_queue s = SYield (w_queue q s) (OEvent e)).
  Proof. unfold take_queue. destruct (r_queue s) as [|e q] eqn:Q; [left | right]; eauto. Qed.
  Lemma take_queue_state s s' : state_of (take_queue s) = Some s' -> exists q, s' = w_queue q s.
  Proof.
    destruct (take_queue_cases s) as [[Q ->] | (e & q & Q & ->)]; cbn; intros H; inversion H; subst; eauto.
    exists (r_queue s'). destruct s'; reflexivity.
  Qed.
  Lemma assign_eq r s : exists q, assign r s = w_queue q (w_vars (fst r) s).
  Proof.
    unfold assign. destruct (snd r) as [[e v]|]; eauto. exists (r_queue s). destruct s; reflexivity.
  Qed.
  Lemma pop_parts_eq n : forall s, exists p it its, pop_parts n s = w_part p (w_iter it (w_iters its s)).
  Proof.
    induction n as [|n IH]; intros s; cbn.
    { exists (r_part s), (r_iter s), (r_iters s). destruct s; reflexivity. }
    destruct (r_iters s) as [|[p it] rest] eqn:R.
    { exists (r_part s), (r_iter s), (r_iters s). destruct s; reflexivity. }
    destruct (IH (w_part p (w_iter it (w_iters rest s)))) as (p' & it' & its & ->).
    exists p', it', its. destruct s; reflexivity.
  Qed.

  (** Case analysis on the outcome of an instruction. *)
  Ltac ic :=
    repeat match goal with
    | H : Some _ = Some _ |- _ => injection H as H; subst
    | H : None = Some _ |- _ => discriminate H
    | H : state_of (take_queue _) = Some _ |- _ => apply take_queue_state in H; destruct H as [? ->]
    | H : state_of (SCont _) = Some _ |- _ => cbn [state_of] in H
    | H : state_of (SYield _ _) = Some _ |- _ => cbn [state_of] in H
    | H : state_of (SEnd _) = Some _ |- _ => cbn [state_of] in H
    | H : state_of SPanic = Some _ |- _ => discriminate H
    | H : state_of (let '(_, _) := ?x in _) = Some _ |- _ => destruct x as [? ?] eqn:?
    | H : state_of (match ?x with _ => _ end) = Some _ |- _ => destruct x eqn:?
    end.
  Ltac instr_cases H :=
    unfold exec_instr, exec_fileinto, exec_redirect, exec_include, with_value, edit_msg, fail, pop_frame in H; ic;
    repeat match goal with
    | |- context [assign ?r ?s] => destruct (assign_eq r s) as [? ->]
    | |- context [pop_parts ?n ?s] => destruct (pop_parts_eq n s) as (? & ? & ? & ->)
    | H : build_message_id _ _ = (_, _) |- _ => apply build_id_stack in H; cbn in H; decompose [and] H; clear H
    | H : exec_test _ _ _ = XBool _ _ |- _ => apply exec_test_state in H; destruct H as (? & ? & ->)
    end.

  Lemma finish_cache s : r_cache (finish_loop E s) = r_cache s.
  Proof.
    unfold finish_loop. cbn. destruct (r_final s) as [[]|]; try reflexivity.
    rewrite build_id_eq. cbn. destruct (ms_changed (r_msg s)); reflexivity.
  Qed.
  Ltac goal_ifs :=
    repeat match goal with
    | |- context [if ?x then _ else _] => destruct x
    | |- context [match ?x with Some _ => _ | None => _ end] => destruct x
    | |- context [match ?x with [] => _ | _ :: _ => _ end] => destruct x
    | |- context [match ?x with EKeep _ _ => _ | _ => _ end] => destruct x
    end.

  Ltac hyp_ifs :=
    repeat match goal with
    | H : _ = _ (if ?x then _ else _) |- _ => destruct x
    | H : _ = _ (match ?x with Some _ => _ | None => _ end) |- _ => destruct x
    | H : _ = _ (match ?x with EKeep _ _ => _ | _ => _ end) |- _ => destruct x
    end.

  Lemma exec_instr_counts i s s' : state_of (exec_instr E i s) = Some s' ->
    r_instrs s' = r_instrs s /\ r_cache s' = r_cache s /\ stack_change s (r_stack s').
  Proof.
    intros H. destruct i; instr_cases H; goal_ifs; hyp_ifs; cbn in *; rewrite ?finish_stack, ?finish_instrs, ?finish_cache;
      cbn; repeat split; try congruence; try constructor;
      repeat match goal with H : r_stack ?r = r_stack s |- context [r_stack ?r] => rewrite H end;
      try constructor; try (rewrite ?Heql; econstructor; eassumption).
  Qed.

  Lemma pop_counts s s' : state_of (pop_frame s) = Some s' ->
    r_instrs s' = r_instrs s /\ r_cache s' = r_cache s /\ stack_change s (r_stack s').
  Proof.
    unfold pop_frame. intros H. ic; cbn; repeat split; rewrite <- ?Heql; try constructor; econstructor; eassumption.
  Qed.
  (** An instruction costs one; leaving a script shortens the stack. *)
  Lemma step_measure s s' : step E s = SCont s' -> measure s' < measure s.
  Proof.
    unfold step, measure. destruct (r_stack s) as [|f rest] eqn:St; [discriminate|].
    destruct (Nat.ltb _ _); [discriminate|]. destruct (next_instr s) as [i|] eqn:N.
    - change (r_instrs (w_instrs (r_instrs s + 1) s)) with (r_instrs s + 1). cbv zeta. destruct (Nat.ltb (E_cpu E) (r_instrs s + 1)) eqn:C; [intros H; unfold fail in H; discriminate H|]. intros H.
      apply Nat.ltb_ge in C.
      destruct (exec_instr_counts i _ s' (f_equal state_of H)) as (I & _ & Sc). cbn in I. rewrite I.
      assert (length (r_stack s') <= S (length (r_stack s))).
      { destruct Sc as [| x | f' rest' Q |]; cbn in *; try lia. rewrite Q. cbn. lia. }
      rewrite St in H0. cbn in *. lia.
    - intros H. destruct (pop_counts s s' (f_equal state_of H)) as (I & _ & _). rewrite I.
      unfold pop_frame in H. rewrite St in H. destruct rest; [discriminate|]. inversion H; subst; cbn. lia.
  Qed.
  Theorem loop_fuel n : forall s, measure s < n -> loop E n s <> RFuel.
  Proof.
    induction n as [|n IH]; intros s Hn; [lia|]. cbn [loop].
    destruct (step E s) eqn:St; try discriminate.
    - apply IH. pose proof (step_measure _ _ St). lia.
    - destruct (finale E s0). discriminate.
  Qed.
  Theorem run_fuel inp s : run E inp s <> RFuel.
  Proof.
    unfold run. set (s0 := feed inp s). destruct (r_queue s0); [|discriminate].
    destruct (r_stack s0) eqn:St; [discriminate|]. apply loop_fuel. unfold enough, measure. lia.
  Qed.

  (** *** The budget *)
  Lemma executed_count s : length (executed E s) = 0 /\ executed E s = [] \/
    (length (executed E s) = 1 /\ r_instrs s < E_cpu E).
  Proof.
    unfold executed. destruct (next_instr s); [|left; now split].
    destruct (Nat.leb _ _) eqn:C; [right | left; now split]. apply Nat.leb_le in C. cbn. split; lia.
  Qed.
  Lemma step_instrs s s' : state_of (step E s) = Some s' ->
    r_instrs s + length (executed E s) <= r_instrs s' /\
    (r_instrs s <= E_cpu E -> r_instrs s + length (executed E s) <= E_cpu E) /\
    (step E s = SCont s' -> r_instrs s' = r_instrs s + length (executed E s)).
  Proof.
    unfold step, executed, next_instr. destruct (r_stack s) as [|f rest] eqn:St.
    { intros H; injection H as <-. cbn. repeat split; try lia; discriminate. }
    destruct (Nat.ltb (length _) _) eqn:Rg.
    { intros H; injection H as <-. apply Nat.ltb_lt in Rg.
      rewrite (proj2 (nth_error_None _ _)) by lia. cbn. repeat split; try lia; discriminate. }
    destruct (nth_error _ _) as [i|] eqn:N.
    - change (r_instrs (w_instrs (r_instrs s + 1) s)) with (r_instrs s + 1). cbv zeta. destruct (Nat.ltb (E_cpu E) (r_instrs s + 1)) eqn:C.
      + intros H. injection H as <-. apply Nat.ltb_lt in C. rewrite finish_instrs. cbn.
        rewrite (proj2 (Nat.leb_gt _ _)) by lia. cbn. repeat split; try lia; discriminate.
      + intros H. apply Nat.ltb_ge in C. destruct (exec_instr_counts _ _ _ H) as (I & _ & _). cbn in I.
        rewrite (proj2 (Nat.leb_le _ _)) by lia. cbn. repeat split; lia.
    - intros H. destruct (pop_counts _ _ H) as (I & _ & _). cbn. repeat split; lia.
  Qed.
  Lemma finale_keeps s s' o : finale E s = (s', o) ->
    r_instrs s' = r_instrs s /\ r_stack s' = r_stack s /\ r_cache s' = r_cache s.
  Proof.
    unfold finale. destruct (r_final s) as [[]|]; rewrite ?build_id_eq; cbn;
      try (destruct (ms_changed (r_msg s))); intros H; inversion H; subst; repeat split.
  Qed.
  Lemma loop_budget n : forall s s' o, loop E n s = RRet s' o ->
    r_instrs s + length (g_log (loop_log E n s)) <= r_instrs s' /\
    (r_instrs s <= E_cpu E -> r_instrs s + length (g_log (loop_log E n s)) <= E_cpu E).
  Proof.
    induction n as [|n IH]; intros s s' o; [discriminate|]. cbn [loop loop_log].
    pose proof (step_instrs s) as T. destruct (step E s) eqn:St; cbn [state_of] in T; intros H.
    - destruct (T _ eq_refl) as (A & B & C). specialize (C eq_refl).
      destruct (IH _ _ _ H) as [D F]. cbn. rewrite app_length. split; [lia|]. intros. specialize (B H0). rewrite <- C in B. specialize (F B). lia.
    - injection H as <- <-. destruct (T _ eq_refl) as (A & B & _). cbn. split; [exact A | exact B].
    - destruct (finale E s0) as [s1 o1] eqn:Fi. injection H as <- <-. destruct (finale_keeps _ _ _ Fi) as (I & _ & _).
      destruct (T _ eq_refl) as (A & B & _). cbn. rewrite I. split; [exact A | exact B].
    - injection H as <- <-. destruct (T _ eq_refl) as (A & B & _). cbn. split; [exact A | exact B].
    - discriminate.
  Qed.
  Lemma loop_budget' n : forall s, r_instrs s <= E_cpu E ->
    r_instrs s + length (g_log (loop_log E n s)) <= E_cpu E.
  Proof.
    induction n as [|n IH]; intros s Hs; cbn [loop_log]; [cbn; lia|].
    pose proof (step_instrs s) as T. destruct (executed_count s) as [[X X'] | [X X']];
    destruct (step E s) eqn:St; cbn [state_of] in T; cbn; try lia;
      destruct (T _ eq_refl) as (A & B & C); specialize (C eq_refl); rewrite app_length;
      specialize (IH s0); lia.
  Qed.
  Lemma feed_instrs inp s : r_instrs (feed inp s) = r_instrs s.
  Proof. destruct inp; cbn; try reflexivity. destruct (_ && _); reflexivity. Qed.
  Lemma run_log_budget inp s : r_instrs s <= E_cpu E -> r_instrs s + length (g_log (run_log E inp s)) <= E_cpu E.
  Proof.
    intros H. unfold run_log. rewrite <- (feed_instrs inp s) in H |- *. set (s0 := feed inp s) in *.
    destruct (r_queue s0), (r_stack s0); cbn; try lia. apply loop_budget'. exact H.
  Qed.
  Lemma run_instrs inp s s' o : run E inp s = RRet s' o ->
    r_instrs s + length (g_log (run_log E inp s)) <= r_instrs s'.
  Proof.
    unfold run, run_log. rewrite <- (feed_instrs inp s). set (s0 := feed inp s) in *.
    destruct (r_queue s0) eqn:Q; [destruct (r_stack s0) eqn:St|]; intros H.
    - injection H as <- <-. cbn. lia.
    - apply (loop_budget _ _ _ _ H).
    - injection H as <- <-. destruct (r_stack s0); cbn; lia.
  Qed.
  (** Once over the budget, nothing is executed any more. *)
  Lemma run_log_over inp s : E_cpu E <= r_instrs s -> g_log (run_log E inp s) = [].
  Proof.
    intros H. unfold run_log. rewrite <- (feed_instrs inp s) in H. set (s0 := feed inp s) in *. clearbody s0.
    destruct (r_queue s0), (r_stack s0); try reflexivity.
    generalize (enough E s0). intros n. revert s0 H. clear. induction n as [|n IH]; intros s H; [reflexivity|].
    assert (X : executed E s = []).
    { unfold executed. destruct (next_instr s); [|reflexivity]. now rewrite (proj2 (Nat.leb_gt _ _)) by lia. }
    cbn [loop_log]. pose proof (step_instrs s) as T. destruct (step E s) eqn:St; cbn; rewrite X; try reflexivity.
    cbn. apply IH. destruct (T _ eq_refl) as (A & _ & _). lia.
  Qed.
  Theorem log_budget inputs : forall s,
    length (g_log (log_of E inputs s)) <= E_cpu E - r_instrs s.
  Proof.
    induction inputs as [|i rest IH]; intros s; [cbn; lia|]. cbn [log_of].
    destruct (le_lt_dec (r_instrs s) (E_cpu E)) as [Le|Gt].
    - pose proof (run_log_budget i s Le) as B. destruct (run E i s) eqn:R; cbn; try lia.
      pose proof (run_instrs _ _ _ _ R). specialize (IH s0). rewrite app_length. lia.
    - destruct (run E i s) eqn:R; cbn [g_log join]; rewrite (run_log_over i s) by lia; try (cbn; lia).
      pose proof (run_instrs _ _ _ _ R). specialize (IH s0). cbn. lia.
  Qed.
End P.
