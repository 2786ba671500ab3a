(** Proofs about the expressions of a run. *)
From Coq Require Import Lia.
From Verif Require Import Base Lib Address Var Value SetVar Flags Comparator Message EditHeader Expr Event
  Notify Vacation Spam AddrTest Mime Sieve Run RunSpec RunProofs RunProofs2 RunProofs8 CompileSpec CompileProofs6 ExprRunSpec.

Section P.
  Variable E : renv.
  Notation ev x code := (eval_expression (E_L E) false (E_fns E x) (vw E x) code).

  Definition idle (s : rst) : Prop := r_epos s = 0 /\ r_estack s = [].
  Definition pend (s : rst) : Prop :=
    exists i code, next_instr s = Some i /\ expression_of i = Some code /\ partway E code (r_epos s) (r_estack s).
  Definition asked (s : rst) : Prop :=
    exists i code p st id args x, next_instr s = Some i /\ expression_of i = Some code /\ partway E code p st
      /\ ev x code p st = ECall id args (r_epos s) (r_estack s).

  Lemma finish_expr s : r_epos (finish_loop E s) = r_epos s /\ r_estack (finish_loop E s) = r_estack s.
  Proof.
    unfold finish_loop. cbn. destruct (r_final s) as [[]|]; try now split.
    rewrite build_id_eq. cbn. destruct (ms_changed (r_msg s)); now split.
  Qed.

  Ltac ic :=
    repeat match goal with
    | H : Some _ = Some _ |- _ => injection H as H; subst
    | H : None = Some _ |- _ => discriminate H
    | H : state_of (take_queue _) = Some _ |- _ => apply take_queue_state in H; destruct H as [? ->]
    | H : state_of (SCont _) = Some _ |- _ => cbn [state_of] in H
    | H : state_of (SYield _ _) = Some _ |- _ => cbn [state_of] in H
    | H : state_of (SEnd _) = Some _ |- _ => cbn [state_of] in H
    | H : state_of SPanic = Some _ |- _ => discriminate H
    | H : state_of (let '(_, _) := ?x in _) = Some _ |- _ => destruct x as [? ?] eqn:?
    | H : state_of (match ?x with _ => _ end) = Some _ |- _ => destruct x eqn:?
    end.
  Ltac instr_cases H :=
    unfold exec_instr, exec_fileinto, exec_redirect, exec_include, with_value, edit_msg, fail, pop_frame in H; ic;
    repeat match goal with
    | |- context [assign ?r ?s] => destruct (assign_eq r s) as [? ->]
    | |- context [pop_parts ?n ?s] => destruct (pop_parts_eq n s) as (? & ? & ? & ->)
    | H : build_message_id _ _ = (_, _) |- _ => apply build_id_stack in H; cbn in H; decompose [and] H; clear H
    | H : exec_test _ _ _ = XBool _ _ |- _ => apply exec_test_state in H; destruct H as (? & ? & ->)
    end.
  Ltac goal_ifs :=
    repeat match goal with
    | |- context [if ?x then _ else _] => destruct x
    | |- context [match ?x with Some _ => _ | None => _ end] => destruct x
    | |- context [match ?x with [] => _ | _ :: _ => _ end] => destruct x
    | |- context [match ?x with EKeep _ _ => _ | _ => _ end] => destruct x
    end.
  Ltac hyp_ifs :=
    repeat match goal with
    | H : _ = _ (if ?x then _ else _) |- _ => destruct x
    | H : _ = _ (match ?x with Some _ => _ | None => _ end) |- _ => destruct x
    | H : _ = _ (match ?x with EKeep _ _ => _ | _ => _ end) |- _ => destruct x
    end.

  (** Instructions without an expression leave it alone. *)
  Lemma other_instr i s s' : expression_of i = None -> state_of (exec_instr E i s) = Some s' ->
    r_epos s' = r_epos s /\ r_estack s' = r_estack s.
  Proof.
    intros X H. destruct i; try discriminate X; clear X; instr_cases H; goal_ifs; hyp_ifs; cbn in *;
      try (match goal with |- context [finish_loop E ?y] => destruct (finish_expr y) as [-> ->] end); cbn; repeat split; congruence.
  Qed.

  (** The others evaluate it to the end or ask. *)
  Lemma expr_step i code s s' : expression_of i = Some code -> state_of (exec_instr E i s) = Some s' ->
    (exec_instr E i s = SCont s' /\ idle s') \/
    (exists id args, exec_instr E i s = SYield s' (OEvent (EFunction id args)) /\ r_pos s' = r_pos s - 1 /\ r_stack s' = r_stack s
      /\ ev s code (r_epos s) (r_estack s) = ECall id args (r_epos s') (r_estack s')).
  Proof.
    intros X H. destruct i; try discriminate X; injection X as <-; cbn [exec_instr] in *; unfold with_value in *;
      destruct (eval_expression _ _ _ _ _ _ _) as [v|id args p st| | |] eqn:Ev; cbn [state_of] in H; try discriminate H; injection H as <-.
    - left. split; [reflexivity|now split].
    - right. exists id, args. repeat split.
    - left. split; [reflexivity|]. destruct (to_bool v); now split.
    - right. exists id, args. repeat split.
    - left. split; [reflexivity|]. match goal with |- context [assign ?r ?s] => destruct (assign_eq r s) as [? ->] end. now split.
    - right. exists id, args. repeat split.
  Qed.

  Definition good (e : entry) : Prop :=
    forall code, expression_of (fst e) = Some code -> partway E code (r_epos (snd e)) (r_estack (snd e)).

  Lemma ready_partway s i code : next_instr s = Some i -> expression_of i = Some code -> idle s \/ pend s ->
    partway E code (r_epos s) (r_estack s).
  Proof.
    intros N X [[-> ->]|(i' & code' & N' & X' & P)]; [apply pw_start|]. congruence.
  Qed.

  Lemma step_ready s : calm s -> fin (r_final s) -> r_stack s <> [] -> idle s \/ pend s ->
    Forall good (executed E s) /\
    match step E s with
    | SCont s' | SNone s' => idle s'
    | SYield s' (OEvent (EFunction _ _)) => asked s'
    | SYield s' (OEvent _) => idle s'
    | SYield s' (OError _) | SEnd s' => r_stack s' = []
    | SPanic => True
    end.
  Proof.
    intros C D St R. pose proof (step_trace E s C D St) as T. unfold step_traced in T.
    destruct (next_instr s) as [i|] eqn:N.
    - split.
      { unfold executed. rewrite N. destruct (Nat.leb _ _); [|constructor]. constructor; [|constructor].
        intros code X. cbn [fst snd] in *. cbn. exact (ready_partway _ _ _ N X R). }
      destruct (step E s) as [s'|s' [e|e]|s'|s'|] eqn:Q; [| |tauto|tauto| |exact I]; unfold step in Q;
        destruct (r_stack s) as [|f rest] eqn:F; try congruence;
        (destruct (Nat.ltb _ _) eqn:Rg; [|rewrite N in Q; cbv zeta in Q; destruct (Nat.ltb (E_cpu E) _); [discriminate Q|]]);
        try discriminate Q.
      + set (s2 := w_pos (r_pos (w_instrs (r_instrs s + 1) s) + 1) (w_instrs (r_instrs s + 1) s)) in Q.
        destruct (expression_of i) as [code|] eqn:X.
        * destruct (expr_step i code s2 s' X (f_equal state_of Q)) as [[_ H]|(id & args & H & _)]; [exact H|congruence].
        * destruct (other_instr i s2 s' X (f_equal state_of Q)) as [A B]. cbn in A, B.
          destruct R as [[R1 R2]|(i' & code' & N' & X' & P)]; [split; congruence|congruence].
      + set (s2 := w_pos (r_pos (w_instrs (r_instrs s + 1) s) + 1) (w_instrs (r_instrs s + 1) s)) in Q.
        destruct (expression_of i) as [code|] eqn:X.
        * destruct (expr_step i code s2 s' X (f_equal state_of Q)) as [[H _]|(id & args & H & P1 & P2 & Ev)]; [congruence|].
          rewrite H in Q. injection Q as <-. exists i, code, (r_epos s), (r_estack s), id, args, s2.
          split; [|split; [exact X|split; [exact (ready_partway _ _ _ N X R)|exact Ev]]].
          unfold next_instr in *. rewrite P2, P1. cbn. rewrite F in N |- *. rewrite Nat.add_sub. exact N.
        * destruct (other_instr i s2 s' X (f_equal state_of Q)) as [A B]. cbn in A, B.
          assert (Id : idle s') by (destruct R as [[R1 R2]|(i' & code' & N' & X' & P)]; [split; congruence|congruence]).
          destruct e; try exact Id. exfalso.
          pose proof (asks_fn E i s2 s' id args C Q) as Y. destruct i; discriminate.
      + exfalso. unfold next_instr in N. rewrite F in N. apply Nat.ltb_lt in Rg.
        rewrite (proj2 (nth_error_None _ _)) in N by lia. discriminate.
      + set (s2 := w_pos (r_pos (w_instrs (r_instrs s + 1) s) + 1) (w_instrs (r_instrs s + 1) s)) in Q.
        exfalso. pose proof (exec_emits E i s2 C D) as Em. rewrite Q in Em. apply Em. cbn. rewrite F. discriminate.
    - assert (Id : idle s) by (destruct R as [R|(i' & code' & N' & _)]; [exact R|congruence]).
      split; [unfold executed; rewrite N; constructor|].
      destruct (step E s) as [s'|s' [e|e]|s'|s'|] eqn:Q; [| |tauto|tauto| |exact I]; unfold step in Q;
        destruct (r_stack s) as [|f rest] eqn:F; try congruence;
        (destruct (Nat.ltb _ _) eqn:Rg; [|rewrite N in Q; unfold pop_frame in Q; rewrite F in Q; destruct rest]);
        try discriminate Q; injection Q as <-; exact Id.
  Qed.

  Lemma loop_ready n : forall s s' o, calm s -> fin (r_final s) -> r_stack s <> [] -> idle s \/ pend s ->
    Forall good (g_log (loop_log E n s)) /\
    (loop E n s = RRet s' o ->
     fin (r_final s') /\ forallb quiet (r_queue s') = true /\
     match o with
     | Some (OEvent (EFunction _ _)) => asked s'
     | Some (OEvent (EInclude _ _)) => idle s'
     | _ => r_stack s' = [] \/ idle s'
     end).
  Proof.
    induction n as [|n IH]; intros s s' o C D S R; [split; [constructor|discriminate]|]. cbn [loop loop_log].
    pose proof (step_trace E s C D S) as T. unfold step_traced in T.
    destruct (step_ready s C D S R) as [G Y].
    destruct (step E s) as [s1|s1 [e|e]|s1|s1|] eqn:St; cbn [g_log turn join].
    - destruct T as (T1 & T2 & T3 & T4 & T5).
      assert (F1 : fin (r_final s1)) by (rewrite T3; now apply after_fin).
      destruct (IH s1 s' o T2 F1 T4 (or_introl Y)) as [G2 H2]. split; [apply Forall_app; now split|exact H2].
    - split; [exact G|]. intros H. injection H as <- <-. destruct T as (T1 & T2 & T3 & T4 & T5).
      split; [rewrite T2; now apply after_fin|]. split; [exact T3|]. destruct e; auto.
    - split; [exact G|]. intros H. injection H as <- <-. destruct T as (T1 & T2 & T3 & T4 & T5).
      split; [rewrite T2; exact I|]. split; [exact T4|]. left. exact T3.
    - split; [exact G|]. intros H. destruct (finale E s1) as [s2 o2] eqn:Fi. injection H as <- <-.
      destruct T as (T1 & T2 & T3 & T4 & T5).
      assert (F1 : fin (r_final s1)) by (rewrite T3; now apply after_fin).
      destruct (finale_trace E s1 s2 o2 T2 F1 T4 Fi) as (A1 & A2 & A3 & A4).
      split; [rewrite A2; exact I|]. unfold seen in A4. rewrite forallb_app in A4. apply andb_prop in A4 as [A4 A5].
      split; [exact A5|]. destruct o2 as [[[]|]|]; try (left; exact A3); cbn in A4; try discriminate A4.
    - split; [exact G|]. intros H. injection H as <- <-. destruct T as (T1 & T2 & T3 & T4). subst s1.
      split; [exact D|]. split; [exact (calm_quiet _ C)|]. right. exact Y.
    - split; [exact G|discriminate].
  Qed.

  (** Between two calls. *)
  Definition between (o : option out) (s : rst) : Prop :=
    match o with
    | Some (OEvent (EFunction _ _)) => asked s
    | Some (OEvent (EInclude _ _)) => idle s
    | _ => r_stack s = [] \/ idle s \/ pend s
    end.

  Lemma answered_pend s v : asked s -> pend (feed (InResult v) s).
  Proof.
    intros (i & code & p & st & id & args & x & N & X & P & Ev). exists i, code. split; [exact N|]. split; [exact X|].
    cbn. exact (pw_answered E code p st x id args _ _ v P Ev).
  Qed.
  Lemma fed o i s : between o s -> fits o i -> r_stack (feed i s) = [] \/ idle (feed i s) \/ pend (feed i s).
  Proof.
    intros B F.
    assert (J : i = InTrue \/ i = InFalse -> r_stack s = [] \/ idle s \/ pend s -> r_stack (feed i s) = [] \/ idle (feed i s) \/ pend (feed i s)).
    { intros [->| ->] H; exact H. }
    destruct o as [[[]|]|]; cbn in B, F; try (exact (J F B)).
    - (* include *) right. left. destruct i; try contradiction; try exact B. cbn. destruct (_ && _); exact B.
    - (* function *) destruct F as (v & ->). right. right. now apply answered_pend.
  Qed.

  Lemma run_ready i s o0 : fin (r_final s) -> forallb quiet (r_queue s) = true ->
    r_stack (feed i s) = [] \/ idle (feed i s) \/ pend (feed i s) ->
    Forall good (g_log (run_log E i s)) /\
    (forall s' , run E i s = RRet s' o0 -> fin (r_final s') /\ forallb quiet (r_queue s') = true /\ between o0 s').
  Proof.
    intros D Q R. unfold run, run_log. destruct (feed_queue i s) as [Fq Ff]. rewrite <- Fq in Q. rewrite <- Ff in D.
    set (s1 := feed i s) in *. clearbody s1. clear Fq Ff.
    destruct (r_queue s1) as [|e q] eqn:Qe.
    - destruct (r_stack s1) as [|f rest] eqn:St.
      + split; [constructor|]. intros s' H. injection H as <- <-. rewrite Qe. split; [exact D|split; [reflexivity|]]. left. exact St.
      + assert (C : calm s1) by (unfold calm; now rewrite Qe).
        assert (S1 : r_stack s1 <> []) by (rewrite St; discriminate).
        assert (R1 : idle s1 \/ pend s1) by (destruct R as [R|R]; [discriminate|exact R]).
        split; [apply (proj1 (loop_ready (enough E s1) s1 s1 None C D S1 R1))|].
        intros s' H. destruct (proj2 (loop_ready (enough E s1) s1 s' o0 C D S1 R1) H) as (A & B & G).
        split; [exact A|split; [exact B|]]. destruct o0 as [[[]|]|]; cbn; tauto.
    - split; [destruct (r_stack s1); constructor|]. intros s' H. injection H as <- <-. cbn in Q. apply andb_prop in Q as [Q1 Q2].
      split; [exact D|split; [exact Q2|]].
      destruct e; try discriminate Q1; cbn; exact R.
  Qed.

  Theorem conversation_ready inputs : forall s o outs s', fin (r_final s) -> forallb quiet (r_queue s) = true ->
    between o s -> attentive o inputs outs -> converse_run E inputs s = Some (outs, s') ->
    Forall good (g_log (log_of E inputs s)).
  Proof.
    induction inputs as [|i rest IH]; intros s o outs s' D Q B A H; cbn in H; [constructor|].
    destruct (run E i s) as [s1 o1| |] eqn:R; try discriminate.
    destruct (converse_run E rest s1) as [[outs' s2]|] eqn:Cv; [|discriminate]. injection H as <- <-.
    cbn in A. destruct A as [A1 A2]. cbn [log_of]. rewrite R.
    destruct (run_ready i s o1 D Q (fed o i s B A1)) as [G1 G2]. destruct (G2 s1 R) as (D1 & Q1 & B1).
    cbn [g_log join]. apply Forall_app. split; [exact G1|]. exact (IH s1 o1 outs' s2 D1 Q1 B1 A2 Cv).
  Qed.
End P.
