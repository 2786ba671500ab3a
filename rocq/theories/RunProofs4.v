(** Proofs about whole runs: message ids and limits on outgoing messages. *)
From Coq Require Import Lia.
From Verif Require Import Base Lib Address Var Value SetVar Flags Comparator Message EditHeader Expr Event
  Notify Vacation Spam AddrTest Mime Sieve Run RunSpec RunProofs RunProofs2.

Section P.
  Variable E : renv.

  (** *** Message ids *)
  Definition fid (d : option event) : nat := match d with Some (EKeep _ id) => id | _ => 0 end.
  Definition good (s : rst) : Prop := r_main s <= r_last s /\ fid (r_final s) <= r_last s /\ fin (r_final s).
  Definition fine (k : nat) (l : list event) (s : rst) : Prop := ids_ok k l /\ advance k l = r_last s /\ good s.
  Definition out_events (r : sres) : list event := match r with SYield _ (OEvent e) => [e] | _ => [] end.
  Definition ids_res (k : nat) (r : sres) : Prop :=
    match state_of r with Some s' => fine k (out_events r ++ r_queue s') s' | None => True end.

  Lemma take_ids k s : fine k (r_queue s) s -> ids_res k (take_queue s).
  Proof. unfold take_queue, ids_res. destruct (r_queue s) eqn:Q; cbn; rewrite ?Q; auto. Qed.
  Lemma calm_fine s : calm s -> good s -> fine (r_last s) (r_queue s) s.
  Proof. intros C G. destruct (setenv_ids _ (r_last s) C). repeat split; auto; apply G. Qed.
  Lemma cont_ids k s : calm s -> good s -> k = r_last s -> ids_res k (SCont s).
  Proof. intros C G ->. now apply calm_fine. Qed.
  Lemma end_ids k s : calm s -> good s -> k = r_last s -> ids_res k (SEnd s).
  Proof. intros C G ->. now apply calm_fine. Qed.
  (** Questions use no message id. *)
  Definition question (e : event) : Prop := used_id e = None /\ (forall id t, e <> ECreated id t).
  Lemma ask_ids k s e : calm s -> good s -> k = r_last s -> question e -> ids_res k (SYield s (OEvent e)).
  Proof.
    intros C G -> [Q1 Q2]. unfold ids_res, fine. cbn [state_of out_events app].
    destruct (setenv_ids _ (r_last s) C) as [A B]. destruct e; try discriminate; cbn; auto.
    destruct (Q2 id message eq_refl).
  Qed.
  Lemma action_question e : is_action e = false -> question e.
  Proof. destruct e; try discriminate; split; try reflexivity; discriminate. Qed.
  Lemma finish_ids s : calm s -> good s -> fine (r_last s) (r_queue (finish_loop E s)) (finish_loop E s).
  Proof.
    intros C G. unfold finish_loop. cbn [r_final w_stack]. pose proof G as (G1 & G2 & G3).
    destruct (r_final s) as [[]|] eqn:F; cbn in G2, G3; try contradiction; try (repeat split; cbn; auto; lia).
    - rewrite build_id_eq. cbn. destruct (ms_changed (r_msg s)); repeat split; cbn; auto; lia.
    - apply (calm_fine (w_stack [] s)); [exact C|]. split; cbn; [exact G1 | rewrite F; cbn; split; [lia | exact I]].
  Qed.
  Lemma fail_ids s e : calm s -> good s -> ids_res (r_last s) (fail E s e).
  Proof. intros. now apply finish_ids. Qed.
  Lemma value_ids s code k : calm s -> good s ->
    (forall v, ids_res (r_last s) (k v (w_estack [] (w_epos 0 s)))) -> ids_res (r_last s) (with_value E code s k).
  Proof.
    intros C G K. unfold with_value. destruct (eval_expression _ _ _ _ _ _ _); try exact I; [apply K|].
    apply ask_ids; auto. split; [reflexivity | discriminate].
  Qed.
  Lemma assign_same r s : good s -> calm s -> good (assign r s) /\ calm (assign r s) /\ r_last (assign r s) = r_last s.
  Proof.
    intros G C. split; [|split; [now apply assign_calm|]]; destruct (assign_eq r s) as [q ->]; [exact G | reflexivity].
  Qed.
  Theorem exec_ids i s : calm s -> good s -> ids_res (r_last s) (exec_instr E i s).
  Proof.
    intros C G. destruct i; unfold exec_instr;
      try (apply cont_ids; [exact C | exact G | reflexivity]).
    - destruct (find _ _) as [[]|]; try (now apply fail_ids). now apply cont_ids.
    - (* keep *) rewrite build_id_eq. destruct G as (G1 & G2 & G3). destruct (ms_changed (r_msg s)).
      + unfold ids_res, fine, good. cbn. destruct (setenv_ids _ (r_last s + 1) C) as [A B]. repeat split; auto.
      + apply cont_ids; auto. repeat split; cbn; auto.
    - (* fileinto *) unfold exec_fileinto. rewrite build_id_eq. destruct G as (G1 & G2 & G3).
      destruct (ms_changed (r_msg s)); apply take_ids; destruct copy; unfold fine, good; cbn [w_msg w_main w_last r_final];
        repeat match goal with |- context [match ?x with Some _ => _ | None => _ end] => destruct x eqn:? end;
        repeat match goal with |- context [match ?x with EKeep _ _ => _ | _ => _ end] => destruct x end;
        repeat match goal with |- context [match ?x with [] => _ | _ :: _ => _ end] => destruct x end;
        repeat match goal with H : r_final s = _ |- _ => rewrite H in * end; cbn in *; repeat split; auto; try contradiction; try lia.
      all: rewrite Heqo; cbn; auto; lia.
    - (* redirect *) unfold exec_redirect.
      assert (N : ids_res (r_last s) (take_queue s)) by (apply take_ids, calm_fine; auto).
      destruct (sanitize_address _); [|exact N]. destruct (_ && _); [|exact N].
      destruct (parts s); [exact I|]. destruct (Nat.ltb _ _); [|exact N]. destruct (negb _ && _); [exact N|].
      set (s1 := if copy then s else _). rewrite build_id_eq.
      assert (S1 : r_last s1 = r_last s /\ r_main s1 = r_main s /\ fid (r_final s1) <= fid (r_final s) /\ fin (r_final s1)).
      { destruct G as (G1 & G2 & G3). unfold s1. destruct copy; auto. destruct (r_final s) as [[]|] eqn:F; rewrite ?F; cbn in *; auto; repeat split; auto; try contradiction; lia. }
      destruct S1 as (S1 & S2 & S3 & S4). destruct G as (G1 & G2 & G3).
      destruct (ms_changed (r_msg s1)); apply take_ids; unfold fine, good; cbn; rewrite S1, ?S2; repeat split; auto; lia.
    - (* discard *) apply cont_ids; auto. destruct G as (G1 & G2 & G3). repeat split; cbn; auto. lia.
    - (* reject *) apply ask_ids; auto; [|split; [reflexivity | discriminate]]. destruct G as (G1 & G2 & G3). repeat split; cbn; auto. lia.
    - destruct (r_test s); apply cont_ids; auto.
    - destruct (r_test s); apply cont_ids; auto.
    - (* test *) destruct (exec_test E s t) eqn:T; [exact I | | |now apply fail_ids].
      + apply exec_test_state in T. destruct T as (mv & m & ->). now apply cont_ids.
      + apply exec_test_ask in T. apply ask_ids; auto using action_question.
    - apply value_ids; auto. intros v. now apply cont_ids.
    - destruct (r_iter s) as [|p it], (r_iters s) as [|[p' it'] rest]; now apply cont_ids.
    - destruct (nested_ids _ _ _); [|exact I]. now apply cont_ids.
    - destruct (pop_parts_eq n s) as (p & it & its & ->). now apply cont_ids.
    - apply value_ids; auto. intros v. destruct (to_bool v); now apply cont_ids.
    - apply value_ids; auto. intros v. set (r := set_variable _ _ _ _ _).
      destruct (assign_same r (w_estack [] (w_epos 0 s)) G C) as (A1 & A2 & A3). now apply cont_ids.
    - match goal with |- ids_res _ (edit_msg ?m _) => destruct m end; [now apply cont_ids | exact I].
    - match goal with |- ids_res _ (edit_msg ?m _) => destruct m end; [now apply cont_ids | exact I].
    - match goal with |- context [assign ?r s] => destruct (assign_same r s G C) as (A1 & A2 & A3) end.
      apply take_ids. rewrite <- A3. now apply calm_fine.
    - match goal with |- ids_res _ (match ?c with _ => _ end) => destruct c as [[]|] end; [now apply cont_ids | exact I].
    - match goal with |- ids_res _ (edit_msg ?m _) => destruct m end; [now apply cont_ids | exact I].
    - match goal with |- ids_res _ (edit_msg ?m _) => destruct m end; [now apply cont_ids | exact I].
    - match goal with |- context [assign ?r s] => destruct (assign_same r s G C) as (A1 & A2 & A3) end.
      apply take_ids. rewrite <- A3. now apply calm_fine.
    - (* notify *) destruct (parts s) as [|root pt]; [exact I|].
      match goal with |- context [exec_notify ?a ?b ?c ?d] => destruct (exec_notify a b c d) as [[[ev l] o]|] eqn:N end.
      + pose proof (notify_batch _ _ _ _ _ _ _ N) as [[B1 B2 B3 B4 B5 B6] _]. cbn in B2, B3, B4.
        apply take_ids. destruct G as (G1 & G2 & G3). unfold fine, good. cbn. repeat split; auto; lia.
      + apply take_ids. now apply calm_fine.
    - (* vacation *) destruct (parts s) as [|root pt]; [exact I|].
      match goal with |- context [exec_vacation ?a ?b ?c ?d ?e] => destruct (exec_vacation a b c d e) as [[ev l] o] eqn:N end.
      pose proof (vacation_batch _ _ _ _ _ _ _ _ N) as [[B1 B2 B3 B4 B5 B6] _]. cbn in B2, B3, B4.
      apply take_ids. destruct G as (G1 & G2 & G3). unfold fine, good. cbn. repeat split; auto; lia.
    - match goal with |- context [assign ?r s] => destruct (assign_same r s G C) as (A1 & A2 & A3) end.
      now apply cont_ids.
    - unfold exec_include. destruct (v_is_empty _); [now apply cont_ids|]. destruct (negb once || _); [|now apply cont_ids].
      destruct (Nat.ltb _ _); [|now apply fail_ids]. destruct (opt_or _ _); [now apply cont_ids|].
      apply ask_ids; auto. split; [reflexivity | discriminate].
    - unfold pop_frame. destruct (r_stack s) as [|f rest]; [now apply end_ids|]. destruct rest; [now apply end_ids | now apply cont_ids].
    - now apply finish_ids.
    - now apply fail_ids.
  Qed.

  Lemma step_ids s : calm s -> good s -> ids_res (r_last s) (step E s).
  Proof.
    intros C G. unfold step. destruct (r_stack s) as [|f rest] eqn:St; [now apply end_ids|].
    destruct (Nat.ltb _ _); [now apply calm_fine|]. destruct (next_instr s).
    - cbv zeta. destruct (Nat.ltb _ _); [exact (fail_ids (w_instrs (r_instrs s + 1) s) ErCpu C G)|].
      apply (exec_ids i (w_pos (r_pos (w_instrs (r_instrs s + 1) s) + 1) (w_instrs (r_instrs s + 1) s)) C G).
    - unfold pop_frame. rewrite St. destruct rest; [now apply end_ids | now apply cont_ids].
  Qed.
  Lemma finale_ids s s' o : calm s -> good s -> finale E s = (s', o) -> fine (r_last s) (seen s' o) s'.
  Proof.
    intros C (G1 & G2 & G3) H. unfold finale in H. destruct (setenv_ids _ (r_last s) C) as [Q1 Q2].
    destruct (r_final s) as [[]|] eqn:F; cbn in G3; try contradiction.
    - rewrite build_id_eq in H. cbn in H, G2. destruct (ms_changed (r_msg s)); injection H as <- <-;
        unfold fine, good; cbn; repeat split; auto; lia.
    - injection H as <- <-. unfold fine, good; cbn; repeat split; auto; lia.
    - injection H as <- <-. unfold fine, good; cbn; rewrite F; repeat split; auto; cbn; lia.
  Qed.
  Lemma loop_ids n : forall s s' o, calm s -> good s -> r_stack s <> [] -> loop E n s = RRet s' o ->
    fine (r_last s) (seen s' o) s'.
  Proof.
    induction n as [|n IH]; intros s s' o C G S; [discriminate|]. cbn [loop].
    pose proof (step_ids s C G) as T. pose proof (step_trace E s C (proj2 (proj2 G)) S) as U. unfold ids_res in T.
    destruct (step E s) as [s1|s1 [e|e]|s1|s1|] eqn:St; cbn [state_of out_events app] in T; intros H; [| | | | |discriminate].
    - destruct U as (_ & U1 & _ & U2 & _). destruct T as (T1 & T2 & T3).
      destruct (setenv_ids _ (r_last s) U1) as [Q1 Q2]. assert (L : r_last s1 = r_last s) by congruence.
      rewrite <- L. now apply IH.
    - injection H as <- <-. exact T.
    - injection H as <- <-. exact T.
    - destruct (finale E s1) as [s2 o2] eqn:Fi. injection H as <- <-.
      destruct U as (_ & U1 & _ & U2 & _). destruct T as (T1 & T2 & T3).
      destruct (setenv_ids _ (r_last s) U1) as [Q1 Q2]. assert (L : r_last s1 = r_last s) by congruence.
      rewrite <- L. now apply finale_ids.
    - injection H as <- <-. exact T.
  Qed.
  Theorem run_ids inp s s' o k : good s -> ids_ok k (r_queue s) -> advance k (r_queue s) = r_last s ->
    run E inp s = RRet s' o -> fine k (seen s' o) s'.
  Proof.
    intros G Q1 Q2. unfold run. destruct (feed_queue inp s) as [F1 F2].
    assert (L : r_last (feed inp s) = r_last s /\ r_main (feed inp s) = r_main s).
    { destruct inp; cbn; auto. destruct (_ && _); auto. }
    destruct L as [L1 L2]. assert (G0 : good (feed inp s)) by (unfold good; now rewrite F2, L1, L2).
    rewrite <- F1 in Q1, Q2. rewrite <- L1 in Q2. revert Q1 Q2 G0. generalize (feed inp s). clear. intros s Q1 Q2 G H.
    destruct (r_queue s) as [|e q] eqn:Q.
    - cbn in Q2. destruct (r_stack s) as [|f rest] eqn:St.
      + injection H as <- <-. unfold seen. cbn. rewrite Q. repeat split; auto; apply G.
      + rewrite Q2. apply (loop_ids _ _ _ _) with (4 := H); auto; [unfold calm; now rewrite Q | rewrite St; discriminate].
    - injection H as <- <-. repeat split; auto; apply G.
  Qed.
  Theorem conversation_ids inputs : forall s outs s' k, good s -> ids_ok k (r_queue s) -> advance k (r_queue s) = r_last s ->
    converse_run E inputs s = Some (outs, s') -> ids_ok k (events_of outs ++ r_queue s').
  Proof.
    induction inputs as [|i rest IH]; intros s outs s' k G Q1 Q2 H; cbn in H.
    { injection H as <- <-. exact Q1. }
    destruct (run E i s) as [s1 o| |] eqn:R; try discriminate.
    destruct (converse_run E rest s1) as [[outs' s2]|] eqn:Cv; [|discriminate]. injection H as <- <-.
    destruct (run_ids i s s1 o k G Q1 Q2 R) as (T1 & T2 & T3). unfold seen in T1, T2.
    cbn [fst snd]. rewrite events_cons, <- app_assoc, ids_ok_app. rewrite ids_ok_app in T1. rewrite advance_app in T2.
    destruct T1 as [T1 T1']. split; [exact T1|]. apply (IH s1); auto.
  Qed.
End P.
