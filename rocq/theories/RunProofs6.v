(** Proofs about whole runs: the script stack, includes and answers. *)
From Coq Require Import Lia.
From Verif Require Import Base Lib Address Var Value SetVar Flags Comparator Message EditHeader Expr Event
  Notify Vacation Spam AddrTest Mime Sieve Run RunSpec RunProofs RunProofs2 RunProofs3.

Section P.
  Variable E : renv.

  (** *** Invariants of all states in which instructions are executed *)
  Section Invariant.
    Variable Inv : rst -> Prop.
    Hypothesis inv_turn : forall s p n, Inv s -> Inv (w_pos p (w_instrs n s)).
    Hypothesis inv_step : forall s s', calm s -> fin (r_final s) -> r_stack s <> [] -> Inv s ->
      state_of (step E s) = Some s' -> Inv s'.
    Hypothesis inv_finale : forall s s' o, Inv s -> finale E s = (s', o) -> Inv s'.

    Lemma executed_inv s : Inv s -> Forall (fun x => Inv (snd x)) (executed E s).
    Proof.
      intros I. unfold executed. destruct (next_instr s); [|constructor]. destruct (Nat.leb _ _); [|constructor].
      constructor; [|constructor]. cbn. now apply inv_turn.
    Qed.
    Lemma loop_log_inv n : forall s, calm s -> fin (r_final s) -> r_stack s <> [] -> Inv s ->
      Forall (fun x => Inv (snd x)) (g_log (loop_log E n s)).
    Proof.
      induction n as [|n IH]; intros s C F S I; [constructor|]. cbn [loop_log].
      pose proof (step_trace E s C F S) as T. pose proof (fun s' => inv_step s s' C F S I) as K.
      pose proof (executed_inv s I) as X.
      destruct (step E s) as [s1|s1 o|s1|s1|] eqn:St; try exact X.
      cbn. apply Forall_app. split; [exact X|]. cbn in T. destruct T as (_ & T2 & T3 & T4 & _).
      apply IH; auto. rewrite T3. now apply after_fin.
    Qed.
    Lemma loop_inv n : forall s s' o, calm s -> fin (r_final s) -> r_stack s <> [] -> Inv s ->
      loop E n s = RRet s' o -> Inv s'.
    Proof.
      induction n as [|n IH]; intros s s' o C F S I; [discriminate|]. cbn [loop].
      pose proof (step_trace E s C F S) as T. pose proof (fun s' => inv_step s s' C F S I) as K.
      destruct (step E s) as [s1|s1 o1|s1|s1|] eqn:St; intros H; try discriminate; cbn [state_of] in K.
      - cbn in T. destruct T as (_ & T2 & T3 & T4 & _). apply (IH s1 s' o); auto. rewrite T3. now apply after_fin.
      - injection H as <- <-. now apply K.
      - destruct (finale E s1) as [s2 o2] eqn:Fi. injection H as <- <-. exact (inv_finale s1 s2 o2 (K s1 eq_refl) Fi).
      - injection H as <- <-. now apply K.
    Qed.
  End Invariant.

  (** *** Questions *)
  Lemma exec_test_question s t e neg : exec_test E s t = XAsk e neg ->
    neg = negated t /\ match e with EListContains _ _ _ | EDuplicateId _ _ _ | EMailboxExists _ _ => True | _ => False end.
  Proof.
    assert (T : forall s neg t e n, of_tres s neg t = XAsk e n -> n = neg /\
      match e with EListContains _ _ _ | EDuplicateId _ _ _ | EMailboxExists _ _ => True | _ => False end).
    { intros s0 n0 [[]|]; cbn; intros e0 n1 H; inversion H; split; reflexivity || exact I. }
    assert (B : forall s t e n, of_bool s t = XAsk e n -> False).
    { intros s0 [] e0 n; discriminate. }
    destruct t; unfold exec_test; intros H; try discriminate; cbn [negated];
      repeat match goal with
        | H : XAsk _ _ = XAsk _ _ |- _ => inversion H; subst; clear H; split; reflexivity || exact I
        | H : of_tres _ _ _ = XAsk _ _ |- _ => exact (T _ _ _ _ _ H)
        | H : of_bool _ _ = XAsk _ _ |- _ => destruct (B _ _ _ _ H)
        | H : match ?x with _ => _ end = XAsk _ _ |- _ => destruct x eqn:?; try discriminate H
        end.
  Qed.

  (** *** The stack *)
  Record popped (s s' : rst) : Prop := {
    p_frame : exists f, r_stack s = f :: r_stack s' /\ r_pos s' = f_pos f /\
              c_local (r_vars s') = f_local f /\ c_match (r_vars s') = f_match f;
    p_rest : r_stack s' <> []
  }.
  Lemma push_stack x s : r_stack (push_frame x s) =
    {| f_script := x; f_pos := r_pos s; f_local := c_local (r_vars s); f_match := c_match (r_vars s) |} :: r_stack s.
  Proof. reflexivity. Qed.
  Definition grows (s s' : rst) : Prop := exists x, s' = push_frame x s.

  Lemma pop_popped s s' : pop_frame s = SCont s' -> popped s s'.
  Proof.
    unfold pop_frame. destruct (r_stack s) as [|f rest] eqn:St; [discriminate|]. destruct rest as [|g rest]; [discriminate|].
    intros H. injection H as <-. split; [|discriminate]. exists f. repeat split; exact St.
  Qed.
  Lemma exec_cont i s s' : exec_instr E i s = SCont s' ->
    r_stack s' = r_stack s \/ (grows s s' /\ length (r_stack s) < E_max_includes E) \/ popped s s'.
  Proof.
    intros H. pose proof (f_equal state_of H) as H'. cbn [state_of] in H'.
    assert (K : r_stack s' = r_stack s -> r_stack s' = r_stack s \/ (grows s s' /\ length (r_stack s) < E_max_includes E) \/ popped s s') by auto.
    destruct i; try (apply K; clear K; clear H; instr_cases H'; goal_ifs; hyp_ifs; cbn in *; congruence);
      unfold exec_instr, fail in H; try discriminate H.
    - destruct (find _ _) as [[]|]; try discriminate. injection H as <-. auto.
    - destruct (exec_test E s t) eqn:T; try discriminate. injection H as <-. apply exec_test_state in T.
      destruct T as (mv & m & ->). auto.
    - unfold exec_include in H. destruct (v_is_empty _); [injection H as <-; auto|].
      destruct (negb once || _); [|injection H as <-; auto].
      destruct (Nat.ltb _ _) eqn:Lt; [|discriminate]. destruct (opt_or _ _); [|discriminate]. injection H as <-.
      right. left. split; [now eexists | now apply Nat.ltb_lt].
    - right. right. now apply pop_popped.
  Qed.
  Lemma take_yield s s' e : take_queue s = SYield s' (OEvent e) -> r_stack s' = r_stack s /\ r_queue s = e :: r_queue s'.
  Proof.
    destruct (take_queue_cases s) as [[_ ->] | (e0 & q & Q & ->)]; [discriminate|]. intros H. injection H as <- <-. now split.
  Qed.
  Lemma exec_yield i s s' e : exec_instr E i s = SYield s' (OEvent e) -> r_stack s' = r_stack s.
  Proof.
    intros H. pose proof (f_equal state_of H) as H'. cbn [state_of] in H'.
    destruct i; try (clear H; instr_cases H'; goal_ifs; hyp_ifs; cbn in *; congruence);
      unfold exec_instr, fail in H; try discriminate H.
    - destruct (find _ _) as [[]|]; discriminate.
    - destruct (exec_test E s t) eqn:T; try discriminate. injection H as <- <-. reflexivity.
    - unfold exec_include in H. destruct (v_is_empty _); [discriminate|].
      destruct (negb once || _); [|discriminate].
      destruct (Nat.ltb _ _) eqn:Lt; [|discriminate]. destruct (opt_or _ _); [discriminate|]. now injection H as <- <-.
    - unfold pop_frame in H. destruct (r_stack s) as [|? []]; discriminate.
  Qed.
  (** Only an include asks for a script. *)
  Lemma exec_asks_script i s s' n opt : calm s -> exec_instr E i s = SYield s' (OEvent (EInclude n opt)) ->
    s' = s /\ length (r_stack s) < E_max_includes E.
  Proof.
    intros C H.
    assert (Tk : forall s0, forallb quiet (r_queue s0) = true -> take_queue s0 = SYield s' (OEvent (EInclude n opt)) -> False).
    { intros s0 Q T. apply take_yield in T as [_ T]. rewrite T in Q. discriminate. }
    assert (Wv : forall code k, with_value E code s k = SYield s' (OEvent (EInclude n opt)) ->
                 (forall v s, k v s <> SYield s' (OEvent (EInclude n opt))) -> False).
    { intros code k W N. unfold with_value in W. destruct (eval_expression _ _ _ _ _ _ _); try discriminate. now apply N in W. }
    assert (Ba : forall ev, actions ev = ev -> forallb quiet ev = true).
    { intros ev A. apply forallb_forall. intros y Hy. rewrite <- A in Hy. apply filter_In in Hy as [_ Hy]. unfold quiet. now rewrite Hy. }
    destruct i; unfold exec_instr in H; try discriminate H.
    - destruct (find _ _) as [[]|]; discriminate.
    - rewrite build_id_eq in H. destruct (ms_changed _); discriminate.
    - exfalso. unfold exec_fileinto in H. rewrite build_id_eq in H. destruct (ms_changed _); refine (Tk _ _ H); reflexivity.
    - exfalso. unfold exec_redirect in H. destruct (sanitize_address _); [|exact (Tk _ (calm_quiet _ C) H)].
      destruct (_ && _); [|exact (Tk _ (calm_quiet _ C) H)]. destruct (parts s); [discriminate|].
      destruct (Nat.ltb _ _); [|exact (Tk _ (calm_quiet _ C) H)]. destruct (negb _ && _); [exact (Tk _ (calm_quiet _ C) H)|].
      rewrite build_id_eq in H. destruct (ms_changed _); refine (Tk _ _ H); reflexivity.
    - destruct (exec_test E s t) eqn:T; try discriminate. injection H as <- He. subst e.
      apply exec_test_question in T as [_ []].
    - exfalso. refine (Wv _ _ H _). discriminate.
    - destruct (r_iter s), (r_iters s) as [|[]]; discriminate.
    - destruct (nested_ids _ _ _); discriminate.
    - exfalso. refine (Wv _ _ H _). discriminate.
    - exfalso. refine (Wv _ _ H _). discriminate.
    - match type of H with edit_msg ?m _ = _ => destruct m end; discriminate.
    - match type of H with edit_msg ?m _ = _ => destruct m end; discriminate.
    - exfalso. refine (Tk _ _ H). apply calm_quiet. now apply assign_calm.
    - match type of H with match ?c with _ => _ end = _ => destruct c as [[]|] end; discriminate.
    - match type of H with edit_msg ?m _ = _ => destruct m end; discriminate.
    - match type of H with edit_msg ?m _ = _ => destruct m end; discriminate.
    - exfalso. refine (Tk _ _ H). apply calm_quiet. now apply assign_calm.
    - exfalso. destruct (parts s); [discriminate|].
      match type of H with context [exec_notify ?a ?b ?c ?d] => destruct (exec_notify a b c d) as [[[ev l0] o]|] eqn:N end.
      + refine (Tk _ _ H). apply Ba. now destruct (notify_batch _ _ _ _ _ _ _ N) as [[B _ _ _ _ _] _].
      + exact (Tk _ (calm_quiet _ C) H).
    - exfalso. destruct (parts s); [discriminate|].
      match type of H with context [exec_vacation ?a ?b ?c ?d ?e] => destruct (exec_vacation a b c d e) as [[ev l0] o] eqn:N end.
      refine (Tk _ _ H). apply Ba. now destruct (vacation_batch _ _ _ _ _ _ _ _ N) as [[B _ _ _ _ _] _].
    - unfold exec_include in H. destruct (v_is_empty _); [discriminate|].
      destruct (negb once || _); [|discriminate].
      destruct (Nat.ltb _ _) eqn:Lt; [|discriminate]. destruct (opt_or _ _); [discriminate|]. injection H as <- _ _.
      split; [reflexivity | now apply Nat.ltb_lt].
    - unfold pop_frame in H. destruct (r_stack s) as [|? []]; discriminate.
  Qed.

  (** *** Depth *)
  Lemma step_cases s :
    (exists i, step E s = exec_instr E i (w_pos (r_pos s + 1) (w_instrs (r_instrs s + 1) s))
               /\ executed E s = [(i, w_pos (r_pos s + 1) (w_instrs (r_instrs s + 1) s))]) \/
    step E s = pop_frame s \/ step E s = SNone s \/ step E s = SEnd s \/
    step E s = fail E (w_instrs (r_instrs s + 1) s) ErCpu.
  Proof.
    unfold step, executed. destruct (r_stack s) as [|f rest]; [auto|].
    destruct (Nat.ltb _ _); [auto|]. destruct (next_instr s) as [i|]; [|auto].
    cbv zeta. change (r_instrs (w_instrs (r_instrs s + 1) s)) with (r_instrs s + 1).
    destruct (Nat.ltb (E_cpu E) (r_instrs s + 1)) eqn:C; [auto 6|]. left. exists i. apply Nat.ltb_ge in C.
    rewrite (proj2 (Nat.leb_le _ _)) by lia. now split.
  Qed.
  Definition limit : nat := Nat.max 1 (E_max_includes E).
  (** What a turn does to the stack. *)
  Lemma step_cont s s' : step E s = SCont s' ->
    r_stack s' = r_stack s \/
    (length (r_stack s) < E_max_includes E /\ exists x p n, s' = push_frame x (w_pos p (w_instrs n s))) \/ popped s s'.
  Proof.
    intros H. destruct (step_cases s) as [(i & St & _) | [St | [St | [St | St]]]]; rewrite St in H; try discriminate.
    - apply exec_cont in H. destruct H as [H | [[[x ->] Lt] | [[f A] B]]]; [now left | right; left | right; right].
      + split; [exact Lt | now eexists _, _, _].
      + split; [exists f; exact A | exact B].
    - right. right. now apply pop_popped.
  Qed.
  Lemma step_event s s' e : step E s = SYield s' (OEvent e) -> r_stack s' = r_stack s.
  Proof.
    intros H. destruct (step_cases s) as [(i & St & _) | [St | [St | [St | St]]]]; rewrite St in H; try discriminate.
    - now apply exec_yield in H.
    - unfold pop_frame in H. destruct (r_stack s) as [|? []]; discriminate.
  Qed.
  Lemma step_asks_script s s' n opt : calm s -> step E s = SYield s' (OEvent (EInclude n opt)) ->
    length (r_stack s') < E_max_includes E.
  Proof.
    intros C H. destruct (step_cases s) as [(i & St & _) | [St | [St | [St | St]]]]; rewrite St in H; try discriminate.
    - apply exec_asks_script in H; [|exact C]. destruct H as [-> H]. exact H.
    - unfold pop_frame in H. destruct (r_stack s) as [|? []]; discriminate.
  Qed.
  Lemma step_depth s s' : calm s -> fin (r_final s) -> r_stack s <> [] -> length (r_stack s) <= limit ->
    state_of (step E s) = Some s' -> length (r_stack s') <= limit.
  Proof.
    intros C F S D H. pose proof (step_trace E s C F S) as T. unfold step_traced in T.
    destruct (step E s) as [s1|s1 [e|e]|s1|s1|] eqn:St; try discriminate; injection H as <-.
    - apply step_cont in St. destruct St as [-> | [(Lt & x & p & n & ->) | [(f & A & _) _]]]; [exact D | |].
      + rewrite push_stack. unfold limit. cbn [length r_stack w_pos w_instrs]. lia.
      + rewrite A in D. cbn [length] in D. lia.
    - apply step_event in St. now rewrite St.
    - destruct T as (_ & _ & -> & _). unfold limit. cbn [length r_stack w_pos w_instrs]. lia.
    - destruct T as (_ & _ & _ & -> & _). unfold limit. cbn [length r_stack w_pos w_instrs]. lia.
    - destruct T as (_ & _ & -> & _). exact D.
  Qed.
  Lemma finale_depth s s' o : length (r_stack s) <= limit -> finale E s = (s', o) -> length (r_stack s') <= limit.
  Proof. intros D H. now destruct (finale_keeps _ _ _ _ H) as (_ & -> & _). Qed.

  (** What is left in the queue after a call is never a request for a script. *)
  Lemma loop_quiet n : forall s s' o, calm s -> fin (r_final s) -> r_stack s <> [] -> loop E n s = RRet s' o ->
    fin (r_final s') /\ forallb quiet (r_queue s') = true /\
    (forall m opt, o = Some (OEvent (EInclude m opt)) -> length (r_stack s') < E_max_includes E).
  Proof.
    induction n as [|n IH]; intros s s' o C F S; [discriminate|]. cbn [loop].
    pose proof (step_trace E s C F S) as T. unfold step_traced in T.
    destruct (step E s) as [s1|s1 [e|e]|s1|s1|] eqn:St; intros H; [| | | | |discriminate].
    - destruct T as (_ & T2 & T3 & T4 & _). apply (IH s1); auto. rewrite T3. now apply after_fin.
    - injection H as <- <-. destruct T as (_ & T2 & T3 & T4 & _). split; [rewrite T2; now apply after_fin|]. split; [exact T3|].
      intros m opt Heq. injection Heq as ->. eapply step_asks_script; eauto.
    - injection H as <- <-. destruct T as (_ & -> & _ & T4 & _). repeat split; auto. discriminate.
    - destruct (finale E s1) as [s2 o2] eqn:Fi. injection H as <- <-. destruct T as (_ & T2 & T3 & T4 & _).
      assert (F1 : fin (r_final s1)) by (rewrite T3; now apply after_fin).
      destruct (finale_trace E s1 s2 o2 T2 F1 T4 Fi) as (_ & -> & _ & A4).
      unfold seen in A4. rewrite forallb_app in A4. apply andb_prop in A4 as [A4 A5].
      repeat split; auto. intros m opt ->. discriminate.
    - injection H as <- <-. destruct T as (_ & _ & -> & _). repeat split; auto; [now apply calm_quiet | discriminate].
  Qed.

  Theorem conversation_depth inputs : forall s asked outs s', fin (r_final s) -> forallb quiet (r_queue s) = true ->
    length (r_stack s) <= limit -> (asked = true -> length (r_stack s) < limit) ->
    polite asked inputs outs -> converse_run E inputs s = Some (outs, s') ->
    Forall (fun x => length (r_stack (snd x)) <= limit) (g_log (log_of E inputs s)) /\ length (r_stack s') <= limit.
  Proof.
    induction inputs as [|i rest IH]; intros s asked outs s' F Q D A P H; cbn in H.
    { injection H as <- <-. split; [constructor | exact D]. }
    destruct (run E i s) as [s1 o| |] eqn:R; try discriminate.
    destruct (converse_run E rest s1) as [[outs' s2]|] eqn:Cv; [|discriminate]. injection H as <- <-. cbn [snd].
    cbn in P. destruct P as [P1 P2]. cbn [log_of]. rewrite R. cbn [join g_log].
    assert (D0 : length (r_stack (feed i s)) <= limit).
    { destruct i; try exact D. unfold feed. destruct (_ && _); [|exact D]. cbn [length r_stack w_test push_frame w_pos w_vars w_stack w_cache]. specialize (A P1). lia. }
    destruct (feed_queue i s) as [F1 F2]. rewrite <- F1 in Q. rewrite <- F2 in F.
    unfold run, run_log in *. revert Q F D0 R. generalize (feed i s). intros s0 Q F D0 R.
    assert (K : Forall (fun x => length (r_stack (snd x)) <= limit)
                  (g_log match r_queue s0 with [] => match r_stack s0 with [] => nothing | _ => loop_log E (enough E s0) s0 end | _ :: _ => nothing end)
                /\ length (r_stack s1) <= limit /\ fin (r_final s1) /\ forallb quiet (r_queue s1) = true /\
                (forall m opt, o = Some (OEvent (EInclude m opt)) -> length (r_stack s1) < limit)).
    { destruct (r_queue s0) as [|e q] eqn:Qe.
      - destruct (r_stack s0) as [|f fs] eqn:St.
        + injection R as <- <-. rewrite St, Qe. repeat split; auto; [constructor | discriminate].
        + assert (C : calm s0) by (unfold calm; now rewrite Qe).
          assert (S : r_stack s0 <> []) by (rewrite St; discriminate).
          assert (D1 : length (r_stack s0) <= limit) by now rewrite St.
          destruct (loop_quiet _ _ _ _ C F S R) as (L1 & L2 & L3).
          split; [|split; [|split; [exact L1 | split; [exact L2|]]]].
          * apply (loop_log_inv (fun s => length (r_stack s) <= limit)); auto. exact step_depth.
          * apply (loop_inv (fun s => length (r_stack s) <= limit)) with (7 := R); auto; [exact step_depth | exact finale_depth].
          * intros m opt Ho. specialize (L3 m opt Ho). unfold limit. lia.
      - injection R as <- <-. cbn in Q. apply andb_prop in Q as [Q1 Q2]. repeat split; auto; [constructor|].
        intros m opt Ho. injection Ho as ->. discriminate. }
    destruct K as (K1 & K2 & K3 & K4 & K5).
    match type of P2 with polite ?a _ _ => assert (As : a = true -> length (r_stack s1) < limit) end.
    { destruct o as [[e|]|]; try discriminate. destruct e; try discriminate. intros _. now apply (K5 name optional). }
    destruct (IH s1 _ outs' s2 K3 K4 K2 As P2 Cv) as [I1 I2]. split; [|exact I2].
    apply Forall_app. split; [|exact I1]. destruct (r_queue s0), (r_stack s0); exact K1.
  Qed.

  (** *** Include and return *)
  Lemma next_stack s s' : next E s s' -> 
    (exists top, r_stack s' = top ++ r_stack s) \/ popped s s'.
  Proof.
    intros H. inversion H as [s0 s1 St | s0 s1 e inp St | s0 e q inp Q]; subst.
    - apply step_cont in St. destruct St as [-> | [(_ & x & p & n & ->) | Pp]]; [left; now exists [] | left | now right].
      rewrite push_stack. cbn. eexists [_]. reflexivity.
    - apply step_event in St. left. destruct inp; cbn; rewrite ?St; try (now exists []).
      destruct (_ && _); cbn; rewrite ?St; [now eexists [_] | now exists []].
    - left. destruct inp; cbn; try (now exists []). destruct (_ && _); cbn; [now eexists [_] | now exists []].
  Qed.
  Theorem included s0 s1 s2 s3 f : r_stack s1 = f :: r_stack s0 ->
    deeper E (length (r_stack s0)) s1 s2 -> next E s2 s3 -> length (r_stack s3) = length (r_stack s0) ->
    r_stack s3 = r_stack s0 /\ r_pos s3 = f_pos f /\
    c_local (r_vars s3) = f_local f /\ c_match (r_vars s3) = f_match f.
  Proof.
    intros Sk Dp Nx Ln.
    assert (K : exists top, r_stack s2 = top ++ f :: r_stack s0).
    { revert Sk. clear - Dp. induction Dp as [s|s s1 s2 Dp IH Nx Lt]; intros Sk; [now exists []|].
      destruct (IH Sk) as [top K]. apply next_stack in Nx. destruct Nx as [[t T] | [(g & A & _) _]].
      - exists (t ++ top). now rewrite T, K, app_assoc.
      - rewrite K in A. destruct top as [|t top]; cbn in A.
        + injection A as _ A. rewrite <- A in Lt. lia.
        + injection A as _ A. exists top. now symmetry. }
    destruct K as [top K]. apply next_stack in Nx. destruct Nx as [[t T] | [(g & A & B1 & B2 & B3) _]].
    - rewrite T, K, !app_length in Ln. cbn in Ln. lia.
    - rewrite K in A. destruct top as [|t top]; cbn in A.
      + injection A as <- A. repeat split; auto.
      + injection A as _ A. apply (f_equal (@length _)) in A. rewrite app_length in A. cbn in A. lia.
  Qed.

  (** *** The cache *)
  Lemma name_eqb_spec a b : script_name_eqb a b = true <-> a = b.
  Proof.
    destruct a, b; cbn; try (split; [discriminate | discriminate]); rewrite teqb_spec; split; congruence.
  Qed.
  Lemma cache_insert_get n x l m : cache_get m l <> None \/ m = n -> cache_get m (cache_insert n x l) <> None.
  Proof.
    induction l as [|[k y] l IH]; cbn.
    - intros [[] | ->]; [reflexivity|]. rewrite (proj2 (name_eqb_spec n n) eq_refl). discriminate.
    - destruct (script_name_eqb n k) eqn:Nk; cbn.
      + apply name_eqb_spec in Nk. subst k.
        destruct (script_name_eqb m n) eqn:Mn; [discriminate|]. intros [H | ->]; [exact H|].
        rewrite (proj2 (name_eqb_spec n n) eq_refl) in Mn. discriminate.
      + destruct (script_name_eqb m k); [discriminate|]. exact IH.
  Qed.
  Definition knows (n : script_name) (s : rst) : Prop := cache_get n (r_cache s) <> None.
  Lemma step_knows n s s' : calm s -> fin (r_final s) -> r_stack s <> [] -> knows n s ->
    state_of (step E s) = Some s' -> knows n s'.
  Proof.
    intros C F S K H. unfold knows. replace (r_cache s') with (r_cache s); [exact K|].
    destruct (step_cases s) as [(i & St & _) | [St | [St | [St | St]]]]; rewrite St in H.
    - now destruct (exec_instr_counts E _ _ _ H) as (_ & -> & _).
    - now destruct (pop_counts s s' H) as (_ & -> & _).
    - now injection H as <-.
    - now injection H as <-.
    - injection H as <-. now rewrite finish_cache.
  Qed.
  Lemma feed_knows n inp s : knows n s -> knows n (feed inp s).
  Proof.
    destruct inp; cbn; auto. destruct (_ && _); auto. intros K. apply cache_insert_get. now left.
  Qed.
  Lemma run_knows n inp s : fin (r_final s) -> knows n (feed inp s) ->
    Forall (fun x => knows n (snd x)) (g_log (run_log E inp s)) /\
    (forall s' o, run E inp s = RRet s' o -> knows n s' /\ fin (r_final s')).
  Proof.
    intros F K. destruct (feed_queue inp s) as [_ F2]. rewrite <- F2 in F.
    unfold run, run_log. revert K F. generalize (feed inp s). clear. intros s K F.
    destruct (r_queue s) as [|e q] eqn:Q.
    - destruct (r_stack s) as [|f fs] eqn:St.
      + split; [constructor|]. intros s' o H. injection H as <- <-. now split.
      + assert (C : calm s) by (unfold calm; now rewrite Q).
        assert (S : r_stack s <> []) by (rewrite St; discriminate). split.
        * apply (loop_log_inv (knows n)); auto. exact (step_knows n).
        * intros s' o H. split; [|exact (proj1 (loop_quiet _ _ _ _ C F S H))].
          apply (loop_inv (knows n)) with (7 := H); auto; [exact (step_knows n)|].
          intros x x' o' Kx Fi. unfold knows. now destruct (finale_keeps _ _ _ _ Fi) as (_ & _ & ->).
    - split; [destruct (r_stack s); constructor|]. intros s' o H. injection H as <- <-. now split.
  Qed.
  Theorem log_knows n inputs : forall s, fin (r_final s) -> knows n s ->
    Forall (fun x => knows n (snd x)) (g_log (log_of E inputs s)).
  Proof.
    induction inputs as [|i rest IH]; intros s F K; [constructor|]. cbn [log_of].
    destruct (run_knows n i s F (feed_knows n i s K)) as [A B].
    destruct (run E i s) as [s1 o| |] eqn:R; try exact A. cbn. apply Forall_app. split; [exact A|].
    destruct (B s1 o eq_refl) as [B1 B2]. now apply IH.
  Qed.
  Theorem supplied_once n x rest s name global opt s1 : fin (r_final s) ->
    s_match_vars x <= 63 -> s_vars x <= 256 ->
    In (IxInclude name global true opt, s1) (g_log (log_of E (InScript n x :: rest) s)) ->
    n = (if global then SGlobal (tx E s1 name) else SPersonal (tx E s1 name)) ->
    exec_instr E (IxInclude name global true opt) s1 = SCont s1.
  Proof.
    intros F M V I N.
    assert (Kn : knows n (feed (InScript n x) s)).
    { cbn. rewrite (proj2 (Nat.leb_le _ _) M), (proj2 (Nat.leb_le _ _) V). cbn. apply cache_insert_get. now right. }
    destruct (run_knows n _ s F Kn) as [A B].
    assert (K : knows n s1).
    { cbn [log_of] in I. destruct (run E (InScript n x) s) as [s2 o| |] eqn:R.
      - cbn in I. apply in_app_or in I. destruct I as [I|I].
        + rewrite Forall_forall in A. exact (A _ I).
        + destruct (B s2 o eq_refl) as [B1 B2]. pose proof (log_knows n rest s2 B2 B1) as L.
          rewrite Forall_forall in L. exact (L _ I).
      - rewrite Forall_forall in A. exact (A _ I).
      - rewrite Forall_forall in A. exact (A _ I). }
    unfold exec_instr, exec_include. destruct (v_is_empty _); [reflexivity|].
    unfold knows in K. rewrite N in K. unfold tx in K.
    match goal with |- (if negb true || match cache_get ?m _ with _ => _ end then _ else _) = _ =>
      replace m with n by (rewrite N; unfold tx; reflexivity) end.
    rewrite N. unfold tx. destruct (cache_get _ _); [reflexivity | congruence].
  Qed.

  (** *** Answers *)
  Theorem answered t s s1 e b : exec_instr E (IxTest t) s = SYield s1 (OEvent e) ->
    r_test (feed (answer b) s1) = xorb b (negated t) /\ r_queue s1 = r_queue s /\ r_pos s1 = r_pos s
    /\ r_stack s1 = r_stack s.
  Proof.
    unfold exec_instr, fail. destruct (exec_test E s t) eqn:T; try discriminate.
    intros H. injection H as <- <-. apply exec_test_question in T as [-> _].
    destruct b; cbn; rewrite xorb_comm; auto.
  Qed.
End P.
