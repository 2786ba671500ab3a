(** Proofs about whole runs: outgoing messages, redirects, required capabilities. *)
From Coq Require Import Lia.
From Verif Require Import Base Lib Address Var Value SetVar Flags Comparator Message EditHeader Expr Event
  Notify Vacation Spam AddrTest Mime Sieve Run RunSpec RunProofs RunProofs2 RunProofs3 RunProofs4 RunProofs5 RunProofs6 RunProofs7 RunProofs8.

Section P.
  Variable E : renv.

  Definition notifies (log : list entry) : nat :=
    length (filter (fun x => match fst x with IxNotify _ _ _ _ _ _ => true | _ => false end) log).
  Lemma actions_mailed x : sends (actions_of E x) <= mcount E [x] + notifies [x].
  Proof.
    destruct x as [i s]. destruct i; unfold actions_of; try (unfold sends; cbn; lia).
    - rewrite announce_sends. lia.
    - rewrite sends_app, announce_sends. unfold sends. cbn. lia.
    - unfold mcount, mailed. cbn [filter]. destruct (redirect_target E s address list_); [|unfold sends; cbn; lia].
      rewrite sends_app, announce_sends. unfold sends. cbn. lia.
    - destruct (notify_result _ _ _ _ _ _ _ _) as [[[ev l] o]|] eqn:N; [|unfold sends; cbn; lia].
      destruct (notify_batch _ _ _ _ _ _ _ N) as [[_ _ _ _ _ B] _]. unfold sends, notifies. cbn [filter fst length]. lia.
    - destruct (vacation_result _ _ _ _ _ _ _) as [[ev l] o] eqn:N.
      destruct (vacation_batch _ _ _ _ _ _ _ _ N) as [[_ _ _ _ _ B] _]. unfold sends, mcount, mailed. cbn [filter fst length is_vacation]. lia.
  Qed.
  Lemma log_mailed log : sends (flat_map (actions_of E) log) <= mcount E log + notifies log.
  Proof.
    induction log as [|x log IH]; [unfold sends; cbn; lia|]. cbn [flat_map]. rewrite sends_app.
    change (x :: log) with ([x] ++ log). rewrite mcount_app. pose proof (actions_mailed x).
    assert (notifies ([x] ++ log) = notifies [x] + notifies log) by (unfold notifies; now rewrite filter_app, app_length). lia.
  Qed.
  Theorem mailed_bound m size c inputs outs s' :
    (forall t x, E_scripts E t = Some x -> guarded x) ->
    (forall i x, In i inputs -> In x (input_script i) -> guarded x) ->
    polite true inputs outs -> converse_run E inputs (initial m size c) = Some (outs, s') ->
    let log := g_log (log_of E inputs (initial m size c)) in
    length (mailed E log) <= E_max_out E /\ sends (events_of outs) <= E_max_out E + notifies log.
  Proof.
    intros Sc J P H log.
    assert (M : mcount E log <= E_max_out E).
    { refine (conversation_mailed E Sc inputs 0 (initial m size c) true outs s' I eq_refl _ _ J P H).
      - apply vinv_empty; cbn; [reflexivity | intros n x [] | lia | lia].
      - intros _. exact I. }
    split; [exact M|].
    pose proof (log_mailed log) as Lm.
    assert (T : sends (events_of outs ++ r_queue s') = sends (flat_map (actions_of E) log)).
    { rewrite <- sends_actions.
      destruct (accounting E m size c _ _ _ P H) as [[_ A] | (se & _ & A)]; fold log in A; rewrite A; [reflexivity|].
      rewrite sends_app, deliver_sends; [apply Nat.add_0_r|]. now apply (after_fin E log implicit_keep). }
    rewrite sends_app in T. lia.
  Qed.

  (** *** One redirect *)
  Definition shown (r : sres) : list event :=
    match r with SYield s (OEvent e) => e :: r_queue s | SCont s | SEnd s | SNone s | SYield s _ => r_queue s | SPanic => [] end.
  Lemma take_shown s : shown (take_queue s) = r_queue s.
  Proof. destruct (take_queue_cases s) as [[A ->] | (e & q & Q & ->)]; cbn; auto. Qed.
  Lemma take_final s s' : state_of (take_queue s) = Some s' -> r_final s' = r_final s.
  Proof. intros H. apply take_queue_state in H. destruct H as [q ->]. reflexivity. Qed.
  Lemma calm_no_send s : calm s -> existsb is_send (r_queue s) = false.
  Proof.
    unfold calm. induction (r_queue s) as [|e q IH]; [reflexivity|]. cbn. intros H. apply andb_prop in H as [A B].
    rewrite (IH B). destruct e; try discriminate. reflexivity.
  Qed.
  Theorem redirect_effect a copy l o s s' : calm s ->
    state_of (exec_instr E (IxRedirect a copy l o) s) = Some s' ->
    let sent := existsb is_send (shown (exec_instr E (IxRedirect a copy l o) s)) in
    (sent = true <-> redirect_target E s a l <> None) /\
    r_final s' = (if sent && negb copy then match r_final s with Some (EKeep _ _) => None | d => d end else r_final s) /\
    (sent = false -> r_msg s' = r_msg s /\ r_out s' = r_out s /\ r_redirects s' = r_redirects s).
  Proof.
    intros C. unfold exec_instr, exec_redirect, redirect_target.
    assert (Ref : forall t : option text, t = None -> state_of (take_queue s) = Some s' ->
      let sent := existsb is_send (shown (take_queue s)) in
      (sent = true <-> t <> None) /\
      r_final s' = (if sent && negb copy then match r_final s with Some (EKeep _ _) => None | d => d end else r_final s) /\
      (sent = false -> r_msg s' = r_msg s /\ r_out s' = r_out s /\ r_redirects s' = r_redirects s)).
    { intros t -> H. cbv zeta. rewrite take_shown, (calm_no_send s C). cbn [andb].
      split; [split; [discriminate | congruence]|]. split; [now apply take_final|].
      intros _. apply take_queue_state in H. destruct H as [q ->]. repeat split. }
    destruct (sanitize_address (tx E s a)) as [ad|]; [|now apply Ref].
    destruct (Nat.ltb (r_redirects s) (E_max_redirects E)); cbn [andb]; [|apply Ref; destruct (parts s); reflexivity].
    destruct (Nat.ltb (r_out s) (E_max_out E)); cbn [andb]; [|apply Ref; destruct (parts s); reflexivity].
    destruct (parts s) as [|root pt]; [discriminate|].
    destruct (Nat.ltb (received_count root) (E_max_received E)); cbn [andb]; [|apply Ref; reflexivity].
    destruct (negb l && teqb_ic ad (E_user E)) eqn:Own.
    { replace (l || negb (teqb_ic ad (E_user E))) with false; [apply Ref; reflexivity|].
      destruct l; [discriminate|]. cbn in *. now rewrite Own. }
    replace (l || negb (teqb_ic ad (E_user E))) with true.
    2:{ destruct l; [reflexivity|]. cbn in *. now rewrite Own. }
    destruct (build_message_id E _) as [s2 created] eqn:B. intros H. cbv zeta. rewrite take_shown. cbn [r_queue w_queue].
    assert (Se : existsb is_send (opt_list created ++ [ESend (if l then RList ad else RAddress ad) (delivery E s o)
                   (r_main (w_out (r_out s2 + 1) (w_redirects (r_redirects s2 + 1) s2)))]) = true).
    { rewrite existsb_app. cbn. apply orb_true_r. }
    rewrite Se. cbn [andb]. split; [split; [discriminate | reflexivity]|]. split; [|discriminate].
    apply take_final in H. rewrite H. cbn. apply build_id_stack in B.
    destruct B as (_ & _ & _ & _ & -> & _). destruct copy; [reflexivity|]. cbn [negb].
    destruct (r_final s) as [[]|] eqn:Fn; cbn; auto.
  Qed.

  (** *** Nothing is executed after an error *)
  Definition errs (x : entry) : Prop := exists s' e, exec_instr E (fst x) (snd x) = SYield s' (OError e).
  Lemma executed_step s x : In x (executed E s) -> step E s = exec_instr E (fst x) (snd x) /\ executed E s = [x].
  Proof.
    unfold executed, step. destruct (next_instr s) as [i|] eqn:N; [|intros []].
    destruct (Nat.leb (r_instrs s + 1) (E_cpu E)) eqn:L; [|intros []]. intros [<-|[]]. apply Nat.leb_le in L. cbn [fst snd].
    split; [|reflexivity]. pose proof N as N0. unfold next_instr in N0. destruct (r_stack s) as [|f rest]; [discriminate|].
    assert (r_pos s < length (s_code (f_script f))) by (apply nth_error_Some; congruence).
    rewrite (proj2 (Nat.ltb_ge _ _)) by lia. cbv zeta.
    change (r_instrs (w_instrs (r_instrs s + 1) s)) with (r_instrs s + 1).
    rewrite (proj2 (Nat.ltb_ge _ _)) by lia. reflexivity.
  Qed.
  Lemma loop_errs n : forall s l1 x l2, g_log (loop_log E n s) = l1 ++ x :: l2 -> errs x ->
    l2 = [] /\ g_end (loop_log E n s) <> [].
  Proof.
    induction n as [|n IH]; intros s l1 x l2 H X; cbn [loop_log] in *; [destruct l1; discriminate|].
    assert (En : ends E s = match step E s with
      | SEnd s' => Some s' | SYield _ (OError _) => Some s | _ => None end) by reflexivity.
    assert (One : forall l1 l2, executed E s = l1 ++ x :: l2 -> l2 = [] /\ exists s' e, step E s = SYield s' (OError e)).
    { intros a b Ex. destruct (executed_step s x) as [A B]; [rewrite Ex; apply in_elt|].
      destruct X as (s' & e & X). split; [|exists s', e; congruence]. rewrite B in Ex. destruct a as [|y a]; [now injection Ex as <-|].
      destruct a; discriminate. }
    destruct (step E s) as [s1|s1 o|s1|s1|] eqn:St.
    - cbn [join g_log turn g_end] in *. rewrite En. cbn [app].
      assert (In x (executed E s) \/ exists l, g_log (loop_log E n s1) = l ++ x :: l2) as [I|[l Hl]].
      { clear - H. revert l1 H. induction (executed E s) as [|y ys IHy]; intros l1 H; cbn in H; [eauto|].
        destruct l1 as [|z l1]; cbn in H; [injection H as -> _; left; now left|].
        injection H as -> H. destruct (IHy _ H) as [I|I]; [left; now right | auto]. }
      + apply in_split in I. destruct I as (a & b & I). destruct (One _ _ I) as [_ (s' & e & Bad)]. discriminate.
      + eapply IH; eauto.
    - cbn [g_log turn g_end] in *. destruct (One _ _ H) as [-> (s' & e & St2)]. injection St2 as -> ->. rewrite En. split; [auto|discriminate].
    - cbn [g_log turn g_end] in *. destruct (One _ _ H) as [-> (s' & e & St2)]. discriminate.
    - cbn [g_log turn g_end] in *. destruct (One _ _ H) as [-> (s' & e & St2)]. discriminate.
    - cbn [g_log turn g_end] in *. destruct (One _ _ H) as [-> (s' & e & St2)]. discriminate.
  Qed.
  Theorem error_last inputs : forall s asked outs s' l1 x l2, fin (r_final s) ->
    polite asked inputs outs -> converse_run E inputs s = Some (outs, s') ->
    g_log (log_of E inputs s) = l1 ++ x :: l2 -> errs x -> l2 = [].
  Proof.
    induction inputs as [|i rest IH]; intros s asked outs s' l1 x l2 D P H G X; cbn in H.
    { destruct l1; discriminate. }
    destruct (run E i s) as [s1 o| |] eqn:R; try discriminate.
    destruct (converse_run E rest s1) as [[outs' s2]|] eqn:Cv; [|discriminate]. injection H as <- <-.
    cbn in P. destruct P as [P1 P2]. cbn [log_of] in G. rewrite R in G. cbn [join g_log] in G.
    assert (Sp : (exists l, g_log (run_log E i s) = l1 ++ x :: l /\ l2 = l ++ g_log (log_of E rest s1)) \/
                 exists l, g_log (log_of E rest s1) = l ++ x :: l2).
    { clear - G. revert l1 G. induction (g_log (run_log E i s)) as [|y ys IHy]; intros l1 G; cbn in G; [eauto|].
      destruct l1 as [|z l1]; cbn in G; [injection G as -> <-; left; exists ys; now split|].
      injection G as -> G. destruct (IHy _ G) as [(l & -> & ->)|I]; [left; exists l; now split | auto]. }
    destruct (run_trace E i s s1 o D R) as [T D1].
    destruct Sp as [(l & Gl & ->) | (l & Gl)].
    2:{ exact (IH s1 _ outs' _ l x l2 D1 P2 Cv Gl X). }
    assert (L : l = [] /\ g_end (run_log E i s) <> []).
    { unfold run_log in *. destruct (r_queue (feed i s)); [|destruct (r_stack (feed i s)); destruct l1; discriminate].
      destruct (r_stack (feed i s)); [destruct l1; discriminate|]. eapply loop_errs; eauto. }
    destruct L as [-> L]. destruct T as [(T1 & _) | (se & _ & _ & _ & T4 & T5)]; [contradiction|].
    unfold seen in T5. rewrite forallb_app in T5. apply andb_prop in T5 as [T5 T6].
    assert (Pf : polite false rest outs').
    { destruct o as [[e|]|]; try exact P2. cbn in T5. destruct e; try exact P2. discriminate. }
    destruct (over_conv E rest s1 outs' _ T4 T6 Pf Cv) as (A & _). rewrite A. reflexivity.
  Qed.
  (** A refused [require]. *)
  Lemma require_errs caps s c : In c caps -> existsb (cap_eqb c) (E_caps E) = false -> errs (IxRequire caps, s).
  Proof.
    intros I A. unfold errs. cbn [fst snd]. unfold exec_instr, fail.
    destruct (find _ caps) as [d|] eqn:F.
    - destruct d; eexists _, _; reflexivity.
    - exfalso. pose proof (find_none _ _ F c I) as N. unfold allowed in N. rewrite A in N. discriminate.
  Qed.
  Theorem require_error caps s : 
    match exec_instr E (IxRequire caps) s with
    | SCont s' => s' = s /\ forall c, In c caps -> existsb (cap_eqb c) (E_caps E) = true
    | SYield _ (OError e) => exists before c after, caps = before ++ c :: after /\
        (forall b, In b before -> existsb (cap_eqb b) (E_caps E) = true) /\ existsb (cap_eqb c) (E_caps E) = false /\
        e = match c with CapOther n => ErNotSupported n | c => ErNotAllowed c end
    | _ => False
    end.
  Proof.
    unfold exec_instr, fail.
    assert (Ex : match find (fun c => negb (allowed E c)) caps with
      | None => forall c, In c caps -> allowed E c = true
      | Some c => exists before after, caps = before ++ c :: after /\ (forall b, In b before -> allowed E b = true) /\ allowed E c = false
      end).
    { induction caps as [|c caps IH]; cbn; [intros c []|]. destruct (allowed E c) eqn:A; cbn.
      - destruct (find _ caps) as [d|].
        + destruct IH as (b & a & -> & B1 & B2). exists (c :: b), a. repeat split; auto. intros x [<-|I]; auto.
        + intros x [<-|I]; auto.
      - exists [], caps. split; [reflexivity|]. split; [intros b []|exact A]. }
    destruct (find _ caps) as [d|]; [|now split]. destruct Ex as (b & a & -> & B1 & B2).
    destruct d; exists b; eexists _, a; repeat split; eauto.
  Qed.
End P.
