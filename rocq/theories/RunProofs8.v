(** Proofs about whole runs: outgoing messages, redirects, required capabilities. *)
From Coq Require Import Lia.
From Verif Require Import Base Lib Address Var Value SetVar Flags Comparator Message EditHeader Expr Event
  Notify Vacation Spam AddrTest Mime Sieve Run RunSpec RunProofs RunProofs2 RunProofs3 RunProofs4 RunProofs5 RunProofs6 RunProofs7.

Section P.
  Variable E : renv.

  (** *** Where an instruction leaves the position *)
  Definition expr_instr (i : instruction) : bool :=
    match i with IxEval _ | IxWhile _ _ | IxLet _ _ => true | _ => false end.
  Lemma exec_moves i s s' : state_of (exec_instr E i s) = Some s' ->
    (r_stack s' = r_stack s /\ (r_pos s' = r_pos s \/ In (r_pos s') (targets i) \/
                               (r_pos s' = r_pos s - 1 /\ expr_instr i = true))) \/
    ((exists n x, (cache_get n (r_cache s) = Some x \/ exists t, E_scripts E t = Some x) /\ s' = push_frame x s)
     /\ exists a b c d, i = IxInclude a b c d) \/
    (exists f, r_stack s = f :: r_stack s' /\ r_pos s' = f_pos f) \/
    r_stack s' = [].
  Proof.
    intros H.
    destruct i; try (left; instr_cases H; goal_ifs; hyp_ifs; cbn in *; (split; [congruence|]); try (left; congruence); try (right; left; now left); try (right; right; now split); fail).
    - unfold exec_instr, fail in H. 
      destruct (find _ _) as [[]|]; ic; rewrite ?finish_stack; auto 6.
    - instr_cases H. auto 6.
    - unfold exec_instr, fail in H. destruct (exec_test E s t) eqn:T; ic; rewrite ?finish_stack; auto.
      apply exec_test_state in T. destruct T as (mv & m & ->). left. split; [reflexivity|]. left. reflexivity.
    - unfold exec_instr, exec_include, fail in H. ic; rewrite ?finish_stack; auto.
      right. left. split; [|now eexists _, _, _, _]. eexists _, _. split; [|reflexivity].
      destruct (cache_get _ (r_cache s)) as [y|] eqn:G; cbn in *.
      + left. rewrite G. congruence.
      + right. eauto.
    - unfold exec_instr, pop_frame in H. destruct (r_stack s) as [|f rest] eqn:St; ic; rewrite ?St; auto.
      right. right. left. exists f. split; reflexivity.
    - unfold exec_instr in H. ic. rewrite finish_stack. auto.
    - unfold exec_instr, fail in H. ic. rewrite finish_stack. auto.
  Qed.

  (** *** The counter of outgoing messages *)
  Definition mcount (log : list entry) : nat := length (mailed E log).
  Lemma mcount_app a b : mcount (a ++ b) = mcount a + mcount b.
  Proof. unfold mcount, mailed. now rewrite filter_app, app_length. Qed.
  Lemma finish_out s : r_out (finish_loop E s) = r_out s.
  Proof.
    unfold finish_loop. cbn. destruct (r_final s) as [[]|]; try reflexivity.
    rewrite build_id_eq. cbn. destruct (ms_changed (r_msg s)); reflexivity.
  Qed.
  Lemma exec_redirect_out address copy list_ opts s s' :
    state_of (exec_redirect E address copy list_ opts s) = Some s' ->
    r_out s + mcount [(IxRedirect address copy list_ opts, s)] <= r_out s' /\
    (mcount [(IxRedirect address copy list_ opts, s)] <> 0 -> r_out s < E_max_out E).
  Proof.
    unfold exec_redirect, mcount, mailed. cbn [filter]. intros H. unfold redirect_target.
    destruct (sanitize_address (tx E s address)) as [a|].
    2:{ apply take_queue_state in H. destruct H as [q ->]. cbn. lia. }
    destruct (Nat.ltb (r_redirects s) (E_max_redirects E)) eqn:L1; cbn [andb] in *.
    2:{ apply take_queue_state in H. destruct H as [q ->]. destruct (parts s); cbn; lia. }
    destruct (Nat.ltb (r_out s) (E_max_out E)) eqn:L2; cbn [andb] in *.
    2:{ apply take_queue_state in H. destruct H as [q ->]. destruct (parts s); cbn; lia. }
    destruct (parts s) as [|root pt]; [discriminate|].
    destruct (Nat.ltb (received_count root) (E_max_received E)); cbn [andb] in *.
    2:{ apply take_queue_state in H. destruct H as [q ->]. cbn; lia. }
    apply Nat.ltb_lt in L2.
    destruct (negb list_ && teqb_ic a (E_user E)) eqn:Own.
    - apply take_queue_state in H. destruct H as [q ->]. destruct list_; [discriminate|]. cbn in *. rewrite Own. cbn. lia.
    - assert (Y : list_ || negb (teqb_ic a (E_user E)) = true).
      { destruct list_; [reflexivity|]. cbn in *. now rewrite Own. }
      rewrite Y. cbn [length].
      destruct (build_message_id E _) as [s2 created] eqn:B.
      apply take_queue_state in H. destruct H as [q ->]. cbn.
      assert (R : r_out s2 = r_out s).
      { rewrite build_id_eq in B. destruct (ms_changed _); injection B as <- _; (destruct copy; [reflexivity|]);
        destruct (r_final s) as [[]|]; reflexivity. }
      rewrite R. lia.
  Qed.
  Lemma exec_out i s s' : state_of (exec_instr E i s) = Some s' ->
    r_out s + mcount [(i, s)] <= r_out s' /\
    (mcount [(i, s)] <> 0 -> is_vacation i = true \/ r_out s < E_max_out E).
  Proof.
    intros H.
    assert (K : r_out s <= r_out s' -> mcount [(i, s)] = 0 ->
                r_out s + mcount [(i, s)] <= r_out s' /\
                (mcount [(i, s)] <> 0 -> is_vacation i = true \/ r_out s < E_max_out E)) by lia.
    assert (B : forall s1 s2 c, build_message_id E s1 = (s2, c) -> r_out s2 = r_out s1).
    { intros s1 s2 c Hb. rewrite build_id_eq in Hb. destruct (ms_changed _); injection Hb as <- _; reflexivity. }
    destruct i; try (apply K; [|reflexivity]; clear K).
    - instr_cases H; rewrite ?finish_out; reflexivity.
    - unfold exec_instr in H. rewrite build_id_eq in H. destruct (ms_changed _); ic; reflexivity.
    - unfold exec_instr, exec_fileinto in H. rewrite build_id_eq in H. destruct (ms_changed _); ic; goal_ifs; reflexivity.
    - apply exec_redirect_out in H as [H1 H2]. split; auto.
    - instr_cases H; reflexivity.
    - instr_cases H; reflexivity.
    - instr_cases H; reflexivity.
    - instr_cases H; reflexivity.
    - instr_cases H. destruct (r_test s); reflexivity.
    - instr_cases H. destruct (r_test s); reflexivity.
    - unfold exec_instr, fail in H. destruct (exec_test E s t) eqn:T; ic; rewrite ?finish_out; auto.
      apply exec_test_state in T. destruct T as (mv & m & ->). reflexivity.
    - instr_cases H; reflexivity.
    - instr_cases H; reflexivity.
    - instr_cases H; reflexivity.
    - instr_cases H; reflexivity.
    - instr_cases H; reflexivity.
    - instr_cases H; goal_ifs; reflexivity.
    - instr_cases H; goal_ifs; reflexivity.
    - instr_cases H; goal_ifs; reflexivity.
    - instr_cases H; goal_ifs; reflexivity.
    - instr_cases H; goal_ifs; reflexivity.
    - instr_cases H; goal_ifs; reflexivity.
    - instr_cases H; goal_ifs; reflexivity.
    - instr_cases H; goal_ifs; reflexivity.
    - instr_cases H; goal_ifs; reflexivity.
    - unfold exec_instr in H. destruct (parts s); [discriminate|].
      match type of H with context [exec_notify ?a ?b ?c ?d] => destruct (exec_notify a b c d) as [[[ev l0] o]|] eqn:N end.
      + apply notify_batch in N as [_ N]. cbn [v_out] in N. ic. cbn. lia.
      + ic. cbn. lia.
    - clear K. unfold exec_instr in H. destruct (parts s); [discriminate|]. unfold exec_vacation in H. ic. cbn. auto.
    - instr_cases H; goal_ifs; reflexivity.
    - unfold exec_instr, exec_include, fail in H. ic; rewrite ?finish_out; reflexivity.
    - instr_cases H; goal_ifs; reflexivity.
    - instr_cases H; rewrite ?finish_out; reflexivity.
    - instr_cases H; rewrite ?finish_out; reflexivity.
  Qed.

  (** *** Vacation actions behind their test *)
  Hypothesis scripts_guarded : forall t x, E_scripts E t = Some x -> guarded x.

  Definition vac_at (x : sieve) (p : nat) : Prop := exists i, nth_error (s_code x) p = Some i /\ is_vacation i = true.
  Definition safe (x : sieve) (p : nat) : Prop := ~ vac_at x p /\ ~ vac_at x (p + 1).
  Fixpoint frames_ok (l : list frame) : Prop :=
    match l with
    | [] => True
    | f :: rest => guarded (f_script f) /\
        (match rest with [] => True | g :: _ => safe (f_script g) (f_pos f) end) /\ frames_ok rest
    end.
  Definition pos_ok (waiting : bool) (s : rst) : Prop :=
    match r_stack s with
    | [] => True
    | f :: _ => (vac_at (f_script f) (r_pos s) -> r_out s < E_max_out E) /\
                (vac_at (f_script f) (r_pos s + 1) -> (waiting = false /\ r_test s = false) \/ r_out s < E_max_out E)
    end.
  Record vinv (waiting : bool) (k : nat) (s : rst) : Prop := {
    vi_frames : frames_ok (r_stack s);
    vi_cache : forall n x, In (n, x) (r_cache s) -> guarded x;
    vi_pos : pos_ok waiting s;
    vi_out : k <= r_out s;
    vi_max : k <= E_max_out E
  }.
  Lemma safe_start x : guarded x -> safe x 0.
  Proof.
    intros G. split; intros (i & N & V); destruct (G _ _ N V) as (q & j & Hq & _); lia.
  Qed.
  Lemma guard_jz x p i : guarded x -> nth_error (s_code x) p = Some i -> vac_at x (p + 1) -> i = IxJz (p + 2).
  Proof.
    intros G N (j & Nj & V). destruct (G _ _ Nj V) as (q & t & Hq & _ & _ & Jz & _).
    assert (p = q + 1) by lia. subst p. rewrite Jz in N. injection N as <-. f_equal. lia.
  Qed.
  Lemma guard_test x p i : guarded x -> nth_error (s_code x) p = Some i -> vac_at x (p + 2) -> is_vacation_test i = true.
  Proof.
    intros G N (j & Nj & V). destruct (G _ _ Nj V) as (q & t & Hq & Nt & Vt & _).
    assert (p = q) by lia. subst p. congruence.
  Qed.
  Lemma guard_target x i t : guarded x -> In i (s_code x) -> In t (targets i) -> safe x t.
  Proof.
    intros G I T. split; intros (j & Nj & V); destruct (G _ _ Nj V) as (q & tt & Hq & _ & _ & _ & J);
      destruct (J i t I T); lia.
  Qed.
  Lemma cache_get_In n l x : cache_get n l = Some x -> exists m, In (m, x) l.
  Proof.
    induction l as [|[k y] l IH]; cbn; [discriminate|]. destruct (script_name_eqb n k).
    - intros H. injection H as <-. eauto.
    - intros H. destruct (IH H) as [m I]. eauto.
  Qed.
  Lemma safe_pos w s : match r_stack s with [] => True | f :: _ => safe (f_script f) (r_pos s) end -> pos_ok w s.
  Proof. unfold pos_ok. destruct (r_stack s) as [|f rest]; [auto|]. intros [A B]. tauto. Qed.

  Lemma exec_test_out t s s' : state_of (exec_instr E (IxTest t) s) = Some s' -> r_out s' = r_out s.
  Proof.
    unfold exec_instr, fail. intros H. destruct (exec_test E s t) eqn:T; ic; rewrite ?finish_out; auto.
    apply exec_test_state in T. destruct T as (mv & m & ->). reflexivity.
  Qed.
  Definition is_yield (r : sres) : bool := match r with SYield _ _ => true | _ => false end.

  Lemma step_vinv k s s' : calm s -> vinv false k s -> state_of (step E s) = Some s' ->
    vinv (is_yield (step E s)) (k + mcount (executed E s)) s' /\
    (forall n opt, step E s = SYield s' (OEvent (EInclude n opt)) ->
       match r_stack s' with [] => True | f :: _ => safe (f_script f) (r_pos s') end).
  Proof.
    intros Ca V H. pose proof V as [Vf Vc Vp Vo Vm]. unfold step, executed, next_instr in *.
    destruct (r_stack s) as [|f rest] eqn:St.
    { injection H as <-. cbn [is_yield]. unfold mcount, mailed. cbn. rewrite Nat.add_0_r. split; [exact V|discriminate]. }
    destruct (Nat.ltb (length _) _) eqn:Rg.
    { injection H as <-. apply Nat.ltb_lt in Rg. rewrite (proj2 (nth_error_None _ _)) by lia.
      unfold mcount, mailed. cbn. rewrite Nat.add_0_r. split; [exact V|discriminate]. }
    destruct (nth_error (s_code (f_script f)) (r_pos s)) as [i|] eqn:N.
    - change (r_instrs (w_instrs (r_instrs s + 1) s)) with (r_instrs s + 1) in *. cbv zeta in *.
      change (r_pos (w_instrs (r_instrs s + 1) s)) with (r_pos s) in *.
      destruct (Nat.ltb (E_cpu E) (r_instrs s + 1)) eqn:Cp.
      { apply Nat.ltb_lt in Cp. unfold fail in *. cbn [state_of] in H. injection H as <-.
        rewrite (proj2 (Nat.leb_gt _ _)) by lia. unfold mcount, mailed. cbn [filter length is_yield]. rewrite Nat.add_0_r.
        split; [|discriminate]. split; rewrite ?finish_stack, ?finish_cache, ?finish_out; auto; [exact I|].
        unfold pos_ok. rewrite finish_stack. exact I. }
      apply Nat.ltb_ge in Cp. rewrite (proj2 (Nat.leb_le _ _)) by lia.
      set (s2 := w_pos (r_pos s + 1) (w_instrs (r_instrs s + 1) s)) in *.
      assert (St2 : r_stack s2 = f :: rest) by exact St.
      pose proof (exec_out i s2 s' H) as [O1 O2]. pose proof (exec_instr_counts E i s2 s' H) as (_ & Kc & _).
      change (r_out s2) with (r_out s) in *. change (r_cache s2) with (r_cache s) in Kc.
      pose proof (exec_moves i s2 s' H) as Mv. rewrite St2 in Mv. change (r_pos s2) with (r_pos s + 1) in Mv.
      cbn [frames_ok] in Vf. destruct Vf as (G & Vf1 & Vf2). unfold pos_ok in Vp. rewrite St in Vp. destruct Vp as [Vp1 Vp2].
      assert (Mx : k + mcount [(i, s2)] <= E_max_out E).
      { destruct (Nat.eq_dec (mcount [(i, s2)]) 0) as [Z|Z]; [lia|]. 
        assert (Lt : r_out s < E_max_out E).
        { destruct (O2 Z) as [Iv|Lt]; [|exact Lt]. apply Vp1. exists i. now split. }
        assert (mcount [(i, s2)] <= 1); [|lia]. unfold mcount, mailed. cbn [filter].
        repeat match goal with |- context [if ?c then _ else _] => destruct c end; cbn; lia. }
      assert (Re : (forall w, pos_ok w s') \/ pos_ok (is_yield (exec_instr E i s2)) s').
      { destruct Mv as [[S1 Mv] | [[(n & x & Gx & Ps) _] | [(g & S1 & Mv) | S1]]].
        - destruct Mv as [P1 | [P1 | [P1 P2]]].
          + unfold pos_ok. rewrite S1, P1.
            destruct i; try (left; intros w; split; [intros Va; apply (guard_jz _ _ _ G N) in Va; discriminate
                              | intros Va; replace (r_pos s + 1 + 1) with (r_pos s + 2) in Va by lia;
                                apply (guard_test _ _ _ G N) in Va; discriminate]).
            * (* jz *) left. intros w. split.
              -- intros Va. pose proof (guard_jz _ _ _ G N Va) as Hp. injection Hp as ->.
                 unfold exec_instr in H. cbn [state_of] in H. injection H as <-. change (r_test s2) with (r_test s) in *.
                 destruct (r_test s) eqn:Te.
                 ++ destruct (Vp2 Va) as [[_ Bad]|Lt]; [discriminate|exact Lt].
                 ++ cbn in P1. lia.
              -- intros Va. replace (r_pos s + 1 + 1) with (r_pos s + 2) in Va by lia.
                 apply (guard_test _ _ _ G N) in Va. discriminate.
            * (* test *) right. split.
              -- intros Va. apply (guard_jz _ _ _ G N) in Va. discriminate.
              -- intros Va. replace (r_pos s + 1 + 1) with (r_pos s + 2) in Va by lia.
                 apply (guard_test _ _ _ G N) in Va. destruct t; try discriminate. clear Va.
                 pose proof (exec_test_out _ _ _ H) as Ho. change (r_out s2) with (r_out s) in Ho.
                 unfold exec_instr, exec_test in H |- *. destruct (parts s2) as [|root pt]; [discriminate|].
                 unfold vacation_test in H |- *. cbn [ve_max_out ve_out vacation_env] in H |- *.
                 change (r_out s2) with (r_out s) in *.
                 destruct (Nat.leb (E_max_out E) (r_out s)) eqn:Lm.
                 ++ cbn [state_of] in H. injection H as <-. left. now split.
                 ++ apply Nat.leb_gt in Lm. right. lia.
          + left. intros w. apply safe_pos. rewrite S1. apply (guard_target _ i); auto. now apply nth_error_In with (r_pos s).
          + left. intros w. apply safe_pos. rewrite S1, P1. replace (r_pos s + 1 - 1) with (r_pos s) by lia.
            split.
            * intros (j & Nj & Vj). rewrite N in Nj. injection Nj as <-. destruct i; discriminate.
            * intros Va. apply (guard_jz _ _ _ G N) in Va. subst i. discriminate.
        - left. intros w. apply safe_pos. rewrite Ps, push_stack. cbn [r_pos push_frame w_pos f_script]. apply safe_start.
          destruct Gx as [Gx | [t Gx]]; [|eapply scripts_guarded; eauto]. apply cache_get_In in Gx as [m Im]. exact (Vc m x Im).
        - left. intros w. apply safe_pos. injection S1 as -> <-. rewrite Mv. destruct rest; [exact I|]. exact Vf1.
        - left. intros w. unfold pos_ok. now rewrite S1. }
      split.
      + split.
        * destruct Mv as [[-> Mv] | [[(n & x & Gx & ->) (ia & ib & ic0 & id & ->)] | [(g & S1 & Mv) | ->]]].
          -- cbn. auto.
          -- rewrite push_stack, St2. cbn [frames_ok f_script f_pos]. split; [|split; [|cbn; auto]].
             ++ destruct Gx as [Gx | [t Gx]]; [|eapply scripts_guarded; eauto]. apply cache_get_In in Gx as [m Im]. exact (Vc m x Im).
             ++ change (r_pos s2) with (r_pos s + 1). split.
                ** intros Va. apply (guard_jz _ _ _ G N) in Va. discriminate.
                ** intros Va. replace (r_pos s + 1 + 1) with (r_pos s + 2) in Va by lia.
                   apply (guard_test _ _ _ G N) in Va. discriminate.
          -- injection S1 as -> <-. exact Vf2.
          -- exact I.
        * rewrite Kc. exact Vc.
        * destruct Re as [Re|Re]; [apply Re | exact Re].
        * lia.
        * exact Mx.
      + intros n opt Hy. pose proof Hy as Hi. apply exec_asks_script in Hy; [|exact Ca]. destruct Hy as [-> _].
        rewrite St2. change (r_pos s2) with (r_pos s + 1). split.
        * intros Va. apply (guard_jz _ _ _ G N) in Va. subst i. discriminate Hi.
        * intros Va. replace (r_pos s + 1 + 1) with (r_pos s + 2) in Va by lia.
          apply (guard_test _ _ _ G N) in Va. destruct i; try discriminate Va. clear Va. unfold exec_instr, fail in Hi.
          destruct (exec_test E s2 t) eqn:T; try discriminate. injection Hi as _ ->.
          apply exec_test_question in T as [_ []].
    - split; [|unfold pop_frame; rewrite St; destruct rest; discriminate].
      unfold mcount, mailed. cbn [filter length]. rewrite Nat.add_0_r. unfold pop_frame in H |- *. rewrite St in H |- *.
      cbn [frames_ok] in Vf. destruct Vf as (G & Vf1 & Vf2).
      destruct rest as [|g rest]; cbn [state_of] in H; injection H as <-; cbn [is_yield].
      + split; auto; cbn; auto. 
      + split; auto. apply safe_pos. exact Vf1.
  Qed.

  Lemma pos_ok_test b s : pos_ok true s -> pos_ok true (w_test b s).
  Proof.
    unfold pos_ok. cbn. destruct (r_stack s); [auto|]. intros [A B]. split; [exact A|]. intros Va.
    destruct (B Va) as [[Bad _]|Lt]; [discriminate|auto].
  Qed.
  Definition here (s : rst) : Prop := match r_stack s with [] => True | f :: _ => safe (f_script f) (r_pos s) end.
  Lemma finale_out s s' o : finale E s = (s', o) -> r_out s' = r_out s /\ r_stack s' = r_stack s /\ r_cache s' = r_cache s /\ r_pos s' = r_pos s.
  Proof.
    unfold finale. destruct (r_final s) as [[]|]; rewrite ?build_id_eq; cbn;
      try (destruct (ms_changed (r_msg s))); intros H; inversion H; subst; repeat split.
  Qed.
  Lemma vinv_empty w k s : r_stack s = [] -> (forall n x, In (n, x) (r_cache s) -> guarded x) ->
    k <= r_out s -> k <= E_max_out E -> vinv w k s.
  Proof. intros S C O M. split; auto; [|unfold pos_ok]; now rewrite S. Qed.
  Lemma loop_vinv n : forall k s s' o, calm s -> fin (r_final s) -> r_stack s <> [] -> vinv false k s ->
    loop E n s = RRet s' o ->
    vinv true (k + mcount (g_log (loop_log E n s))) s' /\
    (forall m opt, o = Some (OEvent (EInclude m opt)) -> here s').
  Proof.
    induction n as [|n IH]; intros k s s' o C F S V; [discriminate|]. cbn [loop loop_log].
    pose proof (step_trace E s C F S) as T. pose proof (fun s' => step_vinv k s s' C V) as K.
    unfold step_traced in T.
    destruct (step E s) as [s1|s1 [e|e]|s1|s1|] eqn:St; intros H; [| | | | |discriminate]; cbn [state_of is_yield] in K;
      destruct (K s1 eq_refl) as [K1 K2].
    - destruct T as (_ & T2 & T3 & T4 & _). cbn [join g_log turn]. rewrite mcount_app, Nat.add_assoc.
      apply (IH _ s1); auto. rewrite T3. now apply after_fin.
    - injection H as <- <-. split; [exact K1|]. intros m opt Ho. injection Ho as ->. now apply (K2 m opt).
    - injection H as <- <-. split; [exact K1|discriminate].
    - destruct (finale E s1) as [s2 o2] eqn:Fi. injection H as <- <-. destruct T as (_ & T2 & T3 & T4 & _).
      destruct (finale_out _ _ _ Fi) as (A1 & A2 & A3 & _). destruct K1 as [B1 B2 B3 B4 B5]. split.
      + apply vinv_empty; cbn [turn g_log]; rewrite ?A1, ?A2, ?A3; auto.
      + intros m opt _. unfold here. now rewrite A2, T4.
    - injection H as <- <-. split; [|discriminate]. destruct T as (_ & _ & -> & _). cbn [turn g_log].
      destruct K1 as [B1 B2 B3 B4 B5]. split; auto. unfold pos_ok.
      destruct (r_stack s) as [|f rest] eqn:Sk; [exact I|]. unfold step in St. rewrite Sk in St.
      destruct (Nat.ltb (length (s_code (f_script f))) (r_pos s)) eqn:Lt.
      + apply Nat.ltb_lt in Lt. split; intros (j & Nj & _); rewrite (proj2 (nth_error_None _ _)) in Nj by lia; discriminate.
      + destruct (next_instr s) as [i|] eqn:Ni; [|unfold pop_frame in St; rewrite Sk in St; destruct rest; discriminate].
        cbv zeta in St. destruct (Nat.ltb (E_cpu E) _); [discriminate|].
        match type of St with exec_instr E ?i ?x = _ => pose proof (exec_emits E i x C F) as Em; rewrite St in Em end.
        cbn in Em. destruct Em. cbn. rewrite Sk. exact S.
  Qed.
  Theorem conversation_mailed inputs : forall k s asked outs s', fin (r_final s) -> forallb quiet (r_queue s) = true ->
    vinv true k s -> (asked = true -> here s) ->
    (forall i x, In i inputs -> In x (input_script i) -> guarded x) ->
    polite asked inputs outs -> converse_run E inputs s = Some (outs, s') ->
    k + mcount (g_log (log_of E inputs s)) <= E_max_out E.
  Proof.
    induction inputs as [|i rest IH]; intros k s asked outs s' F Q V A J P H; cbn in H.
    { cbn. destruct V. unfold mcount, mailed. cbn. lia. }
    destruct (run E i s) as [s1 o| |] eqn:R; try discriminate.
    destruct (converse_run E rest s1) as [[outs' s2]|] eqn:Cv; [|discriminate]. injection H as <- <-.
    cbn in P. destruct P as [P1 P2]. cbn [log_of]. rewrite R. cbn [join g_log]. rewrite mcount_app, Nat.add_assoc.
    assert (V0 : vinv true k (feed i s)).
    { destruct V as [V1 V2 V3 V4 V5]. destruct i; try (unfold feed; split; try assumption; apply pos_ok_test; exact V3).
      unfold feed. destruct (_ && _); [|split; auto]. specialize (A P1).
      assert (Gx : guarded s0) by (apply (J (InScript n s0)); left; reflexivity).
      split; auto.
      - cbn [r_stack w_test]. rewrite push_stack. cbn [frames_ok f_script f_pos]. unfold here in A.
        change (r_stack (w_cache (cache_insert n s0 (r_cache s)) s)) with (r_stack s).
        change (r_pos (w_cache (cache_insert n s0 (r_cache s)) s)) with (r_pos s).
        split; [exact Gx|]. split; [destruct (r_stack s); auto|exact V1].
      - cbn [r_cache w_test push_frame w_pos w_vars w_stack w_cache]. clear - V2 Gx.
        induction (r_cache s) as [|[kk y] l IHl]; cbn.
        + intros m z [Hm|[]]. now injection Hm as <- <-.
        + destruct (script_name_eqb n kk).
          * intros m z [Hm|Hm]; [now injection Hm as <- <-|]. apply (V2 m). now right.
          * intros m z [Hm|Hm]; [apply (V2 m); now left|]. apply (IHl (fun m x Hi => V2 m x (or_intror Hi)) m z Hm).
      - apply safe_pos. cbn [r_stack w_test]. rewrite push_stack. cbn [f_script]. apply safe_start. exact Gx. }
    destruct (feed_queue i s) as [F1 F2]. rewrite <- F1 in Q. rewrite <- F2 in F.
    unfold run, run_log in *. revert Q F V0 R. generalize (feed i s). intros s0 Q F V0 R.
    assert (K : vinv true (k + mcount (g_log match r_queue s0 with [] => match r_stack s0 with [] => nothing | _ => loop_log E (enough E s0) s0 end | _ :: _ => nothing end)) s1
                /\ fin (r_final s1) /\ forallb quiet (r_queue s1) = true /\
                (forall m opt, o = Some (OEvent (EInclude m opt)) -> here s1)).
    { assert (Z : mcount (g_log nothing) = 0) by reflexivity.
      destruct (r_queue s0) as [|e q] eqn:Qe.
      - destruct (r_stack s0) as [|f fs] eqn:St.
        + injection R as <- <-. rewrite Z, Nat.add_0_r, Qe. repeat split; auto; try apply V0. discriminate.
        + assert (C : calm s0) by (unfold calm; now rewrite Qe).
          assert (S : r_stack s0 <> []) by (rewrite St; discriminate).
          destruct (loop_quiet _ _ _ _ _ C F S R) as (L1 & L2 & _).
          assert (V1 : vinv false k s0).
          { destruct V0 as [W1 W2 W3 W4 W5]. split; auto. unfold pos_ok in *. destruct (r_stack s0); [auto|].
            destruct W3 as [W3 W6]. split; [exact W3|]. intros Va. destruct (W6 Va) as [[Bad _]|Lt]; [discriminate|auto]. }
          destruct (loop_vinv _ _ _ _ _ C F S V1 R) as [L3 L4]. auto.
      - injection R as <- <-. cbn in Q. apply andb_prop in Q as [Qa Qb].
        split; [|split; [exact F|split; [exact Qb|]]].
        + replace (mcount _) with 0 by (destruct (r_stack s0); reflexivity). rewrite Nat.add_0_r.
          destruct V0 as [W1 W2 W3 W4 W5]. split; auto.
        + intros m opt Ho. injection Ho as ->. discriminate. }
    destruct K as (K1 & K2 & K3 & K4).
    eapply IH; [exact K2 | exact K3 | exact K1 | | | exact P2 | exact Cv].
    - intros Ask. destruct o as [[e|]|]; try discriminate. destruct e; try discriminate. now apply (K4 name optional).
    - intros j x Hj. apply J. now right.
  Qed.
End P.
