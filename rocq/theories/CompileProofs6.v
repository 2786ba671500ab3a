(** The interpreter follows the meaning of the script: one turn. *)
From Coq Require Import Lia.
From Verif Require Import Base Lib Address Var Value SetVar Flags Comparator Message EditHeader Expr Event
  Notify Vacation Spam AddrTest Mime Sieve Run RunSpec RunProofs RunProofs2 RunProofs3 RunProofs4 RunProofs5 RunProofs6 RunProofs7 RunProofs8
  Compile CompileSpec CompileProofs1 CompileProofs2 CompileProofs5.

Section Turn.
  Variable E : renv.
  Variable Progs : sieve -> prog -> Prop.

  (** *** Instructions that do not move *)
  Definition stays (s s' : rst) : Prop :=
    r_stack s' = r_stack s /\ r_iter s' = r_iter s /\ r_iters s' = r_iters s.
  Lemma plain_cont i s s' : plain i = true -> is_include i = false -> exec_instr E i s = SCont s' ->
    stays s s' /\ r_pos s' = r_pos s.
  Proof.
    intros P N H. unfold stays. pose proof (f_equal state_of H) as H'. cbn [state_of] in H'.
    destruct i; try discriminate P; try discriminate N; clear N;
      try (clear H; instr_cases H'; goal_ifs; hyp_ifs; cbn in *; repeat split; congruence);
      unfold exec_instr, fail in H; try discriminate H.
    - destruct (find _ _) as [[]|]; try discriminate. injection H as <-. repeat split.
    - destruct (exec_test E s t) eqn:X; try discriminate. injection H as <-. apply exec_test_state in X.
      destruct X as (mv & m & ->). repeat split.
    - unfold with_value in H. destruct (eval_expression _ _ _ _ _ _ _); try discriminate. injection H as <-. repeat split.
    - unfold with_value in H. destruct (eval_expression _ _ _ _ _ _ _); try discriminate. injection H as <-.
      match goal with |- context [assign ?r ?s] => destruct (assign_eq r s) as [? ->] end. repeat split.
    - match type of H with context [assign ?r ?s] => destruct (assign_eq r s) as [? E1]; rewrite E1 in H; clear E1 end.
      match type of H with take_queue ?y = _ => destruct (take_queue_cases y) as [[Q E1]|(e & q & Q & E1)]; rewrite E1 in H; [|discriminate H] end.
      injection H as <-. repeat split.
  Qed.
  Lemma asks_fn i s s' id args : calm s -> exec_instr E i s = SYield s' (OEvent (EFunction id args)) -> expr_instr i = true.
  Proof.
    intros C H.
    assert (Tk : forall s0, forallb quiet (r_queue s0) = true -> take_queue s0 = SYield s' (OEvent (EFunction id args)) -> False).
    { intros s0 Q T. apply take_yield in T as [_ T]. rewrite T in Q. discriminate. }
    assert (Ba : forall ev, actions ev = ev -> forallb quiet ev = true).
    { intros ev A. apply forallb_forall. intros y Hy. rewrite <- A in Hy. apply filter_In in Hy as [_ Hy]. unfold quiet. now rewrite Hy. }
    destruct i; unfold exec_instr in H; try discriminate H; try reflexivity; exfalso.
    - destruct (find _ _) as [[]|]; discriminate.
    - rewrite build_id_eq in H. destruct (ms_changed _); discriminate.
    - unfold exec_fileinto in H. rewrite build_id_eq in H. destruct (ms_changed _); refine (Tk _ _ H); reflexivity.
    - unfold exec_redirect in H. destruct (sanitize_address _); [|exact (Tk _ (calm_quiet _ C) H)].
      destruct (_ && _); [|exact (Tk _ (calm_quiet _ C) H)]. destruct (parts s); [discriminate|].
      destruct (Nat.ltb _ _); [|exact (Tk _ (calm_quiet _ C) H)]. destruct (negb _ && _); [exact (Tk _ (calm_quiet _ C) H)|].
      rewrite build_id_eq in H. destruct (ms_changed _); refine (Tk _ _ H); reflexivity.
    - destruct (exec_test E s t) eqn:T; try discriminate. injection H as <- He. subst e.
      apply exec_test_question in T as [_ []].
    - destruct (r_iter s), (r_iters s) as [|[]]; discriminate.
    - destruct (nested_ids _ _ _); discriminate.
    - match type of H with edit_msg ?m _ = _ => destruct m end; discriminate.
    - match type of H with edit_msg ?m _ = _ => destruct m end; discriminate.
    - refine (Tk _ _ H). apply calm_quiet. now apply assign_calm.
    - match type of H with match ?c with _ => _ end = _ => destruct c as [[]|] end; discriminate.
    - match type of H with edit_msg ?m _ = _ => destruct m end; discriminate.
    - match type of H with edit_msg ?m _ = _ => destruct m end; discriminate.
    - refine (Tk _ _ H). apply calm_quiet. now apply assign_calm.
    - destruct (parts s); [discriminate|].
      match type of H with context [exec_notify ?a ?b ?c ?d] => destruct (exec_notify a b c d) as [[[ev l0] o]|] eqn:N end.
      + refine (Tk _ _ H). apply Ba. now destruct (notify_batch _ _ _ _ _ _ _ N) as [[B _ _ _ _ _] _].
      + exact (Tk _ (calm_quiet _ C) H).
    - destruct (parts s); [discriminate|].
      match type of H with context [exec_vacation ?a ?b ?c ?d ?e] => destruct (exec_vacation a b c d e) as [[ev l0] o] eqn:N end.
      refine (Tk _ _ H). apply Ba. now destruct (vacation_batch _ _ _ _ _ _ _ _ N) as [[B _ _ _ _ _] _].
    - unfold exec_include in H. destruct (v_is_empty _); [discriminate|].
      destruct (negb once || _); [|discriminate].
      destruct (Nat.ltb _ _) eqn:Lt; [|discriminate]. destruct (opt_or _ _); discriminate.
    - unfold pop_frame in H. destruct (r_stack s) as [|? []]; discriminate.
  Qed.
  Lemma asks_include i s s' n0 opt0 : calm s -> exec_instr E i s = SYield s' (OEvent (EInclude n0 opt0)) -> is_include i = true /\ s' = s.
  Proof.
    intros C H.
    assert (Tk : forall s0, forallb quiet (r_queue s0) = true -> take_queue s0 = SYield s' (OEvent (EInclude n0 opt0)) -> False).
    { intros s0 Q T. apply take_yield in T as [_ T]. rewrite T in Q. discriminate. }
    assert (Ba : forall ev, actions ev = ev -> forallb quiet ev = true).
    { intros ev A. apply forallb_forall. intros y Hy. rewrite <- A in Hy. apply filter_In in Hy as [_ Hy]. unfold quiet. now rewrite Hy. }
    destruct i; unfold exec_instr in H; try discriminate H; try (exfalso; unfold with_value in H; destruct (eval_expression _ _ _ _ _ _ _); discriminate H);
      try (unfold exec_include in H; destruct (v_is_empty _); [discriminate|]; destruct (negb once || _); [|discriminate];
        destruct (Nat.ltb _ _); [|discriminate]; destruct (opt_or _ _); [discriminate|]; injection H as <- _ _; split; reflexivity); exfalso.
    - destruct (find _ _) as [[]|]; discriminate.
    - rewrite build_id_eq in H. destruct (ms_changed _); discriminate.
    - unfold exec_fileinto in H. rewrite build_id_eq in H. destruct (ms_changed _); refine (Tk _ _ H); reflexivity.
    - unfold exec_redirect in H. destruct (sanitize_address _); [|exact (Tk _ (calm_quiet _ C) H)].
      destruct (_ && _); [|exact (Tk _ (calm_quiet _ C) H)]. destruct (parts s); [discriminate|].
      destruct (Nat.ltb _ _); [|exact (Tk _ (calm_quiet _ C) H)]. destruct (negb _ && _); [exact (Tk _ (calm_quiet _ C) H)|].
      rewrite build_id_eq in H. destruct (ms_changed _); refine (Tk _ _ H); reflexivity.
    - destruct (exec_test E s t) eqn:T; try discriminate. injection H as <- He. subst e.
      apply exec_test_question in T as [_ []].
    - destruct (r_iter s), (r_iters s) as [|[]]; discriminate.
    - destruct (nested_ids _ _ _); discriminate.
    - match type of H with edit_msg ?m _ = _ => destruct m end; discriminate.
    - match type of H with edit_msg ?m _ = _ => destruct m end; discriminate.
    - refine (Tk _ _ H). apply calm_quiet. now apply assign_calm.
    - match type of H with match ?c with _ => _ end = _ => destruct c as [[]|] end; discriminate.
    - match type of H with edit_msg ?m _ = _ => destruct m end; discriminate.
    - match type of H with edit_msg ?m _ = _ => destruct m end; discriminate.
    - refine (Tk _ _ H). apply calm_quiet. now apply assign_calm.
    - destruct (parts s); [discriminate|].
      match type of H with context [exec_notify ?a ?b ?c ?d] => destruct (exec_notify a b c d) as [[[ev l0] o]|] eqn:N end.
      + refine (Tk _ _ H). apply Ba. now destruct (notify_batch _ _ _ _ _ _ _ N) as [[B _ _ _ _ _] _].
      + exact (Tk _ (calm_quiet _ C) H).
    - destruct (parts s); [discriminate|].
      match type of H with context [exec_vacation ?a ?b ?c ?d ?e] => destruct (exec_vacation a b c d e) as [[ev l0] o] eqn:N end.
      refine (Tk _ _ H). apply Ba. now destruct (vacation_batch _ _ _ _ _ _ _ _ N) as [[B _ _ _ _ _] _].
    - unfold pop_frame in H. destruct (r_stack s) as [|? []]; discriminate.
  Qed.
  Lemma plain_event i s s' e : calm s -> (plain i = true /\ is_include i = false) \/ expr_instr i = true -> exec_instr E i s = SYield s' (OEvent e) ->
    stays s s' /\ r_pos s' = (if asks_function e then r_pos s - 1 else r_pos s).
  Proof.
    intros C P H. unfold stays. destruct (expr_instr i) eqn:X.
    - destruct i; try discriminate X; unfold exec_instr, with_value in H; destruct (eval_expression _ _ _ _ _ _ _); try discriminate;
        injection H as <- <-; repeat split.
    - destruct P as [[P N]|P]; [|discriminate].
      assert (F : asks_function e = false).
      { destruct e; try reflexivity. apply asks_fn in H; auto. congruence. }
      rewrite F. clear F. pose proof (f_equal state_of H) as H'. cbn [state_of] in H'.
      destruct i; try discriminate P; try discriminate X; try discriminate N;
        try (clear H; instr_cases H'; goal_ifs; hyp_ifs; cbn in *; repeat split; congruence);
        unfold exec_instr, fail in H; try discriminate H.
      + destruct (find _ _) as [[]|]; discriminate.
      + destruct (exec_test E s t) eqn:T; try discriminate. injection H as <- <-. repeat split.
      + match type of H with context [assign ?r ?s] => destruct (assign_eq r s) as [? E1]; rewrite E1 in H; clear E1 end.
        match type of H with take_queue ?y = _ => destruct (take_queue_cases y) as [[Q E1]|(e0 & q & Q & E1)]; rewrite E1 in H; [discriminate H|] end.
        injection H as <- _. repeat split.
  Qed.

  Lemma feed_keeps inp s : no_script inp -> stays s (feed inp s) /\ r_pos (feed inp s) = r_pos s /\
    r_final (feed inp s) = r_final s /\ r_queue (feed inp s) = r_queue s.
  Proof.
    destruct inp as [| | |n x]; cbn; intros N; try (repeat split; fail).
    destruct (Nat.leb _ 63 && Nat.leb _ 256) eqn:A; [|repeat split]. exfalso. apply N.
    apply andb_true_iff in A as [A B]. split; now apply Nat.leb_le.
  Qed.
  Lemma settles_keeps s s' : settles s s' -> stays s s' /\ r_pos s' = r_pos s /\ r_final s' = r_final s /\ r_queue s' = [].
  Proof.
    induction 1 as [s Q|s e q inp s' Q N H ((A & B & D) & F & G & I)]; [repeat split; auto|].
    destruct (feed_keeps inp (w_queue q s) N) as ((A' & B' & D') & F' & G' & _).
    unfold stays. rewrite A, B, D, F, G, A', B', D', F', G'. repeat split; auto.
  Qed.

  Lemma settles_cache s s' : settles s s' -> r_cache s' = r_cache s.
  Proof.
    induction 1 as [s Q|s e q inp s' Q N H IH]; [reflexivity|]. rewrite IH.
    destruct inp as [| | |n x]; cbn; try reflexivity. cbn in N.
    destruct (Nat.leb _ 63 && Nat.leb _ 256) eqn:A; [|reflexivity]. exfalso. apply N.
    apply andb_true_iff in A as [A B]. split; now apply Nat.leb_le.
  Qed.
  Lemma feed_cache inp s : no_script inp -> r_cache (feed inp s) = r_cache s.
  Proof.
    destruct inp as [| | |n x]; cbn; try reflexivity. intros N.
    destruct (Nat.leb _ 63 && Nat.leb _ 256) eqn:A; [|reflexivity]. exfalso. apply N.
    apply andb_true_iff in A as [A B]. split; now apply Nat.leb_le.
  Qed.
  Lemma in_insert n x l : forall m y, In (m, y) (cache_insert n x l) -> y = x \/ In (m, y) l.
  Proof.
    induction l as [|[k z] l IH]; cbn; intros m y H.
    - destruct H as [H|[]]. injection H as <- <-. now left.
    - destruct (script_name_eqb n k).
      + destruct H as [H|H]; [injection H as <- <-; now left|auto].
      + destruct H as [H|H]; [auto|]. apply IH in H as [H|H]; auto.
  Qed.
  Lemma in_get n l y : cache_get n l = Some y -> exists m, In (m, y) l.
  Proof.
    induction l as [|[k z] l IH]; cbn; [discriminate|]. destruct (script_name_eqb n k).
    - intros H. injection H as <-. eauto.
    - intros H. apply IH in H as [m H]. eauto.
  Qed.

  (** The scripts around the one that runs: where they go on, and what is left to do
      there. *)
  Inductive B : list frame -> nat -> list task -> Prop :=
  | B_nil pos : B [] pos []
  | B_cons f rest base pos lim ts : B rest (f_pos f) base ->
      (forall b, K lim (s_code (f_script f)) base pos b (iter_of ts) (iters_of ts) (Run_ ts)) ->
      B (f :: rest) pos (KLeave :: ts).
  Lemma B_base rest pos base : B rest pos base -> base = [] \/ exists ts, base = KLeave :: ts.
  Proof. destruct 1; eauto. Qed.

  (** Scripts with a program. *)
  Definition has (y : sieve) : Prop := exists p, Progs y p.
  Hypothesis progs_ok : forall y p, Progs y p -> exists lim, ok_prog lim p = true /\ s_code y = gprog p.
  Definition includes (f : frame) : Prop := exists i, In i (s_code (f_script f)) /\ is_include i = true.
  Definition registered : Prop := forall t y, E_scripts E t = Some y -> has y.

  Record N (f : frame) (rest : list frame) (base : list task) (lim : limits) (s : rst) (k : kont) : Prop := {
    m_stack : r_stack s = f :: rest;
    m_base : B rest (f_pos f) base;
    m_at : K lim (s_code (f_script f)) base (r_pos s) (r_test s) (r_iter s) (r_iters s) k;
    m_calm : calm s;
    m_fin : fin (r_final s);
    m_cache : forall n y, In (n, y) (r_cache s) -> has y;
    m_known : forall g, In g (r_stack s) -> includes g -> registered
  }.
  Definition M (s : rst) (k : kont) : Prop := exists f rest base lim, N f rest base lim s k.

  Lemma T_begin lim p base : ok_prog lim p = true -> exists env, T lim (gprog p) base 0 env (tasks p ++ base).
  Proof.
    destruct (gcmd_length lim) as (_ & Ls & _).
    intros O. exists []. unfold gprog, tasks.
    destruct (p_require p) as [|c caps]; cbn [app].
    - eapply (T_seq _ _ _ _ _ _ _ []); [|exact O|reflexivity|].
      + exists [], []. now rewrite app_nil_r.
      + rewrite <- (Ls (p_cmds p) [] [] 0) at 1; [apply T_end|exact O|reflexivity].
    - apply T_do; [|reflexivity|].
      + exists [], (gcmds 1 [] (p_cmds p)). now split.
      + eapply (T_seq _ _ _ _ _ _ _ []); [|exact O|reflexivity|].
        * exists [IxRequire (c :: caps)], []. rewrite app_nil_r. now split.
        * rewrite <- (Ls (p_cmds p) [] [] 1) at 1; [|exact O|reflexivity].
          match goal with |- T _ ?C _ ?n _ _ => replace n with (length C) by (cbn; lia) end. apply T_end.
  Qed.

  (** A script has been entered. *)
  Lemma entered s0 s y ts p : Progs y p ->
    r_stack s = {| f_script := y; f_pos := r_pos s0; f_local := c_local (r_vars s0); f_match := c_match (r_vars s0) |} :: r_stack s0 ->
    r_pos s = 0 -> r_iter s = iter_of ts -> r_iters s = iters_of ts ->
    calm s -> fin (r_final s) -> (forall n y, In (n, y) (r_cache s) -> has y) -> registered ->
    B (r_stack s0) (r_pos s0) (KLeave :: ts) -> M s (Run_ (tasks p ++ KLeave :: ts)).
  Proof.
    intros P S Po It Its Ca Fi Cc Rg Bs. destruct (progs_ok _ _ P) as (lim & O & Co).
    eexists _, (r_stack s0), (KLeave :: ts), lim. constructor; try assumption.
    - exact S.
    - exact Bs.
    - cbn [f_script]. rewrite Co, Po. destruct (T_begin lim p (KLeave :: ts) O) as [env Tb].
      eapply K_run; [exact Tb| |]; unfold tasks; destruct (p_require p); cbn; assumption.
    - intros g _ _. exact Rg.
  Qed.

  Definition now (s : rst) : rst := w_pos (r_pos s + 1) (w_instrs (r_instrs s + 1) s).
  Lemma now_same s : same s (now s).
  Proof. reflexivity. Qed.

  Lemma step_at f rest s i : r_stack s = f :: rest -> nth_error (s_code (f_script f)) (r_pos s) = Some i ->
    (step E s = fail E (w_instrs (r_instrs s + 1) s) ErCpu /\ executed E s = [] /\ E_cpu E <= r_instrs s) \/
    (step E s = exec_instr E i (now s) /\ executed E s = [(i, now s)]).
  Proof.
    intros S Co. unfold step, executed, next_instr. rewrite S, Co.
    assert (L : r_pos s < length (s_code (f_script f))) by (apply nth_error_Some; congruence).
    rewrite (proj2 (Nat.ltb_ge (length (s_code (f_script f))) (r_pos s))) by lia. cbv zeta.
    change (r_instrs (w_instrs (r_instrs s + 1) s)) with (r_instrs s + 1).
    destruct (Nat.ltb (E_cpu E) (r_instrs s + 1)) eqn:L2.
    - left. apply Nat.ltb_lt in L2. rewrite (proj2 (Nat.leb_gt _ _)) by lia. repeat split. lia.
    - right. apply Nat.ltb_ge in L2. rewrite (proj2 (Nat.leb_le _ _)) by lia. split; reflexivity.
  Qed.

  (** The answers of the host: a script only to the question for it. *)
  Definition replies (e : event) (inp : input) : Prop :=
    no_script inp \/ exists n y m o, inp = InScript n y /\ admitted y /\ has y /\ e = EInclude m o.
  (** What a turn is. *)
  Definition waits (s : rst) (k : kont) (i : instruction) (x : rst) : Prop :=
    exists k1 y, silent E Progs k k1 /\ src E Progs (k1, s) (visible [(i, x)]) (Halt, y) /\
      forall s1 e, step E s = SYield s1 (OEvent e) ->
        forall inp s', replies e inp -> settles (feed inp s1) s' ->
          exists k', src E Progs (k1, s) (visible [(i, x)]) (k', s') /\ M s' k'.
  Definition turns (s : rst) (k : kont) : Prop :=
    (exists s', step E s = SEnd s' /\ executed E s = [] /\ silent E Progs k (Run_ []) /\ r_stack s' = [] /\ calm s' /\ fin (r_final s')) \/
    (step E s = fail E (w_instrs (r_instrs s + 1) s) ErCpu /\ executed E s = [] /\ E_cpu E <= r_instrs s) \/
    (exists s' k', step E s = SCont s' /\ srcs E Progs (k, s) (visible (executed E s)) (k', s') /\ M s' k') \/
    (exists i, step E s = exec_instr E i (now s) /\ executed E s = [(i, now s)] /\ halts E i (now s) /\ waits s k i (now s)).

  Lemma srcs_app a t b t' c : srcs E Progs a t b -> srcs E Progs b t' c -> srcs E Progs a (t ++ t') c.
  Proof. induction 1; intros X; [exact X|]. rewrite <- app_assoc. econstructor; eauto. Qed.
  Lemma srcs_snoc a t b t' c : srcs E Progs a t b -> src E Progs b t' c -> srcs E Progs a (t ++ t') c.
  Proof. intros A X. eapply srcs_app; [exact A|]. rewrite <- (app_nil_r t'). econstructor; [exact X|constructor]. Qed.
  Lemma srcs_one k k1 s tr c : silent E Progs k k1 -> src E Progs (k1, s) tr c -> srcs E Progs (k, s) tr c.
  Proof. intros A X. apply (srcs_snoc _ [] _ tr c (A s) X). Qed.

  (** Included scripts. *)
  Lemma head_const ts i next : head (Run_ ts) = Some (i, next) -> exists ts', forall b, next b = Run_ ts'.
  Proof.
    destruct ts as [|[[|[] cs]|j|r|l ids sv b kk|e b kk|] ts]; cbn; intros H; try discriminate; injection H as <- <-; eauto.
  Qed.
  Lemma include_cont i s s' : is_include i = true -> exec_instr E i s = SCont s' ->
    s' = s \/ exists y, s' = push_frame y s /\ ((exists n, cache_get n (r_cache s) = Some y) \/ exists t, E_scripts E t = Some y).
  Proof.
    destruct i; try discriminate. intros _. cbn [exec_instr]. unfold exec_include, fail.
    destruct (v_is_empty _); [intros H; injection H as <-; now left|].
    destruct (negb _ || _); [|intros H; injection H as <-; now left].
    destruct (Nat.ltb _ _); [|discriminate].
    destruct (cache_get _ (r_cache s)) as [y|] eqn:G; cbn [opt_or].
    - intros H. injection H as <-. right. exists y. eauto.
    - destruct (E_scripts E _) as [y|] eqn:G2; [|discriminate]. intros H. injection H as <-. right. exists y. eauto.
  Qed.
  Lemma include_yield i s s' e : is_include i = true -> exec_instr E i s = SYield s' (OEvent e) ->
    s' = s /\ exists n o, e = EInclude n o.
  Proof.
    destruct i; try discriminate. intros _. cbn [exec_instr]. unfold exec_include, fail.
    destruct (v_is_empty _); [discriminate|].
    destruct (negb _ || _); [|discriminate].
    destruct (Nat.ltb _ _); [|discriminate].
    destruct (opt_or _ _); [discriminate|]. intros H. injection H as <- <-. eauto.
  Qed.
  (** Back to the script around this one. *)
  Lemma pop_back f g rest base s k : r_stack s = f :: g :: rest -> B (g :: rest) (f_pos f) base ->
    (forall n y, In (n, y) (r_cache s) -> has y) -> (forall h, In h (r_stack s) -> includes h -> registered) ->
    calm s -> fin (r_final s) -> iter_of base = r_iter s -> iters_of base = r_iters s -> k = Run_ base ->
    exists ts s', base = KLeave :: ts /\ pop_frame s = SCont s' /\ M s' (Run_ ts).
  Proof.
    intros S Bs Cc Kn Ca Fi It Its _. inversion Bs as [|g' rest' base' pos lim ts B1 K1]; subst.
    exists ts. unfold pop_frame. rewrite S. eexists. split; [reflexivity|]. split; [reflexivity|].
    exists g, rest, base', lim. constructor; auto.
    - cbn [r_pos w_pos r_iter r_iters w_vars w_stack r_test]. cbn [iter_of iters_of] in It, Its. rewrite <- It, <- Its. apply K1.
    - intros h Ih. apply Kn. rewrite S. right. exact Ih.
  Qed.

  Theorem step_sim s k : M s k -> turns s k.
  Proof.
    intros (f & rest & base & lim & [S Bs At Ca Fi Cc Kn]).
    destruct (norm E Progs lim _ base (B_base _ _ _ Bs) _ _ _ _ _ At) as (k1 & Si & R).
    unfold turns.
    assert (Caln : calm (now s)) by exact Ca. assert (Fin : fin (r_final (now s))) by exact Fi.
    assert (Sn : r_stack (now s) = f :: rest) by exact S.
    assert (Sn' : r_stack (now s) <> []) by (rewrite Sn; discriminate).
    inversion R as [b Q1 Q2 Q3 Q4 Q5|p b Nr Q1 Q2 Q3 Q4 Q5|p b it its k0 i next N P H Hk Lo It Ic Q1 Q2 Q3 Q4 Q5|p b it its k0 i q N J Hk Q1 Q2 Q3 Q4 Q5
                   |p b0 l b kk cs ts N Hk Q1 Q2 Q3 Q4 Q5|p q b0 l ids saved b kk ts env env' N T1 T2 Q1 Q2 Q3 Q4 Q5
                   |p q b0 x b kk ts env env' N T1 T2 T3 Q1 Q2 Q3 Q4 Q5
                   |p b n saved it its it' its' k0 k' N Po Sr Hk Q1 Q2 Q3 Q4 Q5].
    - (* the end *)
      assert (Stp : step E s = pop_frame s /\ executed E s = []).
      { unfold step, executed, next_instr. rewrite S, <- Q1, Nat.ltb_irrefl.
        rewrite (proj2 (nth_error_None _ _)) by lia. now split. }
      destruct Stp as [Stp Exd]. destruct rest as [|g rest].
      + left. exists (w_pos (f_pos f) (w_vars (set_vars (f_local f) (f_match f) (r_vars s)) (w_stack [] s))).
        inversion Bs; subst. rewrite Stp, Exd. unfold pop_frame. rewrite S. repeat split; [exact Si|exact Ca|exact Fi].
      + right; right; left. destruct (pop_back f g rest base s k1 S Bs Cc Kn Ca Fi) as (ts & s' & -> & Pp & Mm); [congruence..|].
        subst k1. exists s', (Run_ ts). rewrite Stp, Exd. split; [exact Pp|]. split; [|exact Mm].
        eapply srcs_one; [exact Si|]. eapply src_leave; [exact Pp|reflexivity].
    - (* return *)
      subst. destruct (step_at f rest s _ S Nr) as [X|[X Y]]; [right; left; exact X|].
      assert (Se : sees (Run_ (KDo IxReturn :: after base)) s (now s)).
      { split; [apply now_same|]. cbn. change (r_iters (now s)) with (r_iters s). rewrite <- Q4.
        destruct (iters_after base (B_base _ _ _ Bs)) as [_ <-]. apply iters_in_for. }
      destruct rest as [|g rest].
      + right; right; right. exists IxReturn. split; [exact X|]. split; [exact Y|].
        assert (Ha : halts E IxReturn (now s)) by (unfold halts; cbn [exec_instr]; unfold pop_frame; rewrite Sn; exact Logic.I).
        split; [exact Ha|]. eexists _, (now s). split; [exact Si|]. split; [eapply src_halt; [reflexivity|exact Se|exact Ha]|].
        rewrite X. cbn [exec_instr]. unfold pop_frame. rewrite Sn. discriminate.
      + right; right; left. destruct (pop_back f g rest base (now s) (Run_ base) Sn Bs Cc Kn Ca Fi) as (ts & s' & -> & Pp & Mm); [auto..|].
        exists s', (Run_ ts). rewrite X, Y. cbn [exec_instr]. split; [exact Pp|]. split; [|exact Mm].
        eapply srcs_one; [exact Si|]. cbn [visible filter is_control fst negb].
        eapply (src_do _ _ _ _ (fun _ => Run_ ts)); [reflexivity|exact Se|]. apply does_silent; [exact Pp|].
        unfold pop_frame in Pp. rewrite Sn in *. injection Pp as <-. cbn. lia.
    - (* an instruction *)
      subst. destruct (step_at f rest s i S N) as [X|[X Y]]; [right; left; exact X|].
      assert (V : visible [(i, now s)] = [(i, now s)]).
      { cbn. unfold plain in P. apply andb_true_iff in P as [P _]. now rewrite P. }
      assert (Se : sees k1 s (now s)) by (split; [apply now_same|exact Lo]).
      pose proof (exec_emits E i (now s) Caln Fin Sn') as Em.
      destruct (exec_instr E i (now s)) as [s'|s' o|s'|s'|] eqn:Ex.
      + (* goes on *)
        right; right; left.
        destruct (exec_instr_counts E i (now s) s' (f_equal state_of Ex)) as (_ & Cs & _).
        assert (Cc' : forall n y, In (n, y) (r_cache s') -> has y) by (rewrite Cs; exact Cc).
        destruct Em as (_ & Em1 & Em2 & _).
        assert (Fi' : fin (r_final s')) by (rewrite Em2; apply pending_fin; exact Fin).
        destruct (is_include i) eqn:Inc.
        * destruct (Ic eq_refl) as [ts0 Qk]. subst k1. destruct (head_const _ _ _ H) as [ts Nx].
          destruct (include_cont i (now s) s' Inc Ex) as [-> | (y & -> & Fr)].
          -- exists (now s), (Run_ ts). rewrite X. split; [reflexivity|]. rewrite Y, V. split.
             ++ eapply srcs_one; [exact Si|]. rewrite <- (Nx (r_test (now s))). eapply src_do; eauto. apply does_silent; [exact Ex|]. lia.
             ++ exists f, rest, base, lim. constructor; auto. rewrite <- (Nx (r_test (now s))). apply Hk.
          -- assert (Rg : registered).
             { apply (Kn f); [rewrite S; now left|]. exists i. split; [eapply nth_error_In; exact N|exact Inc]. }
             assert (Hy : has y).
             { destruct Fr as [[n Fr]|[t Fr]]; [|exact (Rg _ _ Fr)]. apply in_get in Fr as [m Fr]. exact (Cc _ _ Fr). }
             destruct Hy as [p0 Hy]. exists (push_frame y (now s)), (Run_ (tasks p0 ++ KLeave :: ts)).
             rewrite X. split; [reflexivity|]. rewrite Y, V.
             destruct (It _ eq_refl) as [It1 It2].
             assert (KI := Hk true). rewrite (Nx true) in KI. destruct (K_iter lim _ base (B_base _ _ _ Bs) _ _ _ _ _ KI) as [Ki1 Ki2]. split.
             ++ eapply srcs_one; [exact Si|]. eapply src_enter; eauto. now apply enters_known.
             ++ apply (entered (now s) _ y ts p0 Hy); auto. rewrite Sn. econstructor; [exact Bs|].
                intros b. rewrite <- Ki1, <- Ki2, <- (Nx b). apply Hk.
        * exists s', (next (r_test s')). rewrite X. split; [reflexivity|]. rewrite Y, V.
          destruct (plain_cont i _ _ P Inc Ex) as ((A1 & A2 & A3) & A4). split.
          -- eapply srcs_one; [exact Si|]. eapply src_do; eauto. apply does_silent; [exact Ex|]. rewrite A1. lia.
          -- exists f, rest, base, lim. constructor; auto; try congruence.
             ++ rewrite A2, A3, A4. apply Hk; auto.
             ++ rewrite A1. exact Kn.
      + right; right; right. exists i. split; [rewrite X; symmetry; exact Ex|]. split; [exact Y|].
        assert (Ha : halts E i (now s)) by (unfold halts; now rewrite Ex). split; [exact Ha|].
        exists k1, (now s). split; [exact Si|]. rewrite V. split; [eapply src_halt; eauto|].
        intros s1 e St. rewrite X in St. injection St as -> ->.
        destruct (exec_instr_counts E i (now s) s1 (f_equal state_of Ex)) as (_ & Cs & _).
        destruct Em as (_ & Em2 & _ & _).
        assert (Mv : stays (now s) s1 /\ r_pos s1 = r_pos (now s) - (if asks_function e then 1 else 0)).
        { destruct (is_include i) eqn:Inc.
          - destruct (include_yield i (now s) s1 e Inc Ex) as (-> & n0 & o0 & ->). cbn [asks_function]. unfold stays. repeat split. lia.
          - destruct (plain_event i _ _ _ Caln (or_introl (conj P Inc)) Ex) as (A & A4). split; [exact A|]. rewrite A4.
            destruct (asks_function e); lia. }
        destruct Mv as ((A1 & A2 & A3) & A4).
        intros inp s' Rp Se'. destruct Rp as [NS|(n & y & m & o0 & -> & Ad & Hy & ->)].
        * assert (D : does E i (now s) (negb (asks_function e)) s') by (eapply does_event; eauto).
          destruct (settles_keeps _ _ Se') as ((B1 & B2 & B3) & B4 & B5 & B6).
          destruct (feed_keeps inp s1 NS) as ((D1 & D2 & D3) & D4 & D5 & _).
          assert (F' : fin (r_final s')) by (rewrite B5, D5, Em2; apply pending_fin; exact Fin).
          assert (C' : calm s') by (unfold calm; rewrite B6; reflexivity).
          assert (Cc' : forall n y, In (n, y) (r_cache s') -> has y).
          { rewrite (settles_cache _ _ Se'), (feed_cache _ _ NS), Cs. exact Cc. }
          assert (Kn' : forall g, In g (r_stack s') -> includes g -> registered) by (rewrite B1, D1, A1; exact Kn).
          destruct (asks_function e); cbn [negb] in D.
          -- exists k1. split; [eapply src_wait; eauto|]. exists f, rest, base, lim. constructor; auto; [congruence|].
             rewrite B2, B3, B4, D2, D3, D4, A2, A3, A4. cbn [now w_pos w_instrs r_pos r_iter r_iters].
             replace (r_pos s + 1 - 1) with (r_pos s) by lia. eapply K_head; eauto.
          -- exists (next (r_test s')). split; [eapply src_do; eauto|]. exists f, rest, base, lim. constructor; auto; [congruence|].
             rewrite B2, B3, B4, D2, D3, D4, A2, A3, A4, Nat.sub_0_r. apply Hk.
        * destruct (asks_include i _ _ _ _ Caln Ex) as [Inc ->].
          destruct (Ic Inc) as [ts0 Qk]. subst k1. destruct (head_const _ _ _ H) as [ts Nx].
          destruct Hy as [p0 Hy]. exists (Run_ (tasks p0 ++ KLeave :: ts)). split.
          { eapply src_enter; eauto. eapply enters_given; eauto. }
          assert (KI := Hk true). rewrite (Nx true) in KI. destruct (K_iter lim _ base (B_base _ _ _ Bs) _ _ _ _ _ KI) as [Ki1 Ki2].
          assert (Fd : feed (InScript n y) (now s) = w_test false (push_frame y (w_cache (cache_insert n y (r_cache (now s))) (now s)))).
          { cbn [feed]. destruct Ad as [Ad1 Ad2]. now rewrite (proj2 (Nat.leb_le _ _) Ad1), (proj2 (Nat.leb_le _ _) Ad2). }
          pose proof (settles_cache _ _ Se') as Sc. rewrite Fd in Se', Sc.
          destruct (settles_keeps _ _ Se') as ((B1 & B2 & B3) & B4 & B5 & B6).
          apply (entered (now s) s' y ts p0 Hy).
          -- rewrite B1. reflexivity.
          -- rewrite B4. reflexivity.
          -- rewrite B2. exact Ki1.
          -- rewrite B3. exact Ki2.
          -- unfold calm. rewrite B6. reflexivity.
          -- rewrite B5. exact Fin.
          -- rewrite Sc. intros n' y' I'. cbn in I'. apply in_insert in I' as [-> |I']; [eexists; exact Hy|exact (Cc _ _ I')].
          -- apply (Kn f); [rewrite S; now left|]. exists i. split; [eapply nth_error_In; exact N|exact Inc].
          -- rewrite Sn. econstructor; [exact Bs|]. intros b. rewrite <- Ki1, <- Ki2, <- (Nx b). apply Hk.
      + right; right; right. exists i. split; [rewrite X; symmetry; exact Ex|]. split; [exact Y|].
        assert (Ha : halts E i (now s)) by (unfold halts; now rewrite Ex). split; [exact Ha|].
        exists k1, (now s). split; [exact Si|]. rewrite V. split; [eapply src_halt; eauto|]. rewrite X. discriminate.
      + right; right; right. exists i. split; [rewrite X; symmetry; exact Ex|]. split; [exact Y|].
        assert (Ha : halts E i (now s)) by (unfold halts; now rewrite Ex). split; [exact Ha|].
        exists k1, (now s). split; [exact Si|]. rewrite V. split; [eapply src_halt; eauto|]. rewrite X. discriminate.
      + right; right; right. exists i. split; [rewrite X; symmetry; exact Ex|]. split; [exact Y|].
        assert (Ha : halts E i (now s)) by (unfold halts; now rewrite Ex). split; [exact Ha|].
        exists k1, (now s). split; [exact Si|]. rewrite V. split; [eapply src_halt; eauto|]. rewrite X. discriminate.
    - (* a jump *)
      subst. destruct (step_at f rest s i S N) as [X|[X Y]]; [right; left; exact X|].
      right; right; left. exists (w_pos q (now s)), k1. rewrite X, Y.
      assert (Ex : exec_instr E i (now s) = SCont (w_pos q (now s))).
      { destruct J as [-> | [(z & -> & ->) | (z & -> & ->)]]; cbn [exec_instr]; [reflexivity| |];
          change (r_test (now s)) with (r_test s); destruct (r_test s); destruct s; reflexivity. }
      split; [exact Ex|]. split.
      + replace (visible [(i, now s)]) with (@nil entry) by (destruct J as [-> | [(z & -> & ->) | (z & -> & ->)]]; reflexivity).
        eapply srcs_one; [exact Si|]. apply src_idle. reflexivity.
      + exists f, rest, base, lim; constructor; auto.
    - (* a loop over the parts *)
      subst. destruct (step_at f rest s _ S N) as [X|[X Y]]; [right; left; exact X|].
      assert (Bb : match r_iters (now s) with [] => true | _ => false end = negb (in_for ts)).
      { change (r_iters (now s)) with (r_iters s). rewrite <- Q4. destruct (iters_of ts) eqn:I.
        - apply iters_in_for in I. now rewrite I.
        - destruct (in_for ts) eqn:I'; [reflexivity|]. apply iters_in_for in I'. congruence. }
      cbn [exec_instr] in X. rewrite Bb in X.
      change (parts (now s)) with (parts s) in X. change (r_part (now s)) with (r_part s) in X.
      destruct (nested_ids (parts s) (r_part s) (negb (in_for ts))) as [ids|] eqn:Ni.
      + right; right; left. eexists _, _. split; [exact X|]. rewrite Y. cbn [visible filter is_control fst negb]. split.
        * eapply srcs_one; [exact Si|]. eapply src_for; [reflexivity|exact Ni].
        * destruct (Hk ids (r_part s)) as (env & Tk). exists f, rest, base, lim; constructor; auto.
          eapply K_run; [exact Tk|reflexivity|]. cbn. f_equal; congruence.
      + right; right; right. exists IxForEveryPartPush. split.
        { rewrite X. cbn [exec_instr]. rewrite Bb. change (parts (now s)) with (parts s). change (r_part (now s)) with (r_part s). now rewrite Ni. }
        split; [exact Y|]. split.
        { unfold halts. cbn [exec_instr]. rewrite Bb. change (parts (now s)) with (parts s). change (r_part (now s)) with (r_part s). now rewrite Ni. }
        eexists _, (now s). split; [exact Si|]. split; [|rewrite X; discriminate].
        cbn [visible filter is_control fst negb]. apply src_for_panic; [reflexivity|exact Ni].
    - (* the next part *)
      subst. destruct (step_at f rest s _ S N) as [X|[X Y]]; [right; left; exact X|].
      cbn [exec_instr] in X. change (r_iter (now s)) with (r_iter s) in X. change (r_iters (now s)) with (r_iters s) in X.
      rewrite <- Q4 in X.
      right; right; left. destruct (r_iter s) as [|id ids'] eqn:It.
      + eexists _, _. split; [exact X|]. rewrite Y. cbn [visible filter is_control fst negb]. split.
        * eapply srcs_one; [exact Si|]. apply src_last. reflexivity.
        * exists f, rest, base, lim; constructor; auto. eapply K_run; [exact T1|reflexivity..].
      + eexists _, _. split; [exact X|]. rewrite Y. cbn [visible filter is_control fst negb]. split.
        * eapply srcs_one; [exact Si|]. apply src_next. reflexivity.
        * exists f, rest, base, lim; constructor; auto. eapply K_run; [exact (T2 ids')|now rewrite iter_block|]. rewrite iters_block. cbn. congruence.
    - (* while *)
      subst. destruct (step_at f rest s _ S N) as [X|[X Y]]; [right; left; exact X|].
      assert (Se : sees (Run_ ts) s (now s)).
      { split; [reflexivity|]. change (r_iters (now s)) with (r_iters s). rewrite <- Q4. apply iters_in_for. }
      destruct (eval_expression (E_L E) false (E_fns E (now s)) (vw E (now s)) x (r_epos (now s)) (r_estack (now s)))
        as [v|id args pos stack| | |] eqn:Ev.
      + assert (Ex : exec_instr E (IxWhile x q) (now s) =
                     SCont (if to_bool v then w_estack [] (w_epos 0 (now s)) else w_pos q (w_estack [] (w_epos 0 (now s))))).
        { cbn [exec_instr]. unfold with_value. now rewrite Ev. }
        rewrite Ex in X. right; right; left. eexists _, _. split; [exact X|]. rewrite Y. cbn [visible filter is_control fst negb]. split.
        * eapply srcs_one; [exact Si|]. eapply src_loop; [exact Se|exact Ev|]. destruct (to_bool v); reflexivity.
        * destruct (to_bool v); exists f, rest, base, lim; constructor; auto.
          -- eapply K_run; [exact T2|rewrite iter_block; cbn; congruence|rewrite iters_block; cbn; congruence].
          -- eapply K_run; [exact T1|cbn; congruence|cbn; congruence].
      + (* it asks the host *)
        right; right; right. exists (IxWhile x q). rewrite X.
        assert (Ex : exec_instr E (IxWhile x q) (now s) =
                     SYield (w_pos (r_pos (now s) - 1) (w_estack stack (w_epos pos (now s)))) (OEvent (EFunction id args))).
        { cbn [exec_instr]. unfold with_value. now rewrite Ev. }
        assert (Ha : halts E (IxWhile x q) (now s)) by (unfold halts; now rewrite Ex).
        split; [reflexivity|]. split; [exact Y|]. split; [exact Ha|].
        eexists _, (now s). split; [exact Si|]. cbn [visible filter is_control fst negb].
        split; [eapply src_loop_halt; eauto|].
        intros s1 e St. rewrite X, Ex in St. injection St as <- <-. intros inp s' Rp Se'.
        destruct Rp as [NS|(n0 & y0 & m0 & o0 & _ & _ & _ & Qe)]; [|discriminate Qe].
        assert (D : does E (IxWhile x q) (now s) false s').
        { change false with (negb (asks_function (EFunction id args))). eapply does_event; eauto. }
        destruct (settles_keeps _ _ Se') as ((B1 & B2 & B3) & B4 & B5 & B6).
        match type of Se' with settles (feed _ ?s1) _ => destruct (feed_keeps inp s1 NS) as ((D1 & D2 & D3) & D4 & D5 & _) end.
        cbn [now w_pos w_instrs w_estack w_epos r_pos r_iter r_iters r_stack r_final] in D1, D2, D3, D4, D5.
        eexists. split; [eapply src_loop_wait; eauto|]. exists f, rest, base, lim; constructor; auto.
        * congruence.
        * rewrite B2, B3, B4, D2, D3, D4. replace (r_pos s + 1 - 1) with (r_pos s) by lia.
          eapply K_run; [exact T3|cbn; congruence|cbn; congruence].
        * unfold calm. rewrite B6. reflexivity.
        * rewrite B5, D5. exact Fi.
        * rewrite (settles_cache _ _ Se'), (feed_cache _ _ NS). exact Cc.
        * rewrite B1, D1. exact Kn.
      + right; right; right. exists (IxWhile x q). rewrite X.
        assert (Ex : exec_instr E (IxWhile x q) (now s) = SPanic) by (cbn [exec_instr]; unfold with_value; now rewrite Ev).
        assert (Ha : halts E (IxWhile x q) (now s)) by (unfold halts; now rewrite Ex).
        split; [reflexivity|]. split; [exact Y|]. split; [exact Ha|].
        eexists _, (now s). split; [exact Si|]. cbn [visible filter is_control fst negb].
        split; [eapply src_loop_halt; eauto|]. intros s1 e St. rewrite X, Ex in St. discriminate.
      + right; right; right. exists (IxWhile x q). rewrite X.
        assert (Ex : exec_instr E (IxWhile x q) (now s) = SPanic) by (cbn [exec_instr]; unfold with_value; now rewrite Ev).
        assert (Ha : halts E (IxWhile x q) (now s)) by (unfold halts; now rewrite Ex).
        split; [reflexivity|]. split; [exact Y|]. split; [exact Ha|].
        eexists _, (now s). split; [exact Si|]. cbn [visible filter is_control fst negb].
        split; [eapply src_loop_halt; eauto|]. intros s1 e St. rewrite X, Ex in St. discriminate.
      + right; right; right. exists (IxWhile x q). rewrite X.
        assert (Ex : exec_instr E (IxWhile x q) (now s) = SPanic) by (cbn [exec_instr]; unfold with_value; now rewrite Ev).
        assert (Ha : halts E (IxWhile x q) (now s)) by (unfold halts; now rewrite Ex).
        split; [reflexivity|]. split; [exact Y|]. split; [exact Ha|].
        eexists _, (now s). split; [exact Si|]. cbn [visible filter is_control fst negb].
        split; [eapply src_loop_halt; eauto|]. intros s1 e St. rewrite X, Ex in St. discriminate.
    - (* leaving loops *)
      subst. destruct (step_at f rest s _ S N) as [X|[X Y]]; [right; left; exact X|].
      right; right; left. cbn [exec_instr] in X. rewrite (Po (now s) eq_refl eq_refl) in X.
      eexists _, _. split; [exact X|]. rewrite Y. cbn [visible filter is_control fst negb]. split.
      + eapply srcs_one; [exact Si|]. apply Sr. reflexivity.
      + exists f, rest, base, lim; constructor; auto.
  Qed.
End Turn.
