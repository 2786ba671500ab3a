(** Proofs about the reports of envelope changes. *)
From Coq Require Import Lia.
From Verif Require Import Base Lib Address Var Value SetVar Flags Comparator Message EditHeader Expr Event
  Notify Vacation Mime Sieve Run RunSpec RunProofs ReportSpec.

Lemma reports_app a b : reports (a ++ b) = reports a ++ reports b.
Proof. apply flat_map_app. Qed.

Section R.
  Variable E : renv.
  Hypothesis SC : forall n x, E_scripts E n = Some x -> all_at_once x.

  Notation env s := (c_envelope (r_vars s)).
  Definition apply_changes (l : list (envk * text)) (e : list (envk * var)) : list (envk * var) :=
    fold_left (fun e x => env_update (fst x) (VStr (snd x)) e) l e.

  Definition plain (e : option event) : Prop := match e with Some (ESetEnvelope _ _) => False | _ => True end.
  Definition st_ok (s : rst) : Prop :=
    Forall (fun f => all_at_once (f_script f)) (r_stack s) /\ Forall (fun x => all_at_once (snd x)) (r_cache s) /\
    plain (r_final s).
  Definition out_events (o : out) : list event := match o with OEvent e => [e] | OError _ => [] end.

  Definition step_ok (chg : list (envk * text)) (s : rst) (r : sres) : Prop :=
    match r with
    | SCont s' => r_queue s' = [] /\ chg = [] /\ env s' = env s /\ st_ok s'
    | SYield s' o => reports (out_events o) = chg /\ reports (r_queue s') = [] /\ env s' = apply_changes chg (env s) /\ st_ok s'
    | SEnd s' | SNone s' => r_queue s' = [] /\ chg = [] /\ env s' = env s /\ st_ok s'
    | SPanic => True
    end.

  Lemma build_ok s : let r := build_message_id E s in
    env (fst r) = env s /\ r_queue (fst r) = r_queue s /\ r_stack (fst r) = r_stack s /\ r_cache (fst r) = r_cache s /\
    r_final (fst r) = r_final s /\ match snd r with Some (ECreated _ _) | None => True | _ => False end.
  Proof. cbv zeta. unfold build_message_id. destruct (ms_changed (r_msg s)); cbn; auto 10. Qed.
  Lemma finish_ok s : r_queue s = [] -> st_ok s ->
    reports (r_queue (finish_loop E s)) = [] /\ env (finish_loop E s) = env s /\ st_ok (finish_loop E s).
  Proof.
    intros Q (_ & SK & F). unfold finish_loop. cbv zeta. change (r_final (w_stack [] s)) with (r_final s).
    destruct (r_final s) as [e|] eqn:EF.
    2: { cbn. rewrite Q. split; [reflexivity|]. split; [reflexivity|]. split; [apply Forall_nil|split; [exact SK|]].
         cbn. rewrite EF. exact Logic.I. }
    destruct e; try contradiction;
      try (cbn; split; [reflexivity|]; split; [reflexivity|]; split; [apply Forall_nil|split; [exact SK|exact Logic.I]]).
    pose proof (build_ok (w_final None (w_stack [] s))) as B. cbv zeta in B.
    destruct (build_message_id E (w_final None (w_stack [] s))) as [s2 [c|]]; cbn [fst snd] in B;
      destruct B as (B1 & B2 & B3 & B4 & B5 & B6).
    - destruct c; try contradiction. cbn. split; [reflexivity|]. split; [exact B1|]. unfold st_ok. cbn. rewrite B3, B4, B5.
      split; [apply Forall_nil|split; [exact SK|exact Logic.I]].
    - cbn. split; [reflexivity|]. split; [exact B1|]. unfold st_ok. cbn. rewrite B3, B4, B5.
      split; [apply Forall_nil|split; [exact SK|exact Logic.I]].
  Qed.

  Lemma take_ok s0 s : reports (r_queue s) = [] -> env s = env s0 -> st_ok s -> step_ok [] s0 (take_queue s).
  Proof.
    intros Q A S. unfold take_queue. destruct (r_queue s) as [|e q] eqn:EQ.
    - cbn. rewrite EQ. auto.
    - cbn [step_ok]. cbn [r_queue w_queue out_events app]. change (e :: q) with ([e] ++ q) in Q.
      rewrite reports_app in Q. apply app_eq_nil in Q as [Q1 Q2]. auto.
  Qed.
  Lemma take_one chg s0 s e : r_queue s = [e] -> reports [e] = chg ->
    env s = apply_changes chg (env s0) -> st_ok s -> step_ok chg s0 (take_queue s).
  Proof. intros EQ R A S. unfold take_queue. rewrite EQ. cbn [step_ok r_queue w_queue out_events]. auto. Qed.
  Lemma fail_ok s0 s e : r_queue s = [] -> env s = env s0 -> st_ok s -> step_ok [] s0 (fail E s e).
  Proof.
    intros Q A S. destruct (finish_ok s Q S) as (X & Y & Z). unfold fail. cbn [step_ok out_events app].
    split; [reflexivity|]. split; [exact X|]. split; [rewrite Y, A; reflexivity|exact Z].
  Qed.
  Lemma test_ok s t b s' : exec_test E s t = XBool b s' -> r_queue s' = r_queue s /\ env s' = env s /\ (st_ok s -> st_ok s').
  Proof.
    assert (OT : forall neg r, of_tres s neg r = XBool b s' -> r_queue s' = r_queue s /\ env s' = env s /\ (st_ok s -> st_ok s')).
    { intros neg [[| |]|] X; try discriminate. injection X as <- <-. cbn. auto. }
    assert (OB : forall r, of_bool s r = XBool b s' -> r_queue s' = r_queue s /\ env s' = env s /\ (st_ok s -> st_ok s')).
    { intros [|] X; try discriminate. injection X as <- <-. auto. }
    assert (OS : forall x, XBool x s = XBool b s' -> r_queue s' = r_queue s /\ env s' = env s /\ (st_ok s -> st_ok s')).
    { intros x X. injection X as _ <-. auto. }
    intro X. destruct t; cbn [exec_test] in X; try discriminate X; try (apply OS in X; exact X);
      try (apply OT in X; exact X); try (apply OB in X; exact X).
    - destruct (if subject then _ else _) as [|[] y] in X; [discriminate|apply OS in X; exact X|].
      destruct bt; try (apply OT in X; exact X). destruct (ct_filters _ _ _); [apply OT in X|apply OS in X]; exact X.
    - destruct (duplicate_id _ _ _) as [[|]|]; try discriminate X. apply OS in X. exact X.
    - destruct (_ && _); [|apply OS in X; exact X].
      destruct m; try (apply OS in X; exact X);
        destruct (first_key _ _ _ _ _ _ _); try discriminate X; apply OS in X; exact X.
    - destruct (convert _ _ _ _) as [[d m]|]; [|discriminate]. injection X as _ <-. cbn. auto.
    - destruct (parts s); [discriminate|]. destruct (vacation_test _ _ _ _); try discriminate X. apply OS in X. exact X.
  Qed.
  Lemma cache_get_ok n : forall l x, Forall (fun p => all_at_once (snd p)) l -> cache_get n l = Some x -> all_at_once x.
  Proof.
    induction l as [|[k y] l IH]; intros x F G; cbn [cache_get] in G; [discriminate|].
    apply Forall_cons_iff in F as [F1 F2]. destruct (script_name_eqb n k); [injection G as <-; exact F1|apply IH; assumption].
  Qed.
  Lemma pop_parts_ok n : forall s, r_queue (pop_parts n s) = r_queue s /\ env (pop_parts n s) = env s /\
    (st_ok s -> st_ok (pop_parts n s)).
  Proof.
    induction n as [|n IH]; intro s; cbn [pop_parts]; [auto|]. destruct (r_iters s) as [|[p it] rest]; [auto|].
    destruct (IH (w_part p (w_iter it (w_iters rest s)))) as (A & B & C). split; [exact A|]. split; [exact B|].
    intro S. apply C. exact S.
  Qed.
  (** Assigning something else than an envelope item reports nothing. *)
  Lemma set_var_ok max c n v : (forall k, n <> TEnvelope k) ->
    snd (set_variable (E_L E) max c n v) = None /\ c_envelope (fst (set_variable (E_L E) max c n v)) = c_envelope c.
  Proof. intro H. destruct n; cbn; auto. exfalso. apply (H e). reflexivity. Qed.

  Lemma ask_ok s t e neg : exec_test E s t = XAsk e neg -> reports [e] = [].
  Proof.
    assert (OT : forall n r, of_tres s n r = XAsk e neg -> reports [e] = []).
    { intros n [[| |]|] X; try discriminate. injection X as <- <-. reflexivity. }
    assert (OB : forall r, of_bool s r = XAsk e neg -> reports [e] = []) by (intros [|] X; discriminate).
    intro X. destruct t; cbn [exec_test] in X; try discriminate X; try (apply OT in X; exact X); try (apply OB in X; exact X);
      try (injection X as <- <-; reflexivity).
    - destruct (if subject then _ else _) as [|[] y] in X; [discriminate|discriminate|].
      destruct bt; try (apply OT in X; exact X). destruct (ct_filters _ _ _); [apply OT in X; exact X|discriminate].
    - destruct (duplicate_id _ _ _) as [[|]|]; try discriminate X. injection X as <- <-. reflexivity.
    - destruct (_ && _); [|discriminate X]. destruct m; try discriminate X; destruct (first_key _ _ _ _ _ _ _); discriminate X.
    - destruct (convert _ _ _ _) as [[d m]|]; discriminate.
    - destruct (parts s); [discriminate|]. destruct (vacation_test _ _ _ _); try discriminate X. injection X as <- <-. reflexivity.
  Qed.
  Lemma notify_ok e a evs last out : exec_notify (E_M E) (E_utf8 E) e a = Some (evs, last, out) -> reports evs = [].
  Proof.
    unfold exec_notify. destruct (existsb _ _); [discriminate|]. destruct (parse_uri _) as [[scheme rest]|]; [|discriminate].
    cbv zeta. destruct (_ && _).
    - destruct (parse_mailto _ _) as [p|]; [|discriminate]. intro X. injection X as <- _ _.
      destruct (n_fcc a) as [[[[[f fl] mid] su] cr]|]; reflexivity.
    - destruct (n_fcc a) as [[[[[f fl] mid] su] cr]|]; intro X; injection X as <- _ _; reflexivity.
  Qed.
  Lemma vacation_ok raw ha e a : reports (fst (fst (exec_vacation (E_L E) raw ha e a))) = [].
  Proof. unfold exec_vacation. cbv zeta. cbn [fst]. destruct (va_fcc a) as [[[[[f fl] mid] su] cr]|]; reflexivity. Qed.

  Lemma value_ok s code k : r_queue s = [] -> st_ok s ->
    (forall v s', r_queue s' = [] -> env s' = env s -> st_ok s' -> step_ok [] s (k v s')) ->
    step_ok [] s (with_value E code s k).
  Proof.
    intros Q S K. unfold with_value. destruct (eval_expression _ _ _ _ _ _ _); try exact Logic.I.
    - apply K; [exact Q|reflexivity|exact S].
    - cbn [step_ok out_events]. change (r_queue _) with (r_queue s). rewrite Q. auto.
  Qed.
  Lemma edit_ok m s0 s : r_queue s = [] -> env s = env s0 -> st_ok s -> step_ok [] s0 (edit_msg m s).
  Proof. intros Q A S. destruct m as [m|]; [|exact Logic.I]. cbn. auto. Qed.

  Ltac done_ok Q S := split; [exact Q|split; [reflexivity|split; [reflexivity|exact S]]].

  Lemma instr_ok i s : at_once i -> r_queue s = [] -> st_ok s ->
    step_ok (changed_item E (i, s)) s (exec_instr E i s).
  Proof.
    intros C Q S. pose proof S as (S1 & S2 & S3).
    destruct i; cbn [exec_instr changed_item at_once] in *.
    all: try (done_ok Q S).
    all: try (apply fail_ok; [exact Q|reflexivity|exact S]).
    all: try (apply edit_ok; [exact Q|reflexivity|exact S]).
    - destruct (find _ caps) as [[]|]; first [apply fail_ok; [exact Q|reflexivity|exact S]|done_ok Q S].
    - pose proof (build_ok s) as B. cbv zeta in B. destruct (build_message_id E s) as [s1 [e|]]; cbn [fst snd] in B;
        destruct B as (B1 & B2 & B3 & B4 & B5 & B6).
      + destruct e; try contradiction. cbn. rewrite B2, Q. split; [reflexivity|]. split; [reflexivity|]. split; [exact B1|].
        unfold st_ok. cbn. rewrite B3, B4. auto.
      + cbn. rewrite B2. split; [exact Q|]. split; [reflexivity|]. split; [exact B1|]. unfold st_ok. cbn. rewrite B3, B4. auto.
    - unfold exec_fileinto. cbv zeta. pose proof (build_ok s) as B. cbv zeta in B.
      destruct (build_message_id E s) as [s1 created]; cbn [fst snd] in B; destruct B as (B1 & B2 & B3 & B4 & B5 & B6).
      set (s2 := if copy then s1 else _).
      assert (X : env s2 = env s1 /\ st_ok s2).
      { unfold s2, st_ok. destruct copy; [rewrite B3, B4, B5; auto|]. destruct (r_final s1) as [e|] eqn:EF.
        - destruct e; cbn; rewrite ?B3, ?B4; auto. destruct flags0; cbn; rewrite ?B3, ?B4; auto. rewrite EF. cbn. auto.
        - cbn. rewrite B3, B4. auto. }
      destruct X as [X1 X2]. clearbody s2. apply take_ok.
      + cbn [r_queue w_queue]. destruct created as [e|]; [destruct e; try contradiction|]; reflexivity.
      + cbn. congruence.
      + exact X2.
    - unfold exec_redirect.
      assert (TK : step_ok [] s (take_queue s)).
      { apply take_ok; [rewrite Q; reflexivity|reflexivity|exact S]. }
      destruct (sanitize_address _) as [a|]; [|exact TK]. destruct (_ && _); [|exact TK].
      destruct (parts s) as [|root ps]; [exact Logic.I|]. destruct (Nat.ltb _ _); [|exact TK].
      destruct (_ && _); [exact TK|]. cbv zeta. set (s1 := if copy then s else _).
      assert (X : env s1 = env s /\ st_ok s1).
      { unfold s1, st_ok. destruct copy; [auto|]. destruct (r_final s) as [e|] eqn:EF; [destruct e; cbn|]; rewrite ?EF; cbn; auto. }
      destruct X as [X1 X2]. clearbody s1. pose proof (build_ok s1) as B. cbv zeta in B.
      destruct (build_message_id E s1) as [s2 created]; cbn [fst snd] in B; destruct B as (B1 & B2 & B3 & B4 & B5 & B6).
      apply take_ok.
      + cbn [r_queue w_queue]. destruct created as [e|]; [destruct e; try contradiction|]; reflexivity.
      + cbn. congruence.
      + unfold st_ok. cbn. rewrite B3, B4, B5. exact X2.
    - cbn. split; [exact Q|]. split; [reflexivity|]. split; [reflexivity|]. unfold st_ok. cbn. auto.
    - cbn. split; [exact Q|]. split; [reflexivity|]. split; [reflexivity|]. unfold st_ok. cbn. auto.
    - cbn. rewrite Q. split; [reflexivity|]. split; [reflexivity|]. split; [reflexivity|]. unfold st_ok. cbn. auto.
    - cbn. destruct (r_test s); done_ok Q S.
    - cbn. destruct (r_test s); done_ok Q S.
    - destruct (exec_test E s t) as [|b s'|e neg|e] eqn:ET.
      + exact Logic.I.
      + destruct (test_ok s t b s' ET) as (X & Y & Z). cbn. rewrite X. split; [exact Q|]. split; [reflexivity|].
        split; [exact Y|]. apply Z, S.
      + cbn [step_ok out_events]. change (r_queue _) with (r_queue s). rewrite Q.
        split; [exact (ask_ok s t e neg ET)|]. auto.
      + apply fail_ok; [exact Q|reflexivity|exact S].
    - apply value_ok; [exact Q|exact S|]. intros v s' Q' A' S'. cbn. auto.
    - destruct (r_iter s); [destruct (r_iters s) as [|[p it] rest]|]; done_ok Q S.
    - destruct (nested_ids _ _ _); [|exact Logic.I]. done_ok Q S.
    - cbn. destruct (pop_parts_ok n s) as (X & Y & Z). rewrite X. auto.
    - apply value_ok; [exact Q|exact S|]. intros v s' Q' A' S'. cbn. destruct (to_bool v); auto.
    - apply value_ok; [exact Q|exact S|]. intros v s' Q' A' S'. cbn [step_ok].
      destruct (set_var_ok (E_max_var E) (r_vars s') name v) as [X Y]; [intros k ->; exact C|].
      unfold assign. rewrite X. cbn. rewrite Y. auto.
    - set (t := extract_text _ _ _ _ _ _ _ _ _). clearbody t.
      assert (LM : limit (E_L E) (v_len (VStr t)) (VStr t) = VStr t).
      { unfold limit. rewrite Nat.ltb_irrefl. reflexivity. }
      destruct name; try (apply take_ok; [cbn; rewrite Q; reflexivity|reflexivity|exact S]).
      unfold set_variable. rewrite LM. eapply take_one; [reflexivity|reflexivity|reflexivity|exact S].
    - destruct (convert _ _ _ _) as [[d m]|]; [|exact Logic.I]. done_ok Q S.
    - unfold exec_set. set (x := apply_mods _ _ _ _ _). clearbody x.
      destruct name; try (apply take_ok; [cbn; rewrite Q; reflexivity|reflexivity|exact S]).
      eapply take_one; [reflexivity|reflexivity|reflexivity|exact S].
    - destruct (parts s) as [|root ps]; [exact Logic.I|].
      match goal with |- context [exec_notify ?a ?b ?c ?d] => pose proof (notify_ok c d) as X; destruct (exec_notify a b c d) as [[[evs last] out]|] end.
      + specialize (X _ _ _ eq_refl). apply take_ok; [exact X|reflexivity|exact S].
      + apply take_ok; [rewrite Q; reflexivity|reflexivity|exact S].
    - destruct (parts s) as [|root ps]; [exact Logic.I|].
      match goal with |- context [exec_vacation ?a ?b ?c ?d ?e] => pose proof (vacation_ok b c d e) as X; destruct (exec_vacation a b c d e) as [[evs last] out] end.
      cbn [fst] in X. apply take_ok; [exact X|reflexivity|exact S].
    - cbn [step_ok]. unfold exec_flags.
      match goal with |- context [set_variable ?l ?m ?c ?n ?v] => destruct (set_var_ok m c n v) as [X Y] end.
      { destruct name as [n|]; [|unfold default_flags; discriminate]. intros k ->. exact C. }
      unfold assign. cbv zeta. rewrite X. cbn. rewrite Y. auto.
    - unfold exec_include. cbv zeta. destruct (v_is_empty _); [done_ok Q S|].
      match goal with |- context [if ?b then _ else _] => destruct b end; [|done_ok Q S].
      destruct (Nat.ltb _ _); [|apply fail_ok; [exact Q|reflexivity|exact S]].
      assert (P : forall x, all_at_once x -> step_ok [] s (SCont (push_frame x s))).
      { intros x X. cbn. split; [exact Q|]. split; [reflexivity|]. split; [reflexivity|]. unfold st_ok. cbn.
        split; [apply Forall_cons; [exact X|exact S1]|auto]. }
      match goal with |- context [cache_get ?n ?c] => pose proof (cache_get_ok n c) as CG; destruct (cache_get n c) as [x|] end.
      + cbn [opt_or]. apply P, CG; [exact S2|reflexivity].
      + cbn [opt_or]. destruct (E_scripts E _) as [x|] eqn:EX; [apply P; eapply SC; exact EX|].
        cbn. rewrite Q. auto.
    - unfold pop_frame. destruct (r_stack s) as [|f rest] eqn:ES; [done_ok Q S|].
      apply Forall_cons_iff in S1 as [_ S1].
      destruct rest; cbn; (split; [exact Q|]; split; [reflexivity|]; split; [reflexivity|]; unfold st_ok; cbn; auto).
  Qed.

  Definition changes (l : list entry) : list (envk * text) := flat_map (changed_item E) l.
  Lemma step_report s : r_queue s = [] -> st_ok s -> step_ok (changes (executed E s)) s (step E s).
  Proof.
    intros Q S. unfold step. destruct (r_stack s) as [|f rest] eqn:ES.
    { unfold executed, next_instr. rewrite ES. done_ok Q S. }
    pose proof S as (S1 & S2 & S3). rewrite ES in S1. apply Forall_cons_iff in S1 as [S0 S1].
    destruct (Nat.ltb _ (r_pos s)) eqn:LT.
    { assert (NI : next_instr s = None).
      { unfold next_instr. rewrite ES. apply nth_error_None. apply Nat.ltb_lt in LT. lia. }
      unfold executed. rewrite NI. done_ok Q S. }
    unfold executed. destruct (next_instr s) as [i|] eqn:EN.
    2: { unfold pop_frame. rewrite ES. destruct rest; cbn;
           (split; [exact Q|]; split; [reflexivity|]; split; [reflexivity|]; unfold st_ok; cbn; auto). }
    cbv zeta. change (r_instrs (w_instrs (r_instrs s + 1) s)) with (r_instrs s + 1).
    destruct (Nat.ltb (E_cpu E) (r_instrs s + 1)) eqn:LC.
    - rewrite (proj2 (Nat.leb_gt _ _)) by (apply Nat.ltb_lt in LC; lia).
      apply fail_ok; [exact Q|reflexivity|exact S].
    - rewrite (proj2 (Nat.leb_le _ _)) by (apply Nat.ltb_ge in LC; lia).
      unfold changes. cbn [flat_map]. rewrite app_nil_r.
      pose proof (instr_ok i (w_pos (r_pos s + 1) (w_instrs (r_instrs s + 1) s))) as X. apply X; [|exact Q|exact S].
      unfold next_instr in EN. rewrite ES in EN. apply nth_error_In in EN. unfold all_at_once in S0.
      rewrite Forall_forall in S0. apply S0, EN.
  Qed.
  Lemma finale_ok s : r_queue s = [] -> st_ok s -> let r := finale E s in
    reports (events_of [snd r]) = [] /\ reports (r_queue (fst r)) = [] /\ env (fst r) = env s /\ st_ok (fst r).
  Proof.
    intros Q S. cbv zeta. pose proof S as (S1 & S2 & S3). unfold finale. destruct (r_final s) as [e|] eqn:EF.
    2: { cbn. rewrite Q. auto. }
    destruct e; try contradiction; try (cbn; rewrite Q; unfold st_ok; cbn; auto 10).
    pose proof (build_ok (w_final None s)) as B. cbv zeta in *.
    destruct (build_message_id E (w_final None s)) as [s2 [c|]]; cbn [fst snd] in B; destruct B as (B1 & B2 & B3 & B4 & B5 & B6).
    - destruct c; try contradiction. cbn. split; [reflexivity|]. split; [reflexivity|]. split; [exact B1|]. unfold st_ok. cbn. rewrite B3, B4, B5. cbn. auto.
    - cbn. rewrite B2. cbn. rewrite Q. split; [reflexivity|]. split; [reflexivity|]. split; [exact B1|]. unfold st_ok. rewrite B3, B4, B5. cbn. auto.
  Qed.

  Definition ret_ok (chg : list (envk * text)) (s : rst) (r : rres) : Prop :=
    match r with
    | RRet s' o => reports (events_of [o]) = chg /\ reports (r_queue s') = [] /\ env s' = apply_changes chg (env s) /\ st_ok s'
    | _ => True
    end.
  Lemma loop_ok fuel : forall s, r_queue s = [] -> st_ok s ->
    ret_ok (changes (g_log (loop_log E fuel s))) s (loop E fuel s).
  Proof.
    induction fuel as [|f IH]; intros s Q S; cbn [loop loop_log]; [exact Logic.I|].
    pose proof (step_report s Q S) as X. destruct (step E s) as [s'|s' o|s'|s'|]; cbn [step_ok] in X.
    - destruct X as (A & B & C & D). unfold changes, join. cbn [g_log turn]. rewrite flat_map_app.
      fold (changes (executed E s)). rewrite B. cbn [app]. specialize (IH s' A D). unfold ret_ok in *. fold (changes (g_log (loop_log E f s'))).
      rewrite C in IH. exact IH.
    - unfold ret_ok. cbn [turn g_log]. destruct X as (A & B & C & D). split; [|auto]. rewrite <- A. destruct o; reflexivity.
    - destruct X as (A & B & C & D). pose proof (finale_ok s' A D) as F. cbv zeta in F. destruct (finale E s') as [s2 o].
      cbn [fst snd] in F. destruct F as (F1 & F2 & F3 & F4). unfold ret_ok. cbn [turn g_log]. rewrite B, F1, F2, F3, C. auto.
    - destruct X as (A & B & C & D). unfold ret_ok. cbn [turn g_log]. rewrite B, C, A. auto.
    - exact Logic.I.
  Qed.

  Lemma run_ok i s : (forall x, In x (input_script i) -> all_at_once x) -> st_ok s -> reports (r_queue s) = [] ->
    match run E i s with
    | RRet s' o => exists chg, chg = changes (g_log (run_log E i s)) /\
        reports (events_of [o]) = chg /\ reports (r_queue s') = [] /\
        env s' = apply_changes chg (env s) /\ st_ok s'
    | _ => True
    end.
  Proof.
    intros C S RQ.
    assert (FS : r_queue (feed i s) = r_queue s /\ env (feed i s) = env s /\ st_ok (feed i s)).
    { destruct i as [| |v|n x]; cbn [feed]; auto. destruct (_ && _); [|auto]. cbn. split; [reflexivity|]. split; [reflexivity|].
      pose proof S as (S1 & S2 & S3). assert (X : all_at_once x) by (apply C; left; reflexivity). unfold st_ok. cbn.
      split; [apply Forall_cons; assumption|]. split; [|exact S3].
      clear - S2 X. induction (r_cache s) as [|[k y] l IH]; cbn [cache_insert]; [apply Forall_cons; [exact X|apply Forall_nil]|].
      apply Forall_cons_iff in S2 as [F1 F2]. destruct (script_name_eqb n k); apply Forall_cons; auto. }
    destruct FS as (F1 & F2 & F3). unfold run, run_log. cbv zeta. destruct (r_queue (feed i s)) as [|e q] eqn:EQ.
    - destruct (r_stack (feed i s)) as [|fr rest] eqn:ES.
      + exists []. split; [reflexivity|]. rewrite EQ. cbn. auto.
      + pose proof (loop_ok (enough E (feed i s)) (feed i s) EQ F3) as X. unfold ret_ok in X.
        destruct (loop E _ _) as [s' o| |]; try exact Logic.I. destruct X as (A & B & D & D').
        eexists. split; [reflexivity|]. rewrite <- F2. auto.
    - exists []. split; [reflexivity|]. rewrite <- F1 in RQ. change (e :: q) with ([e] ++ q) in RQ.
      rewrite reports_app in RQ. apply app_eq_nil in RQ as [R1 R2]. cbn [r_queue w_queue]. auto.
  Qed.

  Lemma apply_app a b e : apply_changes (a ++ b) e = apply_changes b (apply_changes a e).
  Proof. apply fold_left_app. Qed.
  Lemma events_cons o l : events_of (o :: l) = events_of [o] ++ events_of l.
  Proof. unfold events_of. cbn [flat_map]. rewrite app_nil_r. reflexivity. Qed.
  Lemma converse_ok inputs : forall s outs s', (forall i x, In i inputs -> In x (input_script i) -> all_at_once x) -> st_ok s ->
    reports (r_queue s) = [] -> converse_run E inputs s = Some (outs, s') ->
    let chg := changes (g_log (log_of E inputs s)) in
    reports (events_of outs) = chg /\ env s' = apply_changes chg (env s).
  Proof.
    induction inputs as [|i inputs IH]; intros s outs s' C S RQ H; cbn [converse_run] in H; cbv zeta.
    - injection H as <- <-. cbn. auto.
    - pose proof (run_ok i s (fun x => C i x (or_introl eq_refl)) S RQ) as X. cbn [log_of].
      destruct (run E i s) as [s1 o| |]; try discriminate.
      destruct (converse_run E inputs s1) as [[outs1 s2]|] eqn:EC; [|discriminate]. cbn [option_map fst snd] in H.
      injection H as <- <-. destruct X as (chg & EG & R & R2 & V & S1).
      destruct (IH s1 outs1 s2 (fun j x I => C j x (or_intror I)) S1 R2 EC) as [A B].
      cbn [join g_log]. unfold changes. rewrite flat_map_app. fold (changes (g_log (run_log E i s))).
      fold (changes (g_log (log_of E inputs s1))). rewrite <- EG. split.
      + rewrite events_cons, reports_app, A, R. reflexivity.
      + rewrite apply_app, B, V. reflexivity.
  Qed.
End R.

Lemma envk_eqb_iff a b : envk_eqb a b = true <-> a = b.
Proof. destruct a, b; cbn; split; congruence. Qed.
Lemma lookup_update k v : forall l k', envlookup k' (env_update k v l) = if envk_eqb k k' then Some v else envlookup k' l.
Proof.
  induction l as [|[a b] l IH]; intro k'; cbn [env_update envlookup].
  - destruct (envk_eqb k k') eqn:E1, (envk_eqb k' k) eqn:E2; try reflexivity;
      try (apply envk_eqb_iff in E1); try (apply envk_eqb_iff in E2); subst; try (rewrite (proj2 (envk_eqb_iff _ _) eq_refl) in *); congruence.
  - destruct (envk_eqb a k) eqn:EA; cbn [envlookup].
    + apply envk_eqb_iff in EA. subst a. destruct (envk_eqb k k') eqn:E1, (envk_eqb k' k) eqn:E2; try reflexivity;
      try (apply envk_eqb_iff in E1); try (apply envk_eqb_iff in E2); subst; try (rewrite (proj2 (envk_eqb_iff _ _) eq_refl) in *); congruence.
    + rewrite IH. destruct (envk_eqb k' a) eqn:E1; [|reflexivity]. apply envk_eqb_iff in E1. subst a.
      destruct (envk_eqb k k') eqn:E2; [|reflexivity]. apply envk_eqb_iff in E2. subst. rewrite (proj2 (envk_eqb_iff _ _) eq_refl) in EA. discriminate.
Qed.
Lemma lookup_changes k : forall l e, envlookup k (apply_changes l e) =
  match latest k l with Some t => Some (VStr t) | None => envlookup k e end.
Proof.
  induction l as [|[a t] l IH]; intro e; [reflexivity|]. cbn [apply_changes fold_left fst snd].
  fold (apply_changes l (env_update a (VStr t) e)). rewrite IH. cbn [latest]. destruct (latest k l); [reflexivity|].
  rewrite lookup_update. destruct (envk_eqb a k); reflexivity.
Qed.

Lemma set_reported E : (forall n x, E_scripts E n = Some x -> all_at_once x) ->
  forall m size c inputs outs s', (forall n x, In (InScript n x) inputs -> all_at_once x) ->
  converse_run E inputs (initial m size c) = Some (outs, s') ->
  reports (events_of outs) = flat_map (changed_item E) (g_log (log_of E inputs (initial m size c))) /\
  forall k, envlookup k (c_envelope (r_vars s')) =
    match latest k (reports (events_of outs)) with Some t => Some (VStr t) | None => envlookup k (c_envelope c) end.
Proof.
  intros SC m size c inputs outs s' C H.
  destruct (converse_ok E SC inputs (initial m size c) outs s') as [A B].
  - intros [| |v|n x] y I J; cbn in J; try contradiction. destruct J as [<-|[]]. exact (C n x I).
  - split; [apply Forall_nil|]. split; [apply Forall_nil|exact Logic.I].
  - reflexivity.
  - exact H.
  - split; [exact A|].
    intro k. rewrite B, lookup_changes, A. reflexivity.
Qed.
