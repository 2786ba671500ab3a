(** Runs of calm scripts never panic. *)
From Coq Require Import Lia.
From Verif Require Import Base Lib Glob GlobSpec Address Var Value SetVar Flags Comparator Message MessageSpec
  MessageProofs MessageProofs2 EditHeader EditHeaderSpec AddrTest Spam Expr ExprProofs Event Notify Vacation Mime
  Sieve Run RunProofs CalmSpec CalmProofs CalmProofs2.

Section R.
  Variable E : renv.
  Variable loops : bool.
  Hypothesis NE : forall c, chr_lower (E_L E) c <> [].
  Hypothesis SC : forall n x, E_scripts E n = Some x -> calm loops x.

  (** What every state of such a run satisfies. *)
  Definition ids_ok (n : nat) (part : nat) (it : list nat) (its : list (nat * list nat)) : Prop :=
    part < n /\ Forall (fun i => i < n) it /\
    Forall (fun x => fst x < n /\ Forall (fun i => i < n) (snd x)) its.
  Definition calm_parts (m : mstate) part it its : Prop :=
    sound_msg m /\ ids_ok (length (ms_parts m)) part it its /\
    (loops = false -> part = 0 /\ it = [] /\ its = []).
  Definition calm_scripts (stack : list frame) (cache : list (script_name * sieve)) : Prop :=
    Forall (fun f => calm loops (f_script f)) stack /\ Forall (fun x => calm loops (snd x)) cache.
  Definition calm_state (s : rst) : Prop :=
    calm_parts (r_msg s) (r_part s) (r_iter s) (r_iters s) /\ calm_scripts (r_stack s) (r_cache s).

  Definition calm_res (r : sres) : Prop :=
    match r with
    | SPanic => False
    | SCont s | SYield s _ | SEnd s | SNone s => calm_state s
    end.

  Lemma calm_same s s' : r_msg s' = r_msg s -> r_part s' = r_part s -> r_iter s' = r_iter s ->
    r_iters s' = r_iters s -> r_stack s' = r_stack s -> r_cache s' = r_cache s -> calm_state s -> calm_state s'.
  Proof. intros A B C D F G H. unfold calm_state. rewrite A, B, C, D, F, G. exact H. Qed.
  Ltac same := match goal with H : calm_state ?s |- calm_state _ => exact (calm_same s _ eq_refl eq_refl eq_refl eq_refl eq_refl eq_refl H) end.

  Lemma calm_take s : calm_state s -> calm_res (take_queue s).
  Proof. intro H. unfold take_queue. destruct (r_queue s); [exact H|]. cbn [calm_res]. same. Qed.
  Lemma calm_assign r s : calm_state s -> calm_state (assign r s).
  Proof. intro H. unfold assign. destruct (snd r) as [[e v]|]; same. Qed.
  Lemma calm_build s : calm_state s -> calm_state (fst (build_message_id E s)).
  Proof.
    intro H. unfold build_message_id. destruct (ms_changed (r_msg s)); [|exact H]. cbn [fst].
    destruct H as [P Q]. split; [exact P|exact Q].
  Qed.
  Lemma calm_clear s : calm_state s -> calm_state (w_stack [] s).
  Proof. intros [P [_ Q]]. split; [exact P|]. split; [apply Forall_nil|exact Q]. Qed.
  Lemma calm_finish s : calm_state s -> calm_state (finish_loop E s).
  Proof.
    intro H. apply calm_clear in H. unfold finish_loop. cbv zeta. set (s1 := w_stack [] s) in *. clearbody s1.
    destruct (r_final s1) as [e|]; [|exact H].
    destruct e; try same.
    assert (H2 : calm_state (w_final None s1)) by same. apply calm_build in H2.
    destruct (build_message_id E (w_final None s1)) as [s2 [c|]]; cbn [fst] in H2; same.
  Qed.
  Lemma calm_fail s e : calm_state s -> calm_res (fail E s e).
  Proof. intro H. cbn [fail calm_res]. apply calm_finish, H. Qed.
  Lemma calm_push x s : calm loops x -> calm_state s -> calm_state (push_frame x s).
  Proof. intros X [P [Q1 Q2]]. split; [exact P|]. split; [apply Forall_cons; [exact X|exact Q1]|exact Q2]. Qed.
  Lemma calm_pop s : calm_state s -> calm_res (pop_frame s).
  Proof.
    intro H. unfold pop_frame. destruct (r_stack s) as [|f rest] eqn:ES; [exact H|].
    assert (H2 : calm_state (w_pos (f_pos f) (w_vars (set_vars (f_local f) (f_match f) (r_vars s)) (w_stack rest s)))).
    { destruct H as [P [Q1 Q2]]. rewrite ES in Q1. apply Forall_cons_iff in Q1 as [_ Q1]. split; [exact P|split; [exact Q1|exact Q2]]. }
    destruct rest; exact H2.
  Qed.
  Lemma cache_get_calm n : forall l x, Forall (fun p => calm loops (snd p)) l -> cache_get n l = Some x -> calm loops x.
  Proof.
    induction l as [|[k y] l IH]; intros x F G; cbn [cache_get] in G; [discriminate|].
    apply Forall_cons_iff in F as [F1 F2]. destruct (script_name_eqb n k); [injection G as <-; exact F1|apply IH; assumption].
  Qed.
  Lemma cache_insert_calm n x : calm loops x -> forall l, Forall (fun p => calm loops (snd p)) l ->
    Forall (fun p => calm loops (snd p)) (cache_insert n x l).
  Proof.
    intro X. induction l as [|[k y] l IH]; intro F; cbn [cache_insert].
    - apply Forall_cons; [exact X|apply Forall_nil].
    - apply Forall_cons_iff in F as [F1 F2]. destruct (script_name_eqb n k); apply Forall_cons; auto.
  Qed.
  Lemma calm_pop_parts n : forall s, calm_state s -> calm_state (pop_parts n s).
  Proof.
    induction n as [|n IH]; intros s H; cbn [pop_parts]; [exact H|].
    destruct (r_iters s) as [|[p it] rest] eqn:EI; [exact H|]. apply IH.
    destruct H as [[S [[A [B C]] D]] Q]. split; [|exact Q]. split; [exact S|].
    rewrite EI in C, D. apply Forall_cons_iff in C as [[C1 C2] C3]. split; [split; [exact C1|split; [exact C2|exact C3]]|].
    intro X. destruct (D X) as (_ & _ & Y). discriminate.
  Qed.

  Lemma keys_ok s m keys : calm_keys m keys -> Forall (key_ok (E_L E) m) (evs E s keys).
  Proof.
    intro K. apply Forall_forall. intros v I. apply in_map_iff in I as (x & <- & I).
    destruct K as [K|K]; [left; exact K|]. right. rewrite Forall_forall in K.
    destruct (K x I) as (t & -> & W). exact W.
  Qed.
  Lemma of_tres_calm s neg t : calm_state s -> (exists x, t = Some x /\ x <> TPanic) ->
    match of_tres s neg t with XPanic => False | XBool _ s' => calm_state s' | _ => True end.
  Proof.
    intros H (x & -> & N). destruct x as [|b set|l v c]; [contradiction| |exact Logic.I]. cbn [of_tres]. same.
  Qed.

  Lemma find_some s names index anychild : calm_state s ->
    exists l, find_headers (parts s) (r_part s) names index anychild = Some l.
  Proof.
    intros [[[WD _] [[A _] _]] _]. inversion WD as [q WF _]; subst.
    destruct (find_headers_spec _ (r_part s) names index anychild WF A) as (l & F & _). exists l. exact F.
  Qed.

  Lemma test_calm s t : calm_test t -> calm_state s ->
    match exec_test E s t with XPanic => False | XBool _ s' => calm_state s' | _ => True end.
  Proof.
    intros T H.
    assert (NP : parts s <> []).
    { destruct H as [[_ [[A _] _]] _]. unfold parts. intro X. rewrite X in A. cbn in A. lia. }
    destruct t; cbn [exec_test calm_test] in *; try exact H; try exact Logic.I.
    - apply of_tres_calm; [exact H|]. unfold header_test.
      destruct (find_some s (parse_header_names (E_L E) (E_M E) (vw E s) names) index anychild H) as (l & ->).
      cbn [option_map]. eexists. split; [reflexivity|].
      match goal with |- context [values_loop _ _ ?cc ?mm ?vs ?ks []] =>
        pose proof (values_calm (E_L E) (E_rx E) NE cc mm vs ks (keys_ok s _ _ T) []) as X end.
      destruct m; try discriminate; try (destruct (values_loop _ _ _ _ _ _ _); [contradiction|discriminate]).
      destruct (fold_left _ _ _); discriminate.
    - apply of_tres_calm; [exact H|]. unfold address_test.
      destruct (find_some s (parse_header_names (E_L E) (E_M E) (vw E s) names) index anychild H) as (l & ->).
      cbn [option_map]. eexists. split; [reflexivity|]. apply values_test_calm; [exact NE|]. apply keys_ok, T.
    - apply of_tres_calm; [exact H|]. eexists. split; [reflexivity|]. apply values_test_calm; [exact NE|]. apply keys_ok, T.
    - unfold exists_test. destruct H as [[[WD SZ] [[A B] D]] Q].
      assert (WF : well_formed (ms_parts (r_msg s))) by (inversion WD; assumption).
      destruct (subparts_looked _ (r_part s) anychild WF A) as (l & F & _). unfold parts. rewrite F. cbn [option_map of_bool].
      split; [split; [split; assumption|split; [split; assumption|assumption]]|assumption].
    - assert (G : forall f g, match of_tres s neg (body_test (E_L E) (E_rx E) (parts s) (r_part s) f g c m neg (evs E s keys)) with
                    XPanic => False | XBool _ s' => calm_state s' | _ => True end).
      { intros f g. apply of_tres_calm; [exact H|]. unfold body_test.
        assert (WD : wf_deep (parts s)) by (destruct H as [[[WD _] _] _]; exact WD).
        destruct (deep_parts_exact (parts s) (r_part s) WD) as (l & -> & _). cbn [option_map]. eexists. split; [reflexivity|].
        cbv zeta.
        match goal with |- context [values_loop _ _ ?cc ?mm ?vs ?ks []] =>
          pose proof (values_calm (E_L E) (E_rx E) NE cc mm vs ks) as X end.
        assert (K : Forall (key_ok (E_L E) match m with MMatches _ => MMatches 0 | MRegex _ => MRegex 0 | m => m end) (evs E s keys)).
        { apply Forall_forall. intros v _. left. destruct m; cbn; auto. }
        specialize (X K []).
        destruct m; try discriminate; destruct (values_loop _ _ _ _ _ _ _); try contradiction; discriminate. }
      assert (N : (if subject then subject_keys E s bt c m keys else CRes false []) <> CPanic).
      { destruct subject; [|discriminate]. unfold subject_keys. cbv zeta.
        match goal with |- context [first_key _ _ ?cc ?mm ?vs ?ks []] =>
          pose proof (first_key_calm (E_L E) (E_rx E) NE cc mm vs ks) as X end.
        assert (K : Forall (key_ok (E_L E) match m with MMatches _ => MMatches 0 | MRegex _ => MRegex 0 | m => m end) (evs E s keys)).
        { apply Forall_forall. intros v _. left. destruct m; cbn; auto. }
        specialize (X K []). destruct m; try discriminate; exact X. }
      destruct (if subject then _ else _) as [|[] y]; [contradiction|exact H|].
      destruct bt; try apply G. destruct (ct_filters E s types); [apply G|exact H].
    - apply of_tres_calm; [exact H|]. eexists. split; [reflexivity|]. apply string_calm; [exact NE|]. apply keys_ok, T.
    - apply of_tres_calm; [exact H|]. eexists. split; [reflexivity|]. apply string_calm; [exact NE|]. apply keys_ok, T.
    - apply of_tres_calm; [exact H|]. eexists. split; [reflexivity|]. apply hasflag_calm; assumption.
    - apply of_tres_calm; [exact H|]. unfold date_test. destruct (header_name E s name) as [n|].
      2: { eexists. split; [reflexivity|]. discriminate. }
      destruct (find_some s [n] index anychild H) as (l & ->).
      cbn [option_map]. eexists. split; [reflexivity|]. cbv zeta.
      assert (V : forall vs, values_test (E_L E) (E_rx E) c (as_glob m) neg vs (evs E s keys) <> TPanic).
      { intro vs. apply values_test_calm; [exact NE|]. pose proof (keys_ok s _ _ T) as K.
        eapply Forall_impl; [|exact K]. intros a. apply as_glob_ok. }
      destruct m; try apply V; discriminate.
    - apply of_tres_calm; [exact H|]. unfold currentdate_test. eexists. split; [reflexivity|].
      assert (V : forall vs, values_test (E_L E) (E_rx E) c (as_glob m) neg vs (evs E s keys) <> TPanic).
      { intro vs. apply values_test_calm; [exact NE|]. pose proof (keys_ok s _ _ T) as K.
        eapply Forall_impl; [|exact K]. intros a. apply as_glob_ok. }
      destruct m; try apply V; discriminate.
    - assert (X : duplicate_id E s d <> None).
      { destruct d as [n|x|]; cbn [duplicate_id]; try discriminate. destruct (header_name E s n) as [h|]; [|discriminate].
        destruct (find_some s [h] None true H) as (l & ->). discriminate. }
      destruct (duplicate_id E s d) as [[|a id]|]; [exact H|exact Logic.I|contradiction].
    - destruct (_ && _); [|exact H].
      match goal with |- context [first_key _ _ ?cc ?mm ?vs ?ks []] =>
          pose proof (first_key_calm (E_L E) (E_rx E) NE cc mm vs ks) as X end.
      assert (K : Forall (key_ok (E_L E) match m with MMatches _ => MMatches 0 | MRegex _ => MRegex 0 | m => m end) (evs E s keys)).
      { apply Forall_forall. intros v _. left. destruct m; cbn; auto. }
      specialize (X K []).
      destruct m; try exact H; destruct (first_key _ _ _ _ _ _ _); try contradiction; exact H.
    - apply of_tres_calm; [exact H|]. eexists. split; [reflexivity|]. apply metadata_calm; [exact NE|]. apply keys_ok, T.
    - apply of_tres_calm; [exact H|]. eexists. split; [reflexivity|]. apply score_calm; [exact NE|].
      pose proof (keys_ok s _ _ T) as K. apply Forall_cons_iff in K as [K _]. exact K.
    - apply of_tres_calm; [exact H|]. eexists. split; [reflexivity|]. apply score_calm; [exact NE|].
      pose proof (keys_ok s _ _ T) as K. apply Forall_cons_iff in K as [K _]. exact K.
    - contradiction.
    - destruct (parts s) as [|root ps]; [contradiction|]. unfold vacation_test.
      destruct (Nat.leb _ _); [exact H|]. cbv zeta. destruct (_ || _); [exact H|].
      destruct (vac_headers _ _ _ _) as [[found received]|]; [|exact H]. destruct (_ && _); [|exact H].
      assert (X : forall e, vac_expiry e p <> None).
      { intro e. destruct p as [d|n|]; cbn [vac_expiry]; try discriminate.
        apply N.leb_le in T. rewrite T. discriminate. }
      match goal with |- context [vac_expiry ?e ?q] => change q with p; specialize (X e); destruct (vac_expiry e p) end;
        [exact Logic.I|contradiction].
  Qed.

  Lemma calm_test_flag b s : calm_state s -> calm_state (w_test b s).
  Proof. intro H. same. Qed.
  Lemma calm_vars c s : calm_state s -> calm_state (w_vars c s).
  Proof. intro H. same. Qed.
  Lemma calm_queue q s : calm_state s -> calm_state (w_queue q s).
  Proof. intro H. same. Qed.

  Lemma value_calm code s k : calm_code code -> calm_state s ->
    (forall v s', calm_state s' -> calm_res (k v s')) -> calm_res (with_value E code s k).
  Proof.
    intros C H K. unfold with_value.
    pose proof (exec_calm (E_L E) (E_fns E s) (vw E s) code C (S (length code - r_epos s)) (r_epos s) (r_estack s)) as X1.
    pose proof (exec_not_stack (E_L E) (E_fns E s) (vw E s) (S (length code - r_epos s)) code (r_epos s) (r_estack s)) as X2.
    assert (X3 := exec_no_fuel (E_L E) false (E_fns E s) (vw E s) code (length code - r_epos s) (r_epos s) (r_estack s) (le_n _)).
    unfold eval_expression in *.
    destruct (exec _ _ _ _ _ _ _ _) as [v|id args pos st'| | |]; try contradiction.
    - apply K. same.
    - cbn [calm_res]. same.
  Qed.

  Lemma edit_calm m s : (exists st', m = Some st' /\ sound_msg st' /\ length (ms_parts st') = length (ms_parts (r_msg s))) ->
    calm_state s -> calm_res (edit_msg m s).
  Proof.
    intros (st' & -> & S & LN) [[_ [A D]] Q]. cbn [edit_msg calm_res]. split; [|exact Q].
    split; [exact S|]. cbn [r_msg r_part r_iter r_iters w_msg]. rewrite LN. split; assumption.
  Qed.

  Lemma instr_calm i s : calm_instruction loops i -> calm_state s -> calm_res (exec_instr E i s).
  Proof.
    intros C H.
    assert (NP : parts s <> []).
    { destruct H as [[_ [[A _] _]] _]. unfold parts. intro X. rewrite X in A. cbn in A. lia. }
    destruct i; cbn [exec_instr calm_instruction] in *.
    all: try (cbn [calm_res]; same).
    all: try contradiction.
    all: try (apply calm_fail, H).
    all: try (apply calm_pop, H).
    all: try (apply calm_take, calm_assign, H).
    all: try (cbn [calm_res]; apply calm_assign, H).
    all: try (apply value_calm; [exact C|exact H|]; intros v s' H'; cbn [calm_res]; try (apply calm_assign; exact H');
              try (destruct (to_bool v)); same).
    all: try (cbn [calm_res]; destruct (r_test s); same).
    - destruct (find _ caps) as [[]|]; first [apply calm_fail, H|exact H].
    - pose proof (calm_build s H) as B. destruct (build_message_id E s) as [s1 [e|]]; cbn [fst] in B; cbn [calm_res]; same.
    - unfold exec_fileinto. cbv zeta. pose proof (calm_build s H) as B. destruct (build_message_id E s) as [s1 created].
      cbn [fst] in B. apply calm_take, calm_queue. destruct copy; [exact B|].
      destruct (r_final s1) as [e|]; [|same]. destruct e; try same. destruct flags0; [same|exact B].
    - unfold exec_redirect. destruct (sanitize_address _) as [a|]; [|apply calm_take, H].
      destruct (_ && _); [|apply calm_take, H]. destruct (parts s) as [|root ps]; [contradiction|].
      destruct (Nat.ltb _ _); [|apply calm_take, H]. destruct (_ && _); [apply calm_take, H|]. cbv zeta.
      set (s1 := if copy then s else _).
      assert (H1 : calm_state s1).
      { unfold s1. destruct copy; [exact H|]. destruct (r_final s) as [[]|]; try exact H; same. }
      clearbody s1. pose proof (calm_build s1 H1) as B. destruct (build_message_id E s1) as [s2 created]. cbn [fst] in B.
      apply calm_take, calm_queue. same.
    - apply calm_clear, H.
    - pose proof (test_calm s t C H) as X. destruct (exec_test E s t); [contradiction| | |].
      + cbn [calm_res]. same.
      + cbn [calm_res]. same.
      + apply calm_fail, H.
    - destruct H as [[S [[A [B K]] D]] Q]. destruct (r_iter s) as [|p it] eqn:EI.
      + destruct (r_iters s) as [|[p it] rest] eqn:ES; cbn [calm_res].
        * split; [|exact Q]. split; [exact S|]. cbn [r_msg r_part r_iter r_iters w_part]. rewrite EI, ES.
          split; [split; [lia|split; [exact B|exact K]]|]. intro X. auto.
        * split; [|exact Q]. split; [exact S|]. cbn [r_msg r_part r_iter r_iters w_part w_iter w_iters w_pos].
          apply Forall_cons_iff in K as [[K1 K2] K3]. split; [split; [exact K1|split; [exact K2|exact K3]]|].
          intro X. destruct (D X) as (_ & _ & Y). discriminate.
      + cbn [calm_res]. split; [|exact Q]. split; [exact S|]. cbn [r_msg r_part r_iter r_iters w_part w_iter].
        apply Forall_cons_iff in B as [B1 B2]. split; [split; [exact B1|split; [exact B2|exact K]]|].
        intro X. destruct (D X) as (_ & Y & _). discriminate.
    - destruct H as [[S [[A [B K]] D]] Q]. pose proof S as [WD _].
      assert (WF : well_formed (ms_parts (r_msg s))) by (inversion WD; assumption).
      destruct (nested_ids_in (ms_parts (r_msg s)) (r_part s) (match r_iters s with [] => true | _ => false end) WF A)
        as (l & F & G). unfold parts. rewrite F. cbn [calm_res].
      split; [|exact Q]. split; [exact S|]. cbn [r_msg r_part r_iter r_iters w_iter w_iters].
      split; [split; [exact A|split; [exact G|apply Forall_cons; [split; [exact A|exact B]|exact K]]]|].
      intro X. congruence.
    - cbn [calm_res]. apply calm_pop_parts, H.
    - destruct H as [[S [[A [B K]] D]] Q]. destruct (D C) as (P0 & I0 & I1).
      destruct (enclose_sound (E_L E) (E_rx E) (E_M E) (mime_env E s) (txs E s headers) (otx E s subject) (tx E s body) (r_msg s) S)
        as (st' & F & S' & LN). rewrite F. cbn [edit_msg calm_res]. split; [|exact Q].
      split; [exact S'|]. cbn [r_msg r_part r_iter r_iters w_msg w_part]. rewrite I0, I1, LN.
      split; [split; [lia|split; apply Forall_nil]|auto].
    - apply edit_calm; [|exact H]. destruct H as [[S [[A _] _]] _]. apply add_sound; assumption.
    - apply edit_calm; [|exact H]. destruct H as [[S [[A _] _]] _]. apply delete_sound; assumption.
    - destruct (parts s) as [|root ps]; [contradiction|].
      destruct (exec_notify _ _ _ _) as [[[events last] out]|]; [|apply calm_take, H]. apply calm_take, calm_queue. same.
    - destruct (parts s) as [|root ps]; [contradiction|].
      destruct (exec_vacation _ _ _ _ _) as [[events last] out]. apply calm_take, calm_queue. same.
    - unfold exec_include. cbv zeta. destruct (v_is_empty _); [exact H|].
      match goal with |- context [if ?b then _ else _] => destruct b end; [|exact H].
      destruct (Nat.ltb _ _); [|apply calm_fail, H].
      match goal with |- context [cache_get ?n ?c] => pose proof (cache_get_calm n c) as CG; destruct (cache_get n c) as [x|] end.
      + cbn [opt_or calm_res]. apply calm_push; [|exact H]. apply CG; [|reflexivity]. apply H.
      + cbn [opt_or]. destruct (E_scripts E _) as [x|] eqn:EX; cbn [calm_res]; [|exact H]. apply calm_push; [|exact H].
        eapply SC. exact EX.
  Qed.

  Lemma step_calm s : calm_state s -> calm_res (step E s).
  Proof.
    intro H. unfold step. destruct (r_stack s) as [|f rest] eqn:ES; [exact H|].
    destruct (Nat.ltb _ _); [exact H|]. destruct (next_instr s) as [i|] eqn:EN; [|apply calm_pop, H]. cbv zeta.
    assert (H1 : calm_state (w_instrs (r_instrs s + 1) s)) by same.
    destruct (Nat.ltb _ _); [apply calm_fail, H1|]. apply instr_calm; [|same].
    unfold next_instr in EN. rewrite ES in EN. apply nth_error_In in EN.
    destruct H as [_ [Q _]]. rewrite ES in Q. apply Forall_cons_iff in Q as [Q _].
    unfold calm in Q. rewrite Forall_forall in Q. apply Q, EN.
  Qed.
  Lemma finale_calm s : calm_state s -> calm_state (fst (finale E s)).
  Proof.
    intro H. unfold finale. destruct (r_final s) as [e|]; [|exact H].
    destruct e; cbn [fst]; try same. cbv zeta.
    assert (H2 : calm_state (w_final None s)) by same. apply calm_build in H2.
    destruct (build_message_id E (w_final None s)) as [s2 [c|]]; cbn [fst] in *; [same|exact H2].
  Qed.
  Lemma loop_calm fuel : forall s, calm_state s ->
    match loop E fuel s with RRet s' _ => calm_state s' | RPanic => False | RFuel => True end.
  Proof.
    induction fuel as [|f IH]; intros s H; cbn [loop]; [exact Logic.I|].
    pose proof (step_calm s H) as X. destruct (step E s) as [s'|s' o|s'|s'|]; cbn [calm_res] in X;
      [apply IH, X|exact X| |exact X|exact X].
    pose proof (finale_calm s' X) as Y. destruct (finale E s') as [s'' o]. exact Y.
  Qed.

  Definition calm_input (i : input) : Prop := match i with InScript _ x => calm loops x | _ => True end.
  Lemma feed_calm i s : calm_input i -> calm_state s -> calm_state (feed i s).
  Proof.
    intros C H. destruct i as [| |v|n x]; cbn [feed]; try same.
    destruct (_ && _); [|exact H]. apply calm_test_flag, calm_push; [exact C|].
    destruct H as [P [Q1 Q2]]. split; [exact P|]. split; [exact Q1|]. apply cache_insert_calm; [exact C|exact Q2].
  Qed.
  Lemma run_calm i s : calm_input i -> calm_state s -> exists s' o, run E i s = RRet s' o /\ calm_state s'.
  Proof.
    intros C H. pose proof (feed_calm i s C H) as F. pose proof (run_fuel E i s) as NF. unfold run in *. cbv zeta in *.
    destruct (r_queue (feed i s)) as [|e q].
    2: { do 2 eexists. split; [reflexivity|]. same. }
    destruct (r_stack (feed i s)) as [|f rest].
    { do 2 eexists. split; [reflexivity|exact F]. }
    pose proof (loop_calm (enough E (feed i s)) (feed i s) F) as X.
    destruct (loop E _ _) as [s' o| |]; [eauto|contradiction|contradiction].
  Qed.
  Lemma converse_calm inputs : forall s, Forall calm_input inputs -> calm_state s ->
    exists outs s', converse_run E inputs s = Some (outs, s') /\ calm_state s'.
  Proof.
    induction inputs as [|i inputs IH]; intros s F H; cbn [converse_run]; [eauto|].
    apply Forall_cons_iff in F as [F1 F2]. destruct (run_calm i s F1 H) as (s1 & o & R & H1). rewrite R.
    destruct (IH s1 F2 H1) as (outs & s2 & C & H2). rewrite C. cbn [option_map fst snd]. eauto.
  Qed.
  Lemma initial_calm m size c : wf_deep m -> m <> [] -> headers_size m <= size -> calm_state (initial m size c).
  Proof.
    intros WD NM SZ. split.
    - split; [split; [exact WD|exact SZ]|]. cbn [initial r_msg r_part r_iter r_iters ms_parts].
      split; [|auto]. split; [destruct m; [contradiction|cbn; lia]|split; apply Forall_nil].
    - split; apply Forall_nil.
  Qed.
End R.

Lemma calm_runs E loops : (forall c, chr_lower (E_L E) c <> []) ->
  (forall n x, E_scripts E n = Some x -> calm loops x) ->
  forall m size c, wf_deep m -> m <> [] -> headers_size m <= size ->
  forall inputs, (forall n x, In (InScript n x) inputs -> calm loops x) ->
  exists outs s', converse_run E inputs (initial m size c) = Some (outs, s').
Proof.
  intros NE SC m size c WD NM SZ inputs C.
  destruct (converse_calm E loops NE SC inputs (initial m size c)) as (outs & s' & R & _).
  - apply Forall_forall. intros [| |v|n x] I; try exact Logic.I. exact (C n x I).
  - apply initial_calm; assumption.
  - eauto.
Qed.
