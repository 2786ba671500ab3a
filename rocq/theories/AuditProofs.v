(** Proofs about what a script can cause. *)
From Coq Require Import Lia.
From Verif Require Import Base Lib Address Var Value SetVar SetProofs Flags Comparator Message EditHeader Expr Event
  Notify Vacation Spam AddrTest Mime Sieve Run AuditSpec.
Import ListNotations.

(** *** Tests with ':list' *)
Lemma string_lists L rx en c m neg a b l v c' : string_test L rx en c m neg a b = TListContains l v c' -> m = MList /\ c' = c.
Proof.
  unfold string_test. destruct m; try (destruct (keys_loop _ _ _ _ _ _ _ _ _); discriminate); try discriminate.
  destruct (fold_left _ _ _); [discriminate|]. intro H. injection H as _ _ <-. auto.
Qed.
Lemma values_lists L rx c m neg a b l v c' : values_test L rx c m neg a b = TListContains l v c' -> m = MList /\ c' = c.
Proof.
  unfold values_test. destruct m; try (destruct (values_loop _ _ _ _ _ _ _); discriminate); try discriminate.
  destruct (distinct _); [discriminate|]. intro H. injection H as _ _ <-. auto.
Qed.
Lemma header_lists L rx M ps k names ix ch o c m neg b l v c' : header_test L rx M ps k names ix ch o c m neg b = Some (TListContains l v c') -> m = MList /\ c' = c.
Proof.
  unfold header_test. destruct (find_headers _ _ _ _ _); [|discriminate]. cbn [option_map].
  destruct m; try (destruct (values_loop _ _ _ _ _ _ _); discriminate); try discriminate.
  destruct (fold_left _ _ _); [discriminate|]. intro H. injection H as _ _ <-. auto.
Qed.
Lemma glob_list m : as_glob m = MList -> m = MList.
Proof. destruct m; cbn; congruence. Qed.

Lemma env_other e e' v l : e <> e' -> envlookup e (env_update e' v l) = envlookup e l.
Proof.
  intro N. assert (Q : envk_eqb e e' = false) by (destruct e, e'; try reflexivity; now destruct N).
  induction l as [|[k x] l IH]; cbn [env_update envlookup]; [now rewrite ?Q|].
  destruct (envk_eqb k e') eqn:K; cbn [envlookup].
  - assert (k = e') by (destruct k, e'; try discriminate K; reflexivity). subst k. now rewrite Q.
  - destruct (envk_eqb e k); [reflexivity|exact IH].
Qed.

Section P.
  Variable E : renv.
  Variable P : instruction -> Prop.
  Hypothesis registered : forall n x, E_scripts E n = Some x -> Forall P (s_code x).
  Variables (m0 : mstate) (g0 : list (text * var)) (e0 : list (envk * var)).
  Hypothesis unchanged : ms_changed m0 = false.
  Definition just (e : event) : Prop := (exists fl id, e = EKeep fl id) \/ exists i, P i /\ causes i e.
  Definition edited : Prop := exists i, P i /\ edits i.
  Definition ok_parts (stack : list frame) (cache : list (script_name * sieve)) (queue : list event) (final : option event) (m : mstate)
    (g : list (text * var)) (en : list (envk * var)) : Prop :=
    Forall (fun f => Forall P (s_code (f_script f))) stack /\ Forall (fun p => Forall P (s_code (snd p))) cache /\
    Forall just queue /\ (match final with Some e => just e | None => True end) /\
    (edited \/ m = m0) /\
    (forall n, (exists i, P i /\ assigns i (TGlobal n)) \/ alookup n g = alookup n g0) /\
    (forall k, (exists i, P i /\ assigns i (TEnvelope k)) \/ envlookup k en = envlookup k e0).
  Definition ok (s : rst) : Prop := ok_parts (r_stack s) (r_cache s) (r_queue s) (r_final s) (r_msg s) (c_global (r_vars s)) (c_envelope (r_vars s)).

  Lemma ok_queue s q : ok s -> Forall just q -> ok (w_queue q s).
  Proof. intros (A & B & C & D & F & G & H) Q. repeat (split; [assumption|]). exact H. Qed.
  Lemma ok_final s f : ok s -> match f with Some e => just e | None => True end -> ok (w_final f s).
  Proof. intros (A & B & C & D & F & G & H) Q. repeat (split; [assumption|]). exact H. Qed.
  Lemma ok_stack s f : ok s -> Forall (fun f => Forall P (s_code (f_script f))) f -> ok (w_stack f s).
  Proof. intros (A & B & C & D & F & G & H) Q. repeat (split; [assumption|]). exact H. Qed.
  Lemma ok_edited s m : edited -> ok s -> ok (w_msg m s).
  Proof. intros W (A & B & C & D & F & G & H). repeat (split; [first [assumption|now left]|]). exact H. Qed.
  Lemma keep_just fl id : just (EKeep fl id).
  Proof. left. eauto. Qed.
  Hint Resolve keep_just : core.

  Lemma build_ok s s' o : ok s -> build_message_id E s = (s', o) -> ok s' /\ Forall just (opt_list o) /\ r_final s' = r_final s.
  Proof.
    unfold build_message_id. intros K H. destruct (ms_changed (r_msg s)) eqn:C; injection H as <- <-; [|split; [exact K|split; [constructor|reflexivity]]].
    assert (W : edited).
    { destruct K as (_ & _ & _ & _ & [W|Q] & _); [exact W|]. rewrite Q, unchanged in C. discriminate. }
    split; [exact (ok_edited s _ W K)|]. split; [|reflexivity]. constructor; [|constructor]. right. destruct W as (i & Pi & W). exists i. split; [exact Pi|].
    cbn [causes]. destruct i; auto.
  Qed.
  Lemma finish_ok s : ok s -> ok (finish_loop E s).
  Proof.
    intro K. unfold finish_loop. assert (K1 : ok (w_stack [] s)) by (apply ok_stack; [exact K|constructor]).
    change (r_final (w_stack [] s)) with (r_final s). destruct (r_final s) as [e|] eqn:F; [|exact K1].
    assert (K2 : ok (w_final None (w_stack [] s))) by now apply ok_final.
    assert (J : just e) by (destruct K as (_ & _ & _ & D & _); now rewrite F in D).
    destruct e; try (apply ok_queue; [exact K2|constructor; [exact J|constructor]]).
    destruct (build_message_id E _) as [s2 o] eqn:B. destruct (build_ok _ _ _ K2 B) as (K3 & Jo & _).
    destruct o as [c|]; (apply ok_queue; [exact K3|]); cbn [opt_list] in Jo; [constructor; [now apply Forall_inv in Jo|]|]; constructor; auto.
  Qed.
  Definition good_out (o : out) : Prop := match o with OEvent e => just e | OError _ => True end.
  Definition good (r : sres) : Prop :=
    match r with SCont s | SEnd s | SNone s => ok s | SYield s o => ok s /\ good_out o | SPanic => True end.
  Lemma fail_good s e : ok s -> good (fail E s e).
  Proof. intro K. split; [now apply finish_ok|exact I]. Qed.
  Lemma take_good s : ok s -> good (take_queue s).
  Proof.
    intro K. unfold take_queue. destruct (r_queue s) as [|e q] eqn:Q; [exact K|].
    assert (F : Forall just (e :: q)) by (destruct K as (_ & _ & C & _); now rewrite Q in C).
    split; [apply ok_queue; [exact K|exact (Forall_inv_tail F)]|exact (Forall_inv F)].
  Qed.
  Lemma assign_good L max v i s c n : P i -> assigns i n -> c_global c = c_global (r_vars s) -> c_envelope c = c_envelope (r_vars s) ->
    ok s -> ok (assign (set_variable L max c n v) s).
  Proof.
    intros Pi As Gc Ec (A & B & C & D & F & G & H). unfold assign. destruct n as [k|k|k|k|k|k]; cbn [set_variable fst snd];
      try (repeat (split; [assumption|]); split; cbn [c_global c_envelope r_vars w_vars set_local set_global];
           [intro k0; cbn; rewrite ?Gc; exact (G k0)|intro k0; cbn; rewrite ?Ec; exact (H k0)]).
    - repeat (split; [assumption|]). split; [|intro k0; cbn; rewrite Ec; exact (H k0)].
      intro n. cbn. rewrite Gc. destruct (teqb k n) eqn:Q.
      + apply teqb_spec in Q. subst n. left. eauto.
      + destruct (G n) as [W|W]; [now left|right]. rewrite alookup_other; [exact W|]. intros ->. rewrite (proj2 (teqb_spec n n) eq_refl) in Q. discriminate.
    - do 2 (split; [assumption|]). split; [constructor; [right; exists i; split; [exact Pi|exact As]|constructor]|].
      do 2 (split; [assumption|]). split; [intro k0; cbn; rewrite Gc; exact (G k0)|].
      intro k'. cbn. rewrite Ec. assert (D' : {k' = k} + {k' <> k}) by decide equality. destruct D' as [->|N]; [left; eauto|].
      destruct (H k') as [W|W]; [now left|right]. now rewrite env_other.
  Qed.
  Lemma exec_calls strict fns c code fuel : forall pos st id args pos' st', Expr.exec (E_L E) strict fns c fuel code pos st = ECall id args pos' st' -> calls code id.
  Proof.
    induction fuel as [|fuel IH]; intros pos st id args pos' st'; [discriminate|]. cbn [Expr.exec].
    destruct (nth_error code pos) as [i|] eqn:N; [|destruct (pop strict st) as [[? [|? ?]]|]; [discriminate|destruct strict; discriminate|discriminate]].
    apply nth_error_In in N.
    destruct i;
      repeat match goal with
      | |- Expr.exec _ _ _ _ _ _ _ _ = _ -> _ => apply IH
      | |- context [match ?x with _ => _ end] => destruct x eqn:?
      end; try discriminate; try apply IH.
    intro H. injection H as <- _ _ _. exists id0, num_args. auto.
  Qed.
  Lemma value_good code s k : ok s -> (forall id, calls code id -> forall args, just (EFunction id args)) ->
    (forall v, good (k v (w_estack [] (w_epos 0 s)))) -> good (with_value E code s k).
  Proof.
    intros K J G. unfold with_value. destruct (eval_expression _ _ _ _ _ _ _) eqn:Ev; try exact I; [apply G|].
    split; [exact K|]. cbn [good_out]. apply J. unfold eval_expression in Ev. eapply exec_calls; exact Ev.
  Qed.
  Lemma tres_good s neg t r : ok s -> (forall l v c, t = Some (TListContains l v c) -> just (EListContains l v c)) ->
    of_tres s neg t = r -> match r with XBool _ s' => ok s' | XAsk e _ => just e | _ => True end.
  Proof. intros K J <-. destruct t as [t|]; [|exact I]. destruct t; cbn [of_tres]; first [exact I|exact K|now apply J]. Qed.
  Lemma bool_good s b : ok s -> match of_bool s b with XBool _ s' => ok s' | XAsk e _ => just e | _ => True end.
  Proof. intro K. now destruct b. Qed.

  Definition good_test (r : xres) : Prop := match r with XBool _ s' => ok s' | XAsk e _ => just e | _ => True end.
  Lemma test_good t s : P (IxTest t) -> ok s -> good_test (exec_test E s t).
  Proof.
    intros Pt K.
    assert (Y : forall neg r, (forall l v c, r = Some (TListContains l v c) -> looks_up t c) -> good_test (of_tres s neg r)).
    { intros neg r H. eapply tres_good; [exact K| |reflexivity]. intros l v c Q. right. exists (IxTest t). split; [exact Pt|]. exact (H l v c Q). }
    assert (B : forall b, good_test (of_bool s b)) by (intro b; now apply bool_good).
    assert (J : forall e, causes (IxTest t) e -> just e) by (intros e H; right; eauto).
    destruct t; cbn [exec_test]; try exact K; try (apply B); try exact I.
    - apply Y. intros l v c' H. now apply header_lists in H.
    - apply Y. intros l v c' H. unfold address_test in H. destruct (find_headers _ _ _ _ _); [|discriminate]. injection H as H. now apply values_lists in H.
    - apply Y. intros l v c' H. injection H as H. now apply values_lists in H.
    - destruct (if subject then _ else _) as [|[] caps]; [exact I|exact K|].
      destruct bt; try (apply Y; intros l v c' H; unfold body_test in H; destruct (deep_parts _ _); [|discriminate]; cbn [option_map] in H;
        destruct m; try (destruct (values_loop _ _ _ _ _ _ _); discriminate H); discriminate H).
      destruct (ct_filters _ _ _); [|exact K].
      apply Y; intros l0 v c' H; unfold body_test in H; destruct (deep_parts _ _); [|discriminate]; cbn [option_map] in H;
        destruct m; try (destruct (values_loop _ _ _ _ _ _ _); discriminate H); discriminate H.
    - apply Y. intros l v c' H. injection H as H. now apply string_lists in H.
    - apply Y. intros l v c' H. injection H as H. now apply string_lists in H.
    - apply Y. intros l v c' H. injection H as H. unfold hasflag in H. destruct m; try discriminate H; destruct (hasflag_checks _ _ _ _ _ _); discriminate H.
    - apply Y. intros l v c' H. unfold date_test in H. destruct (header_name _ _ _); [|discriminate]. destruct (find_headers _ _ _ _ _); [|discriminate].
      cbn [option_map] in H. injection H as H. destruct m; try discriminate H; apply values_lists in H; destruct H as [H ->]; apply glob_list in H; now split.
    - apply Y. intros l v c' H. injection H as H. unfold currentdate_test in H. destruct m; try discriminate H; apply values_lists in H; destruct H as [H ->]; apply glob_list in H; now split.
    - destruct (duplicate_id _ _ _) as [[|]|]; [exact K|now apply J|exact I].
    - destruct (_ && _); [|exact K]. destruct m; try exact K; destruct (first_key _ _ _ _ _ _ _); exact I || exact K.
    - now apply J.
    - now apply J.
    - now apply J.
    - apply Y. intros l v c' H. injection H as H. unfold metadata_test in H. destruct (find _ _) as [[? ?]|]; [|discriminate H].
      destruct m; try discriminate H; destruct (first_key _ _ _ _ _ _ _); discriminate H.
    - apply Y. intros l v c' H. injection H as H. unfold spam_test, score_test in H. destruct m; try discriminate H; destruct (compare1 _ _ _ _ _ _ _); discriminate H.
    - apply Y. intros l v c' H. injection H as H. unfold virus_test, score_test in H. destruct m; try discriminate H; destruct (compare1 _ _ _ _ _ _ _); discriminate H.
    - destruct (convert _ _ _ _) as [[b m]|]; [|exact I]. cbn [good_test]. apply ok_edited; [|exact K]. exists (IxTest (TeConvert from to neg)). now split.
    - destruct (parts s); [exact I|]. destruct (vacation_test _ _ _ _); [exact I|exact K|]. now apply J.
  Qed.

  Lemma cache_ok n x c : Forall (fun p : script_name * sieve => Forall P (s_code (snd p))) c -> cache_get n c = Some x -> Forall P (s_code x).
  Proof.
    induction c as [|[k y] c IH]; cbn [cache_get]; [discriminate|]. intros F H. destruct (script_name_eqb n k).
    - injection H as <-. exact (Forall_inv F).
    - exact (IH (Forall_inv_tail F) H).
  Qed.
  Lemma push_ok x s : Forall P (s_code x) -> ok s -> ok (push_frame x s).
  Proof. intros X K. change (ok (w_stack ({| f_script := x; f_pos := r_pos s; f_local := c_local (r_vars s); f_match := c_match (r_vars s) |} :: r_stack s) s)).
    apply ok_stack; [exact K|]. constructor; [exact X|]. now destruct K.
  Qed.
  Lemma pop_good s : ok s -> good (pop_frame s).
  Proof.
    intro K. unfold pop_frame. destruct (r_stack s) as [|f rest] eqn:S; [exact K|].
    assert (R : Forall (fun f => Forall P (s_code (f_script f))) rest) by (destruct K as (A & _); rewrite S in A; exact (Forall_inv_tail A)).
    assert (K' : ok (w_stack rest s)) by now apply ok_stack.
    destruct rest; exact K'.
  Qed.
  Lemma pop_parts_ok n : forall s, ok s -> ok (pop_parts n s).
  Proof. induction n as [|n IH]; intros s K; cbn [pop_parts]; [exact K|]. destruct (r_iters s) as [|[p it] rest]; [exact K|]. now apply IH. Qed.
  Lemma edit_good i m s : P i -> edits i -> ok s -> good (edit_msg m s).
  Proof. intros Pi W K. destruct m; [|exact I]. cbn. apply ok_edited; [|exact K]. exists i. now split. Qed.
  Lemma given_o s x : given (otx E s x) = given x.
  Proof. now destruct x. Qed.
  Lemma copy_just i s f id : P i -> (forall a b mid su cr n, files_copy f (given mid) (given su) cr -> causes i (EFileInto a b mid su cr n)) ->
    Forall just (match option_map (fcc_of E s) f with Some (f, fl, mid, su, cr) => [EFileInto f fl mid su cr id] | None => [] end).
  Proof.
    intros Pi H. destruct f as [[[[[a b] mid] su] cr]|]; [|constructor]. cbn [option_map fcc_of]. constructor; [|constructor].
    right. exists i. split; [exact Pi|]. apply H. cbn [files_copy]. now rewrite !given_o.
  Qed.
  Lemma exec_good i s : P i -> ok s -> good (exec_instr E i s).
  Proof.
    intros Pi K. assert (J : forall e, causes i e -> just e) by (intros e H; right; eauto).
    destruct i; cbn [exec_instr]; try exact K.
    - (* require *) destruct (find _ _) as [[]|]; first [exact K|now apply fail_good].
    - (* keep *) destruct (build_message_id E s) as [s1 o] eqn:B. destruct (build_ok _ _ _ K B) as (K1 & Jo & _).
      assert (K2 : ok (w_final (Some (EKeep (local_or_global_flags (E_L E) (vw E s1) flags) (r_main s1))) s1)) by (apply ok_final; auto).
      destruct o as [e|]; [|exact K2]. split; [exact K2|exact (Forall_inv Jo)].
    - (* fileinto *) unfold exec_fileinto. destruct (build_message_id E s) as [s1 o] eqn:B. destruct (build_ok _ _ _ K B) as (K1 & Jo & _).
      set (s2 := if copy then s1 else _).
      assert (K2 : ok s2).
      { unfold s2. destruct copy; [exact K1|]. destruct (r_final s1) as [[]|]; try (apply ok_final; [exact K1|exact I]).
        destruct flags0; [apply ok_final; [exact K1|exact I]|exact K1]. }
      apply take_good, ok_queue; [exact K2|]. apply Forall_app. split; [exact Jo|]. constructor; [|constructor]. apply J. cbn [causes]. now rewrite !given_o.
    - (* redirect *) unfold exec_redirect. destruct (sanitize_address _) as [a|]; [|now apply take_good]. destruct (_ && _); [|now apply take_good].
      destruct (parts s) as [|root ?]; [exact I|]. destruct (Nat.ltb _ _); [|now apply take_good]. destruct (negb list_ && _); [now apply take_good|].
      set (s1 := if copy then s else _).
      assert (K1 : ok s1).
      { unfold s1. destruct copy; [exact K|]. destruct (r_final s) as [[]|]; try exact K. now apply ok_final. }
      destruct (build_message_id E s1) as [s2 o] eqn:B. destruct (build_ok _ _ _ K1 B) as (K2 & Jo & _).
      apply take_good, ok_queue; [exact K2|]. apply Forall_app. split; [exact Jo|]. constructor; [|constructor]. apply J. cbn [causes]. now destruct list_.
    - (* discard *) apply ok_final; [exact K|]. now apply J.
    - (* stop *) apply ok_stack; [exact K|constructor].
    - (* reject *) split; [now apply ok_final|]. now apply J.
    - (* jz *) cbn. now destruct (r_test s).
    - cbn. now destruct (r_test s).
    - (* test *) pose proof (test_good t s Pi K) as G. destruct (exec_test E s t) as [|b s'|e neg|e]; [exact I|exact G|split; [exact K|exact G]|now apply fail_good].
    - (* eval *) apply value_good; [exact K| |intro v; exact K]. intros id C args. now apply J.
    - (* foreverypart *) destruct (r_iter s) as [|p it]; [|exact K]. destruct (r_iters s) as [|[p it] rest]; exact K.
    - destruct (nested_ids _ _ _); [exact K|exact I].
    - now apply pop_parts_ok.
    - (* while *) apply value_good; [exact K| |intro v; cbn; now destruct (to_bool v)]. intros id C args. now apply J.
    - (* let *) apply value_good; [exact K| |intro v]. { intros id C args. now apply J. }
      cbn [good]. eapply assign_good; [exact Pi|reflexivity|reflexivity|reflexivity|exact K].
    - (* replace *) eapply edit_good; [exact Pi|exact I|exact K].
    - (* enclose *) eapply edit_good; [exact Pi|exact I|exact K].
    - (* extract *) apply take_good. eapply assign_good; [exact Pi|reflexivity|reflexivity|reflexivity|exact K].
    - (* convert *) destruct (convert _ _ _ _) as [[b m]|]; [|exact I]. cbn. apply ok_edited; [|exact K]. eexists. split; [exact Pi|exact I].
    - eapply edit_good; [exact Pi|exact I|exact K].
    - eapply edit_good; [exact Pi|exact I|exact K].
    - (* set *) apply take_good. unfold exec_set. eapply assign_good; [exact Pi|reflexivity|reflexivity|reflexivity|exact K].
    - (* notify *) destruct (parts s) as [|root ?]; [exact I|].
      destruct (exec_notify _ _ _ _) as [[[evs last] out]|] eqn:N; [|now apply take_good].
      apply take_good. change (ok (w_queue evs s)). apply ok_queue; [exact K|].
      unfold exec_notify in N. destruct (existsb _ _); [discriminate|]. destruct (parse_uri _) as [[scheme rest]|]; [|discriminate]. cbv zeta in N. cbn [n_fcc] in N.
      assert (F : forall id, Forall just (match option_map (fcc_of E s) fcc with Some (f, fl, mid, su, cr) => [EFileInto f fl mid su cr id] | None => [] end))
        by (intro id; eapply copy_just; [exact Pi|auto]).
      destruct (teqb_ic scheme _ && _).
      + destruct (parse_mailto _ _ _); [|discriminate]. injection N as <- _ _. cbn [app]. constructor; [now apply J|]. constructor; [now apply J|]. apply F.
      + destruct fcc as [f|].
        * injection N as <- _ _. cbn [app]. constructor; [now apply J|]. constructor; [now apply J|]. apply F.
        * injection N as <- _ _. constructor; [now apply J|]. constructor.
    - (* vacation *) destruct (parts s) as [|root ?]; [exact I|]. unfold exec_vacation. cbn [vacation_args va_fcc].
      apply take_good. match goal with |- ok (w_queue ?q _) => change (ok (w_queue q s)) end. apply ok_queue; [exact K|].
      constructor; [now apply J|]. constructor; [now apply J|]. eapply copy_just; [exact Pi|auto].
    - (* flags *) unfold exec_flags. cbn [good]. eapply assign_good; [exact Pi| |reflexivity|reflexivity|exact K]. now destruct name.
    - (* include *) unfold exec_include. destruct (v_is_empty _); [exact K|]. destruct (negb once || _); [|exact K]. destruct (Nat.ltb _ _); [|now apply fail_good].
      destruct (cache_get _ _) as [x|] eqn:C; cbn [opt_or].
      + apply push_ok; [|exact K]. destruct K as (_ & B & _). exact (cache_ok _ _ _ B C).
      + destruct (E_scripts E _) as [x|] eqn:R; [apply push_ok; [exact (registered _ _ R)|exact K]|].
        split; [exact K|]. apply J. cbn [causes]. split; [reflexivity|]. destruct global; eauto.
    - now apply pop_good.
    - (* error *) split; [now apply finish_ok|exact I].
    - now apply fail_good.
  Qed.
  Lemma step_good s : ok s -> good (step E s).
  Proof.
    intro K. unfold step. destruct (r_stack s) as [|f fs] eqn:S; [exact K|]. destruct (Nat.ltb _ _); [exact K|].
    destruct (next_instr s) as [i|] eqn:N; [|now apply pop_good]. destruct (Nat.ltb _ _); [now apply fail_good|].
    apply exec_good; [|exact K]. unfold next_instr in N. rewrite S in N. apply nth_error_In in N. destruct K as (A & _). rewrite S in A.
    exact (proj1 (Forall_forall _ _) (Forall_inv A) i N).
  Qed.
  Definition good_ret (o : option out) : Prop := match o with Some o => good_out o | None => True end.
  Lemma finale_good s s' o : ok s -> finale E s = (s', o) -> ok s' /\ good_ret o.
  Proof.
    intros K H. unfold finale in H. destruct (r_final s) as [e|] eqn:F; [|injection H as <- <-; now split].
    assert (J : just e) by (destruct K as (_ & _ & _ & D & _); now rewrite F in D).
    assert (K2 : ok (w_final None s)) by now apply ok_final.
    destruct e; try (injection H as <- <-; now split).
    destruct (build_message_id E _) as [s2 o2] eqn:B. destruct (build_ok _ _ _ K2 B) as (K3 & Jo & _). destruct o2 as [c|]; injection H as <- <-.
    - split; [apply ok_queue; [exact K3|constructor; auto]|exact (Forall_inv Jo)].
    - split; [exact K3|]. cbn. auto.
  Qed.
  Lemma loop_good n : forall s s' o, ok s -> loop E n s = RRet s' o -> ok s' /\ good_ret o.
  Proof.
    induction n as [|n IH]; intros s s' o K H; [discriminate|]. cbn [loop] in H. pose proof (step_good s K) as G.
    destruct (step E s) as [s1|s1 o1|s1|s1|]; cbn [good] in G.
    - exact (IH _ _ _ G H).
    - injection H as <- <-. exact G.
    - destruct (finale E s1) as [s2 o2] eqn:F. injection H as <- <-. exact (finale_good _ _ _ G F).
    - injection H as <- <-. now split.
    - discriminate.
  Qed.
  Lemma insert_ok n x c : Forall P (s_code x) -> Forall (fun p : script_name * sieve => Forall P (s_code (snd p))) c ->
    Forall (fun p : script_name * sieve => Forall P (s_code (snd p))) (cache_insert n x c).
  Proof.
    intro X. induction c as [|[k y] c IH]; cbn [cache_insert]; intro F; [now constructor|]. destruct (script_name_eqb n k); constructor; try exact X.
    - exact (Forall_inv_tail F).
    - exact (Forall_inv F).
    - exact (IH (Forall_inv_tail F)).
  Qed.
  Lemma feed_ok inp s : (forall n x, inp = InScript n x -> Forall P (s_code x)) -> ok s -> ok (feed inp s).
  Proof.
    intros X K. destruct inp as [| |v|n x]; try exact K. cbn [feed]. destruct (_ && _); [|exact K].
    change (ok (push_frame x (w_cache (cache_insert n x (r_cache s)) s))). apply push_ok; [exact (X n x eq_refl)|].
    destruct K as (A & B & C & D & F & G & H). split; [exact A|]. split; [apply insert_ok; [exact (X n x eq_refl)|exact B]|].
    repeat (split; [assumption|]). exact H.
  Qed.
  Lemma run_good inp s s' o : (forall n x, inp = InScript n x -> Forall P (s_code x)) -> ok s -> run E inp s = RRet s' o -> ok s' /\ good_ret o.
  Proof.
    intros X K H. apply (feed_ok inp s X) in K. unfold run in H. destruct (r_queue (feed inp s)) as [|e q] eqn:Q.
    - destruct (r_stack (feed inp s)); [injection H as <- <-; now split|]. exact (loop_good _ _ _ _ K H).
    - injection H as <- <-. assert (F : Forall just (e :: q)) by (destruct K as (_ & _ & C & _); now rewrite Q in C).
      split; [apply ok_queue; [exact K|exact (Forall_inv_tail F)]|exact (Forall_inv F)].
  Qed.
  Lemma converse_good inputs : forall s outs s', (forall n x, In (InScript n x) inputs -> Forall P (s_code x)) -> ok s ->
    converse_run E inputs s = Some (outs, s') -> ok s' /\ Forall good_ret outs.
  Proof.
    induction inputs as [|i rest IH]; intros s outs s' X K H; cbn [converse_run] in H; [injection H as <- <-; now split|].
    destruct (run E i s) as [s1 o| |] eqn:R; try discriminate H. destruct (converse_run E rest s1) as [[os s2]|] eqn:C; [|discriminate H].
    injection H as <- <-. destruct (run_good i s s1 o) as [K1 G1]; [intros n x ->; apply (X n x); now left|exact K|exact R|].
    destruct (IH s1 os s2) as [K2 G2]; [intros n x I0; apply (X n x); now right|exact K1|exact C|].
    split; [exact K2|]. now constructor.
  Qed.
End P.

Section Main.
  Variables (E : renv) (inputs : list input) (m : list part) (size : nat) (c : vctx) (outs : list (option out)) (s' : rst).
  Hypothesis conversation : converse_run E inputs (initial m size c) = Some (outs, s').
  Notation m0 := {| ms_parts := m; ms_changed := false; ms_size := size |}.
  Lemma whole : ok (in_play E inputs) m0 (c_global c) (c_envelope c) s' /\ Forall (good_ret (in_play E inputs)) outs.
  Proof.
    refine (converse_good E (in_play E inputs) _ m0 (c_global c) (c_envelope c) eq_refl inputs (initial m size c) outs s' _ _ conversation).
    - intros n x R. apply Forall_forall. intros i Ii. exists x. split; [left; now exists n|exact Ii].
    - intros n x R. apply Forall_forall. intros i Ii. exists x. split; [right; now exists n|exact Ii].
    - split; [constructor|]. split; [constructor|]. split; [constructor|]. split; [left; exists [], 0; reflexivity|].
      split; [now right|]. split; [intro n; now right|intro k; now right].
  Qed.
End Main.
