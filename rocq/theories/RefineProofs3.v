(** The parser of tests follows the compiler of Compile.v on the tests it reads. *)
From Coq Require Import Lia.
From Verif Require Import Base Lib Address Var Value SetVar Flags Comparator Message EditHeader
  Expr ExprTok Event Notify AddrTest Vacation Sieve Utf8 Lexer Scope StringTok Compile ParseArgs ParseBase Parse GrammarSpec
  GrammarProofs GrammarProofs2 GrammarProofs3 ArgBase ArgSpec ArgProofs1 ArgProofs4 ArgProofs5 RefineSpec RefineProofs1 RefineProofs2.
Import ListNotations.
Local Open Scope string_scope.
Local Open Scope list_scope.

Lemma bind_ok {A B} (m : P A) (k : A -> P B) s b s' : bind m k s = Ok b s' -> exists a s1, m s = Ok a s1 /\ k a s1 = Ok b s'.
Proof. unfold bind. destruct (m s) as [a s1| | |]; try discriminate. eauto. Qed.
Lemma er_not i : er (set_not i) = set_not (er i).
Proof. destruct i; try reflexivity. destruct t; reflexivity. Qed.
Lemma er_last l : is_test (last (map er l) IxStop) = is_test (last l IxStop).
Proof.
  induction l as [|i [|j l] IH]; [reflexivity|now destruct i|]. exact IH.
Qed.
Lemma er_patch t ps : forall l, map er (patch (to_cond t) ps l) = patch (to_cond t) ps (map er l).
Proof.
  assert (U : forall l p, map er (update p (to_cond t) l) = update p (to_cond t) (map er l)).
  { induction l as [|i l IH]; intros [|p]; cbn; rewrite ?IH; try reflexivity. now destruct i. }
  unfold patch. induction ps as [|p ps IH]; intro l; cbn; [reflexivity|]. now rewrite IH, U.
Qed.

(** What the arguments describe captures nothing yet. *)
Lemma match_er K w us m : match_is K w us m -> capture_type 0 m = m.
Proof. destruct 1; reflexivity. Qed.
Lemma matching_er K l m c : matching K l m c -> capture_type 0 m = m.
Proof. intros [A _]. unfold opt in A. destruct (given _ _) as [[w us]|]; [eapply match_er, A|now subst m]. Qed.
Lemma plain_er K V n us t : plain_test K V n us t -> capture_test 0 t = t.
Proof. destruct 1; cbn; try reflexivity; match goal with H : matching _ _ _ _ |- _ => now rewrite (matching_er _ _ _ _ H) end. Qed.
Lemma test_is_er K V n us t W : test_is K V n us t W -> capture_test 0 t = t.
Proof. destruct 1; [eapply plain_er; eassumption|]. cbn; match goal with H : matching _ _ _ _ |- _ => now rewrite (matching_er _ _ _ _ H) end. Qed.
Lemma leaf_is_er K V t us vs i W : leaf_is K V t us vs i W -> er i = i.
Proof. destruct 1; try reflexivity. cbn. f_equal. eapply test_is_er. eassumption. Qed.

Section Test.
  Variable K : cenv.
  Variable FU : nat.
  Notation rest s ts := (tokens_from (C_L K) (C_string K) (p_lex s) ts).
  Notation umax := (C_umax K).
  Notation lim := (C_lim K).

  Lemma next_v s t s1 : next K s = Ok t s1 -> p_v s1 = p_v s.
  Proof. intro E. exact (still_next K (p_v s) _ _ _ E eq_refl). Qed.
  Lemma peek_v s t s1 : peek K s = Ok t s1 -> p_v s1 = p_v s.
  Proof. intro E. exact (still_peek K (p_v s) _ _ _ E eq_refl). Qed.
  Lemma expect_v t s u s1 : expect K t s = Ok u s1 -> p_v s1 = p_v s.
  Proof.
    intro E. unfold expect in E. apply bind_ok in E. destruct E as (x & s2 & E1 & E2). destruct (tok_eqb x t); [|discriminate].
    injection E2 as _ ->. exact (next_v _ _ _ E1).
  Qed.
  Lemma close_parens_v n : forall s u s1, close_parens K n s = Ok u s1 -> p_v s1 = p_v s.
  Proof.
    induction n as [|n IH]; intros s u s1 E; cbn [close_parens] in E; [now injection E as _ <-|].
    apply bind_ok in E. destruct E as (x & s2 & E1 & E2). rewrite (IH _ _ _ E2). exact (expect_v _ _ _ _ E1).
  Qed.
  Lemma next_ok s t s1 ts : next K s = Ok t s1 -> rest s1 ts -> rest s (t :: ts) /\ p_c s1 = p_c s.
  Proof.
    intros E F. unfold next, unwrap_next in E. destruct (lex_next _ _ _) eqn:N; try discriminate. injection E as <- <-.
    split; [eapply from_token; eauto|reflexivity].
  Qed.
  Lemma peek_ok s k s1 ts : peek K s = Ok k s1 -> rest s1 ts -> rest s ts /\ seen k ts /\ p_c s1 = p_c s.
  Proof.
    intros E F. destruct (GrammarProofs.eats_peek K _ _ _ _ E F) as (us & A & _ & -> & B). split; [exact A|]. split; [exact B|].
    unfold peek in E. destruct (lex_peek _ _ _); try discriminate; now injection E as _ <-.
  Qed.
  Lemma tok_eqb_ok a b : tok_eqb a b = true -> match b with TParenOpen | TParenClose | TSemicolon | TCurlyOpen => a = b | _ => True end.
  Proof. destruct a, b; cbn; intro E; try discriminate; auto. Qed.
  Lemma expect_ok t s u s1 ts : match t with TParenOpen | TParenClose | TSemicolon | TCurlyOpen => True | _ => False end ->
    expect K t s = Ok u s1 -> rest s1 ts -> rest s (t :: ts) /\ p_c s1 = p_c s.
  Proof.
    intros T E F. unfold expect in E. apply bind_ok in E. destruct E as (x & s2 & E1 & E2). destruct (tok_eqb x t) eqn:Q; [|discriminate].
    injection E2 as _ ->. apply tok_eqb_ok in Q. destruct (next_ok _ _ _ _ E1 F) as [A B]. destruct t; try contradiction; subst x; auto.
  Qed.
  Lemma close_parens_ok n : forall s u s1 ts, close_parens K n s = Ok u s1 -> rest s1 ts -> rest s (repeat TParenClose n ++ ts) /\ p_c s1 = p_c s.
  Proof.
    induction n as [|n IH]; intros s u s1 ts E F; cbn [close_parens] in E.
    - injection E as _ <-. auto.
    - apply bind_ok in E. destruct E as (x & s2 & E1 & E2). destruct (IH _ _ _ _ E2 F) as [A B].
      destruct (expect_ok TParenClose _ _ _ _ Logic.I E1 A) as [C D]. cbn. split; [exact C|congruence].
  Qed.
  Lemma closings_repeat n r : closings n (repeat KPClose n ++ r) = Some r.
  Proof. induction n; cbn; auto. Qed.
  Lemma reads_repeat W V n us ks : test_reads K W V us ks -> test_reads K W V (repeat TParenClose n ++ us) (repeat KPClose n ++ ks).
  Proof. intro H. induction n; cbn; [exact H|now constructor]. Qed.

  Definition halts (ts : list tok) : Prop :=
    match ts with [] | TParenClose :: _ | TComma :: _ | TCurlyOpen :: _ => True | _ => False end.
  Section Ignore.
  Variable V : vst.
  Notation eats := (eats K V).
  Lemma eats_ignore_test_loop : forall n d,
    eats (loop n (fun n => k <- peek K ;;
                      match k with
                      | KEof => ret (inr tt)
                      | KErr => fail
                      | KTok t =>
                          match t, n with
                          | TParenOpen, _ => next K ;; ret (inl (n + 1))
                          | TParenClose, 0 => ret (inr tt)
                          | TParenClose, S n' => next K ;; ret (inl n')
                          | TComma, 0 => ret (inr tt)
                          | TCurlyOpen, _ => ret (inr tt)
                          | _, _ => next K ;; ret (inl n)
                          end
                      end) d) (fun _ us ts => passed d us /\ halts ts).
  Proof.
    induction n as [|n IH]; intros d; [apply eats_never; discriminate|]. cbn [loop].
    eapply (eats_bind K V _ _ (fun r us ts => match r with
              | inl d' => forall vs, passed d' vs -> passed d (us ++ vs)
              | inr _ => us = [] /\ halts ts end)).
    - apply eats_peek_next. intros p. destruct p as [ | |t]; [|apply eats_fail|].
      { apply eats_ret. intros ts S. cbn in S. subst ts. split; [reflexivity|]. exact Logic.I. }
      destruct t; try (apply (eats_next_seen K V _ _ (fun r us ts => match r with
              | inl d' => forall vs, passed d' vs -> passed d (us ++ vs)
              | inr _ => us = [] /\ halts ts end)); intro u; apply eats_ret; intros ts -> vs H; exact H).
      + apply eats_ret. intros ts (ts' & E). cbn in E. subst ts. split; [reflexivity|]. exact Logic.I.
      + destruct d as [|d].
        * apply eats_ret. intros ts (ts' & E). cbn in E. subst ts. split; [reflexivity|]. exact Logic.I.
        * apply (eats_next_seen K V _ _ (fun r us ts => match r with
              | inl d' => forall vs, passed d' vs -> passed (S d) (us ++ vs)
              | inr _ => us = [] /\ halts ts end)). intro u. apply eats_ret. intros ts -> vs H. cbn. split; [lia|].
          now rewrite Nat.sub_0_r.
      + destruct d as [|d].
        * apply eats_ret. intros ts (ts' & E). cbn in E. subst ts. split; [reflexivity|]. exact Logic.I.
        * apply (eats_next_seen K V _ _ (fun r us ts => match r with
              | inl d' => forall vs, passed d' vs -> passed (S d) (us ++ vs)
              | inr _ => us = [] /\ halts ts end)). intro u. apply eats_ret. intros ts -> vs H. cbn. split; [lia|exact H].
    - intros [d'|[]].
      + eapply eats_weaken; [apply IH|]. cbv beta iota. intros _ vs ts [A B] us X. auto.
      + apply eats_ret. intros ts us [-> S]. split; [exact Logic.I|exact S].
  Qed.
  Lemma eats_ignore_test : eats (ignore_test K FU) (fun _ us ts => passed 0 us /\ halts ts).
  Proof. apply eats_ignore_test_loop. Qed.
  End Ignore.

  Definition no_brace (us : list tok) : Prop := match us with TCurlyOpen :: _ => False | _ => True end.
  Lemma reads_no_brace W V us ks : test_reads K W V us ks -> no_brace us.
  Proof. destruct 1 as [| | | | | | | | |? ? ? ? ? ? ? X]; try exact Logic.I. destruct X; exact Logic.I. Qed.
  Lemma halts_ends us ts : no_brace us -> halts (us ++ ts) -> ends_test us.
  Proof. intros N H. destruct us as [|[] us]; cbn in *; tauto. Qed.

  (** A test other than anyof, allof, not, true and false *)
  Lemma turns_leaf V w : ~ named ["not"; "anyof"; "allof"; "true"; "false"] w ->
    turns K V (leaf K FU w) (fun i W us ts => forall vs ts', ts = vs ++ ts' -> no_brace vs -> leaf_is K V (TIdent w) us vs i W).
  Proof.
    intro NN. unfold leaf. destruct (word "eval" w) eqn:Ev.
    - apply word_named in Ev. subst w. eapply turns_weaken; [apply turns_eats|].
      + apply (eats_silent K V _ _ (fun i us _ => exists e, i = IxEval e /\ expr_is K V us e)); [apply silent_va|]. intro.
        eapply (eats_bind K V); [apply eats_expr|]. intro e. apply eats_ret. intros ts us H. exists e. rewrite app_nil_r. auto.
      + cbv beta. intros i W us ts [-> (e & -> & H)] vs ts' -> _. now constructor.
    - destruct (find_word w (tests K FU)) as [[c m]|] eqn:E.
      + destruct (find_word_some _ _ _ _ (all_tests K V FU) E) as (n & X & A). cbn [fst snd] in A. apply word_named in X. subst w.
        eapply turns_after; [apply silent_va|]. intro a. eapply turns_bind; [exact A|]. intros t V1.
        eapply turns_weaken; [apply turns_eats, (eats_ret K V1 _ (fun i us _ => us = [] /\ i = IxTest t)); auto|]. cbv beta.
        intros i W us ts (-> & -> & ->) us1 H us2 -> vs ts' -> _. rewrite app_nil_r. now constructor.
      + apply find_word_none in E. eapply turns_weaken; [apply turns_eats|].
        * apply (eats_bind K V _ _ _ (fun i us ts => i = IxTest (TeInvalid w) /\ passed 0 us /\ halts ts) (eats_ignore_test V)). intro u.
          apply eats_ret. intros ts us [A B]. rewrite app_nil_r. auto.
        * cbv beta. intros i W us ts (-> & -> & A & B) vs ts' -> NB.
          constructor; [|exact A|eapply halts_ends; eauto]. intro X. rewrite named_in in X, E, NN. rewrite existsb_app in X. apply orb_true_iff in X as [X|X].
          -- apply NN. cbn in X |- *. repeat (apply orb_true_iff in X as [X|X]; [rewrite X; cbn; rewrite ?orb_true_r; reflexivity|]). discriminate.
          -- cbn [existsb test_names] in X. rewrite Ev in X. cbn in NN.
             destruct (word "true" w) eqn:W1; [apply NN; rewrite ?orb_true_r; reflexivity|].
             destruct (word "false" w) eqn:W2; [apply NN; rewrite ?orb_true_r; reflexivity|]. cbn [orb] in X.
             apply E. clear E NN. cbn [tests map fst existsb]. repeat (apply orb_true_iff in X as [X|X]; [rewrite X; rewrite ?orb_true_r; reflexivity|]).
             discriminate.
  Qed.

  Definition frame (c : cst) : cst := with_code [] c.
  Lemma erc_code c c' : erc c = erc c' -> map er (c_code c) = map er (c_code c') /\ frame c = frame c'.
  Proof. intro E. unfold erc, with_code in E. injection E as A B C D F. split; [exact A|]. unfold frame, with_code. now rewrite B, C, D, F. Qed.
  Lemma reset_ok s u s1 : reset s = Ok u s1 -> p_lex s1 = p_lex s /\ p_c s1 = p_c s /\ p_v s1 = p_v s.
  Proof. intro E. injection E as _ <-. auto. Qed.
  Lemma reads_word W1 V us ks : test_reads K W1 V us ks -> match us with t :: _ => is_word_tok t | [] => False end -> forall r, peek_word (ks ++ r) = true.
  Proof. destruct 1; intros W r; try contradiction; reflexivity. Qed.
  Lemma seen_word k ts : word_next k = true -> seen k ts -> match ts with t :: _ => is_word_tok t | [] => False end.
  Proof.
    destruct k as [| |t]; try discriminate. cbn. intros W (ts' & ->). destruct t; try discriminate; exact Logic.I.
  Qed.

  (** The rest of the loop, from the state [s] and the variables [st] of the loop *)
  Definition follows (st : tstate) (s s' : pst) (ts : list tok) : Prop :=
    let '(b, stk, nt) := st in
    frame (p_c s') = frame (p_c s) /\
    exists us ks f, rest s (us ++ ts) /\ us <> [] /\ test_reads K (p_v s') (p_v s) us ks /\
      forall r, Compile.parse_test umax lim f (ks ++ r) (map er (c_code (p_c s))) b stk nt = POk (map er (c_code (p_c s')) ++ [IxJz umax]) r.

  Section Step.
    Variable n : nat.
    Variables (s' : pst) (u : unit) (ts : list tok).
    Hypothesis F : rest s' ts.
    Hypothesis IH : forall st s, loop n (test_step K FU) st s = Ok u s' -> follows st s s' ts.
    Definition goes (r : tstate + unit) : P unit := match r with inl a => loop n (test_step K FU) a | inr x => ret x end.

    Lemma after_ok b stk nt nt' i s1 r s2 : after_test K b stk nt nt' i s1 = Ok r s2 -> goes r s2 = Ok u s' ->
      frame (p_c s') = frame (p_c s1) /\
      exists us ks f, rest s1 (us ++ ts) /\ test_reads K (p_v s') (p_v s1) us ks /\
        forall r, match closings (t_p b) (ks ++ r) with
                  | None => PErr
                  | Some r' => match stk with
                               | [] => POk ((map er (c_code (p_c s1)) ++ [if nt then set_not (er i) else er i]) ++ [IxJz umax]) r'
                               | _ => Compile.parse_test umax lim f r' (map er (c_code (p_c s1)) ++ [if nt then set_not (er i) else er i])
                                        {| t_all := t_all b; t_not := t_not b; t_p := 0; t_jmps := t_jmps b |} stk nt'
                               end
                  end = POk (map er (c_code (p_c s')) ++ [IxJz umax]) r.
    Proof.
      intros E G. unfold after_test in E. apply bind_ok in E. destruct E as (x & s3 & E1 & E). apply bind_ok in E. destruct E as (y & s4 & E2 & E).
      unfold push, modify in E2. injection E2 as _ <-. set (s4 := w_c _ s3) in E.
      assert (CE : map er (c_code (p_c s4)) = map er (c_code (p_c s3)) ++ [if nt then set_not (er i) else er i]).
      { cbn. rewrite map_app. cbn. destruct nt; [now rewrite er_not|reflexivity]. }
      pose proof (close_parens_v _ _ _ _ E1) as VE.
      destruct stk as [|p0 stk0].
      - injection E as <- <-. cbn in G. injection G as _ <-. change (p_v s4) with (p_v s3). rewrite <- VE. destruct (close_parens_ok _ _ _ _ ts E1 F) as [A B]. split; [cbn; now rewrite <- B|].
        exists (repeat TParenClose (t_p b)), (repeat KPClose (t_p b)), 0. split; [exact A|].
        split; [rewrite <- (app_nil_r (repeat TParenClose _)), <- (app_nil_r (repeat KPClose _)); apply reads_repeat; constructor|].
        intro r. rewrite closings_repeat. rewrite <- B, <- CE. reflexivity.
      - injection E as <- <-. cbn [goes] in G. destruct (IH _ _ G) as (FR & us & ks & f & A & N & T & X).
        change (rest s3 (us ++ ts)) in A. destruct (close_parens_ok _ _ _ _ _ E1 A) as [B C]. split; [rewrite FR; cbn; now rewrite <- C|].
        exists (repeat TParenClose (t_p b) ++ us), (repeat KPClose (t_p b) ++ ks), f. split; [now rewrite <- app_assoc|].
        split; [rewrite <- VE; now apply reads_repeat|]. intro r. rewrite <- app_assoc, closings_repeat, <- C, <- CE. apply X.
    Qed.
    Lemma step_ok st s : bind (test_step K FU st) goes s = Ok u s' -> follows st s s' ts.
    Proof.
      intro E. apply bind_ok in E. destruct E as (r & s2 & E & G). destruct st as [[b stk] nt]. unfold test_step in E.
      apply bind_ok in E. destruct E as (t & s1 & E1 & E). apply bind_ok in E. destruct E as (y & s3 & E2 & E).
      apply reset_ok in E2. destruct E2 as (PL & PC & PV). rewrite (next_v _ _ _ E1) in PV.
      assert (NX : forall ws, rest s3 ws -> rest s (t :: ws) /\ p_c s3 = p_c s).
      { intros ws W. rewrite PL in W. destruct (next_ok _ _ _ _ E1 W) as [A B]. split; [exact A|congruence]. }
      assert (LEAF : forall i us2 s4 r0 nt1 nt2,
        after_test K b stk nt1 nt2 i s4 = Ok r0 s2 -> goes r0 s2 = Ok u s' ->
        erc (p_c s4) = erc (p_c s3) -> p_v s4 = p_v s3 -> (forall ws, rest s4 ws -> rest s3 (us2 ws ++ ws)) ->
        (forall us ks, rest s4 (us ++ ts) -> test_reads K (p_v s') (p_v s) us ks -> exists k, test_reads K (p_v s') (p_v s) (t :: us2 (us ++ ts) ++ us) (k :: ks) /\
           forall f r', Compile.parse_test umax lim (S f) (k :: r') (map er (c_code (p_c s4))) b stk nt =
             match closings (t_p b) r' with
             | None => PErr
             | Some r' => match stk with
                          | [] => POk ((map er (c_code (p_c s4)) ++ [if nt1 then set_not (er i) else er i]) ++ [IxJz umax]) r'
                          | _ => Compile.parse_test umax lim f r' (map er (c_code (p_c s4)) ++ [if nt1 then set_not (er i) else er i])
                                   {| t_all := t_all b; t_not := t_not b; t_p := 0; t_jmps := t_jmps b |} stk nt2
                          end
             end) -> follows (b, stk, nt) s s' ts).
      { intros i us2 s4 r0 nt1 nt2 EA GA QE VE RE KX. destruct (after_ok _ _ _ _ _ _ _ _ EA GA) as (FR & us & ks & f & A & T & X).
        rewrite VE, PV in T. destruct (KX us ks A T) as (k & T' & X'). destruct (NX _ (RE _ A)) as [R C].
        apply erc_code in QE. destruct QE as [QE QF]. split; [rewrite FR, QF, C; reflexivity|].
        exists (t :: us2 (us ++ ts) ++ us), (k :: ks), (S f). split; [cbn; now rewrite <- app_assoc|]. split; [discriminate|]. split; [exact T'|].
        intro r1. rewrite <- C, <- QE. cbn [app]. rewrite X'. apply X. }
      destruct t; try discriminate.
      - (* ( *) unfold ret in E. injection E as <- <-. cbn [goes] in G. destruct (IH _ _ G) as (FR & us & ks & f & A & N & T & X).
        destruct (NX _ A) as [R C]. split; [rewrite FR, C; reflexivity|]. exists (TParenOpen :: us), (KPOpen :: ks), (S f).
        split; [exact R|]. split; [discriminate|]. split; [constructor; now rewrite <- PV|]. intro r1. cbn [app Compile.parse_test]. rewrite <- C. apply X.
      - (* ) *) destruct (t_p b) as [|m] eqn:TP.
        + destruct stk as [|prev stk0]; [discriminate|]. apply bind_ok in E. destruct E as (x1 & s4 & E3 & E). unfold inside in E3.
          destruct (forallb _ _); [|discriminate]. injection E3 as _ <-. apply bind_ok in E. destruct E as (x2 & s5 & E4 & E).
          unfold modify in E4. injection E4 as _ <-. destruct stk0 as [|p1 stk1].
          * injection E as <- <-. cbn [goes] in G. injection G as _ <-. change (rest s3 ts) in F. destruct (NX _ F) as [R C].
            split; [cbn; rewrite C; reflexivity|]. exists [TParenClose], [KPClose], 1. split; [exact R|]. split; [discriminate|]. split; [rewrite <- PV; repeat constructor|].
            intro r1. cbn [app Compile.parse_test]. rewrite TP. cbn. rewrite C, er_patch, map_length. reflexivity.
          * injection E as <- <-. cbn [goes] in G. destruct (IH _ _ G) as (FR & us & ks & f & A & N & T & X). change (rest s3 (us ++ ts)) in A.
            destruct (NX _ A) as [R C]. split; [rewrite FR; cbn; rewrite C; reflexivity|]. exists (TParenClose :: us), (KPClose :: ks), (S f).
            split; [exact R|]. split; [discriminate|]. split; [constructor; now rewrite <- PV|]. intro r1. cbn [app Compile.parse_test]. rewrite TP. cbv zeta.
            rewrite map_length, <- er_patch, <- C. apply X.
        + unfold ret in E. injection E as <- <-. cbn [goes] in G. destruct (IH _ _ G) as (FR & us & ks & f & A & N & T & X).
          destruct (NX _ A) as [R C]. split; [rewrite FR, C; reflexivity|]. exists (TParenClose :: us), (KPClose :: ks), (S f).
          split; [exact R|]. split; [discriminate|]. split; [constructor; now rewrite <- PV|]. intro r1. cbn [app Compile.parse_test]. rewrite TP, <- C. apply X.
      - (* , *) apply bind_ok in E. destruct E as (code & s4 & E3 & E). unfold get in E3. injection E3 as <- <-.
        destruct stk as [|p0 stk0]; [discriminate|]. cbn [is_nil negb andb] in E. destruct (is_test _) eqn:IT; [|discriminate].
        apply bind_ok in E. destruct E as (k & s5 & E4 & E). destruct (word_next k) eqn:W; [|discriminate].
        apply bind_ok in E. destruct E as (x2 & s6 & E5 & E). unfold push, modify in E5. injection E5 as _ <-. unfold ret in E. injection E as <- <-.
        cbn [goes] in G. destruct (IH _ _ G) as (FR & us & ks & f & A & N & T & X). change (rest s5 (us ++ ts)) in A.
        destruct (peek_ok _ _ _ _ E4 A) as (A' & SN & C1). destruct (NX _ A') as [R C].
        split; [rewrite FR; cbn; rewrite C1, C; reflexivity|]. exists (TComma :: us), (KComma :: ks), (S f).
        split; [exact R|]. split; [discriminate|]. cbn [p_v w_c] in T. rewrite (peek_v _ _ _ E4), PV in T. split; [now constructor|]. intro r1. cbn [app Compile.parse_test].
        rewrite (reads_word _ _ us ks T) by (apply (seen_word _ _ W) in SN; destruct us; [congruence|exact SN]).
        rewrite <- C, er_last, IT. cbn [andb]. rewrite map_length. specialize (X r1). cbn [w_c p_c emit with_code c_code] in X.
        rewrite C1, map_app in X. rewrite <- X. do 2 f_equal. now destruct (t_all b).
      - (* a word *) destruct (word "not" w) eqn:W1.
        { apply word_named in W1. subst w. apply bind_ok in E. destruct E as (k & s5 & E4 & E). destruct (word_next k) eqn:W; [|discriminate].
          unfold ret in E. injection E as <- <-. cbn [goes] in G. destruct (IH _ _ G) as (FR & us & ks & f & A & N & T & X).
          destruct (peek_ok _ _ _ _ E4 A) as (A' & SN & C1). destruct (NX _ A') as [R C].
          split; [rewrite FR, C1, C; reflexivity|]. exists (TIdent (lit "not") :: us), (KNot :: ks), (S f).
          split; [exact R|]. split; [discriminate|]. rewrite (peek_v _ _ _ E4), PV in T. split; [now constructor|]. intro r1. cbn [app Compile.parse_test].
          rewrite (reads_word _ _ us ks T) by (apply (seen_word _ _ W) in SN; destruct us; [congruence|exact SN]).
          rewrite <- C, <- C1. apply X. }
        destruct (oneof ["anyof"; "allof"] w) eqn:W2.
        { destruct (Nat.ltb (length stk) (l_tests lim)) eqn:L; [|discriminate].
          apply bind_ok in E. destruct E as (x1 & s4 & E3 & E). unfold ret in E. injection E as <- <-. cbn [goes] in G.
          destruct (IH _ _ G) as (FR & us & ks & f & A & N & T & X).
          destruct (expect_ok TParenOpen _ _ _ _ Logic.I E3 A) as [B C1]. rewrite (expect_v _ _ _ _ E3), PV in T. destruct (NX _ B) as [R C].
          split; [rewrite FR, C1, C; reflexivity|]. cbn in W2.
          assert (AL : (w = lit "allof" /\ word "allof" w = true) \/ (w = lit "anyof" /\ word "allof" w = false)).
          { apply orb_true_iff in W2 as [W2|W2]; [right; apply word_named in W2; subst w; auto|].
            apply orb_true_iff in W2 as [W2|W2]; [|discriminate]. left. split; [now apply word_named|exact W2]. }
          destruct AL as [[-> AL]|[-> AL]].
          - exists (TIdent (lit "allof") :: TParenOpen :: us), (KAllOf :: KPOpen :: ks), (S f).
            split; [exact R|]. split; [discriminate|]. split; [now repeat constructor|]. intro r1. cbn [app Compile.parse_test]. rewrite L, <- C, <- C1. apply X.
          - exists (TIdent (lit "anyof") :: TParenOpen :: us), (KAnyOf :: KPOpen :: ks), (S f).
            split; [exact R|]. split; [discriminate|]. split; [now repeat constructor|]. intro r1. cbn [app Compile.parse_test]. rewrite L, <- C, <- C1. apply X. }
        destruct (word "true" w) eqn:W3.
        { apply word_named in W3. subst w. eapply (LEAF _ (fun _ => [])); [exact E|exact G|reflexivity|reflexivity|auto|].
          intros us ks _ T. exists KTrue. split; [now constructor|]. intros f r'. destruct nt; reflexivity. }
        destruct (word "false" w) eqn:W4.
        { apply word_named in W4. subst w. eapply (LEAF _ (fun _ => [])); [exact E|exact G|reflexivity|reflexivity|auto|].
          intros us ks _ T. exists KFalse. split; [now constructor|]. intros f r'. destruct nt; reflexivity. }
        apply bind_ok in E. destruct E as (i & s4 & E3 & E).
        assert (NN : ~ named ["not"; "anyof"; "allof"; "true"; "false"] w).
        { rewrite named_in. cbn in *. rewrite W1, W3, W4. destruct (word "anyof" w), (word "allof" w); cbn in *; congruence. }
        destruct (after_ok _ _ _ _ _ _ _ _ E G) as (FR & us & ks & f & A & T & X).
        destruct (turns_leaf (p_v s3) w NN _ _ _ _ E3 eq_refl A) as (us2 & B & _ & LI). specialize (LI _ _ eq_refl (reads_no_brace _ _ _ _ T)). rewrite PV in LI.
        destruct (NX _ B) as [R C]. pose proof (qu_c _ _ _ _ (qu_leaf K FU w) E3) as QE. apply erc_code in QE. destruct QE as [QE QF].
        split; [rewrite FR, QF, C; reflexivity|]. exists (TIdent w :: us2 ++ us), (KLeaf i :: ks), (S f).
        split; [cbn; now rewrite <- app_assoc|]. split; [discriminate|]. split; [econstructor; eassumption|]. intro r1. cbn [app Compile.parse_test].
        rewrite <- C, <- QE. rewrite (leaf_is_er _ _ _ _ _ _ _ LI) in X. apply X.
      - (* an unknown word *) apply bind_ok in E. destruct E as (i & s4 & E3 & E).
        destruct (after_ok _ _ _ _ _ _ _ _ E G) as (FR & us & ks & f & A & T & X).
        destruct (proj2 (eats_ignore_test (p_v s3)) _ _ _ _ E3 eq_refl A) as (us2 & B & _ & PS & HL).
        rewrite (proj1 (eats_ignore_test (p_v s3)) _ _ _ E3 eq_refl), PV in T.
        destruct (NX _ B) as [R C]. pose proof (qu_c _ _ _ _ (qu_ignore_test K FU) E3) as QE. apply erc_code in QE. destruct QE as [QE QF].
        split; [rewrite FR, QF, C; reflexivity|]. exists (TUnknown s0 :: us2 ++ us), (KLeaf (IxTest (TeInvalid s0)) :: ks), (S f).
        split; [cbn; now rewrite <- app_assoc|]. split; [discriminate|].
        split; [econstructor; [constructor; [exact PS|eapply halts_ends; [eapply reads_no_brace; eassumption|exact HL]]|exact T]|].
        intro r1. cbn [app Compile.parse_test].
        rewrite <- C, <- QE. apply X.
    Qed.
  End Step.

  Lemma test_loop_ok s' u ts : rest s' ts -> forall n st s, loop n (test_step K FU) st s = Ok u s' -> follows st s s' ts.
  Proof.
    intros F n. induction n as [|n IH]; intros st s E; [discriminate|]. eapply (step_ok n s' u ts F IH). exact E.
  Qed.
  Lemma parse_test_ok s u s' ts : parse_test K FU s = Ok u s' -> rest s' ts ->
    frame (p_c s') = frame (p_c s) /\
    exists us ks f, rest s (us ++ ts) /\ test_reads K (p_v s') (p_v s) us ks /\
      forall r, Compile.parse_test umax lim f (ks ++ r) (map er (c_code (p_c s))) top_tblock [] false = POk (map er (c_code (p_c s'))) r.
  Proof.
    intros E F. unfold parse_test in E. apply bind_ok in E. destruct E as (x & s1 & E1 & E). unfold push, modify in E. injection E as _ <-.
    change (rest s1 ts) in F. destruct (test_loop_ok _ _ _ F _ _ _ E1) as (FR & us & ks & f & A & N & T & X).
    split; [exact FR|]. exists us, ks, f. split; [exact A|]. split; [exact T|]. intro r. rewrite X. cbn. now rewrite map_app.
  Qed.
End Test.
