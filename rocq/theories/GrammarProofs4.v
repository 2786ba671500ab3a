(** Proofs about the scripts the compiler accepts: commands and whole scripts. *)
From Coq Require Import Lia.
From Verif Require Import Base Lib Address Var Value SetVar Flags Comparator Message EditHeader
  Expr ExprTok Event Notify AddrTest Vacation Sieve Utf8 Lexer Scope StringTok Compile ParseArgs ParseBase Parse GrammarSpec
  GrammarProofs GrammarProofs2 GrammarProofs3.
Import ListNotations.
Local Open Scope string_scope.
Local Open Scope list_scope.

(** A script from inside of [d] blocks *)
Fixpoint body (d : nat) (us : list tok) : Prop :=
  match d with
  | 0 => some_commands us
  | S d' => exists vs ws, us = vs ++ TCurlyClose :: ws /\ some_commands vs /\ body d' ws
  end.
Lemma body_more d us vs : a_command us -> body d vs -> body d (us ++ vs).
Proof.
  intro C. destruct d as [|d]; cbn [body]; [apply commands_more; exact C|].
  intros (xs & ws & -> & S & B). exists (us ++ xs), ws. split; [now rewrite app_assoc|]. split; [now apply commands_more|exact B].
Qed.
Lemma parens_app : forall us vs, parens_ok (us ++ vs) -> parens_ok us.
Proof.
  induction us as [|a us IH]; intros vs H; [exact Logic.I|]. destruct H as [H1 H2]. split; [|apply (IH vs); exact H2].
  destruct us; [exact Logic.I|exact H1].
Qed.

Section Commands.
  Variable K : cenv.
  Variable FU : nat.
  Notation eats := (eats K).
  Notation silent := (silent K).
  Notation ar := (ar K).
  Notation rest s ts := (tokens_from (C_L K) (C_string K) (p_lex s) ts).

  Lemma silent_on_c f : (forall c c', f c = Some c' -> length (c_stack c') = length (c_stack c)) -> silent (on_c f).
  Proof.
    intro H. apply silent_same. intros s a s' E. unfold on_c in E. destruct (f _) eqn:F; [|discriminate]. injection E as <- <-.
    split; [reflexivity|]. cbn. eauto.
  Qed.
  Lemma find_label_length n : forall l p pos k l', find_label n p pos l = Some (k, l') -> length l' = length l.
  Proof.
    induction l as [|b l IH]; intros p pos k l' H; cbn [find_label] in H; [discriminate|].
    destruct (is_for b).
    - destruct (label_eqb _ _); [injection H as <- <-; reflexivity|]. destruct (find_label _ _ _ l) as [[k' l'']|] eqn:E; [|discriminate].
      cbn in H. injection H as <- <-. cbn. f_equal. eauto.
    - destruct (find_label _ _ _ l) as [[k' l'']|] eqn:E; [|discriminate]. cbn in H. injection H as <- <-. cbn. f_equal. eauto.
  Qed.
  Lemma find_loop_length : forall l pos k l', find_loop pos l = Some (k, l') -> length l' = length l.
  Proof.
    induction l as [|b l IH]; intros pos k l' H; cbn [find_loop] in H; [discriminate|].
    destruct (is_loop b); [injection H as <- <-; reflexivity|].
    destruct (find_loop _ l) as [[k' l'']|] eqn:E; [|discriminate]. cbn in H. injection H as <- <-. cbn. f_equal. eauto.
  Qed.
  Lemma with_blocks_length l c : length l = length (blocks c) -> length (c_stack (with_blocks l c)) = length (c_stack c).
  Proof. destruct l as [|b l]; cbn; [discriminate|]. lia. Qed.
  Lemma do_break_length u l c c' : do_break u l c = Some c' -> length (c_stack c') = length (c_stack c).
  Proof.
    unfold do_break. destruct l as [n|].
    - destruct (find_label _ _ _ _) as [[k l']|] eqn:E; [|discriminate]. injection 1 as <-. cbn. apply with_blocks_length.
      eapply find_label_length; eauto.
    - destruct (find_loop _ _) as [[k l']|] eqn:E; [|discriminate]. injection 1 as <-. cbn. apply with_blocks_length.
      eapply find_loop_length; eauto.
  Qed.
  Lemma silent_require l : silent (modify (fun s => w_c (do_require l (p_c s)) s)).
  Proof.
    apply silent_modify. intro s. split; [reflexivity|]. cbn. unfold do_require. destruct l; [reflexivity|]. destruct (b_require _); reflexivity.
  Qed.

  (** What a command reads, without its end *)
  Definition reads (w : text) (f : follow) (us : list tok) : Prop :=
    match f with
    | FEnd => named action_names w /\ arguments us
    | FBlock BIf _ | FBlock BElsIf _ =>
        named ["if"; "elsif"] w /\ forall p, ~ opens_list p -> parens_ok (p :: us) -> a_test us
    | FBlock _ _ => named ["else"; "foreverypart"; "while"] w /\ arguments us
    | FNone => no_command (TIdent w) /\ passed_command 0 us
    end.
  Lemma eats_unknown n : eats (unknown K FU n) (fun _ us _ => passed_command 0 us).
  Proof.
    unfold unknown. apply eats_silent; [apply silent_get|]. intro ok. destruct ok; [|apply eats_fail].
    eapply eats_bind; [apply eats_ignore_instruction|]. intro. eapply eats_weaken; [apply silent_push|]. cbv beta.
    intros ? us ts -> vs H. now rewrite app_nil_r.
  Qed.
  Lemma eats_args {A} (m : P A) (f : A -> follow) w : (forall a, f a = FEnd) -> named action_names w -> ar m ->
    eats (a <- m ;; ret (f a)) (fun f us _ => reads w f us).
  Proof.
    intros Hf N H. eapply eats_bind; [exact H|]. intro a. apply eats_ret. intros ts us X. rewrite app_nil_r, Hf. split; [exact N|exact X].
  Qed.
  Lemma reads_end (m : P follow) w : named action_names w -> eats m (fun f us _ => f = FEnd /\ arguments us) ->
    eats m (fun f us _ => reads w f us).
  Proof. intros N H. eapply eats_weaken; [exact H|]. cbv beta. intros f us ts [-> X]. split; [exact N|exact X]. Qed.
  Definition ends (m : P follow) : Prop := eats m (fun f us _ => f = FEnd /\ arguments us).
  Lemma ends_ret : ends (ret FEnd).
  Proof. apply eats_ret. intros ts. split; [reflexivity|apply arguments_nil]. Qed.
  Lemma ends_bind {A} (m : P A) k : ar m -> (forall a, ends (k a)) -> ends (bind m k).
  Proof.
    intros H1 H2. eapply eats_bind; [exact H1|]. intro a. eapply eats_weaken; [apply H2|]. cbv beta. intros f us ts [-> X] vs Y.
    split; [reflexivity|now apply arguments_app].
  Qed.
  Lemma ends_silent {A} (m : P A) k : silent m -> (forall a, ends (k a)) -> ends (bind m k).
  Proof. intro H. apply ends_bind. now apply ar_silent. Qed.
  (** A name, if the tag is there *)
  Lemma eats_tag_name {A} (k : bool -> P A) (Q : A -> list tok -> list tok -> Prop) :
    eats (k false) Q ->
    eats (k true) (fun a us ts => (exists ts', us ++ ts = TTag (lit "name") :: ts') -> Q a us ts) ->
    eats (bind (tag_name K) k) Q.
  Proof.
    intros H1 H2. unfold tag_name.
    eapply (eats_bind K _ _ (fun b us ts => us = [] /\ (b = true -> exists ts', ts = TTag (lit "name") :: ts'))).
    - apply eats_peek_next. intro p. apply eats_ret. intros ts S. split; [reflexivity|]. intro W. destruct p as [ | |t]; try discriminate.
      destruct t; try discriminate. apply word_named in W. subst w. exact S.
    - intros [|].
      + eapply eats_weaken; [exact H2|]. cbv beta. intros a us ts X vs [-> Y]. apply X. auto.
      + eapply eats_weaken; [exact H1|]. cbv beta. intros a us ts X vs [-> Y]. exact X.
  Qed.
  Lemma eats_named : eats (next K ;; static_string K FU)
    (fun _ us ts => (exists ts', us ++ ts = TTag (lit "name") :: ts') -> arguments us).
  Proof.
    apply eats_read. intro t. eapply eats_weaken; [apply ar_static_string|]. cbv beta. intros a us ts X (ts' & E). cbn in E. injection E as -> _.
    apply arguments_cons; [apply single_tag|exact X].
  Qed.
  Lemma ends_break : ends (cmd_break K FU).
  Proof.
    unfold cmd_break, ends. apply eats_tag_name.
    - apply ends_silent; [apply silent_ret|]. intro l. apply ends_silent; [apply silent_on_c; intros; eapply do_break_length; eauto|].
      intro. apply ends_ret.
    - eapply (eats_bind K _ _ (fun _ us ts => (exists ts', us ++ ts = TTag (lit "name") :: ts') -> arguments us)).
      + apply eats_silent; [apply silent_va|]. intro.
        eapply (eats_weaken K (bind (next K) (fun _ => n <- static_string K FU ;; ret (Some n)))
          (fun _ us ts => (exists ts', us ++ ts = TTag (lit "name") :: ts') -> arguments us)); [|auto].
        apply eats_read. intro t. eapply eats_weaken; [apply (ar_bind K); [apply ar_static_string|intro; apply ar_silent, silent_ret]|].
        cbv beta. intros x us ts X (ts' & E). cbn in E. injection E as -> _. apply arguments_cons; [apply single_tag|exact X].
      + intro l. eapply eats_weaken; [apply (ends_silent (on_c (do_break (C_umax K) l)) (fun _ => ret FEnd));
          [apply silent_on_c; intros; eapply do_break_length; eauto|intro; apply ends_ret]|].
        cbv beta. intros f us ts [-> X] vs H Y. split; [reflexivity|]. rewrite <- app_assoc in Y. apply arguments_app; [exact (H Y)|exact X].
  Qed.
  Lemma eats_foreverypart : eats (cmd_foreverypart K FU) (fun f us _ => (exists l, f = FBlock BFor l) /\ arguments us).
  Proof.
    unfold cmd_foreverypart. apply eats_silent; [apply silent_va|]. intro. apply eats_silent; [apply silent_get|]. intro stk.
    destruct (Nat.eqb _ _); [apply eats_fail|]. apply eats_tag_name.
    - apply eats_silent; [apply silent_ret|]. intro l. apply eats_silent; [apply silent_push|]. intro. apply eats_ret. intros ts.
      split; [eauto|apply arguments_nil].
    - eapply (eats_bind K _ _ (fun _ us ts => (exists ts', us ++ ts = TTag (lit "name") :: ts') -> arguments us)).
      + apply eats_read. intro t.
        eapply (eats_weaken K _ (fun _ us _ => arguments us)).
        * apply (ar_bind K); [apply ar_static_string|]. intro n. destruct (existsb _ stk); [apply ar_silent, silent_fail|apply ar_silent, silent_ret].
        * cbv beta. intros x us ts X (ts' & E). cbn in E. injection E as -> _. apply arguments_cons; [apply single_tag|exact X].
      + intro l. apply eats_silent; [apply silent_push|]. intro. apply eats_ret. intros ts us H Y. rewrite app_nil_r in *.
        split; [eauto|exact (H Y)].
  Qed.
  Lemma ar_require_list : ar (require_list K FU).
  Proof.
    unfold require_list. apply ar_next. intro t. destruct t; try (intros ? ? ? ? E F; discriminate).
    - apply an_list. generalize (@nil capability). induction FU as [|n IH]; intro l; [intros s x s' ts E F; discriminate|]. cbn [loop].
      eapply (eats_bind K _ _ (fun r us _ => exists t, is_string t /\ match r with inl _ => us = [t; TComma] | inr _ => us = [t; TBracketClose] end)).
      + apply eats_read. intro t. destruct t; try (intros ? ? ? ? E F; discriminate).
        apply eats_silent; [apply silent_add_cap|]. intro l'. apply eats_read. intro t. destruct t; try (intros ? ? ? ? E F; discriminate);
          apply eats_ret; intros ts; exists (TStr c); (split; [exact Logic.I|reflexivity]).
      + intros [l'|l'].
        * eapply eats_weaken; [apply IH|]. cbv beta. intros x us ts (m & F & X & ->) vs (t & S & ->).
          exists (t :: TComma :: m). split; [constructor; [auto|constructor; auto]|]. split; [right; now constructor|reflexivity].
        * apply eats_ret. intros ts us (t & S & ->). exists [t]. split; [constructor; [auto|constructor]|]. split; [right; now constructor|reflexivity].
    - apply an_single; [apply single_str|]. apply ar_silent, silent_add_cap.
  Qed.

  Lemma eats_command w : eats (command K FU w) (fun f us _ => reads w f us).
  Proof.
    unfold command.
    destruct (word "require" w) eqn:W1.
    { apply word_named in W1. subst w. apply reads_end; [apply in_map; cbn; tauto|]. apply ends_bind; [apply ar_require_list|]. intro.
      apply ends_silent; [apply silent_require|]. intro. apply ends_ret. }
    destruct (word "if" w) eqn:W2.
    { apply word_named in W2. subst w. eapply eats_bind; [apply eats_parse_test|]. intro.
      apply eats_silent; [apply silent_modify; intro; split; reflexivity|]. intro. apply eats_ret. intros ts us H. rewrite app_nil_r.
      split; [apply in_map; cbn; tauto|exact H]. }
    destruct (word "elsif" w) eqn:W3.
    { apply word_named in W3. subst w. apply eats_silent; [apply silent_get|]. intro l. destruct l; try apply eats_fail;
        (eapply eats_bind; [apply eats_parse_test|]; intro; apply eats_ret; intros ts us H; rewrite app_nil_r;
         split; [apply in_map; cbn; tauto|exact H]). }
    destruct (word "else" w) eqn:W4.
    { apply word_named in W4. subst w. apply eats_silent; [apply silent_get|]. intro l. destruct l; try apply eats_fail;
        (apply eats_ret; intros ts; split; [apply in_map; cbn; tauto|apply arguments_nil]). }
    destruct (word "foreverypart" w) eqn:W5.
    { apply word_named in W5. subst w. eapply eats_weaken; [apply eats_foreverypart|]. cbv beta. intros f us ts [(l & ->) H].
      split; [apply in_map; cbn; tauto|exact H]. }
    destruct (word "break" w) eqn:W6.
    { apply word_named in W6. subst w. apply reads_end; [apply in_map; cbn; tauto|]. apply ends_break. }
    destruct (word "vacation" w) eqn:W7.
    { apply word_named in W7. subst w. apply reads_end; [apply in_map; cbn; tauto|]. apply ends_silent; [apply silent_va|]. intro.
      apply ends_bind; [apply ar_cmd_vacation|]. intro. apply ends_silent; [apply silent_modify; intro; split; reflexivity|]. intro. apply ends_ret. }
    destruct (word "include" w) eqn:W8.
    { apply word_named in W8. subst w. apply reads_end; [apply in_map; cbn; tauto|]. apply ends_silent; [apply silent_get|]. intro n.
      destruct (Nat.ltb _ _); [|apply eats_fail]. apply ends_silent; [apply silent_va|]. intro.
      apply ends_bind; [apply ar_cmd_include|]. intro. apply ends_silent; [apply silent_modify; intro; split; reflexivity|]. intro. apply ends_ret. }
    destruct (word "return" w) eqn:W9.
    { apply word_named in W9. subst w. apply reads_end; [apply in_map; cbn; tauto|]. apply ends_silent; [apply silent_va|]. intro.
      apply ends_silent; [apply silent_modify; intro; split; reflexivity|]. intro. apply ends_ret. }
    destruct (word "global" w) eqn:W10.
    { apply word_named in W10. subst w. apply reads_end; [apply in_map; cbn; tauto|]. apply ends_silent; [apply silent_va|]. intro.
      apply ends_silent; [apply silent_va|]. intro. apply ends_bind; [apply ar_static_strings|]. intro.
      apply ends_silent; [apply silent_globals|]. intro. apply ends_ret. }
    destruct (word "while" w) eqn:W11.
    { apply word_named in W11. subst w. apply eats_silent; [apply silent_va|]. intro. eapply eats_bind; [apply ar_expr|]. intro.
      apply eats_silent; [apply silent_push|]. intro. apply eats_ret. intros ts us H. rewrite app_nil_r.
      split; [apply in_map; cbn; tauto|exact H]. }
    destruct (word "continue" w) eqn:W12.
    { apply word_named in W12. subst w. apply reads_end; [apply in_map; cbn; tauto|]. unfold cmd_continue. apply ends_silent; [apply silent_va|].
      intro. apply ends_silent; [|intro; apply ends_ret]. apply silent_on_c. intros c c' E.
      destruct (do_continue 0 (blocks c)) as [n l]. destruct n as [|[|[|n]]]; try discriminate. now injection E as <-. }
    destruct (find_word w (commands K FU)) as [[c m]|] eqn:E.
    { destruct (find_word_some _ _ _ _ (ar_commands K FU) E) as (n & W & A & N). cbn [fst snd] in A, N. apply word_named in W. subst w.
      apply reads_end; [exact N|]. unfold simple. apply ends_silent; [apply silent_va|]. intro. apply ends_bind; [exact A|]. intro.
      apply ends_silent; [apply silent_push|]. intro. apply ends_ret. }
    eapply eats_bind; [apply eats_unknown|]. intro. apply eats_ret. intros ts us H. rewrite app_nil_r. split; [|exact H].
    intro X. apply find_word_none in E. rewrite named_in in X, E. clear H. unfold block_names, action_names in X. cbn [existsb app] in X.
    rewrite W1, W2, W3, W4, W5, W6, W7, W8, W9, W10, W11, W12 in X. cbn [orb] in X. apply E. cbn [commands map fst existsb].
    repeat (apply orb_true_iff in X as [X|X]; [rewrite X; rewrite ?orb_true_r; reflexivity|]). discriminate.
  Qed.

  (** Blocks *)
  Lemma open_rest t l s s' ts u : open_all K t l s = Ok u s' -> rest s' ts ->
    rest s ts /\ length (c_stack (p_c s')) = S (length (c_stack (p_c s))).
  Proof.
    unfold open_all, inside, bind, on_c, modify. intros E F. destruct (forallb _ _); [|discriminate].
    unfold open in E. destruct (Nat.ltb _ _); [|discriminate]. injection E as <- <-. split; [exact F|reflexivity].
  Qed.
  Lemma close_length u c r s s' : close u c r s = Some s' -> S (length (c_stack s')) = length (c_stack s).
  Proof.
    unfold close. destruct (c_stack s) as [|prev stk]; [discriminate|]. cbv zeta. intro E.
    destruct (b_type (c_blk s)); try (injection E as <-; reflexivity);
      repeat match type of E with match ?x with _ => _ end = _ => destruct x end; try discriminate; injection E as <-; reflexivity.
  Qed.
  Lemma close_rest s s' ts u : close_all K s = Ok u s' -> rest s' ts ->
    rest s ts /\ S (length (c_stack (p_c s'))) = length (c_stack (p_c s)).
  Proof.
    intros E F. unfold close_all, get, inside in E. unfold bind at 1 2 3 4 5 in E. destruct (forallb _ _); [|discriminate].
    unfold bind at 1 in E. unfold lift in E. destruct (close_block (p_v s)) as [vi|]; [|discriminate]. unfold ret at 1 in E.
    match type of E with bind ?m ?k s = _ => set (m0 := m) in E; set (k0 := k) in E end.
    assert (H1 : silent m0).
    { unfold m0. destruct (b_type _); try apply silent_ret; (apply silent_bind; [apply silent_peek|intro; apply silent_ret]). }
    assert (H2 : forall b s1 ts1 u s2, k0 b s1 = Ok u s2 -> rest s2 ts1 ->
              rest s1 ts1 /\ S (length (c_stack (p_c s2))) = length (c_stack (p_c s1))).
    { intros b s1 ts1 u0 s2 E1 F1. unfold k0, bind, on_c, modify in E1. destruct (close _ _ _ _) eqn:C; [|discriminate].
      injection E1 as <- <-. split; [exact F1|]. cbn. eapply close_length; eauto. }
    unfold bind at 1 in E. destruct (m0 s) as [b s1| | |] eqn:M; try discriminate. destruct (H2 _ _ _ _ _ E F) as [A B].
    destruct (H1 _ _ _ _ M A) as (us & C & D & ->). split; [exact C|]. congruence.
  Qed.

  Lemma main_body : forall n s u s', loop n (main_step K FU) tt s = Ok u s' -> c_stack (p_c s') = [] ->
    exists us, rest s us /\ (parens_ok us -> body (length (c_stack (p_c s))) us).
  Proof.
    induction n as [|n IH]; intros s u s' E Z; [discriminate|]. cbn [loop] in E. unfold bind at 1 in E.
    destruct (main_step K FU tt s) as [r s1| | |] eqn:M; try discriminate. unfold main_step in M. unfold bind at 1 in M. unfold next_opt in M.
    destruct (lex_next _ _ _) as [l|t l|e l|] eqn:N; try discriminate.
    - unfold ret in M. injection M as <- <-. unfold ret in E. injection E as _ <-. cbn in Z. exists [].
      split; [eapply from_end; exact N|]. intros _. rewrite Z. constructor.
    - set (s0 := w_lex l s) in *. unfold reset in M. unfold bind at 1, modify in M.
      set (s00 := w_params [] s0) in *.
      assert (St0 : length (c_stack (p_c s00)) = length (c_stack (p_c s))) by reflexivity.
      assert (R0 : forall ts, rest s00 ts -> rest s (t :: ts)) by (intros ts F; eapply from_token; [exact N|exact F]).
      destruct t; try discriminate.
      + (* a closing brace *)
        unfold bind at 1, get in M. destruct (c_stack (p_c s00)) as [|b0 st0] eqn:Sk; [discriminate|].
        unfold bind in M. destruct (close_all K s00) as [u0 s2| | |] eqn:C; try discriminate. injection M as <- <-.
        destruct (IH _ _ _ E Z) as (us & F & B). destruct (close_rest _ _ _ _ C F) as [F0 L].
        exists (TCurlyClose :: us). split; [auto|]. intro P. rewrite <- St0. rewrite Sk in *. cbn [length] in *. injection L as L. rewrite <- L.
        exists [], us. split; [reflexivity|]. split; [constructor|]. apply B. exact (parens_tail _ _ P).
      + (* a command *)
        unfold bind at 1 in M. destruct (command K FU w s00) as [f s2| | |] eqn:C; try discriminate.
        destruct f as [bt lb| |].
        * unfold bind at 1 in M. destruct (expect K TCurlyOpen s2) as [u0 s3| | |] eqn:X; try discriminate.
          unfold bind at 1 in M. destruct (open_all K bt lb s3) as [u1 s4| | |] eqn:O; try discriminate. injection M as <- <-.
          destruct (IH _ _ _ E Z) as (us & F & B). destruct (open_rest _ _ _ _ _ _ O F) as [F3 L].
          destruct (eats_expect K _ _ _ _ _ X F3) as (o & F2 & L2 & ->).
          destruct (eats_command w _ _ _ _ C F2) as (vs & F1 & L1 & Rd).
          exists (TIdent w :: vs ++ [TCurlyOpen] ++ us). split; [auto|]. intro P.
          assert (D : length (c_stack (p_c s4)) = S (length (c_stack (p_c s)))) by congruence. rewrite D in B.
          destruct B as (xs & ws & -> & Cs & B).
          { apply (parens_skip (TIdent w :: vs ++ [TCurlyOpen])). cbn [app]. rewrite <- app_assoc. exact P. }
          assert (Cm : a_command (TIdent w :: vs ++ TCurlyOpen :: xs ++ [TCurlyClose])).
          { assert (Pt : forall A : Prop, (~ opens_list (TIdent w) -> parens_ok (TIdent w :: vs) -> A) -> named ["if"; "elsif"] w -> A).
            { intros A HA Nw. apply HA.
              - intro O'. unfold opens_list in O'. clear - Nw O'. destruct Nw as [<-|[<-|[]]]; destruct O' as [O'|[O'|[]]]; discriminate.
              - change (TIdent w :: vs ++ [TCurlyOpen] ++ xs ++ TCurlyClose :: ws) with
                  ((TIdent w :: vs) ++ [TCurlyOpen] ++ xs ++ TCurlyClose :: ws) in P. exact (parens_app _ _ P). }
            destruct bt; destruct Rd as [Nm Hs]; try (apply command_block; [exact Nm|exact Hs|exact Cs]);
              (apply command_if; [exact Nm|apply (Pt _ (Hs _) Nm)|exact Cs]). }
          replace (TIdent w :: vs ++ [TCurlyOpen] ++ xs ++ TCurlyClose :: ws)
            with ((TIdent w :: vs ++ TCurlyOpen :: xs ++ [TCurlyClose]) ++ ws)
            by (cbn; rewrite <- app_assoc; cbn; rewrite <- app_assoc; reflexivity).
          now apply body_more.
        * unfold bind at 1 in M. destruct (expect K TSemicolon s2) as [u0 s3| | |] eqn:X; try discriminate. injection M as <- <-.
          destruct (IH _ _ _ E Z) as (us & F & B). destruct (eats_expect K _ _ _ _ _ X F) as (o & F2 & L2 & ->).
          destruct (eats_command w _ _ _ _ C F2) as (vs & F1 & L1 & [Nm Ar]).
          exists (TIdent w :: vs ++ [TSemicolon] ++ us). split; [auto|]. intro P.
          replace (TIdent w :: vs ++ [TSemicolon] ++ us) with ((TIdent w :: vs ++ [TSemicolon]) ++ us) in *
            by (cbn; rewrite <- app_assoc; reflexivity).
          apply body_more; [now apply command_action|]. replace (length (c_stack (p_c s))) with (length (c_stack (p_c s3))) by congruence.
          apply B. exact (parens_skip _ _ P).
        * injection M as <- <-. destruct (IH _ _ _ E Z) as (us & F & B).
          destruct (eats_command w _ _ _ _ C F) as (vs & F1 & L1 & [Nm Pa]). exists ((TIdent w :: vs) ++ us). split; [cbn; auto|].
          intro P. apply body_more; [now apply command_unknown|]. replace (length (c_stack (p_c s))) with (length (c_stack (p_c s2))) by congruence.
          apply B. exact (parens_skip _ _ P).
      + (* an unknown word *)
        unfold bind in M. destruct (unknown K FU s2 s00) as [u0 s3| | |] eqn:C; try discriminate. injection M as <- <-.
        destruct (IH _ _ _ E Z) as (us & F & B). destruct (eats_unknown _ _ _ _ _ C F) as (vs & F1 & L1 & Pa).
        exists ((TUnknown s2 :: vs) ++ us). split; [cbn; auto|]. intro P.
        apply body_more; [apply command_unknown; [exact Logic.I|exact Pa]|].
        replace (length (c_stack (p_c s))) with (length (c_stack (p_c s3))) by congruence. apply B. exact (parens_skip _ _ P).
  Qed.
  Lemma compile_with_grammar script x : compile_with K FU script = Compiled x ->
    exists ts, tokens_from (C_L K) (C_string K) (lex_start script) ts /\ (parens_ok ts -> some_commands ts).
  Proof.
    unfold compile_with. destruct (Nat.ltb _ _); [discriminate|].
    destruct (loop FU (main_step K FU) tt (init script)) as [u s| | |] eqn:E; try discriminate.
    unfold finish. destruct (c_stack (p_c s)) eqn:Z; [|discriminate]. intros _. exact (main_body _ _ _ _ E Z).
  Qed.
End Commands.
Lemma compile_grammar K script x : compile K script = Compiled x ->
  exists ts, tokens_from (C_L K) (C_string K) (lex_start script) ts /\ (parens_ok ts -> some_commands ts).
Proof. apply compile_with_grammar. Qed.
