(** The room for match variables of a compiled script ends with one that a test is asked for. *)
From Coq Require Import Lia.
From Verif Require Import Base Lib Address Var Value SetVar Flags Comparator Message EditHeader
  Expr ExprTok Event Notify AddrTest Vacation Sieve Utf8 Lexer Scope StringTok Compile ParseArgs ParseBase Parse MatchSpec ParseMax.
Import ListNotations.

Definition asked (code : list instruction) (n : nat) : Prop :=
  exists t, In (IxTest t) code /\ N.testbit (wanted t) (N.of_nat n) = true.
Definition room (s : pst) : Prop := p_mmax s = 0 \/ asked (c_code (p_c s)) (p_mmax s - 1).
Definition grows (a b : list instruction) : Prop := forall n, asked a n -> asked b n.

Lemma in_update f : (forall t, f (IxTest t) = IxTest t) -> forall l p t, In (IxTest t) l -> In (IxTest t) (update p f l).
Proof.
  intro F. induction l as [|i l IH]; intros [|p] t H; cbn in *; auto.
  - destruct H as [->|H]; [left; apply F|auto].
  - destruct H as [->|H]; auto.
Qed.
Lemma grows_refl l : grows l l. Proof. intros n H. exact H. Qed.
Lemma grows_trans a b c : grows a b -> grows b c -> grows a c. Proof. unfold grows. auto. Qed.
Lemma grows_update f l p : (forall t, f (IxTest t) = IxTest t) -> grows l (update p f l).
Proof. intros F n (t & I & B). exists t. split; [apply in_update; assumption|exact B]. Qed.
Lemma grows_patch f : (forall t, f (IxTest t) = IxTest t) -> forall ps l, grows l (patch f ps l).
Proof.
  intros F. unfold patch. induction ps as [|p ps IH]; intro l; cbn [fold_left]; [apply grows_refl|].
  eapply grows_trans; [apply grows_update, F|apply IH].
Qed.
Lemma grows_app a b : grows a (a ++ b).
Proof. intros n (t & I & B). exists t. split; [apply in_or_app; auto|exact B]. Qed.
Lemma mark_bits n t t' v : mark_test n t = Some (t', v) ->
  N.testbit (wanted t') (N.of_nat n) = true /\ (forall k, N.testbit (wanted t) k = true -> N.testbit (wanted t') k = true).
Proof.
  assert (G : forall m m' v0, mark_type n m = Some (m', v0) -> exists p,
    ((m = MMatches p /\ m' = MMatches (N.lor p (N.shiftl 1 (N.of_nat n)))) \/ (m = MRegex p /\ m' = MRegex (N.lor p (N.shiftl 1 (N.of_nat n)))))).
  { intros m m' v0. destruct m; cbn; try discriminate; intro E; injection E as <- <-; exists positions; auto. }
  assert (B : forall p, N.testbit (N.lor p (N.shiftl 1 (N.of_nat n))) (N.of_nat n) = true /\
    (forall k, N.testbit p k = true -> N.testbit (N.lor p (N.shiftl 1 (N.of_nat n))) k = true)).
  { intro p. split; [|intros k H]; rewrite N.lor_spec.
    - rewrite N.shiftl_spec_high' by lia. rewrite N.sub_diag. cbn. apply Bool.orb_true_r.
    - rewrite H. reflexivity. }
  destruct t; cbn [mark_test]; try discriminate;
    match goal with |- option_map _ ?x = _ -> _ => destruct x as [[m' v']|] eqn:E; [|discriminate] end;
    cbn [option_map fst snd]; injection 1 as <- <-; destruct (G _ _ _ E) as (pp & [[-> ->]|[-> ->]]); unfold MatchSpec.wanted; cbn [match_of]; apply B.
Qed.
Lemma in_update_at : forall l p j n t, nth_error l p = Some (IxTest t) ->
  (forall k, N.testbit (wanted t) k = true -> N.testbit (wanted j) k = true) ->
  asked l n -> asked (update p (fun _ => IxTest j) l) n.
Proof.
  induction l as [|i l IH]; intros [|p] j n t E H (u & I & B); cbn in *; try discriminate.
  - injection E as ->. destruct I as [X|I].
    + injection X as ->. exists j. split; [left; reflexivity|apply H, B].
    + exists u. split; [right; exact I|exact B].
  - destruct I as [->|I]; [exists u; split; [left; reflexivity|exact B]|]. destruct (IH p j n t E H (ex_intro _ u (conj I B))) as (w & J & W). exists w. split; [right; exact J|exact W].
Qed.
Lemma mark_grows n : forall ps code v, grows code (snd (fst (mark n ps code v))).
Proof.
  induction ps as [|p ps IH]; intros code v; cbn [mark]; [apply grows_refl|].
  destruct (nth_error code p) as [i|] eqn:E; [|apply grows_refl]. destruct i; try apply grows_refl.
  destruct (mark_test n t) as [[t' v']|] eqn:M; [|apply grows_refl].
  eapply grows_trans; [|apply IH]. intros k A. eapply in_update_at; [exact E|apply (mark_bits _ _ _ _ M)|exact A].
Qed.
Lemma mark_asks n : forall ps code v, ps <> [] -> fst (fst (mark n ps code v)) = true -> asked (snd (fst (mark n ps code v))) n.
Proof.
  intros [|p ps] code v Nn; [congruence|]. cbn [mark]. destruct (nth_error code p) as [i|] eqn:E; [|discriminate]. destruct i; try discriminate.
  destruct (mark_test n t) as [[t' v']|] eqn:M; [|discriminate]. intros _. apply mark_grows.
  exists t'. split; [|exact (proj1 (mark_bits _ _ _ _ M))].
  clear - E. revert p E. induction code as [|i code IH]; intros [|p] E; cbn in *; try discriminate; [left; reflexivity|right; apply IH; exact E].
Qed.
Lemma mark_in_grows n : forall ms code, grows code (snd (fst (mark_in n ms code))).
Proof.
  induction ms as [|[ps v] ms IH]; intros code; cbn [mark_in]; [apply grows_refl|]. destruct ps as [|p ps].
  - specialize (IH code). destruct (mark_in n ms code) as [[ok code'] ms']. exact IH.
  - pose proof (mark_grows n (p :: ps) code v) as H. destruct (mark n (p :: ps) code v) as [[ok code'] v']. exact H.
Qed.
Lemma mark_in_asks n : forall ms code, fst (fst (mark_in n ms code)) = true -> asked (snd (fst (mark_in n ms code))) n.
Proof.
  induction ms as [|[ps v] ms IH]; intros code; cbn [mark_in]; [discriminate|]. destruct ps as [|p ps].
  - specialize (IH code). destruct (mark_in n ms code) as [[ok code'] ms']. exact IH.
  - pose proof (mark_asks n (p :: ps) code v ltac:(discriminate)) as H. destruct (mark n (p :: ps) code v) as [[ok code'] v']. exact H.
Qed.

(** The code of a later state has everything the code of an earlier one was asked for. *)
Definition later (s s' : pst) : Prop := p_mmax s' = p_mmax s /\ grows (c_code (p_c s)) (c_code (p_c s')).
Lemma later_room s s' : later s s' -> room s -> room s'.
Proof. intros [M G] [R|R]; unfold room; rewrite M; [left; exact R|right; apply G, R]. Qed.
Lemma same_later s s' : p_mmax s' = p_mmax s -> c_code (p_c s') = c_code (p_c s) -> later s s'.
Proof. intros M C. split; [exact M|rewrite C; apply grows_refl]. Qed.
Lemma do_break_grows u l c c' : do_break u l c = Some c' -> grows (c_code c) (c_code c').
Proof.
  unfold do_break. destruct l as [n|].
  - destruct (find_label _ _ _ _) as [[k [|b bs]]|]; [..|discriminate]; intro E; injection E as <-; apply grows_app.
  - destruct (find_loop _ _) as [[k [|b bs]]|]; [..|discriminate]; intro E; injection E as <-; apply grows_app.
Qed.
Lemma do_require_grows l c : grows (c_code c) (c_code (do_require l c)).
Proof.
  unfold do_require. destruct l; [apply grows_refl|]. destruct (b_require (c_blk c)); [|apply grows_app].
  apply grows_update. reflexivity.
Qed.
Lemma open_grows lim t l c c' : open lim t l c = Some c' -> grows (c_code c) (c_code c').
Proof. unfold open. destruct (Nat.ltb _ _); [|discriminate]. intro E. injection E as <-. apply grows_refl. Qed.
Lemma close_grows u cl r c c' : close u cl r c = Some c' -> grows (c_code c) (c_code c').
Proof.
  unfold close. destruct (c_stack c) as [|prev stk]; [discriminate|]. cbv zeta.
  set (code := c_code c ++ _). assert (G : grows (c_code c) code) by apply grows_app. clearbody code.
  assert (A : forall i, grows (c_code c) (code ++ [i])) by (intro i; eapply grows_trans; [exact G|apply grows_app]).
  assert (U : forall f p l, (forall t, f (IxTest t) = IxTest t) -> grows (c_code c) l -> grows (c_code c) (update p f l))
    by (intros; eapply grows_trans; [eassumption|apply grows_update; assumption]).
  assert (V : forall f p l, (forall t, f (IxTest t) = IxTest t) -> grows (c_code c) l -> grows (c_code c) (patch f p l))
    by (intros; eapply grows_trans; [eassumption|apply grows_patch; assumption]).
  intro E. assert (X : exists l, grows (c_code c) l /\ c_code c' = l); [|destruct X as (l & X & ->); exact X]. revert E.
  destruct (b_type (c_blk c)); do 2 try match goal with |- match ?x with _ => _ end = _ -> _ => destruct x end;
    intro E; injection E as <-; cbn [c_code]; eexists; (split; [|reflexivity]); auto 6.
Qed.

Section Room.
  Variable K : cenv.
  Variable FU : nat.
  Definition mm {A} (m : P A) : Prop := forall s a s', room s -> m s = Ok a s' -> room s'.

  Lemma mm_ret {A} (a : A) : mm (ret a). Proof. intros s x s' H E. now injection E as <- <-. Qed.
  Lemma mm_fail {A} : mm (@fail A). Proof. intros s x s' H E. discriminate. Qed.
  Lemma mm_bind {A B} (m : P A) (k : A -> P B) : mm m -> (forall a, mm (k a)) -> mm (bind m k).
  Proof. intros H1 H2 s b s' C E. unfold bind in E. destruct (m s) as [a s1| | |] eqn:E1; try discriminate. eapply H2; [|exact E]. eapply H1; eauto. Qed.
  Lemma mm_get {A} (f : pst -> A) : mm (get f). Proof. intros s x s' H E. now injection E as <- <-. Qed.
  Lemma mm_modify f : (forall s, later s (f s)) -> mm (modify f).
  Proof. intros F s x s' H E. injection E as <- <-. eapply later_room; [apply F|exact H]. Qed.
  Lemma mm_lift {A} (o : option A) : mm (lift o). Proof. destruct o; [apply mm_ret|apply mm_fail]. Qed.
  Lemma mm_loop {A B} (step : A -> P (A + B)) : (forall a, mm (step a)) -> forall n a, mm (loop n step a).
  Proof.
    intros H n. induction n as [|n IH]; intros a; [intros s x s' C E; discriminate|].
    cbn [loop]. apply mm_bind; [apply H|]. intros [a'|b]; [apply IH|apply mm_ret].
  Qed.
  Lemma mm_next : mm (next K).
  Proof. intros s a s' H E. unfold next in E. destruct (unwrap_next _ _ _); try discriminate. now injection E as <- <-. Qed.
  Lemma mm_next_opt : mm (next_opt K).
  Proof. intros s a s' H E. unfold next_opt in E. destruct (lex_next _ _ _); try discriminate; now injection E as <- <-. Qed.
  Lemma mm_peek : mm (peek K).
  Proof. intros s a s' H E. unfold peek in E. destruct (lex_peek _ _ _); try discriminate; now injection E as <- <-. Qed.
  Lemma register_matches_room : forall ns s, room s -> room (snd (register_matches ns s)).
  Proof.
    induction ns as [|n ns IH]; intros s H; cbn [register_matches]; [exact H|].
    assert (H1 : room (snd (register_match n s))).
    { unfold register_match. pose proof (mark_in_grows n (p_m s) (c_code (p_c s))) as G. pose proof (mark_in_asks n (p_m s) (c_code (p_c s))) as A.
      destruct (mark_in _ _ _) as [[ok code] ms]. cbn [fst snd] in *. unfold room. cbn. destruct ok.
      - right. destruct (Nat.max_spec (p_mmax s) (n + 1)) as [[L ->]|[L ->]].
        + replace (n + 1 - 1) with n by lia. auto.
        + destruct H as [H|H]; [lia|apply G, H].
      - destruct H as [H|H]; [left; exact H|right; apply G, H]. }
    destruct (register_match n s) as [ok s1]. specialize (IH s1 H1). destruct (register_matches ns s1). exact IH.
  Qed.
  Lemma mm_tokenize bs : mm (tokenize K bs).
  Proof.
    intros s a s' H E. unfold tokenize in E. destruct (tokenize_string _ _ bs) as [v|] eqn:T; [|discriminate].
    pose proof (register_matches_room (match_refs v) s) as M. destruct (register_matches (match_refs v) s) as [ok s1].
    match type of E with match ?x with _ => _ end = _ => destruct x; [|discriminate] end. injection E as <- <-. apply M. exact H.
  Qed.
  Lemma mm_register n b : mm (register K n b).
  Proof. intros s a s' H E. unfold register in E. destruct (register_variable _ _ _ _ _) as [[v vs]|]; [|discriminate]. now injection E as <- <-. Qed.
  Lemma mm_on_v f : mm (on_v f).
  Proof. intros s a s' H E. unfold on_v in E. destruct (f _); [|discriminate]. now injection E as <- <-. Qed.
  Lemma mm_on_c f : (forall c c', f c = Some c' -> grows (c_code c) (c_code c')) -> mm (on_c f).
  Proof.
    intros F s a s' H E. unfold on_c in E. destruct (f _) eqn:X; [|discriminate]. injection E as <- <-.
    apply (later_room s); [|exact H]. split; [reflexivity|exact (F _ _ X)].
  Qed.
  Lemma mm_do_break u l : mm (on_c (do_break u l)). Proof. apply mm_on_c. intros c c'. apply do_break_grows. Qed.
  Lemma mm_do_continue : mm (on_c (fun c => match do_continue 0 (blocks c) with (2, l) => Some (emit l c) | _ => None end)).
  Proof. apply mm_on_c. intros c c'. destruct (do_continue _ _) as [[|[|[|]]] l]; try discriminate. intro E. injection E as <-. apply grows_app. Qed.
  Lemma mm_open lim t l : mm (on_c (open lim t l)). Proof. apply mm_on_c. intros c c'. apply open_grows. Qed.
  Lemma mm_close u x r : mm (on_c (close u x r)). Proof. apply mm_on_c. intros c c'. apply close_grows. Qed.
  Lemma mm_inside l : mm (inside l).
  Proof. intros s a s' H E. unfold inside in E. destruct (forallb _ _); [|discriminate]. unfold ret in E. now injection E as <- <-. Qed.
  Lemma mm_expr : mm (parse_expr K).
  Proof.
    unfold parse_expr. apply mm_bind; [apply mm_next|]. intro t. apply mm_bind; [apply mm_lift|].
    intros src s a s' C E. destruct (compile_text _ _ _); try discriminate. now injection E as <- <-.
  Qed.
  Lemma mm_read_args hs dflt :
    Forall (fun h : handler => forall w a, mm (snd h w a)) hs -> (forall t a, mm (dflt t a)) -> mm (read_args K FU hs dflt).
  Proof.
    intros Hh Hd. unfold read_args. apply mm_loop. intro a. unfold step_args. apply mm_bind; [apply mm_next|]. intro t. destruct t; try apply Hd.
    assert (D : match dispatch hs w with Some h => forall a, mm (h a) | None => True end).
    { clear - Hh. induction Hh as [|[f h] hs X Y IH]; cbn; [exact Logic.I|]. destruct (f w); [intro; apply X|exact IH]. }
    destruct (dispatch hs w); [|apply Hd]. apply mm_bind; [apply D|]. intro. apply mm_ret.
  Qed.

  Create HintDb mm.
  Ltac mm_step :=
    match goal with
    | |- forall _, _ => intro
    | |- mm (let (_, _) := ?x in _) => destruct x
    | |- mm fail => apply mm_fail
    | |- mm (ret _) => apply mm_ret
    | |- mm (get _) => apply mm_get
    | |- mm (lift _) => apply mm_lift
    | |- mm (modify _) => apply mm_modify; let s := fresh in intro s; solve [apply same_later; solve [reflexivity | destruct (p_m s) as [|[ps v] ms]; reflexivity] | split; [reflexivity|first [apply grows_app | apply do_require_grows | apply grows_patch; reflexivity]]]
    | |- mm (bind _ _) => apply mm_bind
    | |- mm (read_args _ _ _ _) => apply mm_read_args
    | |- Forall _ [] => apply Forall_nil
    | |- Forall _ (_ :: _) => apply Forall_cons; [cbn [snd]|]
    | |- mm (loop _ _ _) => apply mm_loop
    | |- mm (next _) => apply mm_next
    | |- mm (peek _) => apply mm_peek
    | |- mm _ => solve [auto with mm]
    | |- mm (match ?x with _ => _ end) => destruct x
    | |- mm (snd ?m _ _) => let h := head_of m in unfold h; cbn [snd]
    | |- mm (more _ _) => unfold more
    | |- mm (done _ _) => unfold done
    | |- mm ?m => let h := head_of m in progress unfold h
    end
  with head_of m := match m with ?f _ => head_of f | _ => m end.
  Ltac mmx := repeat mm_step.
  Hint Resolve mm_tokenize mm_register mm_on_v mm_do_break mm_do_continue mm_open mm_close mm_inside mm_expr mm_next_opt : mm.

  Lemma mm_static_string : mm (static_string K FU). Proof. mmx. Qed.
  Lemma mm_static_strings : mm (static_strings K FU). Proof. mmx. Qed.
  Lemma mm_string_list b : mm (string_list K FU b). Proof. mmx. Qed.
  Hint Resolve mm_static_string mm_static_strings mm_string_list : mm.
  Lemma mm_string : mm (string K FU). Proof. mmx. Qed.
  Lemma mm_strings_tok t : mm (strings_tok K FU t). Proof. mmx. Qed.
  Lemma mm_strings : mm (strings K FU). Proof. mmx. Qed.
  Lemma mm_va n c : mm (va K n c). Proof. mmx. Qed.
  Lemma mm_match_type w : mm (match_type K w). Proof. mmx. Qed.
  Lemma mm_validate m k : mm (validate_match K m k). Proof. mmx. Qed.
  Lemma mm_check b : mm (check K b). Proof. mmx. Qed.
  Lemma mm_variable_name t b : mm (variable_name K t b). Proof. mmx. Qed.
  Lemma mm_ignore_instruction : mm (ignore_instruction K FU). Proof. mmx. Qed.
  Lemma mm_ignore_test : mm (ignore_test K FU). Proof. mmx. Qed.
  Hint Resolve mm_string mm_strings_tok mm_strings mm_va mm_match_type mm_validate mm_check mm_variable_name mm_ignore_instruction mm_ignore_test : mm.
  Lemma mm_envelope_caps l : mm (envelope_caps K l). Proof. induction l; cbn [envelope_caps]; mmx. Qed.
  Lemma mm_register_all b l : mm (register_all K l b). Proof. induction l; cbn [register_all]; mmx. Qed.
  Lemma mm_close_parens n : mm (close_parens K n). Proof. induction n; cbn [close_parens]; mmx. Qed.
  Hint Resolve mm_envelope_caps mm_register_all mm_close_parens : mm.
  Lemma dispatch_mm hs w : Forall (fun h : handler => forall w a, mm (snd h w a)) hs ->
    match dispatch hs w with Some h => forall a, mm (h a) | None => True end.
  Proof. induction 1 as [|[f h] hs X Y IH]; cbn; [exact Logic.I|]. destruct (f w); [intro; apply X|exact IH]. Qed.
  Lemma mm_test_duplicate : mm (test_duplicate K FU).
  Proof.
    unfold test_duplicate. apply mm_bind; [|intro; mmx]. apply mm_loop. intro a.
    apply mm_bind; [mmx|]. intros [ | |t]; [mmx..|]. destruct t; try solve [mmx].
    assert (D : Forall (fun h : handler => forall w a, mm (snd h w a)) (duplicate_tags K FU)) by (unfold duplicate_tags; mmx).
    apply (dispatch_mm _ w) in D. destruct (dispatch _ w); mmx; auto.
  Qed.
  Hint Resolve mm_test_duplicate : mm.
  Lemma mm_tests : Forall (fun p => mm (snd (snd p))) (tests K FU).
  Proof. unfold tests. repeat (apply Forall_cons; [cbn [snd]|]); try apply Forall_nil; mmx. Qed.
  Lemma find_word_mm {A} w (l : list (String.string * A)) (Q : A -> Prop) :
    Forall (fun p => Q (snd p)) l -> match find_word w l with Some x => Q x | None => True end.
  Proof.
    induction 1 as [|[n x] l H H' IH]; cbn; [exact Logic.I|]. destruct (word n w); [exact H|exact IH].
  Qed.
  Lemma mm_leaf w : mm (leaf K FU w).
  Proof.
    unfold leaf. destruct (word _ w); [mmx|].
    pose proof (find_word_mm w (tests K FU) (fun x => mm (snd x)) mm_tests) as H.
    destruct (find_word w (tests K FU)) as [[c m]|]; [|mmx]. cbn [snd] in H. mmx; assumption.
  Qed.
  Hint Resolve mm_leaf : mm.
  Lemma mm_test_step st : mm (test_step K FU st).
  Proof. unfold test_step. mmx. Qed.
  Hint Resolve mm_test_step : mm.
  Lemma mm_parse_test : mm (parse_test K FU).
  Proof. unfold parse_test. mmx. Qed.
  Hint Resolve mm_parse_test : mm.
  Lemma mm_commands : Forall (fun p => mm (snd (snd p))) (commands K FU).
  Proof. unfold commands. repeat (apply Forall_cons; [cbn [snd]|]); try apply Forall_nil; mmx. Qed.
  Lemma mm_globals l : mm (globals K l).
  Proof. induction l; cbn [globals]; mmx. Qed.
  Hint Resolve mm_globals : mm.
  Lemma mm_command w : mm (command K FU w).
  Proof.
    unfold command. pose proof (find_word_mm w (commands K FU) (fun x => mm (snd x)) mm_commands) as H.
    destruct (find_word w (commands K FU)) as [[c m]|]; cbn [snd] in H; mmx; assumption.
  Qed.
  Hint Resolve mm_command : mm.
  Lemma mm_main_step u : mm (main_step K FU u).
  Proof. unfold main_step. mmx. Qed.
  Lemma compile_with_room script x : compile_with K FU script = Compiled x ->
    s_match_vars x = 0 \/ asked (s_code x) (s_match_vars x - 1).
  Proof.
    unfold compile_with. destruct (Nat.ltb _ _); [discriminate|].
    destruct (loop FU (main_step K FU) tt (init script)) as [u s| | |] eqn:E; try discriminate.
    unfold finish. destruct (c_stack (p_c s)); [|discriminate]. injection 1 as <-. cbn [s_match_vars s_code].
    assert (R : room s) by (refine (mm_loop _ mm_main_step _ _ _ _ _ _ E); left; reflexivity).
    destruct R as [R|(t & I & B)]; [left; exact R|right]. destruct (Nat.ltb _ _); [|exists t; auto].
    eapply in_map in I. eexists. split; [exact I|]. destruct t; exact B.
  Qed.
End Room.
Lemma compile_room K script x : compile K script = Compiled x -> s_match_vars x = 0 \/ asked (s_code x) (s_match_vars x - 1).
Proof. apply compile_with_room. Qed.
