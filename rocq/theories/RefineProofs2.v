(** The parsers of arguments do not change the control structure, nor the instructions
    except for the match variables that tests capture. *)
From Coq Require Import Lia.
From Verif Require Import Base Lib Address Var Value SetVar Flags Comparator Message EditHeader
  Expr ExprTok Event Notify AddrTest Vacation Sieve Utf8 Lexer Scope StringTok Compile ParseArgs ParseBase Parse RefineSpec RefineProofs1.
Import ListNotations.
Local Open Scope string_scope.
Local Open Scope list_scope.

Definition er : instruction -> instruction := capture 0.
Definition erc (c : cst) : cst := with_code (map er (c_code c)) c.

Lemma capture_type_twice p q m : capture_type p (capture_type q m) = capture_type p m.
Proof. destruct m; reflexivity. Qed.
Lemma capture_twice p q i : capture p (capture q i) = capture p i.
Proof. destruct i; try reflexivity. cbn. f_equal. destruct t; cbn; rewrite ?capture_type_twice; reflexivity. Qed.
Lemma mark_type_erc n m m' v : mark_type n m = Some (m', v) -> capture_type 0 m' = capture_type 0 m.
Proof. destruct m; cbn; intro E; try discriminate; injection E as <- _; reflexivity. Qed.
Lemma mark_test_erc n t t' v : mark_test n t = Some (t', v) -> capture_test 0 t' = capture_test 0 t.
Proof.
  destruct t; cbn; intro E; try discriminate;
    match type of E with option_map _ ?x = _ => destruct x as [[m0 v0]|] eqn:M; [|discriminate] end; cbn in E; injection E as <- _; cbn;
    rewrite (mark_type_erc _ _ _ _ M); reflexivity.
Qed.
Lemma update_er p i l : nth_error l p <> None -> (forall j, nth_error l p = Some j -> er i = er j) ->
  map er (update p (fun _ => i) l) = map er l.
Proof.
  revert p. induction l as [|x l IH]; intros [|p] N H; cbn in *; try congruence.
  - now rewrite (H x eq_refl).
  - now rewrite IH.
Qed.
Lemma mark_erc n : forall ps code v, map er (snd (fst (mark n ps code v))) = map er code.
Proof.
  induction ps as [|p ps IH]; intros code v; cbn [mark]; [reflexivity|].
  destruct (nth_error code p) as [[]|] eqn:N; try reflexivity. destruct (mark_test n t) as [[t' v']|] eqn:M; [|reflexivity].
  rewrite IH. apply update_er; [congruence|]. intros j E. rewrite N in E. injection E as <-. unfold er, capture. f_equal. eapply mark_test_erc, M.
Qed.
Lemma mark_in_erc n : forall ms code, map er (snd (fst (mark_in n ms code))) = map er code.
Proof.
  induction ms as [|[ps v] ms IH]; intros code; cbn [mark_in]; [reflexivity|].
  destruct ps as [|p ps].
  - specialize (IH code). destruct (mark_in n ms code) as [[ok code'] ms'']. exact IH.
  - pose proof (mark_erc n (p :: ps) code v) as E. destruct (mark n (p :: ps) code v) as [[ok code'] v']. exact E.
Qed.
Lemma register_matches_erc : forall ns s, erc (p_c (snd (register_matches ns s))) = erc (p_c s).
Proof.
  induction ns as [|n ns IH]; intros s; cbn [register_matches]; [reflexivity|].
  assert (H1 : erc (p_c (snd (register_match n s))) = erc (p_c s)).
  { unfold register_match. pose proof (mark_in_erc n (p_m s) (c_code (p_c s))) as E. destruct (mark_in _ _ _) as [[ok code] ms].
    cbn in *. unfold erc, with_code. cbn. now rewrite E. }
  destruct (register_match n s) as [ok s1]. specialize (IH s1). destruct (register_matches ns s1). cbn in *. congruence.
Qed.

(** The control structure *)
Definition struct (s : pst) := erc (p_c s).

Section Quiet.
  Variable K : cenv.
  Variable FU : nat.
  Definition qu {A} (m : P A) : Prop := forall s a s', m s = Ok a s' -> struct s' = struct s.

  Lemma qu_ret {A} (a : A) : qu (ret a). Proof. intros s x s' E. now injection E as <- <-. Qed.
  Lemma qu_fail {A} : qu (@fail A). Proof. intros s x s' E. discriminate. Qed.
  Lemma qu_bind {A B} (m : P A) (k : A -> P B) : qu m -> (forall a, qu (k a)) -> qu (bind m k).
  Proof.
    intros H1 H2 s b s' E. unfold bind in E. destruct (m s) as [a s1| | |] eqn:E1; try discriminate.
    rewrite (H2 _ _ _ _ E). eapply H1; eauto.
  Qed.
  Lemma qu_get {A} (f : pst -> A) : qu (get f). Proof. intros s x s' E. now injection E as <- <-. Qed.
  Lemma qu_modify f : (forall s, struct (f s) = struct s) -> qu (modify f).
  Proof. intros F s x s' E. injection E as <- <-. now rewrite F. Qed.
  Lemma qu_lift {A} (o : option A) : qu (lift o). Proof. destruct o; [apply qu_ret|apply qu_fail]. Qed.
  Lemma qu_loop {A B} (step : A -> P (A + B)) : (forall a, qu (step a)) -> forall n a, qu (loop n step a).
  Proof.
    intros H n. induction n as [|n IH]; intros a; [intros s x s' E; discriminate|].
    cbn [loop]. apply qu_bind; [apply H|]. intros [a'|b]; [apply IH|apply qu_ret].
  Qed.
  Lemma qu_next : qu (next K).
  Proof. intros s a s' E. unfold next in E. destruct (unwrap_next _ _ _); try discriminate. now injection E as <- <-. Qed.
  Lemma qu_next_opt : qu (next_opt K).
  Proof. intros s a s' E. unfold next_opt in E. destruct (lex_next _ _ _); try discriminate; now injection E as <- <-. Qed.
  Lemma qu_peek : qu (peek K).
  Proof. intros s a s' E. unfold peek in E. destruct (lex_peek _ _ _); try discriminate; now injection E as <- <-. Qed.
  Lemma qu_tokenize bs : qu (tokenize K bs).
  Proof.
    intros s a s' E. unfold tokenize in E. destruct (tokenize_string _ _ bs) as [v|] eqn:T; [|discriminate].
    pose proof (register_matches_erc (match_refs v) s) as M. destruct (register_matches (match_refs v) s) as [ok s1].
    match type of E with match ?x with _ => _ end = _ => destruct x; [|discriminate] end. injection E as <- <-. exact M.
  Qed.
  Lemma qu_register n b : qu (register K n b).
  Proof. intros s a s' E. unfold register in E. destruct (register_variable _ _ _ _ _) as [[v vs]|]; [|discriminate]. now injection E as <- <-. Qed.
  Lemma qu_on_v f : qu (on_v f).
  Proof. intros s a s' E. unfold on_v in E. destruct (f _); [|discriminate]. now injection E as <- <-. Qed.
  Lemma qu_inside l : qu (inside l).
  Proof. intros s a s' E. unfold inside in E. destruct (forallb _ _); [|discriminate]. unfold ret in E. now injection E as <- <-. Qed.
  Lemma qu_expr : qu (parse_expr K).
  Proof.
    unfold parse_expr. apply qu_bind; [apply qu_next|]. intro t. apply qu_bind; [apply qu_lift|].
    intros src s a s' E. destruct (compile_text _ _ _); try discriminate. now injection E as <- <-.
  Qed.
  Lemma qu_read_args hs dflt :
    Forall (fun h : handler => forall w a, qu (snd h w a)) hs -> (forall t a, qu (dflt t a)) -> qu (read_args K FU hs dflt).
  Proof.
    intros Hh Hd. unfold read_args. apply qu_loop. intro a. unfold step_args. apply qu_bind; [apply qu_next|]. intro t. destruct t; try apply Hd.
    assert (D : match dispatch hs w with Some h => forall a, qu (h a) | None => True end).
    { clear - Hh. induction Hh as [|[f h] hs X Y IH]; cbn; [exact Logic.I|]. destruct (f w); [intro; apply X|exact IH]. }
    destruct (dispatch hs w); [|apply Hd]. apply qu_bind; [apply D|]. intro. apply qu_ret.
  Qed.

  Create HintDb qu.
  Ltac qu_step :=
    match goal with
    | |- forall _, _ => intro
    | |- qu (let (_, _) := ?x in _) => destruct x
    | |- qu fail => apply qu_fail
    | |- qu (ret _) => apply qu_ret
    | |- qu (get _) => apply qu_get
    | |- qu (lift _) => apply qu_lift
    | |- qu (modify _) => apply qu_modify; solve [reflexivity | let s := fresh in intro s; destruct (p_m s) as [|[ps v] ms]; reflexivity | let s := fresh in intro s; unfold struct; cbn; destruct (p_caps s); reflexivity]
    | |- qu (bind _ _) => apply qu_bind
    | |- qu (read_args _ _ _ _) => apply qu_read_args
    | |- Forall _ [] => apply Forall_nil
    | |- Forall _ (_ :: _) => apply Forall_cons; [cbn [snd]|]
    | |- qu (loop _ _ _) => apply qu_loop
    | |- qu (next _) => apply qu_next
    | |- qu (peek _) => apply qu_peek
    | |- qu _ => solve [auto with qu]
    | |- qu (match ?x with _ => _ end) => destruct x
    | |- qu (snd ?m _ _) => let h := head_of m in unfold h; cbn [snd]
    | |- qu (more _ _) => unfold more
    | |- qu (done _ _) => unfold done
    | |- qu ?m => let h := head_of m in progress unfold h
    end
  with head_of m := match m with ?f _ => head_of f | _ => m end.
  Ltac qux := repeat qu_step.
  Hint Resolve qu_tokenize qu_register qu_on_v qu_inside qu_expr qu_next_opt : qu.

  Lemma qu_static_string : qu (static_string K FU). Proof. qux. Qed.
  Lemma qu_static_strings : qu (static_strings K FU). Proof. qux. Qed.
  Lemma qu_string_list b : qu (string_list K FU b). Proof. qux. Qed.
  Hint Resolve qu_static_string qu_static_strings qu_string_list : qu.
  Lemma qu_string : qu (string K FU). Proof. qux. Qed.
  Lemma qu_strings_tok t : qu (strings_tok K FU t). Proof. qux. Qed.
  Lemma qu_strings : qu (strings K FU). Proof. qux. Qed.
  Lemma qu_va n c : qu (va K n c). Proof. qux. Qed.
  Lemma qu_match_type w : qu (match_type K w). Proof. qux. Qed.
  Lemma qu_validate m k : qu (validate_match K m k). Proof. qux. Qed.
  Lemma qu_check b : qu (check K b). Proof. qux. Qed.
  Lemma qu_variable_name t b : qu (variable_name K t b). Proof. qux. Qed.
  Lemma qu_ignore_instruction : qu (ignore_instruction K FU). Proof. qux. Qed.
  Lemma qu_ignore_test : qu (ignore_test K FU). Proof. qux. Qed.
  Hint Resolve qu_string qu_strings_tok qu_strings qu_va qu_match_type qu_validate qu_check qu_variable_name qu_ignore_instruction qu_ignore_test : qu.
  Lemma qu_envelope_caps l : qu (envelope_caps K l). Proof. induction l; cbn [envelope_caps]; qux. Qed.
  Lemma qu_register_all b l : qu (register_all K l b). Proof. induction l; cbn [register_all]; qux. Qed.
  Lemma qu_close_parens n : qu (close_parens K n). Proof. induction n; cbn [close_parens]; qux. Qed.
  Hint Resolve qu_envelope_caps qu_register_all qu_close_parens : qu.
  Lemma dispatch_qu hs w : Forall (fun h : handler => forall w a, qu (snd h w a)) hs ->
    match dispatch hs w with Some h => forall a, qu (h a) | None => True end.
  Proof. induction 1 as [|[f h] hs X Y IH]; cbn; [exact Logic.I|]. destruct (f w); [intro; apply X|exact IH]. Qed.
  Lemma qu_test_duplicate : qu (test_duplicate K FU).
  Proof.
    unfold test_duplicate. apply qu_bind; [|intro; qux]. apply qu_loop. intro a.
    apply qu_bind; [qux|]. intros [ | |t]; [qux..|]. destruct t; try solve [qux].
    assert (D : Forall (fun h : handler => forall w a, qu (snd h w a)) (duplicate_tags K FU)) by (unfold duplicate_tags; qux).
    apply (dispatch_qu _ w) in D. destruct (dispatch _ w); qux; auto.
  Qed.
  Hint Resolve qu_test_duplicate : qu.
  Lemma qu_tests : Forall (fun p => qu (snd (snd p))) (tests K FU).
  Proof. unfold tests. repeat (apply Forall_cons; [cbn [snd]|]); try apply Forall_nil; qux. Qed.
  Lemma find_word_qu {A} w (l : list (String.string * A)) (Q : A -> Prop) :
    Forall (fun p => Q (snd p)) l -> match find_word w l with Some x => Q x | None => True end.
  Proof.
    induction 1 as [|[n x] l H H' IH]; cbn; [exact Logic.I|]. destruct (word n w); [exact H|exact IH].
  Qed.
  Lemma qu_leaf w : qu (leaf K FU w).
  Proof.
    unfold leaf. destruct (word _ w); [qux|].
    pose proof (find_word_qu w (tests K FU) (fun x => qu (snd x)) qu_tests) as H.
    destruct (find_word w (tests K FU)) as [[c m]|]; [|qux]. cbn [snd] in H. qux; assumption.
  Qed.
  Hint Resolve qu_leaf : qu.
  Lemma qu_commands : Forall (fun p => qu (snd (snd p))) (commands K FU).
  Proof. unfold commands. repeat (apply Forall_cons; [cbn [snd]|]); try apply Forall_nil; qux. Qed.
  Lemma qu_globals l : qu (globals K l).
  Proof. induction l; cbn [globals]; qux. Qed.
  Hint Resolve qu_globals : qu.
  Lemma qu_include : qu (cmd_include K FU). Proof. qux. Qed.
  Lemma qu_vacation : qu (cmd_vacation K FU). Proof. qux. Qed.
  Lemma qu_require_list : qu (require_list K FU). Proof. qux. Qed.
  Lemma qu_tag_name : qu (tag_name K). Proof. qux. Qed.
  Lemma qu_c {A} (m : P A) s a s' : qu m -> m s = Ok a s' -> erc (p_c s') = erc (p_c s).
  Proof. intros Q E. specialize (Q _ _ _ E). unfold struct in Q. congruence. Qed.
End Quiet.
