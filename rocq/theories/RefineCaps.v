(** The parsers of commands keep the capabilities that are declared. *)
From Coq Require Import Lia.
From Verif Require Import Base Lib Address Var Value SetVar Flags Comparator Message EditHeader
  Expr ExprTok Event Notify AddrTest Vacation Sieve Utf8 Lexer Scope StringTok Compile ParseArgs ParseBase Parse.
Import ListNotations.
Local Open Scope string_scope.
Local Open Scope list_scope.

Lemma register_matches_caps : forall ns s, p_caps (snd (register_matches ns s)) = p_caps s.
Proof.
  induction ns as [|n ns IH]; intros s; cbn [register_matches]; [reflexivity|].
  assert (H1 : p_caps (snd (register_match n s)) = p_caps s).
  { unfold register_match. destruct (mark_in _ _ _) as [[ok code] ms]. reflexivity. }
  destruct (register_match n s) as [ok s1]. specialize (IH s1). destruct (register_matches ns s1). cbn in *. congruence.
Qed.

Section Blocks.
  Variable K : cenv.
  Variable FU : nat.
  Definition cl {A} (m : P A) : Prop := forall s a s', m s = Ok a s' -> p_caps s' = p_caps s.

  Lemma cl_ret {A} (a : A) : cl (ret a). Proof. intros s x s' E. now injection E as <- <-. Qed.
  Lemma cl_fail {A} : cl (@fail A). Proof. intros s x s' E. discriminate. Qed.
  Lemma cl_bind {A B} (m : P A) (k : A -> P B) : cl m -> (forall a, cl (k a)) -> cl (bind m k).
  Proof.
    intros H1 H2 s b s' E. unfold bind in E. destruct (m s) as [a s1| | |] eqn:E1; try discriminate.
    rewrite (H2 _ _ _ _ E). eapply H1; eauto.
  Qed.
  Lemma cl_get {A} (f : pst -> A) : cl (get f). Proof. intros s x s' E. now injection E as <- <-. Qed.
  Lemma cl_modify f : (forall s, p_caps (f s) = p_caps s) -> cl (modify f).
  Proof. intros F s x s' E. injection E as <- <-. now rewrite F. Qed.
  Lemma cl_lift {A} (o : option A) : cl (lift o). Proof. destruct o; [apply cl_ret|apply cl_fail]. Qed.
  Lemma cl_loop {A B} (step : A -> P (A + B)) : (forall a, cl (step a)) -> forall n a, cl (loop n step a).
  Proof.
    intros H n. induction n as [|n IH]; intros a; [intros s x s' E; discriminate|].
    cbn [loop]. apply cl_bind; [apply H|]. intros [a'|b]; [apply IH|apply cl_ret].
  Qed.
  Lemma cl_next : cl (next K).
  Proof. intros s a s' E. unfold next in E. destruct (unwrap_next _ _ _); try discriminate. now injection E as <- <-. Qed.
  Lemma cl_next_opt : cl (next_opt K).
  Proof. intros s a s' E. unfold next_opt in E. destruct (lex_next _ _ _); try discriminate; now injection E as <- <-. Qed.
  Lemma cl_peek : cl (peek K).
  Proof. intros s a s' E. unfold peek in E. destruct (lex_peek _ _ _); try discriminate; now injection E as <- <-. Qed.
  Lemma cl_tokenize bs : cl (tokenize K bs).
  Proof.
    intros s a s' E. unfold tokenize in E. destruct (tokenize_string _ _ bs) as [v|] eqn:T; [|discriminate].
    pose proof (register_matches_caps (match_refs v) s) as M. destruct (register_matches (match_refs v) s) as [ok s1].
    match type of E with match ?x with _ => _ end = _ => destruct x; [|discriminate] end. injection E as <- <-. cbn in M. now rewrite M.
  Qed.
  Lemma cl_register n b : cl (register K n b).
  Proof. intros s a s' E. unfold register in E. destruct (register_variable _ _ _ _ _) as [[v vs]|]; [|discriminate]. now injection E as <- <-. Qed.
  Lemma cl_on_v f : cl (on_v f).
  Proof. intros s a s' E. unfold on_v in E. destruct (f _); [|discriminate]. now injection E as <- <-. Qed.
  Lemma cl_on_c f : cl (on_c f).
  Proof. intros s a s' E. unfold on_c in E. destruct (f _); [|discriminate]. now injection E as <- <-. Qed.
  Lemma cl_inside l : cl (inside l).
  Proof. intros s a s' E. unfold inside in E. destruct (forallb _ _); [|discriminate]. unfold ret in E. now injection E as <- <-. Qed.
  Lemma cl_expr : cl (parse_expr K).
  Proof.
    unfold parse_expr. apply cl_bind; [apply cl_next|]. intro t. apply cl_bind; [apply cl_lift|].
    intros src s a s' E. destruct (compile_text _ _ _); try discriminate. now injection E as <- <-.
  Qed.
  Lemma cl_read_args hs dflt :
    Forall (fun h : handler => forall w a, cl (snd h w a)) hs -> (forall t a, cl (dflt t a)) -> cl (read_args K FU hs dflt).
  Proof.
    intros Hh Hd. unfold read_args. apply cl_loop. intro a. unfold step_args. apply cl_bind; [apply cl_next|]. intro t. destruct t; try apply Hd.
    assert (D : match dispatch hs w with Some h => forall a, cl (h a) | None => True end).
    { clear - Hh. induction Hh as [|[f h] hs X Y IH]; cbn; [exact Logic.I|]. destruct (f w); [intro; apply X|exact IH]. }
    destruct (dispatch hs w); [|apply Hd]. apply cl_bind; [apply D|]. intro. apply cl_ret.
  Qed.

  Create HintDb cl.
  Ltac cl_step :=
    match goal with
    | |- forall _, _ => intro
    | |- cl (let (_, _) := ?x in _) => destruct x
    | |- cl fail => apply cl_fail
    | |- cl (ret _) => apply cl_ret
    | |- cl (get _) => apply cl_get
    | |- cl (lift _) => apply cl_lift
    | |- cl (modify _) => apply cl_modify; solve [reflexivity | let s := fresh in intro s; destruct (p_m s) as [|[ps v] ms]; reflexivity | let s := fresh in intro s; cbn; destruct (p_caps s); reflexivity]
    | |- cl (bind _ _) => apply cl_bind
    | |- cl (read_args _ _ _ _) => apply cl_read_args
    | |- Forall _ [] => apply Forall_nil
    | |- Forall _ (_ :: _) => apply Forall_cons; [cbn [snd]|]
    | |- cl (loop _ _ _) => apply cl_loop
    | |- cl (next _) => apply cl_next
    | |- cl (peek _) => apply cl_peek
    | |- cl _ => solve [auto with cl]
    | |- cl (match ?x with _ => _ end) => destruct x
    | |- cl (snd ?m _ _) => let h := head_of m in unfold h; cbn [snd]
    | |- cl (more _ _) => unfold more
    | |- cl (done _ _) => unfold done
    | |- cl ?m => let h := head_of m in progress unfold h
    end
  with head_of m := match m with ?f _ => head_of f | _ => m end.
  Ltac clx := repeat cl_step.
  Hint Resolve cl_tokenize cl_register cl_on_v cl_on_c cl_inside cl_expr cl_next_opt : cl.

  Lemma cl_static_string : cl (static_string K FU). Proof. clx. Qed.
  Lemma cl_static_strings : cl (static_strings K FU). Proof. clx. Qed.
  Lemma cl_string_list b : cl (string_list K FU b). Proof. clx. Qed.
  Hint Resolve cl_static_string cl_static_strings cl_string_list : cl.
  Lemma cl_string : cl (string K FU). Proof. clx. Qed.
  Lemma cl_strings_tok t : cl (strings_tok K FU t). Proof. clx. Qed.
  Lemma cl_strings : cl (strings K FU). Proof. clx. Qed.
  Lemma cl_va n c : cl (va K n c). Proof. clx. Qed.
  Lemma cl_match_type w : cl (match_type K w). Proof. clx. Qed.
  Lemma cl_validate m k : cl (validate_match K m k). Proof. clx. Qed.
  Lemma cl_check b : cl (check K b). Proof. clx. Qed.
  Lemma cl_variable_name t b : cl (variable_name K t b). Proof. clx. Qed.
  Lemma cl_ignore_instruction : cl (ignore_instruction K FU). Proof. clx. Qed.
  Lemma cl_ignore_test : cl (ignore_test K FU). Proof. clx. Qed.
  Hint Resolve cl_string cl_strings_tok cl_strings cl_va cl_match_type cl_validate cl_check cl_variable_name cl_ignore_instruction cl_ignore_test : cl.
  Lemma cl_envelope_caps l : cl (envelope_caps K l). Proof. induction l; cbn [envelope_caps]; clx. Qed.
  Lemma cl_register_all b l : cl (register_all K l b). Proof. induction l; cbn [register_all]; clx. Qed.
  Lemma cl_close_parens n : cl (close_parens K n). Proof. induction n; cbn [close_parens]; clx. Qed.
  Hint Resolve cl_envelope_caps cl_register_all cl_close_parens : cl.
  Lemma dispatch_cl hs w : Forall (fun h : handler => forall w a, cl (snd h w a)) hs ->
    match dispatch hs w with Some h => forall a, cl (h a) | None => True end.
  Proof. induction 1 as [|[f h] hs X Y IH]; cbn; [exact Logic.I|]. destruct (f w); [intro; apply X|exact IH]. Qed.
  Lemma cl_test_duplicate : cl (test_duplicate K FU).
  Proof.
    unfold test_duplicate. apply cl_bind; [|intro; clx]. apply cl_loop. intro a.
    apply cl_bind; [clx|]. intros [ | |t]; [clx..|]. destruct t; try solve [clx].
    assert (D : Forall (fun h : handler => forall w a, cl (snd h w a)) (duplicate_tags K FU)) by (unfold duplicate_tags; clx).
    apply (dispatch_cl _ w) in D. destruct (dispatch _ w); clx; auto.
  Qed.
  Hint Resolve cl_test_duplicate : cl.
  Lemma cl_tests : Forall (fun p => cl (snd (snd p))) (tests K FU).
  Proof. unfold tests. repeat (apply Forall_cons; [cbn [snd]|]); try apply Forall_nil; clx. Qed.
  Lemma find_word_cl {A} w (l : list (String.string * A)) (Q : A -> Prop) :
    Forall (fun p => Q (snd p)) l -> match find_word w l with Some x => Q x | None => True end.
  Proof.
    induction 1 as [|[n x] l H H' IH]; cbn; [exact Logic.I|]. destruct (word n w); [exact H|exact IH].
  Qed.
  Lemma cl_leaf w : cl (leaf K FU w).
  Proof.
    unfold leaf. destruct (word _ w); [clx|].
    pose proof (find_word_cl w (tests K FU) (fun x => cl (snd x)) cl_tests) as H.
    destruct (find_word w (tests K FU)) as [[c m]|]; [|clx]. cbn [snd] in H. clx; assumption.
  Qed.
  Hint Resolve cl_leaf : cl.
  Lemma cl_test_step st : cl (test_step K FU st).
  Proof. unfold test_step. clx. Qed.
  Hint Resolve cl_test_step : cl.
  Lemma cl_parse_test : cl (parse_test K FU).
  Proof. unfold parse_test. clx. Qed.
  Hint Resolve cl_parse_test : cl.
  Lemma cl_commands : Forall (fun p => cl (snd (snd p))) (commands K FU).
  Proof. unfold commands. repeat (apply Forall_cons; [cbn [snd]|]); try apply Forall_nil; clx. Qed.
  Lemma cl_globals l : cl (globals K l).
  Proof. induction l; cbn [globals]; clx. Qed.
  Hint Resolve cl_globals : cl.
  Lemma cl_include : cl (cmd_include K FU). Proof. clx. Qed.
  Lemma cl_vacation : cl (cmd_vacation K FU). Proof. clx. Qed.
  Lemma cl_tag_name : cl (tag_name K). Proof. clx. Qed.
End Blocks.
