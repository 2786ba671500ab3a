(** The compiler never asks for more match variables than the runtime has. *)
From Coq Require Import Lia.
From Verif Require Import Base Lib Address Var Value SetVar Flags Comparator Message EditHeader
  Expr ExprTok Event Notify AddrTest Vacation Sieve Utf8 Lexer Scope StringTok Compile ParseArgs ParseBase Parse.
Import ListNotations.

(** *** Strings refer to the match variables 0 to 62 *)

Definition fl (x : value) : Prop :=
  match x with XList _ => False | XVariable (TMatch n) => n < 63 | _ => True end.
Lemma pack_fl items : Forall fl items -> Forall fl (splice (pack items)).
Proof.
  intro H. destruct items as [|x [|y r]]; cbn [pack splice]; [repeat constructor| |exact H].
  inversion H as [|? ? F _]; subst. destruct x; cbn [splice]; try exact H. destruct F.
Qed.
Section Tok.
  Variable pd : bool.
  Variable resolve : list N -> bool -> bool -> vres.
  Variable add : list N -> bool -> bool -> option (list value).
  Hypothesis R : forall raw a b v, resolve raw a b = RVar v -> fl (XVariable v).
  Hypothesis A : forall b dg dt l, add b dg dt = Some l -> Forall fl l.
  Lemma step_fl c last t t' : Forall fl (k_items t) -> tok_step pd resolve add c last t = Some t' -> Forall fl (k_items t').
  Proof.
    intros H E. unfold tok_step in E. destruct (k_st t).
    - unfold step_text in E. repeat match type of E with context [if ?b then _ else _] => destruct b end; injection E as <-; exact H.
    - unfold step_var in E. cbv zeta in E. repeat match type of E with (if ?b then _ else _) = _ => destruct b end; try (injection E as <-; exact H).
      match type of E with match ?o with _ => _ end = _ => destruct o as [[[it dg] dt]|] eqn:O; [|discriminate] end.
      assert (Hi : Forall fl it).
      { destruct (k_buf t); [now injection O as <- <- <-|].
        destruct (add _ _ _) eqn:Ad; [|discriminate]. injection O as <- <- <-. apply Forall_app. split; [exact H|eauto]. }
      destruct (resolve _ _ _) eqn:Re; try discriminate; injection E as <-; try exact Hi.
      apply Forall_app. split; [exact Hi|]. constructor; [exact (R _ _ _ _ Re)|constructor].
    - unfold step_enc in E. destruct (is_hex c); [injection E as <-; exact H|].
      destruct (is_blank c || N.eqb c 125); [|injection E as <-; exact H].
      destruct (decode_code _ _ _) as [[b1 err]|]; [|discriminate]. cbv zeta in E.
      repeat match type of E with (if ?b then _ else _) = _ => destruct b end; injection E as <-; exact H.
  Qed.
  Lemma go_fl : forall bs last t l, Forall fl (k_items t) -> tok_go pd resolve add bs last t = Some l -> Forall fl l.
  Proof.
    induction bs as [|c bs IH]; intros last t l H E; cbn [tok_go] in E.
    - unfold tok_end in E. cbv zeta in E. destruct (match k_st t with KText => _ | KVar _ _ _ => _ | KEnc _ _ _ _ => _ end).
      + now injection E as <-.
      + destruct (add _ _ _) eqn:Ad; [|discriminate]. injection E as <-. apply Forall_app. split; [exact H|eauto].
    - destruct (tok_step _ _ _ _ _ _) eqn:S; [|discriminate]. eapply IH; [|exact E]. eapply step_fl; eauto.
  Qed.
  Lemma run_fl bs v : tok_run pd resolve add bs = Some v -> Forall fl (splice v).
  Proof.
    unfold tok_run. destruct (tok_go _ _ _ _ _ _) eqn:E; [|discriminate]. injection 1 as <-. apply pack_fl. eapply go_fl; [|exact E]. constructor.
  Qed.
End Tok.
Lemma add_plain_fl L b dg dt l : add_plain L b dg dt = Some l -> Forall fl l.
Proof.
  unfold add_plain. injection 1 as <-. constructor; [|constructor].
  repeat match goal with |- fl (match ?b with _ => _ end) => destruct b end; exact Logic.I.
Qed.
Lemma tokenize_fl L resolve bs v : (forall raw a b v, resolve raw a b = RVar v -> fl (XVariable v)) ->
  tokenize_string L resolve bs = Some v -> Forall fl (splice v).
Proof.
  intros R. apply run_fl; [exact R|]. intros b dg dt l E. unfold add_decoded in E.
  destruct (tokenize_inner L resolve b) eqn:T; [|discriminate]. injection E as <-.
  unfold tokenize_inner in T. eapply run_fl; [exact R| |exact T]. apply add_plain_fl.
Qed.
Lemma resolve_fl L h s m raw x y v : resolve_ref L h s m raw x y = RVar v -> fl (XVariable v).
Proof.
  unfold resolve_ref. destruct (negb x).
  - unfold parse_variable, parse_plain. cbv zeta.
    assert (Pl : forall v, (match (if is_var_global raw s then Some (TGlobal raw) else option_map TLocal (get_local_var raw s)) with
                            | Some v => RVar v | None => RUnknown end) = RVar v -> fl (XVariable v)).
    { intros w. destruct (is_var_global _ _); [injection 1 as <-; exact Logic.I|]. destruct (get_local_var _ _); cbn; [|discriminate].
      injection 1 as <-. exact Logic.I. }
    destruct (negb y); [apply Pl|]. destruct (split_dot _) as [[space n]|]; [|apply Pl].
    intro E. repeat match type of E with match ?b with _ => _ end = _ => destruct b end; try discriminate; injection E as <-; exact Logic.I.
  - unfold parse_match_variable. destruct (parse_usize raw) as [n|]; [|discriminate]. destruct (N.ltb n 63) eqn:Ln; [|discriminate].
    destruct m; [|discriminate]. injection 1 as <-. cbn. apply N.ltb_lt in Ln. lia.
Qed.
Lemma match_refs_small v : Forall fl (splice v) -> Forall (fun n => n < 63) (match_refs v).
Proof.
  unfold match_refs. induction (splice v) as [|x l IH]; intro H; cbn; [constructor|]. inversion H as [|? ? F G]; subst.
  apply Forall_app. split; [|auto]. destruct x; try constructor. destruct v0; constructor; [exact F|constructor].
Qed.

(** *** Parsers *)

Section Max.
  Variable K : cenv.
  Variable FU : nat.
  Definition mm {A} (m : P A) : Prop := forall s a s', p_mmax s <= 63 -> m s = Ok a s' -> p_mmax s' <= 63.

  Lemma mm_ret {A} (a : A) : mm (ret a). Proof. intros s x s' H E. now injection E as <- <-. Qed.
  Lemma mm_fail {A} : mm (@fail A). Proof. intros s x s' H E. discriminate. Qed.
  Lemma mm_bind {A B} (m : P A) (k : A -> P B) : mm m -> (forall a, mm (k a)) -> mm (bind m k).
  Proof. intros H1 H2 s b s' C E. unfold bind in E. destruct (m s) as [a s1| | |] eqn:E1; try discriminate. eapply H2; [|exact E]. eapply H1; eauto. Qed.
  Lemma mm_get {A} (f : pst -> A) : mm (get f). Proof. intros s x s' H E. now injection E as <- <-. Qed.
  Lemma mm_modify f : (forall s, p_mmax (f s) = p_mmax s) -> mm (modify f).
  Proof. intros F s x s' H E. injection E as <- <-. now rewrite F. Qed.
  Lemma mm_lift {A} (o : option A) : mm (lift o). Proof. destruct o; [apply mm_ret|apply mm_fail]. Qed.
  Lemma mm_loop {A B} (step : A -> P (A + B)) : (forall a, mm (step a)) -> forall n a, mm (loop n step a).
  Proof.
    intros H n. induction n as [|n IH]; intros a; [intros s x s' C E; discriminate|].
    cbn [loop]. apply mm_bind; [apply H|]. intros [a'|b]; [apply IH|apply mm_ret].
  Qed.
  Lemma mm_next : mm (next K).
  Proof. intros s a s' H E. unfold next in E. destruct (unwrap_next _ _ _); try discriminate. now injection E as <- <-. Qed.
  Lemma mm_next_opt : mm (next_opt K).
  Proof. intros s a s' H E. unfold next_opt in E. destruct (lex_next _ _ _); try discriminate; now injection E as <- <-. Qed.
  Lemma mm_peek : mm (peek K).
  Proof. intros s a s' H E. unfold peek in E. destruct (lex_peek _ _ _); try discriminate; now injection E as <- <-. Qed.
  Lemma register_matches_max : forall ns s, Forall (fun n => n < 63) ns -> p_mmax s <= 63 -> p_mmax (snd (register_matches ns s)) <= 63.
  Proof.
    induction ns as [|n ns IH]; intros s F H; cbn [register_matches]; [exact H|]. inversion F as [|? ? F1 F2]; subst.
    assert (H1 : p_mmax (snd (register_match n s)) <= 63).
    { unfold register_match. destruct (mark_in _ _ _) as [[ok code] ms]. cbn. destruct ok; lia. }
    destruct (register_match n s) as [ok s1]. specialize (IH s1 F2 H1). destruct (register_matches ns s1). exact IH.
  Qed.
  Lemma mm_tokenize bs : mm (tokenize K bs).
  Proof.
    intros s a s' H E. unfold tokenize in E. destruct (tokenize_string _ _ bs) as [v|] eqn:T; [|discriminate].
    pose proof (register_matches_max (match_refs v) s) as M. destruct (register_matches (match_refs v) s) as [ok s1].
    match type of E with match ?x with _ => _ end = _ => destruct x; [|discriminate] end. injection E as <- <-. apply M; [|exact H].
    apply match_refs_small. eapply tokenize_fl; [|exact T]. intros raw x y w. apply resolve_fl.
  Qed.
  Lemma mm_register n b : mm (register K n b).
  Proof. intros s a s' H E. unfold register in E. destruct (register_variable _ _ _ _ _) as [[v vs]|]; [|discriminate]. now injection E as <- <-. Qed.
  Lemma mm_on_v f : mm (on_v f).
  Proof. intros s a s' H E. unfold on_v in E. destruct (f _); [|discriminate]. now injection E as <- <-. Qed.
  Lemma mm_on_c f : mm (on_c f).
  Proof. intros s a s' H E. unfold on_c in E. destruct (f _); [|discriminate]. now injection E as <- <-. Qed.
  Lemma mm_inside l : mm (inside l).
  Proof. intros s a s' H E. unfold inside in E. destruct (forallb _ _); [|discriminate]. unfold ret in E. now injection E as <- <-. Qed.
  Lemma mm_expr : mm (parse_expr K).
  Proof.
    unfold parse_expr. apply mm_bind; [apply mm_next|]. intro t. apply mm_bind; [apply mm_lift|].
    intros src s a s' C E. destruct (compile_text _ _ _); try discriminate. now injection E as <- <-.
  Qed.
  Lemma mm_read_args hs dflt :
    Forall (fun h : handler => forall w a, mm (snd h w a)) hs -> (forall t a, mm (dflt t a)) -> mm (read_args K FU hs dflt).
  Proof.
    intros Hh Hd. unfold read_args. apply mm_loop. intro a. unfold step_args. apply mm_bind; [apply mm_next|]. intro t. destruct t; try apply Hd.
    assert (D : match dispatch hs w with Some h => forall a, mm (h a) | None => True end).
    { clear - Hh. induction Hh as [|[f h] hs X Y IH]; cbn; [exact Logic.I|]. destruct (f w); [intro; apply X|exact IH]. }
    destruct (dispatch hs w); [|apply Hd]. apply mm_bind; [apply D|]. intro. apply mm_ret.
  Qed.

  Create HintDb mm.
  Ltac mm_step :=
    match goal with
    | |- forall _, _ => intro
    | |- mm (let (_, _) := ?x in _) => destruct x
    | |- mm fail => apply mm_fail
    | |- mm (ret _) => apply mm_ret
    | |- mm (get _) => apply mm_get
    | |- mm (lift _) => apply mm_lift
    | |- mm (modify _) => apply mm_modify; solve [reflexivity | let s := fresh in intro s; destruct (p_m s) as [|[ps v] ms]; reflexivity]
    | |- mm (bind _ _) => apply mm_bind
    | |- mm (read_args _ _ _ _) => apply mm_read_args
    | |- Forall _ [] => apply Forall_nil
    | |- Forall _ (_ :: _) => apply Forall_cons; [cbn [snd]|]
    | |- mm (loop _ _ _) => apply mm_loop
    | |- mm (next _) => apply mm_next
    | |- mm (peek _) => apply mm_peek
    | |- mm _ => solve [auto with mm]
    | |- mm (match ?x with _ => _ end) => destruct x
    | |- mm (snd ?m _ _) => let h := head_of m in unfold h; cbn [snd]
    | |- mm (more _ _) => unfold more
    | |- mm (done _ _) => unfold done
    | |- mm ?m => let h := head_of m in progress unfold h
    end
  with head_of m := match m with ?f _ => head_of f | _ => m end.
  Ltac mmx := repeat mm_step.
  Hint Resolve mm_tokenize mm_register mm_on_v mm_on_c mm_inside mm_expr mm_next_opt : mm.

  Lemma mm_static_string : mm (static_string K FU). Proof. mmx. Qed.
  Lemma mm_static_strings : mm (static_strings K FU). Proof. mmx. Qed.
  Lemma mm_string_list b : mm (string_list K FU b). Proof. mmx. Qed.
  Hint Resolve mm_static_string mm_static_strings mm_string_list : mm.
  Lemma mm_string : mm (string K FU). Proof. mmx. Qed.
  Lemma mm_strings_tok t : mm (strings_tok K FU t). Proof. mmx. Qed.
  Lemma mm_strings : mm (strings K FU). Proof. mmx. Qed.
  Lemma mm_va n c : mm (va K n c). Proof. mmx. Qed.
  Lemma mm_match_type w : mm (match_type K w). Proof. mmx. Qed.
  Lemma mm_validate m k : mm (validate_match K m k). Proof. mmx. Qed.
  Lemma mm_check b : mm (check K b). Proof. mmx. Qed.
  Lemma mm_variable_name t b : mm (variable_name K t b). Proof. mmx. Qed.
  Lemma mm_ignore_instruction : mm (ignore_instruction K FU). Proof. mmx. Qed.
  Lemma mm_ignore_test : mm (ignore_test K FU). Proof. mmx. Qed.
  Hint Resolve mm_string mm_strings_tok mm_strings mm_va mm_match_type mm_validate mm_check mm_variable_name mm_ignore_instruction mm_ignore_test : mm.
  Lemma mm_envelope_caps l : mm (envelope_caps K l). Proof. induction l; cbn [envelope_caps]; mmx. Qed.
  Lemma mm_register_all b l : mm (register_all K l b). Proof. induction l; cbn [register_all]; mmx. Qed.
  Lemma mm_close_parens n : mm (close_parens K n). Proof. induction n; cbn [close_parens]; mmx. Qed.
  Hint Resolve mm_envelope_caps mm_register_all mm_close_parens : mm.
  Lemma dispatch_mm hs w : Forall (fun h : handler => forall w a, mm (snd h w a)) hs ->
    match dispatch hs w with Some h => forall a, mm (h a) | None => True end.
  Proof. induction 1 as [|[f h] hs X Y IH]; cbn; [exact Logic.I|]. destruct (f w); [intro; apply X|exact IH]. Qed.
  Lemma mm_test_duplicate : mm (test_duplicate K FU).
  Proof.
    unfold test_duplicate. apply mm_bind; [|intro; mmx]. apply mm_loop. intro a.
    apply mm_bind; [mmx|]. intros [ | |t]; [mmx..|]. destruct t; try solve [mmx].
    assert (D : Forall (fun h : handler => forall w a, mm (snd h w a)) (duplicate_tags K FU)) by (unfold duplicate_tags; mmx).
    apply (dispatch_mm _ w) in D. destruct (dispatch _ w); mmx; auto.
  Qed.
  Hint Resolve mm_test_duplicate : mm.
  Lemma mm_tests : Forall (fun p => mm (snd (snd p))) (tests K FU).
  Proof. unfold tests. repeat (apply Forall_cons; [cbn [snd]|]); try apply Forall_nil; mmx. Qed.
  Lemma find_word_mm {A} w (l : list (String.string * A)) (Q : A -> Prop) :
    Forall (fun p => Q (snd p)) l -> match find_word w l with Some x => Q x | None => True end.
  Proof.
    induction 1 as [|[n x] l H H' IH]; cbn; [exact Logic.I|]. destruct (word n w); [exact H|exact IH].
  Qed.
  Lemma mm_leaf w : mm (leaf K FU w).
  Proof.
    unfold leaf. destruct (word _ w); [mmx|].
    pose proof (find_word_mm w (tests K FU) (fun x => mm (snd x)) mm_tests) as H.
    destruct (find_word w (tests K FU)) as [[c m]|]; [|mmx]. cbn [snd] in H. mmx; assumption.
  Qed.
  Hint Resolve mm_leaf : mm.
  Lemma mm_test_step st : mm (test_step K FU st).
  Proof. unfold test_step. mmx. Qed.
  Hint Resolve mm_test_step : mm.
  Lemma mm_parse_test : mm (parse_test K FU).
  Proof. unfold parse_test. mmx. Qed.
  Hint Resolve mm_parse_test : mm.
  Lemma mm_commands : Forall (fun p => mm (snd (snd p))) (commands K FU).
  Proof. unfold commands. repeat (apply Forall_cons; [cbn [snd]|]); try apply Forall_nil; mmx. Qed.
  Lemma mm_globals l : mm (globals K l).
  Proof. induction l; cbn [globals]; mmx. Qed.
  Hint Resolve mm_globals : mm.
  Lemma mm_command w : mm (command K FU w).
  Proof.
    unfold command. pose proof (find_word_mm w (commands K FU) (fun x => mm (snd x)) mm_commands) as H.
    destruct (find_word w (commands K FU)) as [[c m]|]; cbn [snd] in H; mmx; assumption.
  Qed.
  Hint Resolve mm_command : mm.
  Lemma mm_main_step u : mm (main_step K FU u).
  Proof. unfold main_step. mmx. Qed.
  Lemma compile_with_max script x : compile_with K FU script = Compiled x -> s_match_vars x <= 63.
  Proof.
    unfold compile_with. destruct (Nat.ltb _ _); [discriminate|].
    destruct (loop FU (main_step K FU) tt (init script)) as [u s| | |] eqn:E; try discriminate.
    unfold finish. destruct (c_stack (p_c s)); [|discriminate]. injection 1 as <-. cbn [s_match_vars].
    refine (mm_loop _ mm_main_step _ _ _ _ _ _ E). cbn. lia.
  Qed.
End Max.
Lemma compile_max K script x : compile K script = Compiled x -> s_match_vars x <= 63.
Proof. apply compile_with_max. Qed.
