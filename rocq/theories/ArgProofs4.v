(** Proofs that each test carries what its arguments say: the other tests. *)
From Coq Require Import Lia.
From Verif Require Import Base Lib Address Var Value SetVar Flags Comparator Message EditHeader
  Expr ExprTok Event Notify AddrTest Vacation Sieve Utf8 Lexer Scope StringTok HeaderVar Compile ParseArgs ParseBase Parse GrammarSpec
  GrammarProofs GrammarProofs2 GrammarProofs3 ArgBase ArgSpec ArgProofs1 ArgProofs2 ArgProofs3.
Import ListNotations.
Local Open Scope string_scope.
Local Open Scope list_scope.

Lemma splits_snoc ts us l vs : splits ts us l -> a_strings vs -> splits ts (us ++ vs) (l ++ [(None, vs)]).
Proof.
  intros [-> H] A. split; [rewrite map_app, concat_app; cbn; now rewrite app_nil_r|]. apply Forall_app. split; [exact H|]. constructor; [exact A|constructor].
Qed.

Section Tests.
  Variable K : cenv.
  Variable V : vst.
  Variable FU : nat.
  Notation L := (C_L K).
  Notation eats := (eats K V).
  Notation silent := (silent K V).
  Notation strings_are := (strings_are K V).
  Notation string1 := (string1 K V).
  Notation plain_test := (plain_test K V).
  Notation Om := (Om K).

  Lemma handles_bare ts (R : args -> list piece -> Prop) x f : shape_of x ts = Some [] -> (forall a l, R a l -> R (f a) (l ++ [(Some (lit x), [])])) ->
    handles K V ts R (word x, fun _ a => ret (f a)).
  Proof.
    intros Hs HR w a W. cbn [fst snd] in *. apply word_named in W. subst w. apply eats_ret. intros ts'.
    split; [eapply legal_shape; [exact Hs|reflexivity]|]. auto.
  Qed.
  Definition Pn (a : args) (l : list piece) : Prop :=
    match a_vals a with None => positional l = []
    | Some v => exists n, positional l = [[TStr n]] /\ v = [XVariable (TEnvironment (str_lower L (const_text L n)))] end.
  Lemma eats_environment : eats (test_environment K FU) (fun t us _ => plain_test "environment" us t).
  Proof.
    unfold test_environment.
    eapply eats_then; [apply (eats_args K V FU (match_tags false) (fun a l => Om a l /\ Pn a l) _ _
      (fun a l => Om a l /\ exists n k, positional l = [[TStr n]; k] /\
         vals a = [XVariable (TEnvironment (str_lower L (const_text L n)))] /\ strings_are k (a_nopts a)))|].
    - unfold Pn. tag.
    - unfold Pn. hdls.
    - intros t a. destruct (a_vals a) eqn:E.
      + arg eats_strings_tok. unfold Pn in *. rewrite E in *. destruct H0 as (n & P & ->). exists n, (t :: us).
        split; [now apply pos_some|]. split; [unfold vals; cbn [a_vals s_nopts]; now rewrite E|exact HQ].
      + destruct t; try apply eats_fail. apply eats_ret. intros ts. split; [left; exists (TStr c); split; [reflexivity|exact Logic.I]|].
        intros l [H0 H1]. open_; conj; try comp. unfold Pn in *. rewrite E in *. cbn [a_vals s_vals]. exists c. split; [now apply pos_none|reflexivity].
    - fin. destruct HF as (A & n & k & P & Q & R). rewrite Q. eapply is_environment; eauto. now apply keys_of.
  Qed.
  Lemma eats_no_flags a l us m c n : splits (match_tags false ++ bare ["local"]) us l -> Om a l -> positional l = [n] -> strings_are n (vals a) ->
    m = a_m a -> c = a_c a -> plain_test "hasflag" us (TeHasFlag [] (keyed m (vals a)) c m false).
  Proof. intros S A P Q -> ->. eapply is_hasflag; eauto. exists (vals a). auto. Qed.
  Lemma eats_simple (f : list value -> test) (x : String.string) : (forall us l, strings_are us l -> plain_test x us (f l)) ->
    eats (l <- strings K FU ;; ret (f l)) (fun t us _ => plain_test x us t).
  Proof. intro H. eapply eats_then; [apply eats_strings|]. intro l. apply eats_ret. auto. Qed.
  Lemma eats_ihave : eats (test_ihave K FU) (fun t us _ => plain_test "ihave" us t).
  Proof.
    unfold test_ihave. eapply eats_then; [apply eats_statics|]. intro l. apply eats_ret. intro ts. split; [reflexivity|]. intros us H. now constructor.
  Qed.
  Lemma eats_metadataexists : eats (test_metadataexists K FU) (fun t us _ => plain_test "metadataexists" us t).
  Proof.
    unfold test_metadataexists. eapply (eats_bind K V); [apply eats_string|]. intro m. eapply eats_then; [apply eats_strings|]. intro l.
    apply eats_ret. intro ts. split; [reflexivity|]. intros vs H us H'. now apply is_metadataexists.
  Qed.
  Lemma eats_convert : eats (test_convert K FU) (fun t us _ => plain_test "convert" us t).
  Proof.
    unfold test_convert. eapply (eats_bind K V); [apply eats_string|]. intro m. eapply (eats_bind K V); [apply eats_string|]. intro l.
    eapply eats_then; [apply eats_strings|]. intro z.
    apply eats_ret. intro ts. split; [reflexivity|]. intros ws H1 vs H2 us H3. now eapply is_convert; eauto.
  Qed.
  Lemma eats_size : eats (test_size K) (fun t us _ => plain_test "size" us t).
  Proof.
    unfold test_size. apply eats_read. intro t. apply eats_lift_then. intros over E. apply eats_read. intro t'.
    destruct t'; try apply eats_fail. apply eats_ret. intros _. destruct t; try discriminate.
    destruct (word "over" w) eqn:W; [apply word_named in W as ->; injection E as <-; apply is_over|].
    destruct (word "under" w) eqn:W2; [apply word_named in W2 as ->; injection E as <-; apply is_under|discriminate].
  Qed.
  Lemma eats_specialuse : eats (test_specialuse K FU) (fun t us _ => plain_test "specialuse_exists" us t).
  Proof.
    unfold test_specialuse. eapply (eats_bind K V); [apply eats_strings|]. intro l. apply eats_peek_next. intro p. destruct (starts_strings p).
    - assert (G : forall Q, eats (@bind tok test (next K) (fun _ => fail)) Q) by (intro; apply eats_read; intro; apply eats_fail).
      destruct l as [|m [|m' l]]; try apply G. eapply eats_then; [apply eats_strings|]. intro z. apply eats_ret. intros ts.
      split; [reflexivity|]. intros vs H _ us H'. now apply is_specialuse_in.
    - apply eats_ret. intros ts _ us H. rewrite app_nil_r. now apply is_specialuse.
  Qed.
  Definition dup_arg (w : text) (us : list tok) (d : dupmatch) : Prop :=
    exists v, string1 us v /\ ((w = lit "header" /\ d = DupHeader v) \/ (w = lit "uniqueid" /\ d = DupUnique v)).
  Lemma eats_duplicate : eats (test_duplicate K FU) (fun t us _ => plain_test "duplicate" us t).
  Proof.
    unfold test_duplicate.
    set (ts := with_strings ["handle"; "header"; "uniqueid"] ++ [("seconds", [SNumber]); ("last", [])]).
    set (R := fun (a : args) (l : list piece) => (str_opt K V "handle" l (a_handle a) /\ opt ["header"; "uniqueid"] dup_arg DupDefault l (a_dup a) /\
               flag "last" l (a_last a) /\ num_opt "seconds" l (a_secs a)) /\ positional l = []).
    assert (Hh : Forall (handles K V ts R) (duplicate_tags K FU)).
    { unfold duplicate_tags, R. hdls.
      - intros w a W. cbn [fst snd] in *. apply word_named in W as ->. apply eats_silent; [apply silent_va|]. intros _.
        eapply eats_then; [apply eats_string|]. intro v. apply eats_check. apply eats_ret. intros ts'. split; [reflexivity|].
        intros us H. split; [eapply legal_shape; [reflexivity|]; apply fits_one; eapply strings_shape; eauto|]. intros l HR. open_; conj;
          first [pos|comp|apply opt_hit; [reflexivity|]; unfold dup_arg; eauto 10].
      - apply (handles_string K V FU _ _ 2 None "uniqueid" (fun o a => s_dup (match o with Some v => DupUnique v | None => DupDefault end) a)); [reflexivity|].
        intros; open_; conj; first [pos|comp|apply opt_hit; [reflexivity|]; unfold dup_arg; eauto 10]. }
    eapply (eats_then K V _ _ (fun a us _ => exists l, splits ts us l /\ R a l)).
    - assert (G : forall n a, eats (loop n (fun a => k <- peek K ;;
                           match k with
                           | KErr => fail
                           | KTok (TTag w) =>
                               match dispatch (duplicate_tags K FU) w with
                               | Some h => next K ;; a' <- h a ;; ret (inl a')
                               | None => ret (inr a)
                               end
                           | _ => ret (inr a)
                           end) a) (fun b us _ => forall l, R a l -> exists l', splits ts us l' /\ R b (l ++ l'))).
      { induction n as [|n IH]; intros a; [apply eats_never; discriminate|]. cbn [loop].
        eapply (eats_bind K V _ _ (fun r us _ => match r with
           | inl a' => exists p, us = written p /\ legal ts p /\ forall l, R a l -> R a' (l ++ [p])
           | inr b => us = [] /\ b = a end)).
        - apply eats_peek_next. intro p. destruct p as [| |t]; [|apply eats_fail|].
          + apply eats_ret. auto.
          + destruct t; try (apply eats_ret; auto). destruct (dispatch (duplicate_tags K FU) w) as [h|] eqn:E; [|apply eats_ret; auto].
            apply dispatch_some in E as (f & g & I & X & ->). rewrite Forall_forall in Hh. specialize (Hh _ I w a X). cbn [fst snd] in Hh.
            apply eats_next_seen. intro u.
            eapply eats_weaken; [|intros r us ts' Y; exact Y]. eapply eats_then; [exact Hh|]. intro a'. apply eats_ret. intros ts'.
            split; [reflexivity|]. intros us [A B] ->. exists (Some w, us). auto.
        - intros [a'|b].
          + eapply eats_weaken; [apply IH|]. cbv beta. intros b vs ts' X us (p & -> & A & B) l HR.
            destruct (X _ (B _ HR)) as (l' & [-> S] & Y).
            exists (p :: l'). rewrite <- app_assoc in Y. split; [|exact Y]. split; [reflexivity|]. now constructor.
          + apply eats_ret. intros ts' us [-> ->] l HR. exists []. split; [split; [reflexivity|apply Forall_nil]|now rewrite app_nil_r]. }
      eapply eats_weaken; [apply (G FU args0)|]. cbv beta. intros a us ts' X. destruct (X []) as (l & S & Y); [unfold R; tag|]. eauto.
    - intro a. apply eats_ret. intros ts'. split; [reflexivity|]. intros us (l & S & ((A & B & C & D) & E)). eapply is_duplicate; eauto.
  Qed.

End Tests.

Lemma turns_register_all K l b : forall V, turns K V (register_all K l b)
  (fun vs W us _ => us = [] /\ exists names, l = map XText names /\ variables_are K b V names vs W).
Proof.
  induction l as [|x l IH]; intro V; cbn [register_all].
  - intros s a s' ts E EV F. injection E as <- <-. exists []. repeat split; auto. exists []. rewrite EV. split; [reflexivity|constructor].
  - assert (N : forall Q, turns K V (@bind tok (list vartype) (next K) (fun _ => fail)) Q).
    { intro Q. apply turns_never. intros s a s' E. unfold bind in E. destruct (next K s); discriminate. }
    destruct x; try apply N. eapply turns_bind; [apply turns_register|]. intros v V1. eapply turns_bind; [apply IH|]. intros vs V2.
    eapply turns_weaken; [apply turns_eats, (eats_ret K V2 _ (fun r us _ => us = [] /\ r = v :: vs)); auto|].
    cbv beta. intros r W us ts [-> [-> ->]] u1 [-> (names & -> & R)] u2 [-> H]. split; [reflexivity|]. exists (t :: names).
    split; [reflexivity|]. econstructor; eauto.
Qed.
Section All.
  Variable K : cenv.
  Variable V : vst.
  Variable FU : nat.
  Lemma turns_hasflag : turns K V (test_hasflag K FU) (fun t W us _ => test_is K V "hasflag" us t W).
  Proof.
    unfold test_hasflag.
    eapply turns_after; [apply (eats_args K V FU (match_tags false ++ bare ["local"])
      (fun a l => (Om K a l /\ flag "local" l (a_local a)) /\ positional l = []) _ _
      (fun a l => (Om K a l /\ flag "local" l (a_local a)) /\ exists n, positional l = [n] /\ strings_are K V n (vals a)))|].
    - tag.
    - hdls. apply handles_bare; [reflexivity|tag].
    - intros t a. arg eats_strings_tok. exists (t :: us). split; [now apply pos_none|exact HQ].
    - intro a. eapply turns_after; [apply eats_peek|]. intro p. destruct (starts_strings p).
      + eapply turns_after; [apply silent_check|]. intro u0. eapply turns_bind; [apply turns_register_all|]. intros vs V1.
        eapply turns_weaken; [apply turns_eats; eapply (eats_then K V1 _ _ (fun fl us _ => strings_are K V1 us fl)
          (fun t us _ => exists fl, strings_are K V1 us fl /\ t = TeHasFlag vs (keyed (a_m a) fl) (a_c a) (a_m a) false)); [apply eats_strings|]|].
        * intro fl. apply eats_validate_then. apply eats_ret. intros ts. split; [reflexivity|]. eauto.
        * cbv beta. intros t W us2 ts [-> (fl & HQ & ->)] u1 [-> (names & E & R)] u2 -> u3 [-> _] us (l & S & ((A & B) & n & P & Q)).
          cbn [app]. eapply is_hasflag_in with (l := l) (names := names) (n := n);
            [apply splits_snoc; [exact S|eapply strings_shape; eauto]|exact P|rewrite <- E; exact Q| |exact A|].
          -- rewrite <- (flag_has _ _ _ B). exact R.
          -- exists fl. auto.
      + eapply turns_weaken; [apply turns_eats; eapply (eats_validate_then K V _ _ _ (fun t us _ => us = [] /\ t = TeHasFlag [] (keyed (a_m a) (vals a)) (a_c a) (a_m a) false));
          apply eats_ret; auto|].
        cbv beta. intros t W us2 ts [-> [-> ->]] u1 [-> _] us (l & S & ((A & B) & n & P & Q)). rewrite app_nil_r. apply is_plain_test.
        eapply eats_no_flags; eauto.
  Qed.
  Lemma turns_plain n (m : P test) : eats K V m (fun t us _ => plain_test K V n us t) -> turns K V m (fun t W us _ => test_is K V n us t W).
  Proof. intro H. eapply turns_weaken; [apply turns_eats, H|]. cbv beta. intros t W us ts [-> X]. now constructor. Qed.

  Lemma all_tests : Forall (fun p => turns K V (snd (snd p)) (fun t W us _ => test_is K V (fst p) us t W)) (tests K FU).
  Proof.
    unfold tests. repeat (apply Forall_cons; [cbn [fst snd]; first [apply turns_hasflag|apply turns_plain; first
      [apply eats_address|apply eats_envelope|apply eats_header|apply eats_size|apply eats_exists|apply eats_body|apply eats_convert|apply eats_date
      |apply eats_currentdate|apply eats_duplicate|apply eats_string_test|apply eats_notify_capability|apply eats_environment|apply eats_ihave
      |apply eats_metadata|apply eats_metadataexists|apply eats_servermetadata|apply eats_spamtest|apply eats_virustest
      |apply eats_specialuse|apply eats_simple; now constructor]]|]). constructor.
  Qed.
End All.
