(** Proofs that valid scripts are accepted: the tests. *)
From Coq Require Import Lia.
From Verif Require Import Base Lib Address Var Value SetVar Flags Comparator Message EditHeader
  Expr ExprTok Event Notify AddrTest Vacation Sieve Utf8 Lexer Scope StringTok HeaderVar Compile ParseArgs ParseBase Parse CompileSpec GrammarSpec
  ArgSpec RefineSpec GrammarProofs AcceptSpec AcceptBase AcceptArgs.
Import ListNotations.
Local Open Scope string_scope.
Local Open Scope list_scope.

Lemma J_match l a w us m : J l a -> ((exists p, m = MRegex p) -> w = "regex") -> w <> "mime" -> w <> "fcc" -> w <> "local" ->
  J (l ++ [(w, us)]) (s_m m a).
Proof.
  intros [] R N1 N2 N3.
  constructor; cbn [a_any a_mime a_opts a_m a_fcc a_create a_flags a_special a_mbid a_local a_vals a_name a_name2 a_date a_env a_var s_m];
    rewrite ?uses_snoc; auto; try tauto.
Qed.
(** What follows a test or an action *)
Definition stop (ts : list tok) : Prop :=
  exists t ts', ts = t :: ts' /\ match t with TComma | TParenClose | TCurlyOpen | TSemicolon => True | _ => False end.

Section Tests.
  Variable K : cenv.
  Variable FU : nat.
  Variable V : vst.
  Variable D : list (list capability).
  Notation L := (C_L K).
  Notation at_ := (at_ K).
  Notation got := (got K).
  Notation handles := (handles K V D).
  Notation string_ok := (string_ok K).

  Definition accepts {A} (m : P A) (us : list tok) (W : vst) : Prop :=
    forall s ts, p_v s = V -> p_caps s = D -> p_params s = [] -> stop ts -> at_ s (us ++ ts) ->
      runs m s (fun _ s' => at_ s' ts /\ stays s s' /\ p_v s' = W).

  (** *** Handlers *)

  Lemma match_type_ok w n c Q us lists s ts : In (w, n, c, Q) (match_rules K n lists) -> Q us -> at_ s (us ++ ts) ->
    match_cap (lit w) = capd c /\ w <> "mime" /\ w <> "fcc" /\ w <> "local" /\
    runs (match_type K (lit w)) s (fun m s' => ((exists p, m = MRegex p) -> w = "regex") /\ got s ts s').
  Proof.
    assert (B : forall m, (forall p, m <> MRegex p) -> at_ s ts -> runs (ret m) s (fun m s' => ((exists p, m = MRegex p) -> w = "regex") /\ got s ts s')).
    { intros m N H. apply runs_ret. split; [intros [p E]; now apply N in E|now apply got_refl]. }
    assert (R : forall k, (forall r p, k r <> MRegex p) -> one (const K (listed relations)) us -> at_ s (us ++ ts) ->
      runs (t <- next K ;; match t with TStr c => match lookup_rel (ctext K c) with Some r => ret (k r) | None => fail end | _ => fail end) s
        (fun m s' => ((exists p, m = MRegex p) -> w = "regex") /\ got s ts s')).
    { intros k N (t & -> & x & -> & r & E) H. cbn [app] in H. eapply read_ok; [exact H|]. intros s1 G. cbv beta iota.
      assert (X : lookup_rel (ctext K x) = Some r).
      { unfold relations in E. cbn [assoc] in E. unfold lookup_rel, word, ctext. exact E. }
      rewrite X. apply runs_ret. split; [intros [p Y]; now apply N in Y|exact G]. }
    intros I X H. unfold match_rules in I. apply in_app_or in I. destruct I as [I|I].
    - cbn [In] in I. repeat (destruct I as [I|I]; [injection I as <- <- <-|]); try contradiction;
        (split; [reflexivity|]); (split; [discriminate|]); (split; [discriminate|]); (split; [discriminate|]);
        try (unfold nothing in X; subst us; cbn [app] in H).
      + apply (B MIs); [discriminate|exact H].
      + apply (B MContains); [discriminate|exact H].
      + change (match_type K (lit "matches")) with (push_match ;; ret (MMatches 0)). eapply runs_then; [eapply push_match_ok; exact H|].
        cbv beta. intros _ s1 G. apply runs_ret. split; [intros [p E]; discriminate|exact G].
      + change (match_type K (lit "regex")) with (push_match ;; ret (MRegex 0)). eapply runs_then; [eapply push_match_ok; exact H|].
        cbv beta. intros _ s1 G. apply runs_ret. split; [reflexivity|exact G].
      + apply (R MValue); [discriminate|exact X|exact H].
      + apply (R MCount); [discriminate|exact X|exact H].
    - destruct lists; [|destruct I]. destruct I as [I|[]]. injection I as <- <- <-.
      (split; [reflexivity|]); (split; [discriminate|]); (split; [discriminate|]); (split; [discriminate|]).
      unfold nothing in X; subst us; cbn [app] in H. apply (B MList); [discriminate|exact H].
  Qed.
  Lemma handles_match hs n lists :
    (forall w, In w (ParseBase.match_words lists) -> dispatch hs (lit w) = Some (fun a => va K n (match_cap (lit w)) ;; m <- match_type K (lit w) ;; ret (s_m m a))) ->
    Forall (handles hs) (match_rules K n lists).
  Proof.
    intro HD. apply Forall_forall. intros [[[w n'] c] Q] I.
    assert (Z : n' = n /\ In w (ParseBase.match_words lists)).
    { unfold match_rules in I. apply in_app_or in I. destruct I as [I|I].
      - cbn [In] in I. unfold ParseBase.match_words. repeat (destruct I as [I|I]; [injection I as <- <- <-; split; [reflexivity|cbn; tauto]|]). contradiction.
      - destruct lists; [|destruct I]. destruct I as [I|[]]. injection I as <- <- <-. split; [reflexivity|]. cbn. tauto. }
    destruct Z as [-> Iw]. eexists. split; [apply HD, Iw|]. intros a s us ts l EV EC X A N H HJ. cbv beta.
    destruct (match_type_ok w n c Q us lists s ts I X H) as (E & N1 & N2 & N3 & _). rewrite E.
    apply handle_ok with (D := D) (R := fun m => (exists p, m = MRegex p) -> w = "regex"); auto.
    - intros s' H' _. apply (match_type_ok w n c Q us lists s' ts I X H').
    - intros m M. now apply J_match.
  Qed.
  Lemma handles_comparator hs n :
    dispatch hs (lit "comparator") = Some (fun a => va K n None ;; c <- parse_comparator K FU ;; ret (s_c c a)) -> handles hs (comparator_rule K n).
  Proof.
    intro HD. eexists. split; [exact HD|]. intros a s us ts l EV EC X A N H HJ. cbv beta.
    apply (handle_ok K D (fun _ => True) "comparator" n None us ts l (parse_comparator K FU) (fun c => s_c c a) s EC A N H).
    - intros s' H' _. unfold parse_comparator. eapply runs_then; [eapply static_string_ok; [exact X|exact H']|]. intros x s2 [_ G]. apply runs_ret. auto.
    - intros c _. apply J_keep with (a := a); [exact HJ|repeat split|discriminate..].
  Qed.

  (** Tags without argument, and with a number, a string, strings *)
  Lemma handles_flag hs w n c (f : args -> args) :
    dispatch hs (lit w) = Some (fun a => va K n (capd c) ;; ret (f a)) -> (forall l a, J l a -> J (l ++ [(w, [])]) (f a)) ->
    handles hs (w, n, c, nothing).
  Proof.
    intros HD F. eexists. split; [exact HD|]. intros a s us ts l EV EC X A N H HJ. unfold nothing in X. subst us.
    apply handle_flag with (D := D); auto.
  Qed.
  Lemma handles_arg {A} hs w n c (Q : list tok -> Prop) (R : A -> Prop) (m : P A) (f : A -> args -> args) :
    dispatch hs (lit w) = Some (fun a => va K n (capd c) ;; x <- m ;; ret (f x a)) ->
    (forall us s ts, p_v s = V -> Q us -> at_ s (us ++ ts) -> runs m s (fun x s' => R x /\ got s ts s')) ->
    (forall us l a x, R x -> J l a -> J (l ++ [(w, us)]) (f x a)) ->
    handles hs (w, n, c, Q).
  Proof.
    intros HD M F. eexists. split; [exact HD|]. intros a s us ts l EV EC X AL N H HJ.
    apply (handle_ok K D R w n c us ts l m (fun x => f x a) s EC AL N H).
    - intros s1 H1 E. apply (M us); [congruence|exact X|exact H1].
    - intros x Y. now apply F.
  Qed.
  Lemma run_number max us s ts : p_v s = V -> number_below max us -> at_ s (us ++ ts) -> runs (number K max) s (fun x s' => True /\ got s ts s').
  Proof. intros _ X H. eapply runs_weaken; [eapply number_ok; eauto|]. auto. Qed.
  Lemma run_string good us s ts : p_v s = V -> one (string_ok V good) us -> at_ s (us ++ ts) -> runs (string K FU) s (fun x s' => good x /\ got s ts s').
  Proof. intros <- X H. eapply runs_weaken; [eapply string_ok_one; eauto|]. cbv beta. tauto. Qed.
  Lemma run_strings us s ts : p_v s = V -> list_of (text_ok K V) us -> at_ s (us ++ ts) -> runs (strings K FU) s (fun x s' => True /\ got s ts s').
  Proof. intros <- X H. eapply runs_weaken; [eapply strings_ok; eauto|]. cbv beta. tauto. Qed.
  Lemma run_zone us s ts : p_v s = V -> zone_arg us -> at_ s (us ++ ts) -> runs (timezone K) s (fun x s' => True /\ got s ts s').
  Proof.
    intros _ (off & c & z & -> & E & B & _) H. unfold timezone. cbn [app] in H. eapply read_ok; [exact H|]. intros s1 G. cbv beta iota.
    assert (Y : exists o, zone_offset z = Some o).
    { unfold zone_offset. destruct (Z.leb 0 z && Z.leb z 1400)%bool eqn:E1; [eauto|].
      assert (E2 : (Z.leb (-1200) z && Z.leb z (-1))%bool = true); [|rewrite E2; eauto].
      apply andb_true_intro. apply Bool.andb_false_iff in E1. rewrite !Z.leb_gt in E1. rewrite !Z.leb_le. lia. }
    destruct Y as (o & Y).
    match goal with |- runs (lift ?x) _ _ => assert (Z' : x = Some o) end.
    { rewrite <- Y. f_equal. destruct c as [x|[x|x]]; cbn in E; [now rewrite E|now injection E|now injection E]. }
    rewrite Z'. split; [exact Logic.I|exact G].
  Qed.
End Tests.
(** [J] after a tag that it does not speak about, or that sets one of its fields *)
Ltac jdone := intros;
  match goal with
  | |- J (_ ++ [(?w, _)]) (?f ?a) => first [ solve [apply J_keep with (a := a); [assumption|repeat split|discriminate..]] | solve [jset] ]
  | |- J (_ ++ [(?w, _)]) ?x =>
      match goal with a : args |- _ => first [ solve [apply J_keep with (a := a); [assumption|repeat split|discriminate..]] | solve [jset] ] end
  end.
