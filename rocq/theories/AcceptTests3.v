(** Proofs that valid scripts are accepted: the tests with arguments of their own. *)
From Coq Require Import Lia.
From Verif Require Import Base Lib Address Var Value SetVar Flags Comparator Message EditHeader
  Expr ExprTok Event Notify AddrTest Vacation Sieve Utf8 Lexer Scope StringTok HeaderVar Compile ParseArgs ParseBase Parse CompileSpec GrammarSpec
  ArgSpec RefineSpec GrammarProofs ArgProofs1 AcceptSpec AcceptBase AcceptArgs AcceptTests AcceptTests2.
Import ListNotations.
Local Open Scope string_scope.
Local Open Scope list_scope.

Section Tests.
  Variable K : cenv.
  Variable FU : nat.
  Variable V : vst.
  Variable D : list (list capability).
  Notation L := (C_L K).
  Notation at_ := (at_ K).
  Notation got := (got K).
  Notation handles := (handles K V D).
  Notation string_ok := (string_ok K).
  Notation accepts := (accepts K V D).
  Notation first_arg := (first_arg K).

  Ltac tags T := apply runs_bind; eapply (read_args_ok K FU V D); [|exact T|eassumption|eassumption|eassumption|eassumption|].
  Ltac pv := match goal with S : same ?s ?x, E : p_v ?s = V |- p_v ?x = V => destruct S; congruence end.

  (** *** envelope *)

  Definition part_cap D (e : envk) : Prop := allowed K D (match e with
    | EnvByTimeAbsolute | EnvByTimeRelative | EnvByMode | EnvByTrace => Some "envelope-deliverby"
    | EnvNotify | EnvOrcpt | EnvRet | EnvEnvid => Some "envelope-dsn"
    | EnvFrom | EnvTo => None
    end).
  Lemma envelope_caps_ok l : Forall (part_cap D) l -> forall s ts, p_caps s = D -> at_ s ts -> runs (envelope_caps K l) s (fun _ s' => got s ts s').
  Proof.
    induction 1 as [|e l H F IH]; intros s ts EC A; cbn [envelope_caps]; [apply runs_ret; now apply got_refl|].
    eapply runs_then.
    - instantiate (1 := fun _ s' => got s ts s').
      assert (X : exists c, envelope_cap e = capd c /\ allowed K D c).
      { unfold part_cap in H. destruct e; cbn [envelope_cap]; eexists; (split; [|exact H]); reflexivity. }
      destruct X as (c & -> & AL). eapply runs_weaken; [eapply va_ok; [exact A|now left|now rewrite EC]|].
      cbv beta. intros _ s' (T & S & P). split; [exact T|]. split; [exact S|]. exact P.
    - cbv beta. intros _ s1 G. eapply runs_weaken; [apply IH; [|apply G]|].
      + destruct G as (_ & ((-> & _) & _) & _). exact EC.
      + cbv beta. intros _ s2 G2. eapply got_trans; eauto.
  Qed.
  Definition env_step (l : list envk) : P (list envk + list envk) :=
    t <- next K ;;
    match t, l with
    | TStr c, _ => e <- envelope_name K c ;; ret (inl (if existsb (envk_eqb e) l then l else (l ++ [e])%list))
    | TComma, _ => ret (inl l)
    | TBracketClose, _ :: _ => ret (inr l)
    | _, _ => fail
    end.
  Lemma env_items vs : separated (envelope_part K D) vs -> forall s ts l, Forall (part_cap D) l -> at_ s (vs ++ TBracketClose :: ts) ->
    forall fuel, runs (loop fuel env_step l) s (fun l' s' => Forall (part_cap D) l' /\ got s ts s').
  Proof.
    assert (ONE : forall t s ts l (Q : list envk -> pst -> Prop), envelope_part K D t -> Forall (part_cap D) l -> at_ s (t :: ts) ->
      (forall l' s', l' <> [] -> Forall (part_cap D) l' -> got s ts s' -> forall fuel, runs (loop fuel env_step l') s' Q) ->
      forall fuel, runs (loop fuel env_step l) s Q).
    { intros t s ts l Q (c & -> & e & E & A) F H X [|fuel]; [exact Logic.I|]. cbn [loop]. apply runs_bind. unfold env_step at 1.
      eapply read_ok; [exact H|]. intros s1 G. cbv beta iota. apply runs_bind. unfold envelope_name.
      eapply (runs_lift _ e); [rewrite lookup_envelope_assoc; exact E|]. apply runs_ret.
      destruct (existsb (envk_eqb e) l) eqn:EX; (apply X; [| |exact G]).
      - intros ->. discriminate.
      - exact F.
      - destruct l; discriminate.
      - apply Forall_app. split; [exact F|]. repeat constructor. exact A. }
    induction 1 as [t X|t us X S IH]; intros s ts l F H.
    - cbn [app] in H. eapply ONE; [exact X|exact F|exact H|]. intros l' s' N F' G [|fuel]; [exact Logic.I|].
      cbn [loop]. apply runs_bind. unfold env_step at 1. eapply read_ok; [apply G|]. intros s2 G2. cbv beta iota.
      destruct l' as [|x l']; [easy|]. apply runs_ret. apply runs_ret. split; [exact F'|eapply got_trans; eauto].
    - cbn [app] in H. eapply ONE; [exact X|exact F|exact H|]. intros l' s' N F' G [|fuel]; [exact Logic.I|].
      cbn [loop]. apply runs_bind. unfold env_step at 1. eapply read_ok; [apply G|]. intros s2 G2. cbv beta iota. apply runs_ret.
      eapply runs_weaken; [apply IH; [exact F'|apply G2]|]. cbv beta. intros l2 s3 [F3 G3]. split; [exact F3|].
      eapply got_trans; [exact G|]. eapply got_trans; eauto.
  Qed.
  Lemma first_envelope us s ts : p_caps s = D -> list_of (envelope_part K D) us ->
    first_arg (fun t => l <- envelope_list K FU t ;; envelope_caps K l ;; ret l) us s ts (fun _ => True).
  Proof.
    intros EC O.
    assert (F : first_arg (envelope_list K FU) us s ts (Forall (part_cap D))).
    { destruct O as [(t & -> & c & -> & e & E & A)|(vs & -> & S)].
      - exists (TStr c), []. split; [reflexivity|]. split; [discriminate|]. intros s1 G. cbn [envelope_list]. apply runs_bind. unfold envelope_name.
        eapply (runs_lift _ e); [rewrite lookup_envelope_assoc; exact E|]. apply runs_ret. split; [repeat constructor; exact A|exact G].
      - exists TBracketOpen, (vs ++ [TBracketClose]). split; [reflexivity|]. split; [discriminate|]. intros s1 G.
        assert (H : at_ s1 (vs ++ TBracketClose :: ts)) by (destruct G as [G _]; rewrite <- app_assoc in G; exact G).
        change (envelope_list K FU TBracketOpen) with (loop FU env_step []).
        eapply runs_weaken; [eapply env_items; [exact S|constructor|exact H]|]. cbv beta. intros l s2 [F G2]. split; [exact F|eapply got_trans; eauto]. }
    destruct F as (t & us' & E & N & F). exists t, us'. split; [exact E|]. split; [exact N|]. intros s1 G.
    eapply runs_then; [apply F, G|]. cbv beta. intros l s2 [X G2].
    eapply runs_then; [eapply envelope_caps_ok; [exact X| |apply G2]|].
    - destruct G2 as (_ & ((-> & _) & _) & _). exact EC.
    - cbv beta. intros _ s3 G3. apply runs_ret. split; [exact Logic.I|]. eapply got_trans; eauto.
  Qed.
  Lemma ok_envelope l ns ks :
    tags_ok K D (part_rules 1 ++ match_rules K 2 true ++ [comparator_rule K 3; ("zone", 4, Some "envelope-deliverby", zone_arg)]) l ->
    list_of (envelope_part K D) ns -> list_of (key K V l) ks -> accepts (test_envelope K FU) (tags_text l ++ ns ++ ks) V.
  Proof.
    intros T O1 O2. unfold test_envelope. intros s ts EV EC EP ST H. rewrite <- !app_assoc in H. tags T; [rules|].
    intros fuel a s1 HJ H1 S1. assert (E1 : p_v s1 = V) by pv.
    eapply pos_more; [apply first_envelope; [|exact O1]|exact H1| |].
    { destruct S1 as ((-> & _) & _). exact EC. }
    { intro. cbv beta. rewrite (j_env _ _ HJ). reflexivity. }
    intros w s3 _ G3. assert (S3 := keep_v _ _ _ _ _ S1 G3). assert (E3 : p_v s3 = V) by pv.
    eapply (pos_keys K FU l ks); [exact HJ|reflexivity|rewrite E3; exact O2|apply G3|reflexivity|].
    intros keys s4 X G4. apply runs_bind, validate_ok; [exact X|]. intro.
    apply runs_bind. eapply runs_lift; [reflexivity|]. apply runs_ret. exact (after_got _ _ _ _ _ _ S3 G4 EV).
  Qed.

  (** *** Strings before the keys *)

  Lemma ok_environment l n ks :
    tags_ok K D (plain_match K) l -> one (const K any_text) n -> list_of (key K V l) ks ->
    accepts (test_environment K FU) (tags_text l ++ n ++ ks) V.
  Proof.
    intros T (t & -> & c & -> & _) O2. unfold test_environment. intros s ts EV EC EP ST H. rewrite <- !app_assoc in H. tags T; [rules|].
    intros fuel a s1 HJ H1 S1. cbn [app] in H1.
    eapply step_pos; [|exact H1|]; [discriminate|]. intros s2 G2. rewrite (j_vals _ _ HJ). cbv iota. apply runs_ret.
    assert (S2 := keep_v _ _ _ _ _ S1 G2). assert (E2 : p_v s2 = V) by pv.
    eapply (pos_keys K FU l ks); [exact HJ|reflexivity|rewrite E2; exact O2|apply G2|reflexivity|].
    intros keys s4 X G4. apply runs_bind, validate_ok; [exact X|]. intro. apply runs_ret. exact (after_got _ _ _ _ _ _ S2 G4 EV).
  Qed.
  Lemma pos_two l x y ks a s ts hs (Q : args -> pst -> Prop) : one (text_ok K V) x -> one (text_ok K V) y ->
    list_of (key K V l) ks -> J l a -> p_v s = V -> at_ s (x ++ y ++ ks ++ ts) ->
    (forall v w keys s', ((exists p, a_m a = MRegex p) -> Forall (regex_text K) keys) -> got s ts s' ->
      Q (s_nopts keys (s_name2 (Some w) (s_name (Some v) a))) s') ->
    forall fuel, runs (loop fuel (step_args K hs (two_keys K FU)) a) s Q.
  Proof.
    intros O1 O2 O3 HJ E H X. eapply pos_more; [apply first_string; rewrite E; exact O1|exact H| |].
    { intro. unfold two_keys. rewrite (j_name _ _ HJ). reflexivity. }
    intros v s2 _ G2. assert (E2 : p_v s2 = V) by (rewrite <- E; apply G2).
    eapply pos_more; [apply first_string; rewrite E2; exact O2|apply G2| |].
    { intro. unfold two_keys. cbn [a_name a_name2 s_name]. rewrite (j_name2 _ _ HJ). reflexivity. }
    intros w s3 _ G3. assert (E3 : p_v s3 = V) by (rewrite <- E2; apply G3).
    eapply (pos_keys K FU l ks); [exact HJ|reflexivity|rewrite E3; exact O3|apply G3|reflexivity|].
    intros keys s4 Y G4. apply X; [exact Y|]. eapply got_trans; [exact G2|]. eapply got_trans; eauto.
  Qed.
  Lemma ok_metadata l m a ks :
    tags_ok K D (plain_match K) l -> one (text_ok K V) m -> one (text_ok K V) a -> list_of (key K V l) ks ->
    accepts (test_metadata K FU) (tags_text l ++ m ++ a ++ ks) V.
  Proof.
    intros T O1 O2 O3. unfold test_metadata. intros s ts EV EC EP ST H. rewrite <- !app_assoc in H. tags T; [rules|].
    intros fuel a1 s1 HJ H1 S1. assert (E1 : p_v s1 = V) by pv.
    eapply (pos_two l); [exact O1|exact O2|exact O3|exact HJ|exact E1|exact H1|]. intros v w keys s2 X G2. apply runs_bind, validate_ok; [exact X|]. intro.
    apply runs_bind. eapply runs_lift; [reflexivity|]. apply runs_bind. eapply runs_lift; [reflexivity|].
    apply runs_ret. exact (after_got _ _ _ _ _ _ S1 G2 EV).
  Qed.
  Lemma ok_notify_capability l m a ks :
    tags_ok K D (plain_match K) l -> one (text_ok K V) m -> one (text_ok K V) a -> list_of (key K V l) ks ->
    accepts (test_notify_method_capability K FU) (tags_text l ++ m ++ a ++ ks) V.
  Proof.
    intros T O1 O2 O3. unfold test_notify_method_capability. intros s ts EV EC EP ST H. rewrite <- !app_assoc in H. tags T; [rules|].
    intros fuel a1 s1 HJ H1 S1. assert (E1 : p_v s1 = V) by pv.
    eapply (pos_two l); [exact O1|exact O2|exact O3|exact HJ|exact E1|exact H1|]. intros v w keys s2 X G2. apply runs_bind, validate_ok; [exact X|]. intro.
    apply runs_bind. eapply runs_lift; [reflexivity|]. apply runs_bind. eapply runs_lift; [reflexivity|].
    apply runs_ret. exact (after_got _ _ _ _ _ _ S1 G2 EV).
  Qed.
  Lemma ok_servermetadata l a ks :
    tags_ok K D (plain_match K) l -> one (text_ok K V) a -> list_of (key K V l) ks ->
    accepts (test_servermetadata K FU) (tags_text l ++ a ++ ks) V.
  Proof.
    intros T O1 O3. unfold test_servermetadata. intros s ts EV EC EP ST H. rewrite <- !app_assoc in H. tags T; [rules|].
    intros fuel a1 s1 HJ H1 S1. assert (E1 : p_v s1 = V) by pv.
    eapply pos_more; [apply first_string; rewrite E1; exact O1|exact H1| |].
    { intro. cbv beta. rewrite (j_name _ _ HJ). reflexivity. }
    intros v s2 _ G2. assert (S2 := keep_v _ _ _ _ _ S1 G2). assert (E2 : p_v s2 = V) by pv.
    eapply (pos_keys K FU l ks); [exact HJ|reflexivity|rewrite E2; exact O3|apply G2|reflexivity|].
    intros keys s4 X G4. apply runs_bind, validate_ok; [exact X|]. intro.
    apply runs_bind. eapply runs_lift; [reflexivity|]. apply runs_ret. exact (after_got _ _ _ _ _ _ S2 G4 EV).
  Qed.
  Lemma ok_spamtest l x : tags_ok K D (plain_match K ++ [("percent", 3, Some "spamtestplus", nothing)]) l -> one (text_ok K V) x ->
    accepts (test_spamtest K FU) (tags_text l ++ x) V.
  Proof.
    intros T O1. unfold test_spamtest. intros s ts EV EC EP ST H. rewrite <- !app_assoc in H. tags T; [rules|].
    intros fuel a1 s1 HJ H1 S1. assert (E1 : p_v s1 = V) by pv.
    eapply pos_done; [apply first_string; rewrite E1; exact O1|exact H1|reflexivity|].
    intros v s2 _ G2. apply runs_bind. eapply runs_lift; [reflexivity|]. apply runs_ret. exact (after_got _ _ _ _ _ _ S1 G2 EV).
  Qed.
  Lemma ok_virustest l x : tags_ok K D (plain_match K) l -> one (text_ok K V) x -> accepts (test_virustest K FU) (tags_text l ++ x) V.
  Proof.
    intros T O1. unfold test_virustest. intros s ts EV EC EP ST H. rewrite <- !app_assoc in H. tags T; [rules|].
    intros fuel a1 s1 HJ H1 S1. assert (E1 : p_v s1 = V) by pv.
    eapply pos_done; [apply first_string; rewrite E1; exact O1|exact H1|reflexivity|].
    intros v s2 _ G2. apply runs_bind. eapply runs_lift; [reflexivity|]. apply runs_ret. exact (after_got _ _ _ _ _ _ S1 G2 EV).
  Qed.

  (** *** Strings only *)

  Lemma ok_ihave us : list_of (const K any_text) us -> accepts (test_ihave K FU) us V.
  Proof.
    intros O s ts EV EC EP ST H. unfold test_ihave. eapply runs_then; [eapply static_strings_ok; eassumption|]. cbv beta.
    intros l s1 (_ & _ & G). apply runs_ret. exact (after_got _ _ _ _ _ _ (same_refl s) G EV).
  Qed.
  Lemma ok_list (f : list value -> test) us : list_of (text_ok K V) us -> accepts (l <- strings K FU ;; ret (f l)) us V.
  Proof.
    intros O s ts EV EC EP ST H. eapply runs_then; [eapply run_strings; eassumption|]. cbv beta.
    intros l s1 (_ & G). apply runs_ret. exact (after_got _ _ _ _ _ _ (same_refl s) G EV).
  Qed.
  Lemma ok_metadataexists m us : one (text_ok K V) m -> list_of (text_ok K V) us -> accepts (test_metadataexists K FU) (m ++ us) V.
  Proof.
    intros O1 O s ts EV EC EP ST H. unfold test_metadataexists. rewrite <- !app_assoc in H.
    eapply runs_then; [eapply run_string; eassumption|]. cbv beta. intros x s1 [_ G1]. assert (E1 : p_v s1 = V) by (rewrite <- EV; apply G1).
    eapply runs_then; [eapply run_strings; [exact E1|exact O|apply G1]|]. cbv beta. intros z s3 [_ G3]. apply runs_ret.
    exact (after_got _ _ _ _ _ _ (same_refl s) (got_trans _ _ _ _ _ _ G1 G3) EV).
  Qed.
  Lemma stop_peek ts : stop ts -> starts_strings (peeks ts) = false.
  Proof. intros (t & ts' & -> & H). destruct t; try destruct H; reflexivity. Qed.
  Lemma list_peek (Q : tok -> Prop) us ts : list_of Q us -> (forall t, Q t -> is_string t) -> starts_strings (peeks (us ++ ts)) = true.
  Proof.
    intros [(t & -> & X)|(vs & -> & S)] H; [|reflexivity]. apply H in X. destruct t; try destruct X; reflexivity.
  Qed.
  Lemma ok_specialuse us : list_of (text_ok K V) us -> accepts (test_specialuse K FU) us V.
  Proof.
    intros O s ts EV EC EP ST H. unfold test_specialuse. eapply runs_then; [eapply run_strings; eassumption|]. cbv beta.
    intros l s1 (_ & G). eapply look_ok; [apply G|]. intros s2 G2. rewrite (stop_peek _ ST). apply runs_ret.
    exact (after_got _ _ _ _ _ _ (same_refl s) (got_trans _ _ _ _ _ _ G G2) EV).
  Qed.
  Lemma one_value us v : one (text_ok K V) us -> strings_are K V us v -> exists x, v = [x].
  Proof.
    intros (t & -> & R & _) [H|H].
    - destruct H as (y & x & _ & _ & E). eauto.
    - destruct H as (? & E & _). destruct (readable_cases _ _ _ R) as [(c & ->)|(bs & ->)]; discriminate.
  Qed.
  Lemma ok_specialuse_in m us : one (text_ok K V) m -> list_of (text_ok K V) us -> accepts (test_specialuse K FU) (m ++ us) V.
  Proof.
    intros (t & -> & O1) O s ts EV EC EP ST H. unfold test_specialuse. rewrite <- !app_assoc in H.
    eapply runs_then; [eapply strings_ok; [rewrite EV; left; exists t; split; [reflexivity|exact O1]|exact H]|]. cbv beta.
    rewrite EV. intros l s1 (X & _ & G). eapply look_ok; [apply G|]. intros s2 G2.
    rewrite (list_peek _ _ _ O (string_ok_string K _ _)).
    destruct (one_value [t] l) as (v & ->); [exists t; auto|exact X|].
    assert (E2 : p_v s2 = V) by (transitivity (p_v s1); [apply G2|rewrite <- EV; apply G]).
    eapply runs_then; [eapply run_strings; [exact E2|exact O|apply G2]|]. cbv beta. intros z s3 [_ G3]. apply runs_ret.
    exact (after_got _ _ _ _ _ _ (same_refl s) (got_trans _ _ _ _ _ _ G (got_trans _ _ _ _ _ _ G2 G3)) EV).
  Qed.
End Tests.
