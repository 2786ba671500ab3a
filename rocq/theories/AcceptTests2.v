(** Proofs that valid scripts are accepted: each test. *)
From Coq Require Import Lia.
From Verif Require Import Base Lib Address Var Value SetVar Flags Comparator Message EditHeader
  Expr ExprTok Event Notify AddrTest Vacation Sieve Utf8 Lexer Scope StringTok HeaderVar Compile ParseArgs ParseBase Parse CompileSpec GrammarSpec
  ArgSpec RefineSpec GrammarProofs AcceptSpec AcceptBase AcceptArgs AcceptTests.
Import ListNotations.
Local Open Scope string_scope.
Local Open Scope list_scope.

Ltac rule1 :=
  lazymatch goal with
  | |- handles _ _ _ _ (comparator_rule _ _) => eapply handles_comparator; reflexivity
  | |- handles _ _ _ _ (_, _, _, nothing) => eapply handles_flag; [reflexivity|jdone]
  | |- handles _ _ _ _ (_, _, _, number_below _) => eapply handles_arg; [reflexivity|intros; eapply run_number; eassumption|jdone]
  | |- handles _ _ _ _ (_, _, _, zone_arg) => eapply handles_arg; [reflexivity|intros; eapply run_zone; eassumption|jdone]
  | |- handles _ _ _ _ (_, _, _, one (text_ok _ _)) => eapply handles_arg; [reflexivity|intros; eapply run_string; eassumption|jdone]
  | |- handles _ _ _ _ (_, _, _, list_of (text_ok _ _)) => eapply handles_arg; [reflexivity|intros; eapply run_strings; eassumption|jdone]
  end.
Ltac rules :=
  lazymatch goal with
  | |- Forall _ (match_rules _ _ _) =>
      apply handles_match; let w := fresh in let I := fresh in intros w I;
        cbn [ParseBase.match_words app In] in I; repeat (destruct I as [<-|I]; [reflexivity|]); contradiction
  | |- Forall _ (part_rules _) => unfold part_rules; rules
  | |- Forall _ (plain_match _) => unfold plain_match; rules
  | |- Forall _ (index_rules _ _ _) => unfold index_rules; rules
  | |- Forall _ (mime_rules _ _) => unfold mime_rules; rules
  | |- Forall _ (_ ++ _) => apply Forall_app; split; rules
  | |- Forall _ (_ :: _) => apply Forall_cons; [try rule1|rules]
  | |- Forall _ [] => apply Forall_nil
  end.

Section Tests.
  Variable K : cenv.
  Variable FU : nat.
  Variable V : vst.
  Variable D : list (list capability).
  Notation L := (C_L K).
  Notation at_ := (at_ K).
  Notation got := (got K).
  Notation handles := (handles K V D).
  Notation string_ok := (string_ok K).
  Notation accepts := (accepts K V D).

  Lemma handles_bare hs w (f : args -> args) :
    dispatch hs (lit w) = Some (fun a => ret (f a)) -> (forall l a, J l a -> J (l ++ [(w, [])]) (f a)) -> handles hs (w, 0, None, nothing).
  Proof.
    intros HD F. eexists. split; [exact HD|]. intros a s us ts l EV EC X A N H HJ. unfold nothing in X. subst us.
    apply runs_ret. split; [auto|]. split; [exact H|]. split; [apply same_refl|]. intros x. auto.
  Qed.

  (** *** Positional arguments *)

  Definition first_arg {A} (m : tok -> P A) (us : list tok) (s : pst) (ts : list tok) (R : A -> Prop) : Prop :=
    exists t us', us = t :: us' /\ (forall w, t <> TTag w) /\
      forall s1, got s (us' ++ ts) s1 -> runs (m t) s1 (fun v s' => R v /\ got s ts s').
  Lemma first_strings good us s ts : list_of (string_ok (p_v s) good) us ->
    first_arg (strings_tok K FU) us s ts (fun l => strings_are K (p_v s) us l /\ Forall good l).
  Proof.
    intro O. destruct (list_head _ _ O (string_ok_string K _ _)) as (t & us' & -> & N). exists t, us'. split; [reflexivity|]. split; [exact N|].
    intros s1 G. assert (E : p_v s1 = p_v s) by apply G. eapply runs_weaken; [eapply strings_tok_ok; [rewrite E; exact O|apply G]|].
    cbv beta. rewrite E. intros l s2 (A & B & C). split; [auto|]. eapply got_trans; eauto.
  Qed.
  Lemma first_string good us s ts : one (string_ok (p_v s) good) us -> first_arg (string_tok K) us s ts good.
  Proof.
    intros (t & -> & O). exists t, []. split; [reflexivity|]. split; [intro; apply string_not_tag; eapply string_ok_string, O|].
    intros s1 G. assert (E : p_v s1 = p_v s) by apply G. eapply runs_weaken; [eapply string_ok_tok; [apply G|rewrite E; exact O]|].
    cbv beta. intros v s2 (A & B & C). split; [auto|]. eapply got_trans; eauto.
  Qed.
  Lemma first_checked {A} (m : tok -> P A) (b : A -> bool) us s ts (R : A -> Prop) :
    first_arg m us s ts R -> (forall x, R x -> b x = true) -> first_arg (fun t => v <- m t ;; check K (b v) ;; ret v) us s ts R.
  Proof.
    intros (t & us' & E & N & H) X. exists t, us'. split; [exact E|]. split; [exact N|]. intros s1 G.
    eapply checked; [apply H, G|]. cbv beta. intros x s' [Y Z]. auto.
  Qed.

  Lemma pos_more {A} (m : tok -> P A) us s ts R hs dflt a f (Q : args -> pst -> Prop) : first_arg m us s ts R -> at_ s (us ++ ts) ->
    (forall t, dflt t a = more (m t) f) ->
    (forall v s', R v -> got s ts s' -> forall fuel, runs (loop fuel (step_args K hs dflt) (f v)) s' Q) ->
    forall fuel, runs (loop fuel (step_args K hs dflt) a) s Q.
  Proof.
    intros (t & us' & -> & N & F) H E X. cbn [app] in H. eapply step_pos; [exact N|exact H|]. intros s1 G. rewrite E. unfold more.
    eapply runs_then; [apply F, G|]. cbv beta. intros v s2 [Y Z]. apply runs_ret. now apply X.
  Qed.
  Lemma pos_done {A} (m : tok -> P A) us s ts R hs dflt a f (Q : args -> pst -> Prop) : first_arg m us s ts R -> at_ s (us ++ ts) ->
    (forall t, dflt t a = done (m t) f) ->
    (forall v s', R v -> got s ts s' -> Q (f v) s') ->
    forall fuel, runs (loop fuel (step_args K hs dflt) a) s Q.
  Proof.
    intros (t & us' & -> & N & F) H E X. cbn [app] in H. eapply step_pos; [exact N|exact H|]. intros s1 G. rewrite E. unfold done.
    eapply runs_then; [apply F, G|]. cbv beta. intros v s2 [Y Z]. apply runs_ret. now apply X.
  Qed.

  Definition regex_text (v : value) : Prop := is_text (fun e => C_regex K e = true) v.
  Lemma keys_fine l a keys : J l a -> Forall (fun v => uses "regex" l -> regex_text v) keys -> (exists p, a_m a = MRegex p) -> Forall regex_text keys.
  Proof. intros HJ F E. apply (j_regex _ _ HJ) in E. eapply Forall_impl; [|exact F]. cbv beta. auto. Qed.
  (** The keys at the end *)
  Lemma pos_keys l us s ts hs dflt a (Q : args -> pst -> Prop) : J l a -> forall a1, a_m a1 = a_m a -> list_of (key K (p_v s) l) us -> at_ s (us ++ ts) ->
    (forall t, dflt t a1 = done (strings_tok K FU t) (fun v => s_nopts v a1)) ->
    (forall v s', ((exists p, a_m a1 = MRegex p) -> Forall regex_text v) -> got s ts s' -> Q (s_nopts v a1) s') ->
    forall fuel, runs (loop fuel (step_args K hs dflt) a1) s Q.
  Proof.
    intros HJ a1 E O H DF X. eapply pos_done; [apply first_strings, O|exact H|exact DF|].
    cbv beta. intros v s' [_ F] G. apply X; [|exact G]. rewrite E. eapply keys_fine; eauto.
  Qed.

  Lemma pos_names ok good l ns ks a s ts hs (Q : args -> pst -> Prop) : list_of (string_ok V good) ns -> (forall v, Forall good v -> ok v = true) ->
    list_of (key K V l) ks -> J l a -> p_v s = V -> at_ s (ns ++ ks ++ ts) ->
    (forall names keys s', ((exists p, a_m a = MRegex p) -> Forall regex_text keys) -> got s ts s' -> Q (s_nopts keys (s_vals (Some names) a)) s') ->
    forall fuel, runs (loop fuel (step_args K hs (names_keys K FU ok)) a) s Q.
  Proof.
    intros O1 G O2 HJ E H X. eapply (pos_more (fun t => v <- strings_tok K FU t ;; check K (ok v) ;; ret v) ns).
    - apply first_checked; [apply first_strings; rewrite E; exact O1|]. cbv beta. intros x [_ F]. auto.
    - exact H.
    - intro. unfold names_keys. now rewrite (j_vals _ _ HJ).
    - cbv beta. intros v s2 _ G2. assert (E2 : p_v s2 = V) by (rewrite <- E; apply G2).
      eapply (pos_keys l ks); [exact HJ|reflexivity|rewrite E2; exact O2|apply G2|reflexivity|].
      intros keys s3 Y G3. apply X; [exact Y|]. eapply got_trans; eauto.
  Qed.
  Lemma any_fine (v : list value) : Forall any_value v -> any_values v = true.
  Proof. reflexivity. Qed.

  (** What the end of a test leaves *)
  Definition after (s : pst) (ts : list tok) (W : vst) (s' : pst) : Prop := at_ s' ts /\ stays s s' /\ p_v s' = W.
  Lemma after_got s s1 s2 ts : same s s1 -> got s1 ts s2 -> p_v s = V -> after s ts V s2.
  Proof.
    intros A (B & C & _) E. destruct (same_trans _ _ _ A C) as [X Y]. split; [exact B|]. split; [exact X|congruence].
  Qed.
  Lemma keep_v s s1 ts s2 : same s s1 -> got s1 ts s2 -> same s s2.
  Proof. intros A (_ & B & _). eapply same_trans; eauto. Qed.

  Ltac tags T := apply runs_bind; eapply (read_args_ok K FU V D); [|exact T|eassumption|eassumption|eassumption|eassumption|].
  Ltac pv := match goal with S : same ?s ?x, E : p_v ?s = V |- p_v ?x = V => destruct S; congruence end.

  Lemma ok_address l ns ks :
    tags_ok K D (part_rules 1 ++ [("name", 1, None, nothing)] ++ match_rules K 2 true ++ [comparator_rule K 3] ++
                 index_rules 4 5 (Some "index") ++ mime_rules 6 7) l -> mime_first l ->
    list_of (text_ok K V) ns -> list_of (key K V l) ks -> accepts (test_address K FU) (tags_text l ++ ns ++ ks) V.
  Proof.
    intros T M O1 O2. unfold test_address. intros s ts EV EC EP ST H. rewrite <- !app_assoc in H. tags T; [rules|].
    intros fuel a s1 HJ H1 S1. assert (E1 : p_v s1 = V) by (destruct S1; congruence).
    eapply (pos_names any_values any_value l); [exact O1|apply any_fine|exact O2|exact HJ|exact E1|exact H1|].
    intros names keys s3 X G3. apply runs_bind, check_ok; [exact (mime_fine _ _ HJ M)|]. apply runs_bind, validate_ok; [exact X|]. intro.
    apply runs_ret. exact (after_got _ _ _ _ S1 G3 EV).
  Qed.
  Lemma ok_header l ns ks :
    tags_ok K D (match_rules K 1 true ++ [comparator_rule K 2] ++ index_rules 3 4 (Some "index") ++ mime_rules 5 6 ++
                 [("type", 7, Some "mime", nothing); ("subtype", 7, Some "mime", nothing); ("contenttype", 7, Some "mime", nothing);
                  ("param", 7, Some "mime", list_of (text_ok K V))]) l -> mime_first l ->
    (uses "type" l \/ uses "subtype" l \/ uses "contenttype" l \/ uses "param" l -> uses "mime" l) ->
    list_of (header_name K V) ns -> list_of (key K V l) ks -> accepts (test_header K FU) (tags_text l ++ ns ++ ks) V.
  Proof.
    intros T M M' O1 O2. unfold test_header. intros s ts EV EC EP ST H. rewrite <- !app_assoc in H. tags T; [rules|].
    { eapply handles_arg with (R := fun x => exists v, x = MvParam v); [reflexivity| |].
      - intros us s1 ts1 E X H1. eapply runs_then; [eapply run_strings; eassumption|]. cbv beta. intros v s2 [_ G]. apply runs_ret.
        split; [eauto|exact G].
      - cbv beta. intros us l0 a x (v & ->) HJ. jdone. }
    intros fuel a s1 HJ H1 S1. assert (E1 : p_v s1 = V) by pv.
    eapply (pos_names _ _ l); [exact O1|apply headers_fine|exact O2|exact HJ|exact E1|exact H1|].
    intros names keys s3 X G3. apply runs_bind, check_ok.
    { cbn [a_mime a_any a_opts s_nopts s_vals].
      destruct (a_any a) eqn:EA; [rewrite (j_mime _ _ HJ); [reflexivity|]; apply M, (j_any _ _ HJ), EA|].
      destruct (a_opts a) eqn:EO; [now rewrite Bool.orb_true_r|..]; (rewrite (j_mime _ _ HJ); [reflexivity|]; apply M', (j_opts _ _ HJ); rewrite EO; discriminate). }
    apply runs_bind, validate_ok; [exact X|]. intro. apply runs_ret. exact (after_got _ _ _ _ S1 G3 EV).
  Qed.
  Lemma ok_string l us ks :
    tags_ok K D (match_rules K 1 true ++ [comparator_rule K 2]) l -> list_of (text_ok K V) us -> list_of (key K V l) ks ->
    accepts (test_string K FU) (tags_text l ++ us ++ ks) V.
  Proof.
    intros T O1 O2. unfold test_string. intros s ts EV EC EP ST H. rewrite <- !app_assoc in H. tags T; [rules|].
    intros fuel a s1 HJ H1 S1. assert (E1 : p_v s1 = V) by pv.
    eapply (pos_names any_values any_value l); [exact O1|apply any_fine|exact O2|exact HJ|exact E1|exact H1|].
    intros names keys s3 X G3. apply runs_bind, validate_ok; [exact X|]. intro. apply runs_ret. exact (after_got _ _ _ _ S1 G3 EV).
  Qed.
  Lemma ok_size w n : In w ["over"; "under"] -> accepts (test_size K) [TTag (lit w); TNumber n] V.
  Proof.
    intros I s ts EV EC EP ST H. unfold test_size. cbn [app] in H. eapply read_ok; [exact H|]. intros s1 G1.
    assert (X : exists b, (if word "over" (lit w) then Some true else if word "under" (lit w) then Some false else None) = Some b).
    { destruct I as [<-|[<-|[]]]; eexists; reflexivity. }
    destruct X as (b & E). apply runs_bind. eapply runs_lift; [exact E|]. eapply read_ok; [apply G1|]. intros s2 G2. cbv beta iota.
    apply runs_ret. exact (after_got _ _ _ _ (same_refl s) (got_trans _ _ _ _ _ _ G1 G2) EV).
  Qed.
  Lemma ok_exists l ns : tags_ok K D (mime_rules 1 2) l -> mime_first l -> list_of (header_name K V) ns ->
    accepts (test_exists K FU) (tags_text l ++ ns) V.
  Proof.
    intros T M O1. unfold test_exists. intros s ts EV EC EP ST H. rewrite <- !app_assoc in H. tags T; [rules|].
    intros fuel a s1 HJ H1 S1. assert (E1 : p_v s1 = V) by pv.
    eapply pos_done; [eapply (first_checked (strings_tok K FU)); [apply first_strings; rewrite E1; exact O1|]|exact H1|reflexivity|].
    - cbv beta. intros x [_ F]. apply headers_fine, F.
    - cbv beta. intros v s2 _ G2. apply runs_bind, check_ok; [exact (mime_fine _ _ HJ M)|]. apply runs_ret. exact (after_got _ _ _ _ S1 G2 EV).
  Qed.
  Lemma ok_body l ks :
    tags_ok K D ([("raw", 1, None, nothing); ("text", 1, None, nothing); ("content", 1, None, list_of (text_ok K V)); ("subject", 4, None, nothing)] ++
                 match_rules K 2 false ++ [comparator_rule K 3]) l -> list_of (key K V l) ks ->
    accepts (test_body K FU) (tags_text l ++ ks) V.
  Proof.
    intros T O. unfold test_body. intros s ts EV EC EP ST H. rewrite <- !app_assoc in H. tags T; [rules|].
    intros fuel a s1 HJ H1 S1. assert (E1 : p_v s1 = V) by pv.
    eapply (pos_keys l ks); [exact HJ|reflexivity|rewrite E1; exact O|exact H1|reflexivity|].
    intros keys s3 X G3. apply runs_bind, validate_ok; [exact X|]. intro. apply runs_ret. exact (after_got _ _ _ _ S1 G3 EV).
  Qed.
  Lemma ok_convert_test a b us : one (text_ok K V) a -> one (text_ok K V) b -> list_of (text_ok K V) us -> accepts (test_convert K FU) (a ++ b ++ us) V.
  Proof.
    intros A B O s ts EV EC EP ST H. unfold test_convert. rewrite <- !app_assoc in H.
    eapply runs_then; [eapply run_string; [exact EV|exact A|exact H]|]. cbv beta. intros x s1 [_ G1]. assert (E1 : p_v s1 = V) by (rewrite <- EV; apply G1).
    eapply runs_then; [eapply run_string; [exact E1|exact B|apply G1]|]. cbv beta. intros y s2 [_ G2]. assert (E2 : p_v s2 = V) by (rewrite <- E1; apply G2).
    eapply runs_then; [eapply run_strings; [exact E2|exact O|apply G2]|]. cbv beta. intros z s3 [_ G3]. apply runs_ret.
    exact (after_got _ _ _ _ (same_refl s) (got_trans _ _ _ _ _ _ G1 (got_trans _ _ _ _ _ _ G2 G3)) EV).
  Qed.
  Lemma first_date us s ts : one (const K (fun x => listed dateparts (lower_text x))) us -> first_arg (date_tok K) us s ts (fun _ => True).
  Proof.
    intros (t & -> & c & -> & d & E). exists (TStr c), []. split; [reflexivity|]. split; [discriminate|]. intros s1 G.
    cbn [date_tok]. eapply (runs_lift _ d); [|split; [exact Logic.I|exact G]].
    unfold dateparts in E. cbn [assoc] in E. unfold lookup_date_part, word, ctext. exact E.
  Qed.
  Lemma ok_date l n d ks :
    tags_ok K D (match_rules K 1 true ++ [comparator_rule K 2] ++ index_rules 3 4 (Some "index") ++ mime_rules 5 6 ++
                 [("originalzone", 7, None, nothing); ("zone", 7, None, zone_arg)]) l -> mime_first l ->
    one (header_name K V) n -> one (const K (fun x => listed dateparts (lower_text x))) d -> list_of (key K V l) ks ->
    accepts (test_date K FU) (tags_text l ++ n ++ d ++ ks) V.
  Proof.
    intros T M O1 O2 O3. unfold test_date. intros s ts EV EC EP ST H. rewrite <- !app_assoc in H. tags T; [rules|].
    intros fuel a s1 HJ H1 S1. assert (E1 : p_v s1 = V) by pv.
    eapply pos_more; [eapply (first_checked (string_tok K)); [apply first_string; rewrite E1; exact O1|]|exact H1| |].
    { apply header_fine. }
    { intro. cbv beta. rewrite (j_name _ _ HJ). reflexivity. }
    intros v s2 _ G2. assert (S2 := keep_v _ _ _ _ S1 G2). assert (E2 : p_v s2 = V) by pv.
    eapply pos_more; [apply first_date, O2|apply G2| |].
    { intro. cbn [a_name a_date s_name]. rewrite (j_date _ _ HJ). reflexivity. }
    intros w s3 _ G3. assert (S3 := keep_v _ _ _ _ S2 G3). assert (E3 : p_v s3 = V) by pv.
    eapply (pos_keys l ks); [exact HJ|reflexivity|rewrite E3; exact O3|apply G3|reflexivity|].
    intros keys s4 X G4. apply runs_bind, check_ok; [exact (mime_fine _ _ HJ M)|]. apply runs_bind, validate_ok; [exact X|]. intro.
    apply runs_bind. eapply runs_lift; [reflexivity|]. apply runs_bind. eapply runs_lift; [reflexivity|].
    apply runs_ret. exact (after_got _ _ _ _ S3 G4 EV).
  Qed.
  Lemma ok_currentdate l d ks :
    tags_ok K D (match_rules K 1 true ++ [comparator_rule K 2; ("zone", 3, None, zone_arg)]) l ->
    one (const K (fun x => listed dateparts (lower_text x))) d -> list_of (key K V l) ks ->
    accepts (test_currentdate K FU) (tags_text l ++ d ++ ks) V.
  Proof.
    intros T O2 O3. unfold test_currentdate. intros s ts EV EC EP ST H. rewrite <- !app_assoc in H. tags T; [rules|].
    intros fuel a s1 HJ H1 S1. assert (E1 : p_v s1 = V) by pv.
    eapply pos_more; [apply first_date, O2|exact H1| |].
    { intro. cbv beta. rewrite (j_date _ _ HJ). reflexivity. }
    intros w s3 _ G3. assert (S3 := keep_v _ _ _ _ S1 G3). assert (E3 : p_v s3 = V) by pv.
    eapply (pos_keys l ks); [exact HJ|reflexivity|rewrite E3; exact O3|apply G3|reflexivity|].
    intros keys s4 X G4. apply runs_bind, validate_ok; [exact X|]. intro.
    apply runs_bind. eapply runs_lift; [reflexivity|]. apply runs_ret. exact (after_got _ _ _ _ S3 G4 EV).
  Qed.
End Tests.
