(** Proofs that valid scripts are accepted: the actions. *)
From Coq Require Import Lia.
From Verif Require Import Base Lib Address Var Value SetVar Flags Comparator Message EditHeader
  Expr ExprTok Event Notify AddrTest Vacation Sieve Utf8 Lexer Scope StringTok HeaderVar Compile ParseArgs ParseBase Parse CompileSpec GrammarSpec
  ArgSpec RefineSpec GrammarProofs ArgProofs1 ArgProofs5 AcceptSpec AcceptBase AcceptArgs AcceptTests AcceptTests2 AcceptTests3 AcceptTests4 AcceptTest.
Import ListNotations.
Local Open Scope string_scope.
Local Open Scope list_scope.

Section Acts.
  Variable K : cenv.
  Variable FU : nat.
  Variable V : vst.
  Variable D : list (list capability).
  Notation L := (C_L K).
  Notation at_ := (at_ K).
  Notation got := (got K).
  Notation handles := (handles K V D).
  Notation string_ok := (string_ok K).
  Notation accepts := (accepts K V D).

  Ltac tags T := apply runs_bind; eapply (read_args_ok K FU V D); [|exact T|eassumption|eassumption|eassumption|eassumption|].
  Ltac pv := match goal with S : same ?s ?x, E : p_v ?s = V |- p_v ?x = V => destruct S; congruence end.

  (** *** Handlers *)

  Lemma handles_then hs w n c (Q : list tok -> Prop) (R : args -> args -> Prop) (m : args -> P args) :
    dispatch hs (lit w) = Some (fun a => va K n (capd c) ;; m a) ->
    (forall a us s ts, p_v s = V -> Q us -> at_ s (us ++ ts) -> runs (m a) s (fun x s' => R a x /\ got s ts s')) ->
    (forall us l a x, R a x -> J l a -> J (l ++ [(w, us)]) x) ->
    handles hs (w, n, c, Q).
  Proof.
    intros HD M F. eexists. split; [exact HD|]. intros a s us ts l EV EC X AL N H HJ. unfold tag_run.
    eapply runs_then; [eapply va_ok; [exact H|exact N|now rewrite EC]|].
    cbv beta. intros _ s1 (T1 & S1 & P1). eapply runs_weaken; [apply (M a us s1 ts); [destruct S1; congruence|exact X|exact T1]|].
    cbv beta. intros x s2 (Y & G2 & S2 & P2).
    split; [eapply F; eauto|]. split; [exact G2|]. split; [eapply same_trans; eauto|].
    intros y. rewrite P2, P1. destruct (Nat.eqb n 0); [auto|]. intros [<-|Z]; auto.
  Qed.
  Lemma handles_const {A} hs w n c (Q : text -> Prop) (f : text -> option A) (g : A -> args -> args) :
    dispatch hs (lit w) = Some (fun a => va K n (capd c) ;; t <- static_string K FU ;; m <- lift (f t) ;; ret (g m a)) ->
    (forall x, Q x -> f x <> None) -> (forall us l a x, J l a -> J (l ++ [(w, us)]) (g x a)) ->
    handles hs (w, n, c, one (const K Q)).
  Proof.
    intros HD F X. eapply handles_then with (R := fun a x => exists y, x = g y a); [exact HD| | ].
    - intros a us s ts EV O H. cbv beta. eapply runs_then; [eapply static_string_ok; eassumption|]. cbv beta. intros t s1 [Y G].
      destruct (f t) as [y|] eqn:E; [|now destruct (F t)]. apply runs_bind. apply (runs_lift _ y); [reflexivity|]. apply runs_ret. eauto.
    - intros us l a x (y & ->) HJ. now apply X.
  Qed.
  Lemma split_first w : ~ In 44%N w -> forall r, split_comma (w ++ r) = match split_comma r with x :: t => (w ++ x) :: t | [] => [w] end.
  Proof.
    induction w as [|c w IH]; intros N r; cbn [app split_comma]; [destruct r as [|c r]; cbn; [reflexivity|]; destruct (N.eqb c 44); [reflexivity|]; destruct (split_comma r); reflexivity|].
    destruct (N.eqb_spec c 44) as [->|_]; [exfalso; apply N; now left|]. rewrite IH by (intro; apply N; now right).
    destruct (split_comma r) eqn:E; [|reflexivity].
    exfalso. clear - E. destruct r as [|c r]; [discriminate|]. cbn in E. destruct (N.eqb c 44); [discriminate|]. destruct (split_comma r); discriminate.
  Qed.
  Lemma words_split x ws : words_of x ws -> split_comma x = ws.
  Proof.
    intros (w & others & -> & -> & F). inversion F as [|? ? N F']; subst. rewrite split_first by exact N. clear N F. revert w.
    induction others as [|v others IH]; intro w; cbn [flat_map split_comma]; [now rewrite app_nil_r|]. cbn [app split_comma].
    change (N.eqb 44 44) with true. cbv iota. rewrite app_nil_r. f_equal. inversion F' as [|? ? N F]; subst. rewrite split_first by exact N. now apply IH.
  Qed.
  Lemma dsn_reads x : (exists d, dsn_is K x d) -> parse_dsn K x <> None.
  Proof.
    intros (d & [(E & _)|(N & ws & items & W & NE & _ & E)]).
    - unfold parse_dsn. assert (X : teqb_ic x (lit "never") = true) by (apply teqb_ic_spec; exact E). rewrite X. discriminate.
    - unfold parse_dsn. destruct (teqb_ic x (lit "never")); [discriminate|].
      assert (X : dsn_items K x = items); [|rewrite X; destruct items; [easy|discriminate]].
      rewrite E. unfold dsn_items. rewrite (words_split _ _ W). apply flat_map_ext. intro w. set (y := trim (chr_is_ws L) w). cbn [assoc dsn_words].
      change (teqb_ic y (lit "success")) with (teqb (lower_text y) (lit "success")).
      change (teqb_ic y (lit "failure")) with (teqb (lower_text y) (lit "failure")).
      change (teqb_ic y (lit "delay")) with (teqb (lower_text y) (lit "delay")).
      destruct (teqb (lower_text y) (lit "success")); [reflexivity|]. destruct (teqb (lower_text y) (lit "failure")); [reflexivity|].
      destruct (teqb (lower_text y) (lit "delay")); reflexivity.
  Qed.
  Lemma ret_reads x : In (lower_text x) [lit "full"; lit "hdrs"] -> parse_ret x <> None.
  Proof.
    intro H. unfold parse_ret. destruct (teqb_ic x (lit "full")) eqn:E; [discriminate|].
    destruct H as [H|[H|[]]].
    - assert (X : teqb_ic x (lit "full") = true) by (apply teqb_ic_spec; now rewrite <- H). congruence.
    - assert (X : teqb_ic x (lit "hdrs") = true) by (apply teqb_ic_spec; now rewrite <- H). rewrite X. discriminate.
  Qed.
  Lemma bymode_reads x : In (lower_text x) [lit "notify"; lit "return"] -> parse_bymode x <> None.
  Proof.
    intro H. unfold parse_bymode. destruct (teqb_ic x (lit "notify")) eqn:E; [discriminate|].
    destruct H as [H|[H|[]]].
    - assert (X : teqb_ic x (lit "notify") = true) by (apply teqb_ic_spec; now rewrite <- H). congruence.
    - assert (X : teqb_ic x (lit "return") = true) by (apply teqb_ic_spec; now rewrite <- H). rewrite X. discriminate.
  Qed.

  (** *** One string at the end *)

  Lemma pos_the_string a x s ts hs (Q : args -> pst -> Prop) : one (text_ok K V) x -> p_v s = V -> at_ s (x ++ ts) ->
    (forall v s', got s ts s' -> Q (s_name (Some v) a) s') ->
    forall fuel, runs (loop fuel (step_args K hs (the_string K)) a) s Q.
  Proof.
    intros O E H X. eapply pos_done; [apply first_string; rewrite E; exact O|exact H|reflexivity|]. intros v s' _ G. now apply X.
  Qed.
  Ltac rule2 := unfold string_rule, flags_rule; try rule1.
  Ltac rules2 := lazymatch goal with |- Forall _ (_ :: _) => apply Forall_cons; [rule2|rules2] | |- Forall _ [] => apply Forall_nil end.
  Ltac last_string O := let fuel := fresh in let a := fresh in let s1 := fresh in let HJ := fresh "HJ" in let H1 := fresh in let S1 := fresh "S1" in
    intros fuel a s1 HJ H1 S1;
    eapply pos_the_string; [exact O|destruct S1; congruence|exact H1|];
    let v := fresh in let s2 := fresh in let G2 := fresh "G2" in intros v s2 G2.
  Ltac one_more := apply runs_bind; eapply runs_lift; [reflexivity|]; apply runs_ret;
    match goal with S1 : same _ _, G2 : AcceptBase.got _ _ _ _, EV : p_v _ = V |- _ => exact (after_got _ _ _ _ _ _ S1 G2 EV) end.

  Lemma ok_fileinto' l x :
      tags_ok K D [("copy", 1, Some "copy", nothing); ("create", 2, Some "mailbox", nothing); flags_rule K V 3;
                 string_rule K V "mailboxid" 4 (Some "mailbox"); string_rule K V "specialuse" 5 (Some "special-use")] l ->
      one (text_ok K V) x -> accepts (cmd_fileinto K FU) (tags_text l ++ x) V.
  Proof.
    intros T O. unfold cmd_fileinto. intros s ts EV EC EP ST H. rewrite <- !app_assoc in H. tags T; [rules2|].
    last_string O. one_more.
  Qed.
  Lemma ok_redirect' l x :
      tags_ok K D [("copy", 1, Some "copy", nothing); ("list", 2, Some "extlists", nothing); ("bytrace", 3, Some "redirect-deliverby", nothing);
                 ("bymode", 4, Some "redirect-deliverby", one (const K (fun x => In (lower_text x) [lit "notify"; lit "return"])));
                 ("bytimerelative", 5, Some "redirect-deliverby", number_below usize_max);
                 string_rule K V "bytimeabsolute" 5 (Some "redirect-deliverby");
                 ("ret", 6, Some "redirect-dsn", one (const K (fun x => In (lower_text x) [lit "full"; lit "hdrs"])));
                 ("notify", 7, Some "redirect-dsn", one (const K (fun x => exists d, dsn_is K x d)))] l ->
      one (text_ok K V) x -> accepts (cmd_redirect K FU) (tags_text l ++ x) V.
  Proof.
    intros T O. unfold cmd_redirect. intros s ts EV EC EP ST H. rewrite <- !app_assoc in H. tags T.
    { rules2.
      - eapply handles_const; [reflexivity|apply bymode_reads|jdone].
      - eapply handles_const; [reflexivity|apply ret_reads|jdone].
      - eapply handles_const; [reflexivity|apply dsn_reads|jdone]. }
    last_string O. one_more.
  Qed.
  Lemma ok_replace' l x :
      tags_ok K D [("mime", 1, None, nothing); string_rule K V "subject" 2 None; string_rule K V "from" 3 None] l -> one (text_ok K V) x ->
      accepts (cmd_replace K FU) (tags_text l ++ x) V.
  Proof.
    intros T O. unfold cmd_replace. intros s ts EV EC EP ST H. rewrite <- !app_assoc in H. tags T; [rules2|].
    last_string O. one_more.
  Qed.
  Lemma ok_enclose' l x :
      tags_ok K D [string_rule K V "subject" 1 None; ("headers", 2, None, list_of (text_ok K V))] l -> one (text_ok K V) x ->
      accepts (cmd_enclose K FU) (tags_text l ++ x) V.
  Proof.
    intros T O. unfold cmd_enclose. intros s ts EV EC EP ST H. rewrite <- !app_assoc in H. tags T; [rules2|].
    last_string O. one_more.
  Qed.
  Lemma ok_include' l x :
      tags_ok K D [("once", 1, None, nothing); ("optional", 2, None, nothing); ("personal", 3, None, nothing); ("global", 3, None, nothing)] l ->
      one (text_ok K V) x -> accepts (cmd_include K FU) (tags_text l ++ x) V.
  Proof.
    intros T O. unfold cmd_include. intros s ts EV EC EP ST H. rewrite <- !app_assoc in H. tags T; [rules2|].
    last_string O. one_more.
  Qed.
  Lemma ok_vacation' l x :
      tags_ok K D [("mime", 1, None, nothing); ("create", 2, Some "mailbox", nothing); ("days", 3, None, number_below usize_max);
                 ("seconds", 3, Some "vacation-seconds", number_below usize_max); string_rule K V "subject" 4 None; string_rule K V "from" 5 None;
                 string_rule K V "handle" 6 None; string_rule K V "specialuse" 7 (Some "special-use");
                 string_rule K V "mailboxid" 8 (Some "mailboxid"); string_rule K V "fcc" 9 (Some "fcc"); flags_rule K V 10;
                 ("addresses", 11, None, list_of (text_ok K V))] l -> fcc_first l ->
      one (text_ok K V) x -> accepts (cmd_vacation K FU) (tags_text l ++ x) V.
  Proof.
    intros T M O. unfold cmd_vacation. intros s ts EV EC EP ST H. rewrite <- !app_assoc in H. tags T; [rules2|].
    last_string O. apply runs_bind, check_ok; [exact (fcc_fine _ _ HJ M)|]. one_more.
  Qed.
  Lemma ok_notify' l x :
      tags_ok K D [("from", 1, None, one (string_ok V (is_text (fun x => x <> [] /\ validate_from x false false false false 0%N = true))));
                 string_rule K V "message" 2 None; string_rule K V "importance" 3 None; ("options", 4, None, list_of (text_ok K V));
                 ("create", 5, Some "mailbox", nothing); string_rule K V "specialuse" 6 (Some "special-use");
                 string_rule K V "mailboxid" 7 (Some "mailboxid"); string_rule K V "fcc" 8 (Some "fcc"); flags_rule K V 9] l -> fcc_first l ->
      one (fun t => readable K V t /\ match t with TStr c => validate_uri (C_M K) (C_dec K) (const_text L c) <> None | _ => True end) x ->
      accepts (cmd_notify K FU) (tags_text l ++ x) V.
  Proof.
    intros T M (t & -> & R & X). unfold cmd_notify. intros s ts EV EC EP ST H. rewrite <- !app_assoc in H. tags T.
    { rules2. eapply handles_then with (R := fun a x => exists y, x = s_from (Some y) a); [reflexivity| | ].
      - intros a us s1 ts1 E1 O H1. cbv beta. eapply runs_then; [eapply run_string; eassumption|]. cbv beta. intros v s2 [Y G].
        assert (F : from_ok v = true).
        { unfold from_ok. destruct v; try reflexivity. destruct Y as [Y1 Y2]. rewrite Y2. destruct t0; [easy|reflexivity]. }
        rewrite F. apply runs_ret. eauto.
      - intros us l0 a x (y & ->) HJ. jdone. }
    intros fuel a s1 HJ H1 S1. assert (E1 : p_v s1 = V) by pv.
    eapply step_pos; [|exact H1|]; [intros w ->; exact R|]. intros s2 G2. assert (E2 : p_v s2 = V) by (rewrite <- E1; apply G2).
    assert (Y : runs (the_string K t a) s2 (fun r s'' => exists v, r = inr (s_name (Some v) a) /\ got s1 ts s'')).
    { unfold the_string, done. eapply runs_then; [eapply string_tok_ok; [apply G2|rewrite E2; exact R]|]. cbv beta. intros v s3 [_ G3].
      apply runs_ret. exists v. split; [reflexivity|]. eapply got_trans; eauto. }
    eapply runs_weaken.
    - instantiate (1 := fun r s'' => exists v, r = inr (s_name (Some v) a) /\ got s1 ts s'').
      destruct t; try exact Y. unfold ctext in *. destruct (validate_uri _ _ _) eqn:E; [exact Y|]. now destruct X.
    - cbv beta. intros r s3 (v & -> & G3). cbv iota. apply runs_bind, check_ok; [exact (fcc_fine _ _ HJ M)|].
      apply runs_bind. eapply runs_lift; [reflexivity|]. apply runs_ret. exact (after_got _ _ _ _ _ _ S1 G3 EV).
  Qed.

  Lemma ok_keep' : accepts (cmd_keep K FU) [] V.
  Proof.
    intros s ts EV EC EP ST H. unfold cmd_keep. cbn [app] in H. eapply look_ok; [exact H|]. intros s1 G.
    destruct ST as (t & ts' & -> & X). cbn [peeks].
    assert (Z : runs (ret (IxKeep [])) s1 (fun _ s' => at_ s' (t :: ts') /\ stays s s' /\ p_v s' = V)).
    { apply runs_ret. exact (after_got _ _ _ _ _ _ (same_refl s) G EV). }
    destruct t; try contradiction; exact Z.
  Qed.
  Lemma ok_keep_flags' us : allowed K D (Some "imap4flags") -> list_of (text_ok K V) us -> accepts (cmd_keep K FU) (TTag (lit "flags") :: us) V.
  Proof.
    intros AL O s ts EV EC EP ST H. unfold cmd_keep. cbn [app] in H. eapply look_ok; [exact H|]. intros s1 G. cbn [peeks].
    change (word "flags" (lit "flags")) with true. cbv iota. eapply read_ok; [apply G|]. intros s2 G2. assert (G' := got_trans _ _ _ _ _ _ G G2).
    eapply runs_then; [eapply (va_ok K 0 (Some "imap4flags")); [apply G'|now left|destruct G' as (_ & ((-> & _) & _) & _); now rewrite EC]|].
    cbv beta. intros _ s3 (T3 & S3 & P3). assert (S3' : same s s3) by (eapply same_trans; [apply G'|exact S3]).
    eapply runs_then; [eapply run_strings; [destruct S3' as [? Z]; rewrite Z; exact EV|exact O|exact T3]|]. cbv beta. intros v s4 [_ G4]. apply runs_ret.
    exact (after_got _ _ _ _ _ _ S3' G4 EV).
  Qed.
  Lemma ok_bare' (i : instruction) : accepts (ret i) [] V.
  Proof. intros s ts EV EC EP ST H. apply runs_ret. exact (after_got _ _ _ _ _ _ (same_refl s) (got_refl _ _ _ H) EV). Qed.
  Lemma ok_string' (f : value -> instruction) us : one (text_ok K V) us -> accepts (v <- string K FU ;; ret (f v)) us V.
  Proof.
    intros O s ts EV EC EP ST H. eapply runs_then; [eapply run_string; eassumption|]. cbv beta. intros v s1 [_ G]. apply runs_ret.
    exact (after_got _ _ _ _ _ _ (same_refl s) G EV).
  Qed.
  Lemma ok_convert' a b us : one (text_ok K V) a -> one (text_ok K V) b -> list_of (text_ok K V) us -> accepts (cmd_convert K FU) (a ++ b ++ us) V.
  Proof.
    intros A B O s ts EV EC EP ST H. unfold cmd_convert. rewrite <- !app_assoc in H.
    eapply runs_then; [eapply run_string; [exact EV|exact A|exact H]|]. cbv beta. intros x s1 [_ G1]. assert (E1 : p_v s1 = V) by (rewrite <- EV; apply G1).
    eapply runs_then; [eapply run_string; [exact E1|exact B|apply G1]|]. cbv beta. intros y s2 [_ G2]. assert (E2 : p_v s2 = V) by (rewrite <- E1; apply G2).
    eapply runs_then; [eapply run_strings; [exact E2|exact O|apply G2]|]. cbv beta. intros z s3 [_ G3]. apply runs_ret.
    exact (after_got _ _ _ _ _ _ (same_refl s) (got_trans _ _ _ _ _ _ G1 (got_trans _ _ _ _ _ _ G2 G3)) EV).
  Qed.
  Lemma ok_eval' us e : expr_is K V us e -> accepts (e <- parse_expr K ;; ret (IxEval e)) us V.
  Proof.
    intros X s ts EV EC EP ST H. eapply runs_then; [eapply parse_expr_ok; eassumption|]. cbv beta. intros y s1 G. apply runs_ret.
    exact (after_got _ _ _ _ _ _ (same_refl s) G EV).
  Qed.
End Acts.
