(** Proofs that valid scripts are accepted: the actions that assign variables or change headers,
    and all actions. *)
From Coq Require Import Lia.
From Verif Require Import Base Lib Address Var Value SetVar Flags Comparator Message EditHeader
  Expr ExprTok Event Notify AddrTest Vacation Sieve Utf8 Lexer Scope StringTok HeaderVar Compile ParseArgs ParseBase Parse CompileSpec GrammarSpec
  ArgSpec RefineSpec GrammarProofs ArgProofs1 ArgProofs5 AcceptSpec AcceptBase AcceptArgs AcceptTests AcceptTests2 AcceptTests3 AcceptTests4 AcceptTest AcceptActs.
Import ListNotations.
Local Open Scope string_scope.
Local Open Scope list_scope.

Section Acts.
  Variable K : cenv.
  Variable FU : nat.
  Variable V : vst.
  Variable D : list (list capability).
  Notation L := (C_L K).
  Notation at_ := (at_ K).
  Notation got := (got K).
  Notation handles := (handles K V D).
  Notation string_ok := (string_ok K).
  Notation accepts := (accepts K V D).

  Ltac tags T := apply runs_bind; eapply (read_args_ok K FU V D); [|exact T|eassumption|eassumption|eassumption|eassumption|].
  Ltac pv := match goal with S : same ?s ?x, E : p_v ?s = V |- p_v ?x = V => destruct S; congruence end.

  (** An action, up to the semicolon *)
  Definition acts {A} (m : P A) (us : list tok) (W : vst) : Prop :=
    forall s ts, p_v s = V -> p_caps s = D -> p_params s = [] -> at_ s (us ++ TSemicolon :: ts) ->
      runs m s (fun _ s' => at_ s' (TSemicolon :: ts) /\ stays s s' /\ p_v s' = W).
  Lemma accepts_acts {A} (m : P A) us W : accepts m us W -> acts m us W.
  Proof. intros H s ts EV EC EP T. eapply H; eauto. exists TSemicolon, ts. split; [reflexivity|exact Logic.I]. Qed.

  Lemma assign_ok b t v W s ts (local : bool) : assigns K V b t v W -> (local = true <-> b) -> p_v s = V -> at_ s ts ->
    runs (variable_name K t local) s (fun _ s' => at_ s' ts /\ stays s s' /\ p_v s' = W).
  Proof.
    intros (c & -> & H) E EV A. unfold variable_name, register, runs. rewrite EV. specialize (H local E). unfold variable_is in H. unfold ctext. rewrite H.
    split; [exact A|]. split; [repeat split|reflexivity].
  Qed.
  Lemma assign_not_tag b t v W : assigns K V b t v W -> forall w, t <> TTag w.
  Proof. intros (c & -> & _). discriminate. Qed.

  Lemma modifier_handles hs ws :
    (forall w, In w ws -> exists f, dispatch hs (lit w) = Some (fun a => ret (f a)) /\ forall l a, J l a -> J (l ++ [(w, [])]) (f a)) ->
    dispatch hs (lit "replace") = Some (snd (h_replace K) (lit "replace")) ->
    dispatch hs (lit "local") = Some (fun a => ret (s_local true a)) -> Forall (handles hs) (modifier_rules K V ws).
  Proof.
    intros H HR HL. unfold modifier_rules. apply Forall_app. split.
    - apply Forall_map. rewrite Forall_forall. intros w I. destruct (H w I) as (f & E & F). eapply handles_bare; eassumption.
    - apply Forall_cons; [|apply Forall_cons; [now apply handles_local|apply Forall_nil]].
      eexists. split; [exact HR|]. intros a s us ts l EV EC (x & y & -> & R1 & R2) A N T HJ. unfold tag_run. cbn [h_replace snd]. cbn [app] in T.
      eapply read_ok; [exact T|]. intros s1 G1. eapply read_ok; [apply G1|]. intros s2 G2. assert (G' := got_trans _ _ _ _ _ _ G1 G2).
      assert (E2 : p_v s2 = V) by (rewrite <- EV; apply G').
      eapply runs_then; [eapply string_tok_ok; [apply G'|rewrite E2; exact R1]|]. cbv beta. intros f s3 [_ G3].
      assert (E3 : p_v s3 = V) by (rewrite <- E2; apply G3).
      eapply runs_then; [eapply string_tok_ok; [apply G3|rewrite E3; exact R2]|]. cbv beta. intros r s4 [_ G4]. apply runs_ret.
      assert (G5 := got_trans _ _ _ _ _ _ G' (got_trans _ _ _ _ _ _ G3 G4)). destruct G5 as (G5 & S5 & P5).
      split; [jdone|]. split; [exact G5|]. split; [exact S5|]. intros z. rewrite P5. auto.
  Qed.
  Ltac modifiers := let w := fresh in let I := fresh in intros w I; cbn [seven_modifiers app In] in I;
    repeat (destruct I as [<-|I]; [eexists; split; [reflexivity|jdone]|]); contradiction.

  Lemma ok_extracttext' l t v W :
      tags_ok K D (("first", 1, None, number_below usize_max) :: modifier_rules K V seven_modifiers) l ->
      assigns K V (uses "local" l) t v W -> accepts (cmd_extracttext K FU) (tags_text l ++ [t]) W.
  Proof.
    intros T A. unfold cmd_extracttext. intros s ts EV EC EP ST H. rewrite <- !app_assoc in H. tags T.
    { apply Forall_cons; [rule1|]. apply modifier_handles; [modifiers|reflexivity|reflexivity]. }
    intros fuel a s1 HJ H1 S1. assert (E1 : p_v s1 = V) by pv. cbn [app] in H1.
    eapply step_pos; [eapply assign_not_tag, A|exact H1|]. intros s2 G2. assert (E2 : p_v s2 = V) by (rewrite <- E1; apply G2). unfold done.
    eapply runs_then; [eapply (assign_ok _ _ _ _ _ ts (a_local a) A); [apply (j_local _ _ HJ)|exact E2|apply G2]|].
    cbv beta. intros x s3 (A3 & S3 & E3). apply runs_ret. cbv iota. apply runs_bind. eapply runs_lift; [reflexivity|]. apply runs_ret.
    split; [exact A3|]. split; [|exact E3]. eapply stays_trans; [apply S1|]. eapply stays_trans; [apply G2|exact S3].
  Qed.
  Lemma ok_set' l t v x W :
      tags_ok K D (modifier_rules K V (seven_modifiers ++ ["encodeurl"])) l -> assigns K V (uses "local" l) t v W -> one (text_ok K W) x ->
      accepts (cmd_set K FU) (tags_text l ++ [t] ++ x) W.
  Proof.
    intros T A O. unfold cmd_set. intros s ts EV EC EP ST H. rewrite <- !app_assoc in H. tags T.
    { apply modifier_handles; [modifiers|reflexivity|reflexivity]. }
    intros fuel a s1 HJ H1 S1. assert (E1 : p_v s1 = V) by pv. cbn [app] in H1.
    eapply step_pos; [eapply assign_not_tag, A|exact H1|]. intros s2 G2. assert (E2 : p_v s2 = V) by (rewrite <- E1; apply G2).
    rewrite (j_var _ _ HJ). unfold more.
    eapply runs_then; [eapply (assign_ok _ _ _ _ _ (x ++ ts) (a_local a) A); [apply (j_local _ _ HJ)|exact E2|apply G2]|].
    cbv beta. intros y s3 (A3 & S3 & E3). apply runs_ret. cbv iota. clear fuel. intro fuel.
    eapply pos_done; [apply first_string; rewrite E3; exact O|exact A3|reflexivity|]. cbv beta. intros z s4 _ G4.
    apply runs_bind. eapply runs_lift; [reflexivity|]. apply runs_bind. eapply runs_lift; [reflexivity|]. apply runs_ret.
    destruct G4 as (A4 & (S4 & E4) & _). split; [exact A4|]. split; [|congruence].
    eapply stays_trans; [apply S1|]. eapply stays_trans; [apply G2|]. eapply stays_trans; [exact S3|exact S4].
  Qed.
  Lemma ok_addheader' l n v :
      tags_ok K D [("last", 1, None, nothing)] l -> one (header_name K V) n ->
      one (string_ok V (is_text (fun x => blen x <= C_hsize K))) v -> accepts (cmd_addheader K FU) (tags_text l ++ n ++ v) V.
  Proof.
    intros T (n0 & -> & ON) (v0 & -> & OV). unfold cmd_addheader. intros s ts EV EC EP ST H. rewrite <- !app_assoc in H. tags T; [rules|].
    intros fuel a s1 HJ H1 S1. assert (E1 : p_v s1 = V) by pv. cbn [app] in H1.
    eapply step_pos; [intro; apply string_not_tag; eapply string_ok_string, ON|exact H1|]. intros s2 G2. assert (E2 : p_v s2 = V) by (rewrite <- E1; apply G2).
    eapply runs_then; [eapply string_ok_tok; [apply G2|rewrite E2; exact ON]|]. cbv beta. intros x s3 (X & _ & G3). rewrite (j_name _ _ HJ).
    apply runs_bind, check_ok; [apply header_fine, X|]. apply runs_ret. cbv iota. clear fuel. intro fuel.
    assert (G3' := got_trans _ _ _ _ _ _ G2 G3). assert (E3 : p_v s3 = V) by (rewrite <- E1; apply G3').
    eapply step_pos; [intro; apply string_not_tag; eapply string_ok_string, OV|apply G3'|]. intros s4 G4. assert (E4 : p_v s4 = V) by (rewrite <- E3; apply G4).
    eapply runs_then; [eapply string_ok_tok; [apply G4|rewrite E4; exact OV]|]. cbv beta. intros y s5 (Y & _ & G5). cbn [a_name s_name].
    apply runs_bind, check_ok; [destruct y; try reflexivity; now apply Nat.leb_le|]. apply runs_ret. cbv iota.
    apply runs_bind. eapply runs_lift; [reflexivity|]. apply runs_bind. eapply runs_lift; [reflexivity|]. apply runs_ret.
    exact (after_got _ _ _ _ _ _ S1 (got_trans _ _ _ _ _ _ G3' (got_trans _ _ _ _ _ _ G4 G5)) EV).
  Qed.
  Lemma ok_deleteheader' l n ks :
      tags_ok K D (match_rules K 1 false ++ [comparator_rule K 2] ++ index_rules 3 4 None ++ mime_rules 5 6) l -> mime_first l ->
      one (header_name K V) n -> ks = [] \/ list_of (key K V l) ks -> accepts (cmd_deleteheader K FU) (tags_text l ++ n ++ ks) V.
  Proof.
    intros T M O KS. unfold cmd_deleteheader. intros s ts EV EC EP ST H. rewrite <- !app_assoc in H. tags T; [rules|].
    intros fuel a s1 HJ H1 S1. assert (E1 : p_v s1 = V) by pv.
    eapply pos_done; [apply (first_checked K (string_tok K) (header_ok K)); [apply first_string; rewrite E1; exact O|apply header_fine]|exact H1|reflexivity|].
    cbv beta. intros v s2 _ G2. assert (E2 : p_v s2 = V) by (rewrite <- E1; apply G2).
    apply runs_bind, check_ok; [exact (mime_fine _ _ HJ M)|].
    eapply look_ok; [apply G2|]. intros s3 G3. assert (G3' := got_trans _ _ _ _ _ _ G2 G3). assert (E3 : p_v s3 = V) by (rewrite <- E1; apply G3').
    destruct KS as [->|OK].
    - cbn [app]. rewrite (stop_peek _ ST). apply runs_bind, runs_ret. apply runs_bind. eapply runs_lift; [reflexivity|]. apply runs_ret.
      exact (after_got _ _ _ _ _ _ S1 G3' EV).
    - rewrite (list_peek _ _ _ OK (string_ok_string K _ _)). apply runs_bind.
      eapply runs_then; [eapply strings_ok; [rewrite E3; exact OK|apply G3']|]. cbv beta. intros fl s4 (_ & F & G4).
      apply validate_ok; [intro X; cbn [a_m s_name] in X; eapply (keys_fine K l a); eauto|]. intros ks'.
      apply runs_bind. eapply runs_lift; [reflexivity|]. apply runs_ret.
      exact (after_got _ _ _ _ _ _ S1 (got_trans _ _ _ _ _ _ G3' G4) EV).
  Qed.
  Lemma ok_let' t v us e W : assigns K V False t v W -> expr_is K W us e -> accepts (cmd_let K) (t :: us) W.
  Proof.
    intros A X s ts EV EC EP ST H. unfold cmd_let. cbn [app] in H. eapply read_ok; [exact H|]. intros s1 G1.
    assert (E1 : p_v s1 = V) by (rewrite <- EV; apply G1).
    eapply runs_then; [eapply (assign_ok _ _ _ _ _ _ false A); [split; [discriminate|contradiction]|exact E1|apply G1]|].
    cbv beta. intros y s2 (A2 & S2 & E2). eapply runs_then; [eapply parse_expr_ok; [exact X|exact E2|exact A2]|]. cbv beta. intros z s3 G3.
    apply runs_ret. destruct G3 as (A3 & (S3 & E3) & _). split; [exact A3|]. split; [|congruence].
    eapply stays_trans; [apply G1|]. eapply stays_trans; eauto.
  Qed.
  Lemma ok_flags' n us : list_of (text_ok K V) us -> acts (cmd_flags K FU n) us V.
  Proof.
    intros O s ts EV EC EP H. unfold cmd_flags. destruct (list_head _ _ O (string_ok_string K _ _)) as (t & us' & -> & N).
    cbn [app] in H. eapply read_ok; [exact H|]. intros s1 G1. eapply look_ok; [apply G1|]. intros s2 G2. assert (G' := got_trans _ _ _ _ _ _ G1 G2).
    assert (E2 : p_v s2 = V) by (rewrite <- EV; apply G').
    match goal with |- context [if word "setflag" n then ?x else ?y] => set (act := if word "setflag" n then x else y) end.
    assert (Z : runs (l <- strings_tok K FU t ;; ret (IxEditFlags act None l)) s2 (fun _ s' => at_ s' (TSemicolon :: ts) /\ stays s s' /\ p_v s' = V)).
    { eapply runs_then; [eapply strings_tok_ok; [rewrite E2; exact O|apply G']|]. cbv beta. intros v s3 (_ & _ & G3). apply runs_ret.
      exact (after_got _ _ _ _ _ _ (same_refl s) (got_trans _ _ _ _ _ _ G' G3) EV). }
    destruct O as [(t' & E & R & X)|(vs & E & S)].
    - injection E as <- ->. cbn [app peeks starts_strings]. destruct (readable_cases _ _ _ R) as [(c & ->)|(bs & ->)]; exact Z.
    - injection E as -> ->. exact Z.
  Qed.
  Lemma ok_flags_in' n t v us W : assigns K V False t v W -> list_of (text_ok K W) us -> acts (cmd_flags K FU n) (t :: us) W.
  Proof.
    intros A O s ts EV EC EP H. unfold cmd_flags.
    cbn [app] in H. eapply read_ok; [exact H|]. intros s1 G1. eapply look_ok; [apply G1|]. intros s2 G2. assert (G' := got_trans _ _ _ _ _ _ G1 G2).
    assert (E2 : p_v s2 = V) by (rewrite <- EV; apply G'). rewrite (list_peek _ _ _ O (string_ok_string K _ _)).
    destruct A as (c & -> & A).
    eapply runs_then; [eapply (assign_ok False (TStr c) v W s2 (us ++ TSemicolon :: ts) false); [exists c; auto|split; [discriminate|contradiction]|exact E2|apply G']|].
    cbv beta. intros y s3 (A3 & S3 & E3).
    eapply runs_then; [eapply strings_ok; [rewrite E3; exact O|exact A3]|]. cbv beta. intros z s4 (_ & _ & G4).
    apply runs_ret. destruct G4 as (A4 & (S4 & E4) & _). split; [exact A4|]. split; [|congruence].
    eapply stays_trans; [apply G'|]. eapply stays_trans; eauto.
  Qed.
  Lemma globals_ok xs : forall V0 W, globals_are K V0 xs W -> forall s ts, p_v s = V0 -> at_ s ts ->
    runs (globals K xs) s (fun _ s' => at_ s' ts /\ stays s s' /\ p_v s' = W).
  Proof.
    induction xs as [|x xs IH]; intros V0 W H s ts EV A; cbn [globals globals_are] in *.
    - subst W. apply runs_ret. split; [exact A|]. split; [apply stays_refl|exact EV].
    - destruct H as (V' & E & H). eapply runs_then; [instantiate (1 := fun _ s' => at_ s' ts /\ stays s s' /\ p_v s' = V')|].
      + unfold runs, on_v. rewrite EV, E. split; [exact A|]. split; [repeat split|reflexivity].
      + cbv beta. intros y s1 (A1 & S1 & E1). eapply runs_weaken; [eapply (IH V' W H s1 ts); assumption|]. cbv beta. intros z s2 (A2 & S2 & E2).
        split; [exact A2|]. split; [eapply stays_trans; eauto|exact E2].
  Qed.
End Acts.
