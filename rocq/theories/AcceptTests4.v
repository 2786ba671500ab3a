(** Proofs that valid scripts are accepted: the arguments of every test. *)
From Coq Require Import Lia.
From Verif Require Import Base Lib Address Var Value SetVar Flags Comparator Message EditHeader
  Expr ExprTok Event Notify AddrTest Vacation Sieve Utf8 Lexer Scope StringTok HeaderVar Compile ParseArgs ParseBase Parse CompileSpec GrammarSpec
  ArgSpec RefineSpec GrammarProofs ArgProofs1 AcceptSpec AcceptBase AcceptArgs AcceptTests AcceptTests2 AcceptTests3.
Import ListNotations.
Local Open Scope string_scope.
Local Open Scope list_scope.

Section Tests.
  Variable K : cenv.
  Variable FU : nat.
  Variable V : vst.
  Variable D : list (list capability).
  Notation L := (C_L K).
  Notation at_ := (at_ K).
  Notation got := (got K).
  Notation handles := (handles K V D).
  Notation string_ok := (string_ok K).
  Notation accepts := (accepts K V D).

  Ltac tags T := apply runs_bind; eapply (read_args_ok K FU V D); [|exact T|eassumption|eassumption|eassumption|eassumption|].
  Ltac pv := match goal with S : same ?s ?x, E : p_v ?s = V |- p_v ?x = V => destruct S; congruence end.

  (** *** duplicate *)

  Definition dup_step (a : args) : P (args + args) :=
    k <- peek K ;;
    match k with
    | KErr => fail
    | KTok (TTag w) =>
        match dispatch (duplicate_tags K FU) w with
        | Some h => next K ;; a' <- h a ;; ret (inl a')
        | None => ret (inr a)
        end
    | _ => ret (inr a)
    end.
  Lemma dup_run rules : Forall (handles (duplicate_tags K FU)) rules ->
    forall l used a s ts l0, tags_from K D rules used l -> (forall x, In x (p_params s) -> In x used) -> p_v s = V -> p_caps s = D ->
      at_ s (tags_text l ++ ts) -> J l0 a -> stop ts ->
      forall fuel, runs (loop fuel dup_step a) s (fun _ s' => at_ s' ts /\ same s s').
  Proof.
    intros HS l used a s ts l0 T. revert a s l0. induction T as [used|used w n c R us l I A X N T IH]; intros a s l0 P EV EC H HJ ST fuel.
    - destruct fuel as [|fuel]; [exact Logic.I|]. cbn [loop]. apply runs_bind. unfold dup_step at 1. cbn [tags_text map concat app] in H.
      eapply look_ok; [exact H|]. intros s1 G. destruct ST as (t & ts' & -> & HT). cbn [peeks].
      assert (Z : at_ s1 (t :: ts') /\ same s s1) by (destruct G as (? & ? & _); auto).
      destruct t; try destruct HT; exact Z.
    - destruct fuel as [|fuel]; [exact Logic.I|]. cbn [loop]. apply runs_bind. unfold dup_step at 1.
      change (tags_text ((w, us) :: l)) with (TTag (lit w) :: us ++ tags_text l) in H. cbn [app] in H. rewrite <- app_assoc in H.
      eapply look_ok; [exact H|]. intros s0 G0. cbn [peeks]. rewrite Forall_forall in HS. destruct (HS _ I) as (h & EH & HH). rewrite EH.
      eapply read_ok; [apply G0|]. intros s1 G'. assert (G := got_trans _ _ _ _ _ _ G0 G'). clear G0 G'.
      destruct G as (G1 & (G2 & G3) & G4). assert (EC1 : p_caps s1 = D) by (destruct G2 as [-> _]; exact EC).
      eapply runs_then; [eapply (HH a s1 us (tags_text l ++ ts) l0); [congruence|exact EC1|exact X|exact A| |exact G1|exact HJ]|].
      + destruct N as [N|N]; [now left|right]. rewrite G4. auto.
      + intros a' s2 (J2 & T2 & (S2 & S2') & P2). apply runs_ret.
        eapply runs_weaken; [apply (IH a' s2 (l0 ++ [(w, us)])); [|congruence| |exact T2|exact J2|exact ST]|].
        * intros x Ix. destruct (P2 x Ix) as [->|Ix']; [now left|]. right. apply P. now rewrite <- G4.
        * destruct S2 as [-> _]. exact EC1.
        * cbv beta. intros _ s3 (T3 & S3). split; [exact T3|].
          eapply same_trans; [split; [exact G2|exact G3]|]. eapply same_trans; [split; [exact S2|exact S2']|exact S3].
  Qed.
  Lemma handles_header hs w n (f : value -> args -> args) :
    dispatch hs (lit w) = Some (fun a => va K n None ;; v <- string K FU ;; check K (header_ok K v) ;; ret (f v a)) ->
    (forall us l a v, J l a -> J (l ++ [(w, us)]) (f v a)) ->
    handles hs (w, n, None, one (header_name K V)).
  Proof.
    intros HD F. eexists. split; [exact HD|]. intros a s us ts l EV EC X A N H HJ. unfold tag_run.
    eapply runs_then; [eapply (va_ok K n None); [exact H|exact N|exact Logic.I]|].
    cbv beta. intros _ s1 (T1 & S1 & P1). assert (E1 : p_v s1 = V) by (destruct S1; congruence).
    eapply runs_then; [eapply run_string; [exact E1|exact X|exact T1]|]. cbv beta. intros v s2 (Y & G2 & S2 & P2).
    apply runs_bind, check_ok; [apply header_fine, Y|]. apply runs_ret.
    split; [auto|]. split; [exact G2|]. split; [eapply same_trans; eauto|].
    intros y. rewrite P2, P1. destruct (Nat.eqb n 0); [auto|]. intros [<-|Z]; auto.
  Qed.
  Lemma ok_duplicate l :
    tags_ok K D [("handle", 1, None, one (text_ok K V)); ("header", 2, None, one (header_name K V)); ("uniqueid", 2, None, one (text_ok K V));
               ("seconds", 3, None, number_below usize_max); ("last", 4, None, nothing)] l ->
    accepts (test_duplicate K FU) (tags_text l) V.
  Proof.
    intros T s ts EV EC EP ST H.
    change (test_duplicate K FU) with (a <- loop FU dup_step args0 ;; ret (TeDuplicate (a_dup a) (a_handle a) (a_last a) (a_secs a) false)).
    eapply runs_then; [eapply dup_run; [|exact T|rewrite EP; auto|exact EV|exact EC|exact H|apply J_start|exact ST]|].
    - rules. eapply handles_header; [reflexivity|jdone].
    - cbv beta. intros a s' (A & B). apply runs_ret. split; [exact A|]. split; [apply B|]. rewrite <- EV. apply B.
  Qed.

  (** *** hasflag *)

  Lemma register_all_ok b names vs : forall V0 W, variables_are K b V0 names vs W -> forall s ts, p_v s = V0 -> at_ s ts ->
    runs (register_all K (map XText names) b) s (fun _ s' => at_ s' ts /\ stays s s' /\ p_v s' = W).
  Proof.
    intros V0 W H. induction H as [V0|V0 n v V' ns vs W E H IH]; intros s ts EV A; cbn [map register_all].
    - apply runs_ret. split; [exact A|]. split; [apply stays_refl|exact EV].
    - eapply runs_then; [instantiate (1 := fun _ s' => at_ s' ts /\ stays s s' /\ p_v s' = V')|].
      + unfold runs, register. rewrite EV. unfold variable_is in E. rewrite E. split; [exact A|]. split; [repeat split|reflexivity].
      + cbv beta. intros x s1 (A1 & S1 & E1). eapply runs_then; [apply (IH s1 ts); assumption|]. cbv beta. intros y s2 (A2 & S2 & E2).
        apply runs_ret. split; [exact A2|]. split; [eapply stays_trans; eauto|exact E2].
  Qed.
  Lemma handles_local hs : dispatch hs (lit "local") = Some (fun a => ret (s_local true a)) -> handles hs ("local", 0, None, nothing).
  Proof. intro HD. eapply handles_bare; [exact HD|]. intros l a HJ. jset. Qed.
  Ltac local_rules := apply Forall_app; split; [rules|apply Forall_cons; [apply handles_local; reflexivity|apply Forall_nil]].

  Lemma ok_hasflag l ks : tags_ok K D (plain_match K ++ [("local", 0, None, nothing)]) l -> list_of (key K V l) ks ->
    accepts (test_hasflag K FU) (tags_text l ++ ks) V.
  Proof.
    intros T O. unfold test_hasflag. intros s ts EV EC EP ST H. rewrite <- !app_assoc in H. tags T; [local_rules|].
    intros fuel a s1 HJ H1 S1. assert (E1 : p_v s1 = V) by pv.
    eapply pos_done; [apply first_strings; rewrite E1; exact O|exact H1|reflexivity|]. cbv beta. intros v s2 [_ F] G2.
    eapply look_ok; [apply G2|]. intros s3 G3. rewrite (stop_peek _ ST).
    apply runs_bind, validate_ok; [|intro; apply runs_ret; exact (after_got _ _ _ _ _ _ S1 (got_trans _ _ _ _ _ _ G2 G3) EV)].
    intro X. cbn [a_m s_vals] in X. eapply (keys_fine K l a); eauto.
  Qed.
  Lemma ok_hasflag_in l ns names vs W ks :
      tags_ok K D (plain_match K ++ [("local", 0, None, nothing)]) l -> list_of (string_ok V any_value) ns ->
      (forall vals, strings_are K V ns vals -> vals = map XText names) ->
      (forall b, (b = true <-> uses "local" l) -> variables_are K b V names vs W) -> list_of (key K W l) ks ->
      accepts (test_hasflag K FU) (tags_text l ++ ns ++ ks) W.
  Proof.
    intros T O1 EN VA O2. unfold test_hasflag. intros s ts EV EC EP ST H. rewrite <- !app_assoc in H. tags T; [local_rules|].
    intros fuel a s1 HJ H1 S1. assert (E1 : p_v s1 = V) by pv.
    eapply pos_done; [apply first_strings; rewrite E1; exact O1|exact H1|reflexivity|]. cbv beta. rewrite E1. intros v s2 [SA _] G2.
    assert (EQ := EN _ SA). subst v. clear EN.
    eapply look_ok; [apply G2|]. intros s3 G3. rewrite (list_peek _ _ _ O2 (string_ok_string K _ _)).
    assert (S3 := keep_v _ _ _ _ _ S1 (got_trans _ _ _ _ _ _ G2 G3)). assert (E3 : p_v s3 = V) by pv.
    apply runs_bind, check_ok.
    { cbn [vals a_vals s_vals]. destruct names; [|reflexivity]. destruct SA as [(x & y & _ & _ & Z)|(x & _ & _ & Z)]; [discriminate Z|now destruct Z]. }
    eapply runs_then; [eapply (register_all_ok (a_local a) names vs V W); [apply VA, (j_local _ _ HJ)|exact E3|apply G3]|]. cbv beta.
    intros x s4 (A4 & S4 & E4).
    eapply runs_then; [eapply strings_ok; [rewrite E4; exact O2|exact A4]|]. cbv beta. intros fl s5 (_ & F & G5).
    apply runs_bind, validate_ok.
    - intro X. cbn [a_m s_vals] in X. eapply (keys_fine K l a); eauto.
    - intro. apply runs_ret. destruct G5 as (A5 & (S5 & E5) & _). split; [exact A5|]. split; [|congruence].
      eapply stays_trans; [apply S3|]. eapply stays_trans; eauto.
  Qed.

  Lemma args_ok n us W : valid_args K D V n us W -> exists c m, In (n, c) test_needs /\ find_word (lit n) (tests K FU) = Some (capd c, m) /\ accepts m us W.
  Proof.
    intros H. destruct H;
      try match goal with I : In ?n _ |- context [find_word (lit ?n) _] => cbn [In] in I; repeat (destruct I as [<-|I]); [..|contradiction] end;
      (eexists; eexists; split; [unfold test_needs; cbn [In]; tauto|]; split; [reflexivity|]).
    all: first [ now apply ok_address | now apply ok_envelope | now apply ok_header | now apply ok_size | now apply ok_exists | now apply ok_body
      | now apply ok_convert_test | now apply ok_date | now apply ok_currentdate | now apply ok_duplicate | now apply ok_string
      | now apply ok_notify_capability | now apply ok_environment | now apply ok_ihave | now apply ok_hasflag | now eapply ok_hasflag_in; eauto
      | now apply ok_metadata | now apply ok_metadataexists | now apply ok_servermetadata | now apply ok_spamtest | now apply ok_virustest
      | now apply ok_specialuse | now apply ok_specialuse_in | now apply ok_list | idtac ].
  Qed.
End Tests.
