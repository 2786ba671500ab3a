(** The compiled script and the commands it was read from. *)
From Coq Require Import Lia.
From Verif Require Import Base Lib Address Var Value SetVar Flags Comparator Message EditHeader
  Expr ExprTok Event Notify AddrTest Vacation Sieve Utf8 Lexer Scope StringTok HeaderVar Compile ParseArgs ParseBase Parse GrammarSpec ArgSpec
  RefineSpec GrammarProofs GrammarProofs2 GrammarProofs3 GrammarProofs4 ArgProofs1 ArgProofs5
  RefineProofs1 RefineProofs2 RefineProofs3 RefineCaps RefineProofs4 RefineProofs5.
Import ListNotations.
Local Open Scope string_scope.
Local Open Scope list_scope.

Section Main.
  Variable K : cenv.
  Variable FU : nat.
  Notation rest s ts := (tokens_from (C_L K) (C_string K) (p_lex s) ts).
  Notation umax := (C_umax K).
  Notation lim := (C_lim K).

  Lemma reads_else W D V w us ks : script_reads K W D V (TIdent w :: us) ks -> named ["elsif"; "else"] w -> else_next ks = true.
  Proof.
    intros R N. inversion R; subst; try reflexivity;
      try (destruct N as [N|[N|[]]]; discriminate N).
    - exfalso. match goal with H : action_is _ _ _ _ _ _ |- _ => destruct H as [? ? ? H| | | |]; try destruct H end;
      try match goal with H : In (_, _) _ |- _ => destruct H as [X|[X|[X|[]]]]; injection X as <- _ end; destruct N as [N|[N|[]]]; discriminate N.
    - exfalso. match goal with H : no_command _ |- _ => apply H end. destruct N as [<-|[<-|[]]]; apply in_map; cbn; tauto.
  Qed.
  Lemma open_ok t l s u s1 : open_all K t l s = Ok u s1 ->
    p_lex s1 = p_lex s /\ p_caps s1 = [] :: p_caps s /\ p_v s1 = open_block (p_v s) /\ open lim t l (p_c s) = Some (p_c s1).
  Proof.
    unfold open_all, inside, bind, on_c, modify. destruct (forallb _ _); [|discriminate].
    destruct (open lim t l (p_c s)) eqn:O; [|discriminate]. intro E. injection E as <- <-. auto.
  Qed.
  Definition is_clear (o : option instruction) : Prop := o = None \/ exists mv v n, o = Some (IxClear mv v n).
  Lemma clear_of_is a b m : is_clear (clear_of a b m).
  Proof. unfold clear_of, is_clear. destruct (Nat.ltb 0 b); [eauto 6|]. destruct (N.eqb m 0); eauto 6. Qed.
  Lemma close_ok s u s1 ts : close_all K s = Ok u s1 -> rest s1 ts ->
    rest s ts /\ p_caps s1 = tl (p_caps s) /\
    exists idx num mv o more, close_block (p_v s) = Some (p_v s1, (idx, num)) /\ o = cleared idx num mv /\ is_clear o /\ close umax o (if more : bool then [KElse] else []) (p_c s) = Some (p_c s1) /\
      (more = true -> exists w ts', ts = TIdent w :: ts' /\ named ["elsif"; "else"] w).
  Proof.
    intros E F. unfold close_all in E. apply bind_ok in E. destruct E as (ps & s0 & E0 & E). unfold get in E0. injection E0 as <- <-.
    apply bind_ok in E. destruct E as (x & s0 & E0 & E). assert (s0 = s) as -> by (unfold inside in E0; destruct (forallb _ _); [now injection E0|discriminate]).
    apply bind_ok in E. destruct E as (t & s0 & E1 & E). unfold get in E1. injection E1 as <- <-.
    apply bind_ok in E. destruct E as (mv & s0 & E1 & E). unfold get in E1. injection E1 as <- <-.
    apply bind_ok in E. destruct E as (v & s0 & E1 & E). unfold get in E1. injection E1 as <- <-.
    apply bind_ok in E. destruct E as (vi & s0 & E1 & E). unfold lift in E1. destruct (close_block (p_v s)) as [[V1 [idx num]]|] eqn:CB; [|discriminate]. injection E1 as <- <-.
    apply bind_ok in E. destruct E as (more & s2 & E2 & E). apply bind_ok in E. destruct E as (y & s3 & E3 & E). unfold modify in E. injection E as <- <-.
    unfold on_c in E3. destruct (close _ _ _ (p_c s2)) as [c3|] eqn:C; [|discriminate]. injection E3 as <- <-. cbn [p_lex w_c w_caps w_m w_v] in F.
    assert (X : rest s ts /\ p_c s2 = p_c s /\ p_caps s2 = p_caps s /\ (more = true -> exists w ts', ts = TIdent w :: ts' /\ named ["elsif"; "else"] w)).
    { assert (Z : (exists k, peek K s = Ok k s2 /\ more = match k with KTok (TIdent w) => oneof ["elsif"; "else"] w | _ => false end) \/ (more = false /\ s2 = s)).
      { destruct (b_type (c_blk (p_c s))); try (right; injection E2 as <- <-; auto; fail);
          (left; apply bind_ok in E2; destruct E2 as (k & s4 & E4 & E2); injection E2 as <- <-; eauto). }
      destruct Z as [(k & P & ->)|[-> ->]]; [|repeat split; auto; discriminate].
      destruct (peek_ok K _ _ _ _ P F) as (R & S & Q). split; [exact R|]. split; [exact Q|]. split; [exact (cl_peek K _ _ _ P)|].
      destruct k as [ | |t]; try discriminate. destruct t; try discriminate. intro O. apply oneof_named in O. destruct S as (ts' & ->). eauto. }
    destruct X as (R & Q & P & M). split; [exact R|]. split; [cbn; now rewrite P|]. rewrite Q in C.
    exists idx, num; eexists _, _, more. split; [reflexivity|]. split; [reflexivity|]. split; [apply clear_of_is|]. split; [exact C|exact M].
  Qed.

  (** Whether "elsif" or "else" follows is what the loop sees *)
  Lemma close_go o more c c1 ks f s' : close umax o (if more : bool then [KElse] else []) c = Some c1 ->
    (more = true -> else_next ks = true) -> go umax lim f ks c1 = COk s' -> close umax o ks c = Some c1.
  Proof.
    intros C M G. destruct (else_next ks) eqn:N.
    - destruct more; [rewrite <- C; apply close_else; exact N|]. clear M.
      assert (L : c_last c1 = BIf \/ c_last c1 = BElsIf).
      { destruct ks as [|[] ks]; try discriminate N; destruct f; try discriminate G; cbn [go Compile.command] in G;
          destruct (c_last c1); auto; discriminate G. }
      unfold close in *. destruct (c_stack c); [discriminate|]. cbv zeta in *. destruct (b_type (c_blk c)); try exact C;
        injection C as <-; cbn in L; destruct L; discriminate.
    - destruct more; [now specialize (M eq_refl)|]. rewrite <- C. apply close_else. exact N.
  Qed.

  Lemma main_ok : forall n s u s', loop n (main_step K FU) tt s = Ok u s' -> c_stack (p_c s') = [] ->
    exists us ks f, rest s us /\ script_reads K (p_v s') (p_caps s) (p_v s) us ks /\ Forall only_clear ks /\
      go umax lim f ks (erc (p_c s)) = COk (erc (p_c s')).
  Proof.
    induction n as [|n IH]; intros s u s' E Z; [discriminate|]. cbn [loop] in E. apply bind_ok in E. destruct E as (r & s1 & M & E).
    unfold main_step in M. unfold bind at 1 in M. unfold next_opt in M.
    destruct (lex_next _ _ _) as [l|t l|e l|] eqn:N; try discriminate.
    - unfold ret in M. injection M as <- <-. unfold ret in E. injection E as _ <-. cbn in Z. exists [], [], 0.
      split; [eapply from_end; exact N|]. split; [constructor|]. split; [constructor|]. cbn. now rewrite Z.
    - set (s0 := w_lex l s) in *. unfold reset in M. unfold bind at 1, modify in M.
      set (s00 := w_params [] s0) in *.
      assert (R0 : forall ts, rest s00 ts -> rest s (t :: ts)) by (intros ts F; eapply from_token; [exact N|exact F]).
      change (p_caps s) with (p_caps s00). change (p_v s) with (p_v s00). change (p_c s) with (p_c s00).
      destruct t; try discriminate.
      + (* a closing brace *)
        unfold bind at 1, get in M. destruct (c_stack (p_c s00)) as [|b0 st0] eqn:Sk; [discriminate|].
        apply bind_ok in M. destruct M as (u0 & s2 & C & M). injection M as <- <-.
        destruct (IH _ _ _ E Z) as (us & ks & f & F & Sr & OC & G). destruct (close_ok _ _ _ _ C F) as (F0 & P & idx & num & mv & o & more & CB & Oe & O & Cl & Mo).
        rewrite P in Sr. exists (TCurlyClose :: us), (KClose o :: ks), (S f). split; [auto|]. split; [rewrite Oe; econstructor; eassumption|].
        assert (Oc : forall i, o = Some i -> er i = i /\ fixed i = true)
          by (intros i ->; destruct O as [O|(mv' & v & k & O)]; [discriminate|]; injection O as ->; split; reflexivity).
        split; [constructor; [destruct o; [apply Oc; reflexivity|exact Logic.I]|exact OC]|].
        cbn [go Compile.command]. rewrite (close_go o more (erc (p_c s00)) (erc (p_c s2)) ks f (erc (p_c s'))); [exact G| | |exact G].
        * rewrite erc_close by (intros; now apply Oc). now rewrite Cl.
        * intro T. destruct (Mo T) as (w & us' & -> & Nm). eapply reads_else; eassumption.
      + (* a command *)
        apply bind_ok in M. destruct M as (f & s2 & C & M). destruct f as [bt lb| |].
        * apply bind_ok in M. destruct M as (u0 & s3 & X & M). apply bind_ok in M. destruct M as (u1 & s4 & O & M). injection M as <- <-.
          destruct (IH _ _ _ E Z) as (us & ks & f & F & Sr & OC & G). destruct (open_ok _ _ _ _ _ O) as (L4 & P4 & V4 & O4). rewrite L4 in F.
          destruct (expect_ok K TCurlyOpen _ _ _ _ Logic.I X F) as [F3 Q3].
          assert (P3 : p_caps s3 = p_caps s2).
          { unfold expect in X. apply bind_ok in X. destruct X as (t & s5 & X1 & X2). destruct (tok_eqb _ _); [|discriminate]. injection X2 as _ <-.
            exact (cl_next K _ _ _ X1). }
          destruct (command_ok K FU _ _ _ _ _ C F3) as (vs & Rv & k0 & kt & O0 & Ot & Rd & Cm).
          exists (TIdent w :: vs ++ TCurlyOpen :: us), (k0 :: kt ++ KOpen :: ks), (S f). split; [auto|]. split; [apply Rd; rewrite <- P3, <- P4, <- (expect_v K _ _ _ _ X), <- V4; exact Sr|].
          split; [constructor; [exact O0|apply Forall_app; split; [exact Ot|constructor; [exact Logic.I|exact OC]]]|].
          cbn [go]. cbn [kfin] in Cm. rewrite Cm. rewrite <- Q3, erc_open, O4. exact G.
        * apply bind_ok in M. destruct M as (u0 & s3 & X & M). injection M as <- <-.
          destruct (IH _ _ _ E Z) as (us & ks & f & F & Sr & OC & G). destruct (expect_ok K TSemicolon _ _ _ _ Logic.I X F) as [F3 Q3].
          assert (P3 : p_caps s3 = p_caps s2).
          { unfold expect in X. apply bind_ok in X. destruct X as (t & s5 & X1 & X2). destruct (tok_eqb _ _); [|discriminate]. injection X2 as _ <-.
            exact (cl_next K _ _ _ X1). }
          destruct (command_ok K FU _ _ _ _ _ C F3) as (vs & Rv & k0 & kt & O0 & Ot & Rd & Cm).
          exists (TIdent w :: vs ++ TSemicolon :: us), (k0 :: kt ++ ks), (S f). split; [auto|]. split; [apply Rd; rewrite <- P3, <- (expect_v K _ _ _ _ X); exact Sr|].
          split; [constructor; [exact O0|apply Forall_app; split; [exact Ot|exact OC]]|].
          cbn [go]. cbn [kfin] in Cm. rewrite Cm. rewrite <- Q3. exact G.
        * injection M as <- <-. destruct (IH _ _ _ E Z) as (us & ks & f & F & Sr & OC & G).
          destruct (command_ok K FU _ _ _ _ _ C F) as (vs & Rv & k0 & kt & O0 & Ot & Rd & Cm).
          exists (TIdent w :: vs ++ us), (k0 :: kt ++ ks), (S f). split; [auto|]. split; [apply Rd; exact Sr|].
          split; [constructor; [exact O0|apply Forall_app; split; [exact Ot|exact OC]]|].
          cbn [go]. cbn [kfin] in Cm. now rewrite Cm.
      + (* an unknown word *)
        apply bind_ok in M. destruct M as (u0 & s3 & C & M). injection M as <- <-. destruct (IH _ _ _ E Z) as (us & ks & f & F & Sr & OC & G).
        destruct (unknown_ok K FU _ _ _ _ (TUnknown s2) _ C F Logic.I (or_intror eq_refl)) as (vs & Rv & k0 & kt & O0 & Ot & Rd & Cm).
        exists (TUnknown s2 :: vs ++ us), (k0 :: kt ++ ks), (S f). split; [auto|]. split; [apply Rd; exact Sr|].
        split; [constructor; [exact O0|apply Forall_app; split; [exact Ot|exact OC]]|].
        cbn [go]. cbn [kfin] in Cm. now rewrite Cm.
  Qed.
End Main.
