(** Proofs that valid scripts are accepted: blocks, and whole scripts. *)
From Coq Require Import Lia.
From Verif Require Import Base Lib Address Var Value SetVar Flags Comparator Message EditHeader
  Expr ExprTok Event Notify AddrTest Vacation Sieve Utf8 Lexer Scope StringTok HeaderVar Compile ParseArgs ParseBase Parse CompileSpec GrammarSpec
  ArgSpec RefineSpec GrammarProofs ArgProofs1 ArgProofs5 RefineProofs5 AcceptSpec AcceptBase AcceptArgs AcceptTests AcceptTests2 AcceptTests3 AcceptTests4 AcceptTest
  AcceptActs AcceptActs2 AcceptCmds AcceptCmds2.
Import ListNotations.
Local Open Scope string_scope.
Local Open Scope list_scope.

Scheme commands_ind2 := Induction for valid_commands Sort Prop
  with else_ind2 := Induction for valid_else Sort Prop
  with block_ind2 := Induction for valid_block Sort Prop.
Combined Scheme valid_ind from commands_ind2, else_ind2, block_ind2.

Lemma Forall2_len {A B} (R : A -> B -> Prop) a b : Forall2 R a b -> length a = length b.
Proof. induction 1; cbn; congruence. Qed.

Section Cmds.
  Variable K : cenv.
  Variable FU : nat.
  Notation L := (C_L K).
  Notation at_ := (at_ K).
  Notation got := (got K).
  Notation ends := (ends K).

  (** *** The heads of blocks *)

  Definition heads (s : pst) (t : btype) (l : option text) (ts : list tok) D e n W (f : follow) (s' : pst) : Prop :=
    f = FBlock t l /\ at_ s' ts /\ types s' = types s /\ ctx s' D e n W.
  Lemma ctx_same s s' D e n V : ctx s D e n V -> same s s' -> ctx s' D e n V.
  Proof. intros X [A B]. eapply ctx_kept; [exact X|apply stays_kept, A|]. rewrite B. apply X. Qed.
  Lemma types_same s s' : same s s' -> types s' = types s.
  Proof. intros [A _]. apply types_kept, stays_kept, A. Qed.

  Lemma if_cmd D e n V us W s ts : valid_test K D 0 V us W -> ctx s D e n V -> stop ts -> at_ s (us ++ ts) ->
    runs (command K FU (lit "if")) s (heads s BIf None ts D e n W).
  Proof.
    intros T X ST H. change (command K FU (lit "if")) with
      (Parse.parse_test K FU ;; modify (fun s => w_c (with_blk (with_if [] (c_blk (p_c s))) (p_c s)) s) ;; ret (FBlock BIf None)).
    eapply runs_then; [eapply (parse_test_ok K FU D V us W s ts T); [apply X|apply X|exact ST|exact H]|]. cbv beta. intros x s1 (T1 & K1 & E1).
    apply runs_bind, runs_modify, runs_ret. split; [reflexivity|]. split; [exact T1|]. rewrite <- (types_kept _ _ K1). split; [reflexivity|].
    destruct (ctx_kept _ _ _ _ _ _ _ X K1 E1) as [X1 X2 X3 X4]. constructor; cbn; [exact X1| |exact X3|exact X4].
    inversion X2 as [|? y ? ? A B]; subst. constructor; [destruct y; exact A|exact B].
  Qed.
  Lemma elsif_cmd D e n V us W s ts : c_last (p_c s) = BIf \/ c_last (p_c s) = BElsIf -> valid_test K D 0 V us W -> ctx s D e n V -> stop ts -> at_ s (us ++ ts) ->
    runs (command K FU (lit "elsif")) s (heads s BElsIf None ts D e n W).
  Proof.
    intros LA T X ST H.
    assert (Z : runs (Parse.parse_test K FU ;; ret (FBlock BElsIf None)) s (heads s BElsIf None ts D e n W)).
    { eapply runs_then; [eapply (parse_test_ok K FU D V us W s ts T); [apply X|apply X|exact ST|exact H]|]. cbv beta. intros x s1 (T1 & K1 & E1).
      apply runs_ret. split; [reflexivity|]. split; [exact T1|]. split; [apply types_kept, K1|]. eapply ctx_kept; eauto. }
    change (command K FU (lit "elsif")) with
      (l <- get (fun s => c_last (p_c s)) ;; match l with BIf | BElsIf => Parse.parse_test K FU ;; ret (FBlock BElsIf None) | _ => fail end).
    apply runs_bind, runs_get. destruct LA as [->| ->]; exact Z.
  Qed.
  Lemma else_cmd D e n V s ts : c_last (p_c s) = BIf \/ c_last (p_c s) = BElsIf -> ctx s D e n V -> at_ s ts ->
    runs (command K FU (lit "else")) s (heads s BElse None ts D e n V).
  Proof.
    intros LA X H.
    change (command K FU (lit "else")) with (l <- get (fun s => c_last (p_c s)) ;; match l with BIf | BElsIf => ret (FBlock BElse None) | _ => fail end).
    apply runs_bind, runs_get. destruct LA as [->| ->]; (split; [reflexivity|]; split; [exact H|]; split; [reflexivity|exact X]).
  Qed.
  Lemma while_cmd D e n V us x s ts : allowed K D (Some "vnd.stalwart.while") -> expr_is K V us x -> ctx s D e n V -> at_ s (us ++ ts) ->
    runs (command K FU (lit "while")) s (heads s BWhile None ts D e n V).
  Proof.
    intros AL XP X H. change (command K FU (lit "while")) with
      (va K 0 (capd (Some "vnd.stalwart.while")) ;; e <- parse_expr K ;; push [IxWhile e (C_umax K)] ;; ret (FBlock BWhile None)).
    eapply runs_then; [eapply va_ok; [exact H|now left|rewrite (x_caps _ _ _ _ _ X); exact AL]|]. cbv beta. intros _ s1 (T1 & S1 & P1).
    eapply runs_then; [eapply parse_expr_ok; [exact XP|apply (ctx_same _ _ _ _ _ _ X S1)|exact T1]|]. cbv beta. intros y s2 G2.
    apply runs_bind, runs_modify, runs_ret. assert (S2 := same_trans _ _ _ S1 (proj1 (proj2 G2))).
    split; [reflexivity|]. split; [apply G2|]. split; [apply (types_same _ _ S2)|]. destruct (ctx_same _ _ _ _ _ _ X S2). constructor; assumption.
  Qed.
  Lemma enc_label b x n : enc b x -> encl_named n x = false -> label_eqb (b_label b) n = false.
  Proof. destruct x as [|[l|]|]; cbn; [intros (_ & _ & ->)|intros [_ ->]|intros [_ ->]|intros [_ ->]]; auto. Qed.
  Lemma for_count bs e : Forall2 enc bs e -> length (filter is_for bs) = loops e.
  Proof. induction 1 as [|b x bs e E F IH]; [reflexivity|]. unfold loops in *. cbn [filter]. rewrite (enc_for b x E). destruct (encl_for x); cbn; auto. Qed.
  Lemma loops_tail e : loops (tl (e ++ [EPlain])) <= loops e.
  Proof.
    destruct e as [|x e]; [apply Nat.le_refl|]. cbn [app tl]. unfold loops. rewrite filter_app, app_length. cbn [filter encl_for length]. destruct (encl_for x); cbn; lia.
  Qed.
  Lemma foreverypart_cmd D e n V us l s ts : allowed K D (Some "foreverypart") -> label_ok K us l -> loops e < l_fep (C_lim K) ->
      match l with Some x => existsb (encl_named x) e = false | None => True end -> ctx s D e n V -> stop ts -> at_ s (us ++ ts) ->
    runs (command K FU (lit "foreverypart")) s (heads s BFor l ts D e n V).
  Proof.
    intros AL LO LE FO X ST H. change (command K FU (lit "foreverypart")) with (cmd_foreverypart K FU). unfold cmd_foreverypart.
    eapply runs_then; [eapply (va_ok K 0 (Some "foreverypart")); [exact H|now left|rewrite (x_caps _ _ _ _ _ X); exact AL]|]. cbv beta. intros _ s1 (T1 & S1 & P1).
    assert (X1 := ctx_same _ _ _ _ _ _ X S1). assert (F1 := x_enc _ _ _ _ _ X1).
    assert (F2 : Forall2 enc (c_stack (p_c s1)) (tl (e ++ [EPlain]))) by (inversion F1; subst; assumption).
    apply runs_bind, runs_get.
    assert (NE : Nat.eqb (length (filter is_for (c_stack (p_c s1)))) (l_fep (C_lim K)) = false).
    { apply Nat.eqb_neq. rewrite (for_count _ _ F2). pose proof (loops_tail e). lia. }
    rewrite NE.
    assert (Z : forall s2, at_ s2 ts -> same s s2 -> runs (push [IxForEveryPartPush; IxForEveryPart (C_umax K)] ;; ret (FBlock BFor l)) s2 (heads s BFor l ts D e n V)).
    { intros s2 T2 S2. apply runs_bind, runs_modify, runs_ret. split; [reflexivity|]. split; [exact T2|]. split; [apply (types_same _ _ S2)|].
      destruct (ctx_same _ _ _ _ _ _ X S2). constructor; assumption. }
    destruct l as [x|].
    - destruct LO as (c & -> & ->). cbn [app] in T1. eapply runs_then; [apply tag_name_ok, T1|]. cbv beta. intros b s2 [-> G2].
      change (word "name" (lit "name")) with true. cbv iota. apply runs_bind. eapply read_ok; [apply G2|]. intros s3 G3. cbv beta.
      eapply runs_then; [apply (static_string_ok K FU (fun y => y = const_text L c) [TStr c]); [exists (TStr c); split; [reflexivity|]; exists c; auto|apply G3]|].
      cbv beta. intros y s4 [-> G4].
      assert (Q : existsb (fun b => label_eqb (b_label b) (const_text L c)) (c_stack (p_c s1)) = false).
      { assert (FO' : existsb (encl_named (const_text L c)) (tl (e ++ [EPlain])) = false).
        { destruct e as [|x e]; [reflexivity|]. cbn [existsb app tl] in *. apply Bool.orb_false_iff in FO. destruct FO as [_ FO]. now rewrite existsb_app, FO. }
        clear - F2 FO'. induction F2 as [|b x bs e' E F IH]; [reflexivity|]. cbn [existsb] in *. apply Bool.orb_false_iff in FO'. destruct FO' as [A B].
        now rewrite (enc_label _ _ _ E A), IH. }
      rewrite Q. apply runs_ret. apply Z; [apply G4|].
      eapply same_trans; [exact S1|]. eapply same_trans; [apply G2|]. eapply same_trans; [apply G3|apply G4].
    - cbn [label_ok] in LO. subst us. cbn [app] in T1. eapply runs_then; [apply tag_name_ok, T1|]. cbv beta. intros b s2 [-> G2].
      assert (N : match ts with TTag w :: _ => word "name" w | _ => false end = false) by (destruct ST as (t & ts' & -> & A); destruct t; try contradiction; reflexivity).
      rewrite N. apply runs_bind, runs_ret. apply Z; [apply G2|]. eapply same_trans; [exact S1|apply G2].
  Qed.

  (** *** One step of the compiler *)

  Definition go (s : pst) (Q : unit -> pst -> Prop) : Prop := forall fuel, runs (loop fuel (main_step K FU) tt) s Q.
  Definition on (Q : unit -> pst -> Prop) (r : unit + unit) (s : pst) : Prop := match r with inl _ => go s Q | inr _ => Q tt s end.
  Lemma go_step s Q : runs (main_step K FU tt) s (on Q) -> go s Q.
  Proof.
    intros H fuel. destruct fuel as [|fuel]; [exact Logic.I|]. cbn [loop]. eapply runs_then; [exact H|]. cbv beta. intros [[]|[]] s' X; [apply X|exact X].
  Qed.
  Lemma main_cmd w s ts R : at_ s (TIdent w :: ts) ->
    (forall s1, at_ s1 ts -> same s s1 -> p_params s1 = [] ->
      runs (f <- command K FU w ;; match f with
                                   | FBlock t l => expect K TCurlyOpen ;; open_all K t l ;; ret (inl tt)
                                   | FEnd => expect K TSemicolon ;; ret (inl tt)
                                   | FNone => ret (inl tt)
                                   end) s1 R) -> runs (main_step K FU tt) s R.
  Proof.
    intros H X. unfold main_step. eapply runs_then; [apply next_opt_ok, H|]. cbv beta. intros o s1 [-> G1]. cbv iota.
    apply runs_bind. eapply reset_ok; [apply G1|]. intros s2 T2 S2 P2. apply X; [exact T2| |exact P2]. eapply same_trans; [apply G1|exact S2].
  Qed.
  (** A command with a semicolon *)
  Lemma step_end w us s ts D e n V D' n' W Q : ctx s D e n V -> at_ s (TIdent (lit w) :: us ++ TSemicolon :: ts) ->
    (forall s1, at_ s1 (us ++ TSemicolon :: ts) -> ctx s1 D e n V -> p_params s1 = [] -> runs (command K FU (lit w)) s1 (ends s1 ts D' e n' W)) ->
    (forall s', ctx s' D' e n' W -> at_ s' ts -> types s' = types s -> go s' Q) -> go s Q.
  Proof.
    intros X H C G. apply go_step. eapply main_cmd; [exact H|]. intros s1 T1 S1 P1.
    eapply runs_then; [apply C; [exact T1|eapply ctx_same; eauto|exact P1]|]. intros f s2 (-> & T2 & Y2 & X2). cbv iota.
    eapply runs_then; [apply (expect_ok K TSemicolon); [reflexivity|exact T2]|]. cbv beta. intros _ s3 G3. apply runs_ret. cbn [on].
    apply G; [eapply ctx_same; [exact X2|apply G3]|apply G3|]. rewrite (types_same _ _ (proj1 (proj2 G3))), Y2. now apply types_same.
  Qed.
  (** The head of a block *)
  Lemma step_head w us s ts t l D e n V W Q : ctx s D e n V -> at_ s (TIdent (lit w) :: us ++ ts) ->
    (forall s1, at_ s1 (us ++ ts) -> ctx s1 D e n V -> kept s s1 -> runs (command K FU (lit w)) s1 (heads s1 t l ts D e n W)) ->
    (forall s', ctx s' D e n W -> at_ s' ts -> types s' = types s -> runs (expect K TCurlyOpen ;; open_all K t l ;; ret (inl tt)) s' (on Q)) -> go s Q.
  Proof.
    intros X H C G. apply go_step. eapply main_cmd; [exact H|]. intros s1 T1 S1 P1.
    eapply runs_then; [apply C; [exact T1|eapply ctx_same; eauto|apply stays_kept, S1]|]. intros f s2 (-> & T2 & Y2 & X2). cbv iota.
    apply G; [exact X2|exact T2|]. rewrite Y2. now apply types_same.
  Qed.

  (** *** The induction *)

  Definition begins (b : encl) (t : btype) (l : option text) : Prop :=
    match b with
    | EFor l' => t = BFor /\ l = l'
    | EWhile => t = BWhile /\ l = None
    | EPlain => (t = BIf \/ t = BElsIf \/ t = BElse) /\ l = None
    end.
  Definition goes_on (ts : list tok) : Prop := exists w ts', ts = TIdent w :: ts' /\ oneof ["elsif"; "else"] w = true.
  Definition last_ok (t : btype) (ts : list tok) (s : pst) : Prop :=
    t = BIf \/ t = BElsIf -> goes_on ts -> c_last (p_c s) = BIf \/ c_last (p_c s) = BElsIf.

  Definition commands_good D e n V us n' W (_ : valid_commands K D e n V us n' W) : Prop := forall s ts Q,
    ctx s D e n V -> at_ s (us ++ ts) ->
    (forall s' D', ctx s' D' e n' W -> at_ s' ts -> types s' = types s -> tl D' = tl D -> go s' Q) -> go s Q.
  Definition else_good D e n V us n' W (_ : valid_else K D e n V us n' W) : Prop := forall s ts Q,
    ctx s D e n V -> at_ s (us ++ ts) -> (us <> [] -> c_last (p_c s) = BIf \/ c_last (p_c s) = BElsIf) ->
    (forall s', ctx s' D e n' W -> at_ s' ts -> types s' = types s -> go s' Q) -> go s Q.
  Definition block_good D b e n V us n' W (_ : valid_block K D b e n V us n' W) : Prop := forall s ts t l Q,
    begins b t l -> ctx s D e n V -> at_ s (us ++ ts) ->
    (forall s', ctx s' D e n' W -> at_ s' ts -> types s' = types s -> last_ok t ts s' -> go s' Q) ->
    runs (expect K TCurlyOpen ;; open_all K t l ;; ret (inl tt)) s (on Q).

  Lemma else_head D e n V us n' W ts : valid_else K D e n V us n' W -> us <> [] -> goes_on (us ++ ts).
  Proof. destruct 1 as [| |]; intro N; [now destruct N| |]; eexists _, _; (split; [reflexivity|reflexivity]). Qed.
  Lemma block_stop D b e n V us n' W ts : valid_block K D b e n V us n' W -> stop (us ++ ts).
  Proof. destruct 1. eexists _, _. split; [reflexivity|exact Logic.I]. Qed.

  Lemma block_runs D b e n V us n' V1 W x (L1 : length e < l_blocks (C_lim K)) (H : valid_commands K ([] :: D) (b :: e) n (open_block V) us n' V1)
    (CL : close_block V1 = Some (W, x)) : commands_good _ _ _ _ _ _ _ H -> block_good _ _ _ _ _ _ _ _ (vb_block K D b e n V us n' V1 W x L1 H CL).
  Proof.
    intros IH s ts t l Q B X T G. cbn [app] in T. rewrite <- app_assoc in T. cbn [app] in T.
    eapply runs_then; [apply (expect_ok K TCurlyOpen); [reflexivity|exact T]|]. cbv beta. intros _ s1 G1.
    assert (X1 := ctx_same _ _ _ _ _ _ X (proj1 (proj2 G1))). assert (Y1 := types_same _ _ (proj1 (proj2 G1))). destruct G1 as (T1 & _).
    apply runs_bind. unfold open_all. apply runs_bind. unfold inside, runs at 1. destruct (forallb _ [0]); [|exact Logic.I].
    destruct X1 as [A1 A2 A3 A4]. apply runs_bind. unfold on_c, runs at 1. unfold open.
    assert (LE : Nat.ltb (length (c_stack (p_c s1))) (l_blocks (C_lim K)) = true).
    { apply Nat.ltb_lt. apply Forall2_len in A2. unfold blocks in A2. rewrite app_length in A2. cbn in A2. lia. }
    rewrite LE. apply runs_modify. apply runs_ret. cbn [on].
    eapply (IH _ (TCurlyClose :: ts)); [|exact T1|].
    { constructor; cbn; [now rewrite A1| |exact A3|now rewrite A4]. constructor.
      - destruct b; cbn in *; [destruct B as [[->|[->| ->]] ->]; repeat split; discriminate|exact B|exact B].
      - inversion A2 as [|? y ? ? E F]; subst. constructor; [destruct y; exact E|exact F]. }
    intros s2 D' X2 T2 Y2 ED. cbn [tl] in ED. apply go_step.
    unfold main_step. eapply runs_then; [apply next_opt_ok, T2|]. cbv beta. intros o s3 [-> G3]. cbv iota.
    apply runs_bind. eapply reset_ok; [apply G3|]. intros s4 T4 S4 P4. assert (S4' := same_trans _ _ _ (proj1 (proj2 G3)) S4).
    assert (X4 := ctx_same _ _ _ _ _ _ X2 S4'). assert (Y4 := types_same _ _ S4'). rewrite Y2 in Y4. clear X2 T2 Y2 G3 S4 S4' P4.
    destruct X4 as [B1 B2 B3 B4].
    destruct (c_stack (p_c s4)) as [|prev stk] eqn:ST.
    { exfalso. unfold blocks in B2. rewrite ST in B2. inversion B2 as [|? ? ? ? _ F]; subst. inversion F. destruct e; discriminate. }
    apply runs_bind, runs_get. rewrite ST. apply runs_bind. unfold close_all. apply runs_bind, runs_get. apply runs_bind. unfold inside, runs at 1.
    destruct (forallb _ _); [|exact Logic.I]. apply runs_bind, runs_get. apply runs_bind, runs_get. apply runs_bind, runs_get.
    apply runs_bind. apply (runs_lift _ (W, x)); [rewrite B4; exact CL|].
    unfold types, blocks in Y4. rewrite ST in Y4. cbn in Y4. injection Y4 as YT YP YS.
    unfold blocks in B2. rewrite ST in B2.
    assert (F1 : Forall2 enc (prev :: stk) (e ++ [EPlain])) by (clear - B2; inversion B2; assumption).
    destruct (e ++ [EPlain]) as [|y ys] eqn:EQ; [destruct e; discriminate EQ|].
    assert (E2 : enc prev y) by (clear - F1; inversion F1; assumption). assert (F2 : Forall2 enc stk ys) by (clear - F1; inversion F1; assumption).
    assert (FIN : forall s5 (more : bool), same s4 s5 -> at_ s5 ts -> (t = BIf \/ t = BElsIf -> goes_on ts -> more = true) ->
      runs (on_c (close (C_umax K) (clear_of (fst (snd (W, x))) (snd (snd (W, x))) (snd (hd ([], 0%N) (p_m s4)))) (if more then [KElse] else [])) ;;
            modify (fun s => w_caps (tl (p_caps s)) (w_m (tl (p_m s)) (w_v (fst (W, x)) s)))) s5 (fun _ s' => runs (ret (inl tt)) s' (on Q))).
    { intros s5 more S5 T5 M5. apply runs_bind. unfold on_c, runs at 1.
      assert (EB : b_type (c_blk (p_c s5)) = t) by (destruct S5 as [(_ & -> & _) _]; exact YT).
      assert (ES : c_stack (p_c s5) = prev :: stk) by (destruct S5 as [(_ & _ & -> & _) _]; exact ST).
      assert (EI : c_includes (p_c s5) = c_includes (p_c s4)) by (destruct S5 as [(_ & _ & _ & _ & -> & _) _]; reflexivity).
      set (cl := clear_of _ _ _). clearbody cl.
      assert (CX : exists c, close (C_umax K) cl (if more then [KElse] else []) (p_c s5) = Some c /\ c_stack c = stk /\ c_includes c = c_includes (p_c s4) /\
        (exists q, c_blk c = with_if q prev \/ c_blk c = prev) /\ (more = true -> t = BIf \/ t = BElsIf -> c_last c = t)).
      { unfold close. rewrite ES, EB. destruct t; try (eexists; split; [reflexivity|]; split; [reflexivity|]; split; [exact EI|]; split; [exists []; auto|intros _ [Z|Z]; discriminate Z]);
        (destruct more; eexists; (split; [reflexivity|]); (split; [reflexivity|]); (split; [exact EI|]); (split; [eexists; left; reflexivity|]); [reflexivity|discriminate]). }
      destruct CX as (c & -> & C1 & C2 & (q & C3) & C4). apply runs_modify. apply runs_ret. cbn [on]. apply G.
      - constructor; cbn.
        + destruct S5 as [(-> & _) _]. rewrite B1. exact ED.
        + unfold blocks. rewrite C1. assert (EP : enc (c_blk c) y) by (destruct C3 as [->| ->]; [destruct y; exact E2|exact E2]).
          rewrite EQ. constructor; [exact EP|exact F2].
        + congruence.
        + reflexivity.
      - exact T5.
      - rewrite <- Y1. unfold types, blocks. cbn. rewrite C1. rewrite YS. f_equal. rewrite <- YP. destruct C3 as [->| ->]; reflexivity.
      - intros TB GO. cbn. rewrite (C4 (M5 TB GO) TB). exact TB. }
    destruct (b_type (c_blk (p_c s4))) eqn:BT; cbn in YT; subst t;
      try (apply runs_bind, runs_ret; apply (FIN s4 false); [apply same_refl|exact T4|intros [Z|Z]; discriminate Z]);
      (apply runs_bind; eapply look_ok; [exact T4|]; intros s5 G5; apply runs_ret; apply FIN; [apply G5|apply G5|];
       intros _ (w & ts' & -> & OW); exact OW).
  Qed.

  Lemma valid_good : (forall D e n V us n' W H, commands_good D e n V us n' W H) /\ (forall D e n V us n' W H, else_good D e n V us n' W H) /\
    (forall D b e n V us n' W H, block_good D b e n V us n' W H).
  Proof.
    apply valid_ind.
    - intros D e n V s ts Q X T G. eapply G; eauto.
    - intros D e n V us xs vs n' W O TA H IH s ts Q X T G. cbn [app] in T. rewrite <- app_assoc in T. cbn [app] in T.
      eapply step_end; [exact X|exact T|intros; eapply require_cmd; eassumption|]. intros s1 X1 T1 Y1. apply (IH s1 ts Q X1 T1).
      intros s' D' X' T' Y' E'. apply (G s' D' X' T'); [congruence|]. rewrite E'. destruct D; reflexivity.
    - intros D e n V w c us V1 vs n' W I AL VA H IH s ts Q X T G. cbn [app] in T. rewrite <- app_assoc in T. cbn [app] in T.
      eapply step_end; [exact X|exact T|intros; eapply action_ok; eassumption|]. intros s1 X1 T1 Y1. apply (IH s1 ts Q X1 T1).
      intros s' D' X' T' Y' E'. apply (G s' D' X' T'); [congruence|exact E'].
    - intros D e n V us vs n' W AL N IO H IH s ts Q X T G. cbn [app] in T. rewrite <- app_assoc in T. cbn [app] in T.
      eapply step_end; [exact X|exact T|intros; eapply include_cmd; eassumption|]. intros s1 X1 T1 Y1. apply (IH s1 ts Q X1 T1).
      intros s' D' X' T' Y' E'. apply (G s' D' X' T'); [congruence|exact E'].
    - intros D e n V us l vs n' W LO AL FO H IH s ts Q X T G. cbn [app] in T. rewrite <- app_assoc in T. cbn [app] in T.
      eapply step_end; [exact X|exact T|intros; eapply break_cmd; eassumption|]. intros s1 X1 T1 Y1. apply (IH s1 ts Q X1 T1).
      intros s' D' X' T' Y' E'. apply (G s' D' X' T'); [congruence|exact E'].
    - intros D e n V vs n' W AL CO H IH s ts Q X T G. cbn [app] in T.
      eapply (step_end "continue" []); [exact X|exact T|intros; eapply continue_cmd; eassumption|]. intros s1 X1 T1 Y1. apply (IH s1 ts Q X1 T1).
      intros s' D' X' T' Y' E'. apply (G s' D' X' T'); [congruence|exact E'].
    - intros D e n V us l bs n1 V1 vs n' W AL LO LE FO HB IHB H IH s ts Q X T G. cbn [app] in T. rewrite <- !app_assoc in T.
      eapply step_head; [exact X|exact T|intros; eapply foreverypart_cmd; try eassumption; eapply block_stop; eassumption|].
      intros s1 X1 T1 Y1. eapply IHB; [split; reflexivity|exact X1|exact T1|]. intros s2 X2 T2 Y2 _. apply (IH s2 ts Q X2 T2).
      intros s' D' X' T' Y' E'. apply (G s' D' X' T'); [congruence|exact E'].
    - intros D e n V us x bs n1 V1 vs n' W AL XP HB IHB H IH s ts Q X T G. cbn [app] in T. rewrite <- !app_assoc in T.
      eapply step_head; [exact X|exact T|intros; eapply while_cmd; eassumption|].
      intros s1 X1 T1 Y1. eapply IHB; [split; reflexivity|exact X1|exact T1|]. intros s2 X2 T2 Y2 _. apply (IH s2 ts Q X2 T2).
      intros s' D' X' T' Y' E'. apply (G s' D' X' T'); [congruence|exact E'].
    - intros D e n V us V1 bs n2 V2 rs n3 V3 vs n' W VT HB IHB HE IHE H IH s ts Q X T G. cbn [app] in T. rewrite <- !app_assoc in T.
      eapply step_head; [exact X|exact T|intros; eapply if_cmd; try eassumption; eapply block_stop; eassumption|].
      intros s1 X1 T1 Y1. eapply (IHB s1 (rs ++ vs ++ ts) BIf None); [split; auto|exact X1|exact T1|]. intros s2 X2 T2 Y2 L2.
      apply (IHE s2 (vs ++ ts) Q X2 T2); [intro N; apply L2; [now left|eapply else_head; eassumption]|]. intros s3 X3 T3 Y3. apply (IH s3 ts Q X3 T3).
      intros s' D' X' T' Y' E'. apply (G s' D' X' T'); [congruence|exact E'].
    - intros D e n V s ts Q X T _ G. apply G; auto.
    - intros D e n V bs n' W HB IHB s ts Q X T LA G. cbn [app] in T. specialize (LA ltac:(discriminate)).
      eapply (step_head "else" []); [exact X|exact T| |].
      + intros s1 T1 X1 (_ & _ & _ & L1 & _). eapply else_cmd; [rewrite L1; exact LA|exact X1|exact T1].
      + intros s1 X1 T1 Y1. eapply IHB; [split; [auto|reflexivity]|exact X1|exact T1|]. intros s2 X2 T2 Y2 _. apply G; [exact X2|exact T2|congruence].
    - intros D e n V us V1 bs n2 V2 rs n' W VT HB IHB HE IHE s ts Q X T LA G. cbn [app] in T. rewrite <- !app_assoc in T. specialize (LA ltac:(discriminate)).
      eapply step_head; [exact X|exact T| |].
      + intros s1 T1 X1 (_ & _ & _ & L1 & _). eapply elsif_cmd; [rewrite L1; exact LA|exact VT|exact X1|eapply block_stop; eassumption|exact T1].
      + intros s1 X1 T1 Y1. eapply (IHB s1 (rs ++ ts) BElsIf None); [split; auto|exact X1|exact T1|]. intros s2 X2 T2 Y2 L2.
        apply (IHE s2 ts Q X2 T2); [intro N; apply L2; [now right|eapply else_head; eassumption]|]. intros s3 X3 T3 Y3. apply G; [exact X3|exact T3|congruence].
    - intros. now apply block_runs.
  Qed.

  Theorem accepts_script script ts : all_tokens L (C_string K) (lex_start script) ts -> valid_script K ts -> length script <= C_script K ->
    compile_with K FU script <> Rejected.
  Proof.
    intros T (n & W & H) LE. unfold compile_with. assert (LT : Nat.ltb (C_script K) (length script) = false) by (apply Nat.ltb_ge; lia). rewrite LT.
    assert (R : runs (loop FU (main_step K FU) tt) (init script) (fun _ s => c_stack (p_c s) = [])).
    { eapply (proj1 valid_good _ _ _ _ _ _ _ H (init script) []).
      - constructor; cbn; try reflexivity. constructor; [|constructor]. repeat split; discriminate.
      - rewrite app_nil_r. exact T.
      - intros s' D' X' T' Y' _. apply go_step. unfold main_step. eapply runs_then; [apply next_opt_end, T'|]. cbv beta. intros o s1 [-> S1]. cbv iota.
        apply runs_ret. cbn [on]. unfold types, blocks in Y'. cbn in Y'. destruct S1 as [(_ & _ & -> & _) _]. injection Y' as _ Y'.
        destruct (c_stack (p_c s')); [reflexivity|discriminate]. }
    unfold runs in R. destruct (loop FU (main_step K FU) tt (init script)); try discriminate; [|contradiction].
    unfold finish. rewrite R. discriminate.
  Qed.
End Cmds.
