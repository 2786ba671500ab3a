(** One command of the compiler. *)
From Coq Require Import Lia.
From Verif Require Import Base Lib Address Var Value SetVar Flags Comparator Message EditHeader
  Expr ExprTok Event Notify AddrTest Vacation Sieve Utf8 Lexer Scope StringTok HeaderVar Compile ParseArgs ParseBase Parse GrammarSpec ArgSpec
  RefineSpec GrammarProofs GrammarProofs2 GrammarProofs3 GrammarProofs4 ArgBase ArgProofs1 ArgProofs5
  RefineProofs1 RefineProofs2 RefineProofs3 RefineCaps RefineProofs4.
Import ListNotations.
Local Open Scope string_scope.
Local Open Scope list_scope.

Section Command.
  Variable K : cenv.
  Variable FU : nat.
  Notation rest s ts := (tokens_from (C_L K) (C_string K) (p_lex s) ts).
  Notation umax := (C_umax K).
  Notation lim := (C_lim K).

  (** A parser of arguments *)
  Definition keeps {A} (m : P A) (Q : vst -> A -> list tok -> list tok -> Prop) : Prop :=
    forall s a s1 ts, m s = Ok a s1 -> rest s1 ts ->
      exists us, rest s (us ++ ts) /\ Q (p_v s) a us ts /\ erc (p_c s1) = erc (p_c s) /\ p_caps s1 = p_caps s /\ p_v s1 = p_v s.
  Lemma keeps_of {A} (m : P A) (Q : vst -> A -> list tok -> list tok -> Prop) : (forall V, eats K V m (Q V)) -> qu m -> cl m -> keeps m Q.
  Proof.
    intros H1 H2 H3 s a s1 ts E F. destruct (H1 (p_v s)) as [H0 H]. destruct (H _ _ _ _ E eq_refl F) as (us & R & _ & X). exists us. split; [exact R|]. split; [exact X|].
    split; [exact (H2 _ _ _ E)|]. split; [exact (H3 _ _ _ E)|exact (H0 _ _ _ E eq_refl)].
  Qed.
  Lemma keeps_va n c : keeps (va K n c) (fun _ _ us _ => us = []).
  Proof. apply (keeps_of _ (fun _ _ us _ => us = [])); [intro; apply silent_va|apply qu_va|apply cl_va]. Qed.
  (** The same where variables are declared *)
  Lemma takes_of {A} (m : P A) (Q : vst -> A -> vst -> list tok -> list tok -> Prop) : (forall V, turns K V m (Q V)) -> qu m -> cl m ->
    forall s a s1 ts, m s = Ok a s1 -> rest s1 ts ->
      exists us, rest s (us ++ ts) /\ Q (p_v s) a (p_v s1) us ts /\ erc (p_c s1) = erc (p_c s) /\ p_caps s1 = p_caps s.
  Proof.
    intros H1 H2 H3 s a s1 ts E F. destruct (H1 (p_v s) _ _ _ _ E eq_refl F) as (us & R & _ & X). exists us. split; [exact R|]. split; [exact X|].
    split; [exact (H2 _ _ _ E)|exact (H3 _ _ _ E)].
  Qed.

  Lemma still_loop V {A B} (step : A -> P (A + B)) : (forall a, still V (step a)) -> forall n a, still V (loop n step a).
  Proof.
    intros H n. induction n as [|n IH]; intros a; [intros s x s' E; discriminate|].
    cbn [loop]. apply still_bind; [apply H|]. intros [a'|b]; [apply IH|apply still_ret].
  Qed.
  Lemma still_add_cap1 V l c : still V (add_cap1 K l c).
  Proof.
    unfold add_cap1. apply still_bind; [apply still_get|]. intros []; [apply still_ret|]. apply still_bind; [now apply still_modify|]. intro. apply still_ret.
  Qed.
  Lemma still_add_cap V l c : still V (add_cap K l c).
  Proof.
    unfold add_cap. apply still_bind; [apply still_get|]. intros []; [apply still_ret|]. apply still_bind; [apply still_add_cap1|]. intro.
    destruct (cap_eqb _ _); [apply still_add_cap1|apply still_ret].
  Qed.
  Lemma still_require V : still V (require_list K FU).
  Proof.
    unfold require_list. apply still_bind; [apply still_next|]. intros []; try apply still_fail; [|apply still_add_cap].
    apply still_loop. intro l. apply still_bind; [apply still_next|]. intros []; try apply still_fail.
    apply still_bind; [apply still_add_cap|]. intro. apply still_bind; [apply still_next|]. intros []; try apply still_fail; apply still_ret.
  Qed.
  Lemma require_v s l s' : require_list K FU s = Ok l s' -> p_v s' = p_v s.
  Proof. intro E. exact (still_require _ _ _ _ E eq_refl). Qed.
  Lemma tag_name_v s l s' : tag_name K s = Ok l s' -> p_v s' = p_v s.
  Proof.
    intro E. refine (still_bind _ _ _ _ _ _ _ _ E eq_refl); [apply still_peek|]. intro. apply still_ret.
  Qed.
  Lemma still_ignore V : still V (ignore_instruction K FU).
  Proof.
    unfold ignore_instruction. apply still_loop. intro n. apply still_bind; [apply still_next|].
    intros []; try apply still_ret; destruct n; try apply still_ret; try apply still_fail; try (destruct n; apply still_ret).
  Qed.
  Lemma globals_ok : forall l s u s1, globals K l s = Ok u s1 -> p_lex s1 = p_lex s /\ p_c s1 = p_c s /\ p_caps s1 = p_caps s /\ globals_are K (p_v s) l (p_v s1).
  Proof.
    induction l as [|x l IH]; intros s u s1 E; cbn [globals] in E.
    - injection E as _ <-. repeat split.
    - apply bind_ok in E. destruct E as (y & s2 & E1 & E2). unfold on_v in E1. destruct (declare_global _ _ _) as [v|] eqn:D; [|discriminate].
      injection E1 as _ <-. destruct (IH _ _ _ E2) as (A & B & C & H). repeat split; auto. exists v. auto.
  Qed.

  (** *** Require *)
  Lemma declare_one c D : declare [c] D = match D with b :: bs => (c :: b) :: bs | [] => [] end.
  Proof. destruct D; reflexivity. Qed.
  Lemma declare_app a b D : declare b (declare a D) = declare (a ++ b) D.
  Proof. destruct D; [reflexivity|]. cbn. now rewrite rev_app_distr, app_assoc. Qed.
  Lemma add_cap1_ok l c s l' s' : add_cap1 K l c s = Ok l' s' ->
    p_lex s' = p_lex s /\ p_c s' = p_c s /\
    exists cs, cs = (if declared K (p_caps s) c then [] else [c]) /\ l' = l ++ cs /\ p_caps s' = declare cs (p_caps s).
  Proof.
    unfold add_cap1, bind, get. change (has_cap K c s) with (declared K (p_caps s) c). destruct (declared K (p_caps s) c).
    - intro E. injection E as <- <-. split; [reflexivity|]. split; [reflexivity|]. exists []. rewrite app_nil_r. split; [reflexivity|]. split; [reflexivity|].
      destruct (p_caps s); reflexivity.
    - unfold modify, ret. intro E. injection E as <- <-. split; [reflexivity|]. split; [reflexivity|]. exists [c]. repeat split.
  Qed.
  Lemma add_cap_ok l c s l' s' : add_cap K l c s = Ok l' s' ->
    p_lex s' = p_lex s /\ p_c s' = p_c s /\
    exists cs, l' = l ++ cs /\ p_caps s' = declare cs (p_caps s) /\ forall cl, new_caps K (p_caps s) (c :: cl) = cs ++ new_caps K (p_caps s') cl.
  Proof.
    unfold add_cap, bind at 1, get. change (has_cap K c s) with (declared K (p_caps s) c). cbn [new_caps].
    destruct (declared K (p_caps s) c) eqn:D.
    - intro E. injection E as <- <-. split; [reflexivity|]. split; [reflexivity|]. exists []. rewrite app_nil_r. split; [reflexivity|].
      split; [destruct (p_caps s); reflexivity|]. reflexivity.
    - intro E. apply bind_ok in E. destruct E as (l1 & s1 & E1 & E). apply add_cap1_ok in E1. rewrite D in E1.
      destruct E1 as (X1 & Y1 & cs1 & -> & -> & Z1).
      destruct (cap_eqb c (cap "spamtestplus")) eqn:Q.
      + apply add_cap1_ok in E. destruct E as (X & Y & cs & -> & -> & Z). split; [congruence|]. split; [congruence|].
        assert (S : declared K (p_caps s1) (cap "spamtest") = declared K (p_caps s) (cap "spamtest")).
        { rewrite Z1. unfold declared. f_equal. destruct (p_caps s); [reflexivity|]. cbn [declare rev app existsb].
          destruct c; try discriminate Q. cbn in Q. apply Nat.eqb_eq in Q. subst n. reflexivity. }
        rewrite S in *. exists ([c] ++ if declared K (p_caps s) (cap "spamtest") then [] else [cap "spamtest"]).
        split; [now rewrite app_assoc|]. split; [rewrite Z, Z1; apply declare_app|]. intro t. cbn [andb]. rewrite Z, Z1, declare_app.
        destruct (declared K (p_caps s) (cap "spamtest")); reflexivity.
      + injection E as <- <-. split; [congruence|]. split; [congruence|]. exists [c]. split; [reflexivity|]. split; [exact Z1|]. intro t. cbn [andb].
        now rewrite Z1.
  Qed.
  Lemma require_loop_ok : forall n l s l' s' ts,
    loop n (fun l => t <- next K ;;
                     match t with
                     | TStr c => l' <- add_cap K l (parse_cap (ctext K c)) ;;
                                 t <- next K ;;
                                 match t with TComma => ret (inl l') | TBracketClose => ret (inr l') | _ => fail end
                     | _ => fail
                     end) l s = Ok l' s' -> rest s' ts ->
    exists us xs cs, rest s (us ++ TBracketClose :: ts) /\ texts_in K us xs /\ xs <> [] /\ p_c s' = p_c s /\ l' = l ++ cs /\
      p_caps s' = declare cs (p_caps s) /\ cs = new_caps K (p_caps s) (map parse_cap xs).
  Proof.
    induction n as [|n IH]; intros l s l' s' ts E F; [discriminate|]. cbn [loop] in E. apply bind_ok in E. destruct E as (r & s3 & E & E').
    apply bind_ok in E. destruct E as (t & s1 & E1 & E). destruct t; try discriminate. apply bind_ok in E. destruct E as (l1 & s2 & E2 & E).
    apply bind_ok in E. destruct E as (t & s3' & E3 & E). pose proof (add_cap_ok _ _ _ _ _ E2) as (X & Y & cs & -> & Z & W).
    assert (C1 : p_caps s1 = p_caps s) by (exact (cl_next K _ _ _ E1)). assert (C3 : p_caps s3' = p_caps s2) by (exact (cl_next K _ _ _ E3)).
    destruct t; try discriminate; injection E as <- <-.
    - injection E' as <- <-. destruct (next_ok _ _ _ _ _ E3 F) as [A B]. rewrite X in A. destruct (next_ok _ _ _ _ _ E1 A) as [A1 B1].
      exists [TStr c], [ctext K c], cs. split; [exact A1|]. split; [repeat constructor|]. split; [discriminate|]. split; [congruence|].
      split; [reflexivity|]. split; [congruence|]. cbn [map]. rewrite <- C1, W. cbn. now rewrite app_nil_r.
    - destruct (IH _ _ _ _ _ E' F) as (us & xs & cs' & R & T & N & P & -> & D & ->).
      destruct (next_ok _ _ _ _ _ E3 R) as [A B]. rewrite X in A. destruct (next_ok _ _ _ _ _ E1 A) as [A1 B1].
      exists (TStr c :: TComma :: us), (ctext K c :: xs), (cs ++ new_caps K (p_caps s3') (map parse_cap xs)).
      split; [exact A1|]. split; [repeat constructor; exact T|]. split; [discriminate|]. split; [congruence|].
      split; [now rewrite app_assoc|]. split; [rewrite D, C3, Z, C1; apply declare_app|]. cbn [map]. rewrite <- C1, W. now rewrite C3.
  Qed.
  Lemma require_ok s l s' ts : require_list K FU s = Ok l s' -> rest s' ts ->
    exists us, rest s (us ++ ts) /\ require_is K (p_caps s) us l /\ p_c s' = p_c s /\ p_caps s' = declare l (p_caps s).
  Proof.
    intros E F. unfold require_list in E. apply bind_ok in E. destruct E as (t & s1 & E1 & E).
    assert (C1 : p_caps s1 = p_caps s) by (exact (cl_next K _ _ _ E1)). destruct t; try discriminate.
    - destruct (require_loop_ok _ _ _ _ _ _ E F) as (us & xs & cs & R & T & N & P & -> & D & ->). destruct (next_ok _ _ _ _ _ E1 R) as [A B].
      exists (TBracketOpen :: us ++ [TBracketClose]). split; [cbn; rewrite <- app_assoc; exact A|].
      split; [exists xs; split; [right; eauto|cbn; now rewrite C1]|]. split; [congruence|]. cbn in *. congruence.
    - destruct (add_cap_ok _ _ _ _ _ E) as (X & Y & cs & -> & Z & W). rewrite X in F. destruct (next_ok _ _ _ _ _ E1 F) as [A B].
      exists [TStr c]. split; [exact A|]. split; [exists [ctext K c]; split; [left; exists c; split; reflexivity|]|].
      { cbn [map app]. rewrite <- C1, W. cbn. now rewrite app_nil_r. }
      split; [congruence|]. cbn in *. congruence.
  Qed.

  Lemma clear_test W V us ks : test_reads K W V us ks -> Forall only_clear ks.
  Proof. induction 1; repeat constructor; assumption. Qed.
  Lemma keeps_tag_name s b s1 ts : tag_name K s = Ok b s1 -> rest s1 ts ->
    rest s ts /\ p_c s1 = p_c s /\ p_caps s1 = p_caps s /\ (b = true -> exists ts', ts = TTag (lit "name") :: ts').
  Proof.
    intros E F. pose proof (cl_tag_name K _ _ _ E) as C. unfold tag_name in E. apply bind_ok in E. destruct E as (k & s2 & E1 & E). injection E as <- <-.
    destruct (peek_ok _ _ _ _ _ E1 F) as (R & S & P). split; [exact R|]. split; [exact P|]. split; [exact C|]. intro W.
    destruct k as [ | |t]; try discriminate. destruct t; try discriminate. apply word_named in W. subst w. exact S.
  Qed.

  (** *** Commands *)
  Definition fin (f : follow) (vs : list tok) : list tok :=
    match f with FBlock _ _ => TCurlyOpen :: vs | FEnd => TSemicolon :: vs | FNone => vs end.
  Definition kfin (f : follow) (ks : list token) : list token := match f with FBlock _ _ => KOpen :: ks | _ => ks end.
  Definition sim (t : tok) (f : follow) (s s1 : pst) (us : list tok) : Prop :=
    exists k0 kt, only_clear k0 /\ Forall only_clear kt /\
      (forall W vs k, script_reads K W (match f with FBlock _ _ => [] :: p_caps s1 | _ => p_caps s1 end)
                                       (match f with FBlock _ _ => open_block (p_v s1) | _ => p_v s1 end) vs k ->
         script_reads K W (p_caps s) (p_v s) (t :: us ++ fin f vs) (k0 :: kt ++ kfin f k)) /\
      forall r, Compile.command umax lim k0 (kt ++ kfin f r) (erc (p_c s)) =
        match f with
        | FBlock t l => option_map (fun c => (r, c)) (open lim t l (erc (p_c s1)))
        | _ => Some (r, erc (p_c s1))
        end.

  Lemma unknown_ok n s u s1 t ts : unknown K FU n s = Ok u s1 -> rest s1 ts -> no_command t -> (t = TIdent n \/ t = TUnknown n) ->
    exists us, rest s (us ++ ts) /\ sim t FNone s s1 us.
  Proof.
    intros E F N T. unfold unknown in E. apply bind_ok in E. destruct E as (b & s0 & E0 & E). unfold get in E0. injection E0 as <- <-.
    destruct (has_cap K (cap "ihave") s); [|discriminate]. apply bind_ok in E. destruct E as (x & s2 & E2 & E). unfold push, modify in E. injection E as <- <-.
    destruct (keeps_of _ (fun _ _ us _ => passed_command 0 us) (fun V => eats_of K V _ _ (eats_ignore_instruction K FU) (still_ignore V)) (qu_ignore_instruction K FU) (cl_ignore_instruction K FU) _ _ _ ts E2 F)
      as (us & R & P & Q & C & CV). exists us. split; [exact R|]. exists (KAct (IxInvalid n)), []. split; [exact Logic.I|]. split; [constructor|].
    split; [intros W vs k Sr; cbn; cbn in Sr; rewrite C, CV in Sr; now apply sr_unknown|]. intro r.
    cbn [app kfin Compile.command]. cbn [p_c w_c]. rewrite erc_emit by (repeat constructor). now rewrite Q.
  Qed.

  Ltac step E a s := apply bind_ok in E; destruct E as (a & s & ? & E).
  Lemma command_ok w s f s1 ts : command K FU w s = Ok f s1 -> rest s1 ts ->
    exists us, rest s (us ++ ts) /\ sim (TIdent w) f s s1 us.
  Proof.
    unfold command. intros E F.
    destruct (word "require" w) eqn:W1.
    { apply word_named in W1. subst w. apply bind_ok in E. destruct E as (l & s2 & E1 & E). injection E as <- <-.
      destruct (require_ok _ _ _ ts E1 F) as (us & R & Q & C & D). exists us. split; [exact R|]. exists (KRequire l), [].
      split; [exact Logic.I|]. split; [constructor|]. split.
      - intros W vs k Sr. cbn in Sr |- *. rewrite D, (require_v _ _ _ E1) in Sr. now apply sr_require.
      - intro r. cbn [app kfin Compile.command p_c w_c]. now rewrite erc_require, C. }
    destruct (word "if" w) eqn:W2.
    { apply word_named in W2. subst w. apply bind_ok in E. destruct E as (u & s2 & E1 & E). injection E as <- <-.
      destruct (parse_test_ok K FU _ _ _ ts E1 F) as (FR & us & ks & f & R & T & X). exists us. split; [exact R|]. exists KIf, ks.
      split; [exact Logic.I|]. split; [eapply clear_test; exact T|]. split.
      - intros W vs k Sr. cbn in Sr |- *. rewrite (cl_parse_test K FU _ _ _ E1) in Sr. eapply sr_if; eassumption.
      - intro r. cbn [kfin Compile.command p_c w_c]. unfold test_then. cbn [c_code with_blk erc with_code].
        rewrite (parse_enough _ _ _ _ _ _ _ _ _ _ (X (KOpen :: r))). f_equal. f_equal.
        unfold frame, with_code in FR. injection FR as A B C D. unfold erc, with_code, with_blk. cbn. now rewrite A, B, C, D. }
    destruct (word "elsif" w) eqn:W3.
    { apply word_named in W3. subst w. apply bind_ok in E. destruct E as (l & s0 & E0 & E). unfold get in E0. injection E0 as <- <-.
      assert (Y : (c_last (p_c s) = BIf \/ c_last (p_c s) = BElsIf) /\ (parse_test K FU ;; ret (FBlock BElsIf None)) s = Ok f s1)
        by (destruct (c_last (p_c s)); try discriminate; auto). clear E. destruct Y as [Y E].
      apply bind_ok in E. destruct E as (u & s2 & E1 & E). injection E as <- <-.
      destruct (parse_test_ok K FU _ _ _ ts E1 F) as (FR & us & ks & f & R & T & X). exists us. split; [exact R|]. exists KElsIf, ks.
      split; [exact Logic.I|]. split; [eapply clear_test; exact T|]. split.
      - intros W vs k Sr. cbn in Sr |- *. rewrite (cl_parse_test K FU _ _ _ E1) in Sr. eapply sr_elsif; eassumption.
      - intro r. cbn [kfin Compile.command]. cbn [c_last erc with_code].
        assert (Z : test_then umax lim BElsIf (ks ++ KOpen :: r) (erc (p_c s)) = option_map (fun c => (r, c)) (open lim BElsIf None (erc (p_c s2)))).
        { unfold test_then. cbn [c_code erc with_code]. rewrite (parse_enough _ _ _ _ _ _ _ _ _ _ (X (KOpen :: r))). f_equal. f_equal.
          unfold frame, with_code in FR. injection FR as A B C D. unfold erc, with_code. cbn. now rewrite A, B, C, D. }
        destruct Y as [-> | ->]; exact Z. }
    destruct (word "else" w) eqn:W4.
    { apply word_named in W4. subst w. apply bind_ok in E. destruct E as (l & s0 & E0 & E). unfold get in E0. injection E0 as <- <-.
      assert (Y : (c_last (p_c s) = BIf \/ c_last (p_c s) = BElsIf) /\ ret (FBlock BElse None) s = Ok f s1)
        by (destruct (c_last (p_c s)); try discriminate; auto). clear E. destruct Y as [Y E]. injection E as <- <-.
      exists []. split; [exact F|]. exists KElse, []. split; [exact Logic.I|]. split; [constructor|]. split.
      - intros W vs k Sr. cbn in Sr |- *. now apply sr_else.
      - intro r. cbn [app kfin Compile.command]. cbn [c_last erc with_code]. destruct Y as [-> | ->]; reflexivity. }
    destruct (word "foreverypart" w) eqn:W5.
    { apply word_named in W5. subst w. unfold cmd_foreverypart in E. apply bind_ok in E. destruct E as (u & s0 & E0 & E).
      apply bind_ok in E. destruct E as (stk & s2 & E2 & E). unfold get in E2. injection E2 as <- <-.
      destruct (Nat.eqb (length (filter is_for (c_stack (p_c s0)))) _) eqn:Lim; [discriminate|].
      apply bind_ok in E. destruct E as (b & s2 & E2 & E). apply bind_ok in E. destruct E as (l & s3 & E3 & E). unfold push, modify, bind, ret in E.
      injection E as <- <-. cbn [p_lex w_c] in F.
      assert (Y : exists us, rest s2 (us ++ ts) /\ (b = true -> (exists ts', us ++ ts = TTag (lit "name") :: ts') -> label_is K us l) /\ (b = false -> us = [] /\ l = None) /\
                  erc (p_c s3) = erc (p_c s2) /\ p_caps s3 = p_caps s2 /\ p_v s3 = p_v s2 /\
                  match l with Some n => existsb (fun b => label_eqb (b_label b) n) (c_stack (p_c s0)) | None => false end = false).
      { destruct b.
        - apply bind_ok in E3. destruct E3 as (t & s4 & E4 & E3). apply bind_ok in E3. destruct E3 as (n & s5 & E5 & E3).
          destruct (existsb _ _) eqn:Lab; [discriminate|]. injection E3 as <- <-.
          destruct (keeps_of _ (fun V x us _ => text_is K us x) (fun V => eats_static K V FU) (qu_static_string K FU) (cl_static_string K FU) _ _ _ ts E5 F) as (us & R & P & Q & C & CV).
          destruct (next_ok K _ _ _ _ E4 R) as [A B]. exists (t :: us). split; [exact A|].
          split; [intros _ (ts' & H); injection H as -> _; exists us; auto|]. split; [discriminate|].
          split; [congruence|]. split; [rewrite C; exact (cl_next K _ _ _ E4)|]. split; [rewrite CV; exact (next_v K _ _ _ E4)|exact Lab].
        - injection E3 as <- <-. exists []. repeat split; auto; discriminate. }
      destruct Y as (us & R & Y1 & Y2 & Q & C & CV & Lab). destruct (keeps_tag_name _ _ _ _ E2 R) as (R2 & P2 & C2 & N2).
      destruct (keeps_va _ _ _ _ _ _ E0 R2) as (us0 & R0 & -> & P0 & C0 & CV0). exists us. split; [exact R0|]. exists (KForEvery l), [].
      split; [exact Logic.I|]. split; [constructor|]. split.
      - intros W vs k Sr. cbn in Sr |- *. rewrite C, C2, C0, CV, (tag_name_v _ _ _ E2), CV0 in Sr. apply sr_foreverypart; [|exact Sr].
        destruct b; [apply Y1; [reflexivity|apply N2; reflexivity]|]. destruct Y2 as [-> ->]; reflexivity.
      - intro r. cbn [app kfin Compile.command p_c w_c]. rewrite <- P0. cbn [c_stack erc with_code]. rewrite Lim.
        change (with_code (map er (c_code (p_c s0))) (p_c s0)) with (erc (p_c s0)). rewrite Lab. rewrite erc_emit by (repeat constructor).
        rewrite Q, P2. reflexivity. }
    destruct (word "break" w) eqn:W6.
    { apply word_named in W6. subst w. unfold cmd_break in E.
      apply bind_ok in E. destruct E as (b & s2 & E2 & E). apply bind_ok in E. destruct E as (l & s3 & E3 & E).
      unfold bind, on_c in E. destruct (do_break umax l (p_c s3)) as [c3|] eqn:Br; [|discriminate]. injection E as <- <-. cbn [p_lex w_c] in F.
      assert (Y : exists us, rest s2 (us ++ ts) /\ (b = true -> (exists ts', us ++ ts = TTag (lit "name") :: ts') -> label_is K us l) /\ (b = false -> us = [] /\ l = None) /\
                  erc (p_c s3) = erc (p_c s2) /\ p_caps s3 = p_caps s2 /\ p_v s3 = p_v s2).
      { destruct b.
        - apply bind_ok in E3. destruct E3 as (u & s6 & E6 & E3). apply bind_ok in E3. destruct E3 as (t & s4 & E4 & E3).
          apply bind_ok in E3. destruct E3 as (n & s5 & E5 & E3). injection E3 as <- <-.
          destruct (keeps_of _ (fun V x us _ => text_is K us x) (fun V => eats_static K V FU) (qu_static_string K FU) (cl_static_string K FU) _ _ _ ts E5 F) as (us & R & P & Q & C & CV).
          destruct (next_ok K _ _ _ _ E4 R) as [A B]. destruct (keeps_va _ _ _ _ _ _ E6 A) as (us0 & R0 & -> & P0 & C0 & CV0).
          exists (t :: us). split; [exact R0|].
          split; [intros _ (ts' & H); injection H as -> _; exists us; auto|]. split; [discriminate|].
          split; [congruence|]. split; [rewrite C, <- C0; exact (cl_next K _ _ _ E4)|]. rewrite CV, <- CV0. exact (next_v K _ _ _ E4).
        - injection E3 as <- <-. exists []. repeat split; auto; discriminate. }
      destruct Y as (us & R & Y1 & Y2 & Q & C & CV). destruct (keeps_tag_name _ _ _ _ E2 R) as (R2 & P2 & C2 & N2).
      exists us. split; [exact R2|]. exists (KBreak l), [].
      split; [exact Logic.I|]. split; [constructor|]. split.
      - intros W vs k Sr. cbn in Sr |- *. rewrite C, C2, CV, (tag_name_v _ _ _ E2) in Sr. apply sr_break; [|exact Sr].
        destruct b; [apply Y1; [reflexivity|apply N2; reflexivity]|]. destruct Y2 as [-> ->]; reflexivity.
      - intro r. cbn [app kfin Compile.command p_c w_c]. rewrite <- P2, <- Q, erc_break, Br. reflexivity. }
    destruct (word "vacation" w) eqn:W7.
    { apply word_named in W7. subst w. apply bind_ok in E. destruct E as (u & s0 & E0 & E). apply bind_ok in E. destruct E as (p & s2 & E2 & E).
      injection E as <- <-. cbn [p_lex w_c] in F.
      destruct (keeps_of _ (fun V x us _ => vacation_is K V us (fst x) (snd x)) (fun V => eats_vacation K V FU) (qu_vacation K FU) (cl_vacation K FU) _ _ _ ts E2 F) as (us & R & P & Q & C & CV).
      destruct (keeps_va _ _ _ _ _ _ E0 R) as (us0 & R0 & -> & P0 & C0 & CV0). exists us. split; [exact R0|]. exists (KVacation (fst p) (snd p)), [].
      split; [exact Logic.I|]. split; [constructor|]. split.
      - intros W vs k Sr. cbn in Sr |- *. rewrite C, C0, CV, CV0 in Sr. rewrite CV0 in P. now apply sr_vacation.
      - intro r. cbn [app kfin Compile.command p_c w_c]. destruct (vacation_er _ _ _ _ _ P) as [V1 V2].
        rewrite erc_emit by (repeat constructor; assumption). rewrite Q, P0. f_equal. f_equal. f_equal. f_equal. f_equal. f_equal.
        rewrite <- P0, <- Q. cbn. now rewrite map_length. }
    destruct (word "include" w) eqn:W8.
    { apply word_named in W8. subst w. apply bind_ok in E. destruct E as (n & s0 & E0 & E). unfold get in E0. injection E0 as <- <-.
      destruct (Nat.ltb _ _) eqn:Lim; [|discriminate].
      apply bind_ok in E. destruct E as (u & s0 & E0 & E). apply bind_ok in E. destruct E as (i & s2 & E2 & E). injection E as <- <-. cbn [p_lex w_c] in F.
      destruct (keeps_of _ (fun V x us _ => include_is K V us x) (fun V => eats_include K V FU) (qu_include K FU) (cl_include K FU) _ _ _ ts E2 F) as (us & R & P & Q & C & CV).
      destruct (keeps_va _ _ _ _ _ _ E0 R) as (us0 & R0 & -> & P0 & C0 & CV0). exists us. split; [exact R0|]. exists (KInclude i), [].
      split; [exact Logic.I|]. split; [constructor|]. split.
      - intros W vs k Sr. cbn in Sr |- *. rewrite C, C0, CV, CV0 in Sr. rewrite CV0 in P. now apply sr_include.
      - intro r. cbn [app kfin Compile.command p_c w_c]. cbn [c_includes erc with_code]. rewrite Lim.
        rewrite P0 in Q. unfold erc, with_code in Q. injection Q as Q1 Q2 Q3 Q4 Q5. unfold erc, with_code.
        cbn [c_code c_blk c_stack c_last c_includes]. rewrite map_app, Q1, Q2, Q3, Q4, Q5. cbn [map]. now rewrite (include_er _ _ _ _ P). }
    destruct (word "return" w) eqn:W9.
    { apply word_named in W9. subst w. apply bind_ok in E. destruct E as (u & s0 & E0 & E). injection E as <- <-. cbn [p_lex w_c] in F.
      destruct (keeps_va _ _ _ _ _ _ E0 F) as (us0 & R0 & -> & P0 & C0 & CV0). exists []. split; [exact R0|]. exists KReturn, [].
      split; [exact Logic.I|]. split; [constructor|]. split.
      - intros W vs k Sr. cbn in Sr |- *. rewrite C0, CV0 in Sr. now apply sr_return.
      - intro r. cbn [app kfin Compile.command p_c w_c]. now rewrite <- erc_return, P0. }
    destruct (word "global" w) eqn:W10.
    { apply word_named in W10. subst w. apply bind_ok in E. destruct E as (u & s0 & E0 & E). apply bind_ok in E. destruct E as (u' & s0' & E0' & E).
      apply bind_ok in E. destruct E as (l & s2 & E2 & E). apply bind_ok in E. destruct E as (u3 & s3 & E3 & E). injection E as <- <-.
      destruct (globals_ok _ _ _ _ E3) as (R3 & Q3 & C3 & GA). rewrite R3 in F.
      destruct (keeps_of _ (fun _ l us _ => texts_are K us l) (fun V => eats_statics K V FU) (qu_static_strings K FU) (cl_static_strings K FU) _ _ _ ts E2 F) as (us & R & P & Q & C & CV).
      destruct (keeps_va _ _ _ _ _ _ E0' R) as (us0 & R0 & -> & P0 & C0 & CV0). destruct (keeps_va _ _ _ _ _ _ E0 R0) as (us1 & R1 & -> & P1 & C1 & CV1).
      exists us. split; [exact R1|]. exists KQuiet, []. split; [exact Logic.I|]. split; [constructor|]. split.
      - intros W vs k Sr. cbn in Sr |- *. rewrite C3, C, C0, C1 in Sr. rewrite CV, CV0, CV1 in GA. eapply sr_global; eassumption.
      - intro r. cbn [app kfin Compile.command p_c w_c]. congruence. }
    destruct (word "while" w) eqn:W11.
    { apply word_named in W11. subst w. apply bind_ok in E. destruct E as (u & s0 & E0 & E). apply bind_ok in E. destruct E as (e & s2 & E2 & E).
      injection E as <- <-. cbn [p_lex w_c] in F.
      destruct (keeps_of _ (fun V x us _ => expr_is K V us x) (fun V => eats_expr K V) (qu_expr K) (cl_expr K) _ _ _ ts E2 F) as (us & R & P & Q & C & CV).
      destruct (keeps_va _ _ _ _ _ _ E0 R) as (us0 & R0 & -> & P0 & C0 & CV0). exists us. split; [exact R0|]. exists (KWhile e), [].
      split; [exact Logic.I|]. split; [constructor|]. split.
      - intros W vs k Sr. cbn in Sr |- *. rewrite C, C0, CV, CV0 in Sr. rewrite CV0 in P. now apply sr_while.
      - intro r. cbn [app kfin Compile.command p_c w_c]. rewrite erc_emit by (repeat constructor). now rewrite Q, P0. }
    destruct (word "continue" w) eqn:W12.
    { apply word_named in W12. subst w. unfold cmd_continue in E. apply bind_ok in E. destruct E as (u & s0 & E0 & E). unfold bind, on_c in E.
      destruct (do_continue 0 (blocks (p_c s0))) as [n l] eqn:Co. destruct n as [|[|[|n]]]; try discriminate. injection E as <- <-. cbn [p_lex w_c] in F.
      destruct (keeps_va _ _ _ _ _ _ E0 F) as (us0 & R0 & -> & P0 & C0 & CV0). exists []. split; [exact R0|]. exists KContinue, [].
      split; [exact Logic.I|]. split; [constructor|]. split.
      - intros W vs k Sr. cbn in Sr |- *. rewrite C0, CV0 in Sr. now apply sr_continue.
      - intro r. cbn [app kfin Compile.command p_c w_c]. rewrite <- P0, erc_blocks, Co.
        rewrite erc_emit; [reflexivity|]. pose proof (continue_er (blocks (p_c s0)) 0) as X. now rewrite Co in X. }
    destruct (find_word w (commands K FU)) as [[c m]|] eqn:Fw.
    { destruct (find_word_some _ _ (fun p => ((forall V, turns K V (snd (snd p)) (fun i W us _ => action_is K V (fst p) us i W)) /\ qu (snd (snd p))) /\ cl (snd (snd p))) _
        (Forall_and (Forall_and (proj2 (Forall_forall _ _) (fun p H V => proj1 (Forall_forall _ _) (all_actions K FU V) p H)) (qu_commands K FU)) (cl_commands K FU)) Fw)
        as (n & W & [A1 A2] & A3).
      cbn [fst snd] in A1, A2, A3. apply word_named in W. subst w.
      unfold simple in E. apply bind_ok in E. destruct E as (u & s0 & E0 & E). apply bind_ok in E. destruct E as (i & s2 & E2 & E).
      injection E as <- <-. cbn [p_lex w_c] in F. destruct (takes_of _ _ A1 A2 A3 _ _ _ ts E2 F) as (us & R & P & Q & C).
      destruct (keeps_va _ _ _ _ _ _ E0 R) as (us0 & R0 & -> & P0 & C0 & CV0). exists us. split; [exact R0|]. exists (KAct i), [].
      split; [exact Logic.I|]. split; [constructor|]. split.
      - intros W vs k Sr. cbn in Sr |- *. rewrite C, C0 in Sr. rewrite CV0 in P. eapply sr_action; eassumption.
      - intro r. cbn [app kfin Compile.command p_c w_c]. rewrite erc_emit by (repeat constructor; eapply action_er; eassumption). now rewrite Q, P0. }
    apply bind_ok in E. destruct E as (u & s2 & E2 & E). injection E as <- <-. eapply unknown_ok; [exact E2|exact F| |auto].
    intro X. apply find_word_none in Fw. rewrite named_in in X, Fw. unfold block_names, action_names in X. cbn [existsb app] in X.
    rewrite W1, W2, W3, W4, W5, W6, W7, W8, W9, W10, W11, W12 in X. cbn [orb] in X. apply Fw. cbn [commands map fst existsb].
    repeat (apply orb_true_iff in X as [X|X]; [rewrite X; rewrite ?orb_true_r; reflexivity|]). discriminate.
  Qed.
End Command.
