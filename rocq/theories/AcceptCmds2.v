(** Proofs that valid scripts are accepted: require, include, break, continue, and the heads of blocks. *)
From Coq Require Import Lia.
From Verif Require Import Base Lib Address Var Value SetVar Flags Comparator Message EditHeader
  Expr ExprTok Event Notify AddrTest Vacation Sieve Utf8 Lexer Scope StringTok HeaderVar Compile ParseArgs ParseBase Parse CompileSpec GrammarSpec
  ArgSpec RefineSpec GrammarProofs ArgProofs1 ArgProofs5 RefineProofs5 AcceptSpec AcceptBase AcceptArgs AcceptTests AcceptTests2 AcceptTests3 AcceptTests4 AcceptTest
  AcceptActs AcceptActs2 AcceptCmds.
Import ListNotations.
Local Open Scope string_scope.
Local Open Scope list_scope.

Section Cmds.
  Variable K : cenv.
  Variable FU : nat.
  Notation L := (C_L K).
  Notation at_ := (at_ K).
  Notation got := (got K).
  Notation ends := (ends K).

  (** *** require *)

  (** As [s], but for the capabilities *)
  Definition kept_c (s s' : pst) : Prop :=
    c_blk (p_c s') = c_blk (p_c s) /\ c_stack (p_c s') = c_stack (p_c s) /\ c_last (p_c s') = c_last (p_c s) /\ c_includes (p_c s') = c_includes (p_c s) /\
    p_v s' = p_v s.
  Lemma kept_c_trans s s' s'' : kept_c s s' -> kept_c s' s'' -> kept_c s s''.
  Proof. intros (A & B & C & D & E) (A' & B' & C' & D' & E'). repeat split; congruence. Qed.
  Lemma got_c s ts s' : got s ts s' -> kept_c s s'.
  Proof. intros (_ & ((A & B & C & D & E & _) & F) & _). repeat split; assumption. Qed.
  Definition recapped (s s' : pst) : Prop := p_c s' = p_c s /\ p_v s' = p_v s.
  Lemma recapped_c s s' : recapped s s' -> kept_c s s'.
  Proof. intros [A B]. unfold kept_c. rewrite A. auto. Qed.
  Lemma add_cap_runs l c s ts : at_ s ts ->
    runs (add_cap K l c) s (fun _ s' => at_ s' ts /\ recapped s s' /\
      exists cs, p_caps s' = declare cs (p_caps s) /\ forall cl, new_caps K (p_caps s) (c :: cl) = cs ++ new_caps K (p_caps s') cl).
  Proof.
    intro H. assert (Y : exists l' s', add_cap K l c s = Ok l' s').
    { unfold add_cap, add_cap1, bind, get, modify, ret. destruct (has_cap K c s); [eauto|]. destruct (has_cap K c s); destruct (cap_eqb c (cap "spamtestplus"));
        try match goal with |- context [if ?b then _ else _] => destruct b end; eauto. }
    destruct Y as (l' & s' & E). unfold runs. rewrite E. assert (EV := still_add_cap K (p_v s) l c s l' s' E eq_refl).
    destruct (add_cap_ok K l c s l' s' E) as (EL & EC & cs & _ & A & B). split; [unfold at_ in *; unfold AcceptBase.at_ in *; now rewrite EL|]. split; [split; assumption|].
    exists cs. auto.
  Qed.
  Lemma declare_none D : declare [] D = D. Proof. destruct D; reflexivity. Qed.
  Lemma require_ok us xs s ts : list_of (const K any_text) us -> texts_are K us xs -> at_ s (us ++ ts) ->
    runs (require_list K FU) s (fun _ s' => at_ s' ts /\ kept_c s s' /\ p_caps s' = declare (new_caps K (p_caps s) (map parse_cap xs)) (p_caps s)).
  Proof.
    intros O TA H. unfold require_list. destruct O as [(t & -> & c & -> & _)|(vs & -> & S)]; cbn [app] in H; (eapply read_ok; [exact H|]); intros s1 G; cbv iota.
    - destruct TA as [(c' & E & ->)|(vs & E & _)]; [|discriminate]. injection E as <-. assert (S1 := got_c _ _ _ G). destruct G as (T1 & ((CE & _) & _) & _).
      eapply runs_weaken; [apply add_cap_runs, T1|]. cbv beta. intros l s2 (T2 & C2 & cs & A & B). split; [exact T2|].
      split; [eapply kept_c_trans; [exact S1|now apply recapped_c]|]. rewrite A. rewrite CE in *. cbn [map]. unfold ctext in B. rewrite (B []).
      now rewrite app_nil_r.
    - destruct TA as [(c' & E & _)|(vs' & E & TI & _)]; [discriminate|]. injection E as E. apply app_inj_tail in E. destruct E as [<- _].
      rewrite <- app_assoc in G. cbn [app] in G. assert (S1 := got_c _ _ _ G). destruct G as (T1 & ((CE & _) & _) & _).
      eapply runs_weaken with (Q := fun _ s' => at_ s' ts /\ kept_c s1 s' /\ p_caps s' = declare (new_caps K (p_caps s1) (map parse_cap xs)) (p_caps s1));
        [|intros l s2 (A & B & C); rewrite CE in C; split; [exact A|]; split; [eapply kept_c_trans; eauto|exact C]].
      clear - S TI T1. generalize (@nil capability) as l. generalize FU as fuel. revert s1 xs T1 TI.
      induction S as [t (c & -> & _)|t us (c & -> & _) S IH]; intros s xs H TI fuel l; (destruct fuel as [|fuel]; [exact Logic.I|]); cbn [loop app] in *; apply runs_bind;
        (eapply read_ok; [exact H|]); intros s1 G1; cbv iota; assert (S1 := got_c _ _ _ G1); destruct G1 as (T1 & ((CE & _) & _) & _);
        (eapply runs_then; [apply add_cap_runs, T1|]); cbv beta; intros l' s2 (T2 & C2 & cs & A & B);
        (eapply read_ok; [exact T2|]); intros s3 G3; assert (S3 := got_c _ _ _ G3); destruct G3 as (T3 & ((CE3 & _) & _) & _); cbv iota; apply runs_ret;
        inversion TI as [| |c' us' xs' TI']; subst; assert (K1 : kept_c s s3) by (eapply kept_c_trans; [exact S1|]; eapply kept_c_trans; [now apply recapped_c, C2|exact S3]).
      + inversion TI'; subst. apply runs_ret. split; [exact T3|]. split; [exact K1|]. rewrite CE3, A. rewrite CE in *. cbn [map]. unfold ctext in B. rewrite (B []).
        now rewrite app_nil_r.
      + inversion TI' as [|us' xs'' TI''|]; subst. eapply runs_weaken; [apply (IH s3 xs' T3 TI'')|]. cbv beta. intros l2 s4 (T4 & C4 & P4).
        split; [exact T4|]. split; [eapply kept_c_trans; eauto|]. rewrite P4, CE3. cbn [map]. rewrite CE in *. unfold ctext in B. rewrite B.
        rewrite A, declare_app. rewrite <- A. reflexivity.
  Qed.
  Lemma require_cmd D e n V us xs s ts : list_of (const K any_text) us -> texts_are K us xs -> ctx s D e n V -> at_ s (us ++ TSemicolon :: ts) ->
    runs (command K FU (lit "require")) s (ends s ts (declare (new_caps K D (map parse_cap xs)) D) e n V).
  Proof.
    intros O TA X H. change (command K FU (lit "require")) with (l <- require_list K FU ;; modify (fun s => w_c (do_require l (p_c s)) s) ;; ret FEnd).
    eapply runs_then; [eapply require_ok; eassumption|]. cbv beta. intros l s1 (T1 & (C1 & C2 & C3 & C4 & C5) & P1). apply runs_bind, runs_modify, runs_ret.
    split; [reflexivity|]. split; [exact T1|]. destruct X as [X1 X2 X3 X4]. rewrite X1 in P1.
    unfold blocks in X2. rewrite <- C1, <- C2 in X2. rewrite <- C4 in X3. rewrite <- C5 in X4.
    split.
    { unfold types, blocks. rewrite <- C1, <- C2. cbn [w_c p_c]. unfold do_require. destruct l; [reflexivity|]. destruct (b_require (c_blk (p_c s1))); reflexivity. }
    constructor; cbn [w_c p_caps p_c p_v]; [exact P1| | |exact X4].
    - unfold do_require. destruct l; [exact X2|]. destruct (b_require (c_blk (p_c s1))); [exact X2|].
      inversion X2 as [|? ? ? ? E F]; subst. unfold blocks. cbn. constructor; [|exact F]. destruct y; exact E.
    - unfold do_require. destruct l; [exact X3|]. destruct (b_require (c_blk (p_c s1))); exact X3.
  Qed.

  (** *** include *)

  Lemma include_cmd D e n V us s ts : allowed K D (Some "include") -> n < l_includes (C_lim K) -> include_ok K D V us -> ctx s D e n V ->
    p_params s = [] -> at_ s (us ++ TSemicolon :: ts) -> runs (command K FU (lit "include")) s (ends s ts D e (n + 1) V).
  Proof.
    intros AL N (l & x & T & O & ->) X EP H. destruct X as [X1 X2 X3 X4].
    change (runs (n <- get (fun s => c_includes (p_c s)) ;;
      if Nat.ltb n (l_includes (C_lim K)) then
        va K 0 (capd (Some "include")) ;; i <- cmd_include K FU ;;
        modify (fun s => let c := p_c s in
                         w_c {| c_code := c_code c ++ [i]; c_blk := c_blk c; c_stack := c_stack c; c_last := c_last c;
                                c_includes := c_includes c + 1 |} s) ;; ret FEnd
      else fail) s (ends s ts D e (n + 1) V)).
    apply runs_bind, runs_get. rewrite X3. apply Nat.ltb_lt in N. rewrite N.
    eapply runs_then; [eapply va_ok; [exact H|now left|now rewrite X1]|]. cbv beta. intros _ s1 (T1 & S1 & P1).
    eapply runs_then; [apply (accepts_acts K V D _ _ _ (ok_include' K FU V D l x T O) s1 ts); [destruct S1; congruence| |exact (eq_trans P1 EP)|exact T1]|].
    { destruct S1 as [(-> & _) _]. exact X1. }
    cbv beta. intros i s2 (T2 & S2 & E2). apply runs_bind, runs_modify, runs_ret. split; [reflexivity|]. split; [exact T2|].
    assert (S3 := kept_trans _ _ _ (stays_kept _ _ (proj1 S1)) (stays_kept _ _ S2)). 
    split; [apply (types_kept _ _ S3)|]. destruct S3 as (A & B & C & _ & E). constructor; cbn; [congruence| |congruence|exact E2]. unfold blocks in *. cbn. now rewrite B, C.
  Qed.

  (** *** break, continue *)

  Lemma enc_for b x : enc b x -> is_for b = encl_for x.
  Proof. unfold enc, is_for. destruct x; cbn; [intros (A & B & _)|intros (-> & _)|intros (-> & _)]; [destruct (b_type b); congruence|reflexivity|reflexivity]. Qed.
  Lemma enc_named n b x : enc b x -> encl_named n x = (is_for b && label_eqb (b_label b) n)%bool.
  Proof.
    intro H. rewrite (enc_for _ _ H). destruct x; cbn in *; [reflexivity| |reflexivity]. destruct H as [_ ->]. destruct l; reflexivity.
  Qed.
  Lemma enc_break b x l : enc b x -> enc (with_break l b) x.
  Proof. destruct x; auto. Qed.
  Lemma find_label_ok n pos : forall bs e pops, Forall2 enc bs e -> existsb (encl_named n) e = true ->
    exists p bs', find_label n pops pos bs = Some (p, bs') /\ Forall2 enc bs' e /\ map b_type bs' = map b_type bs.
  Proof.
    induction bs as [|b bs IH]; intros e pops H X; inversion H as [|? x ? e' E F]; subst; [discriminate|]. cbn [existsb find_label] in *.
    rewrite (enc_named n _ _ E) in X. destruct (is_for b) eqn:Q; cbn [andb orb] in X.
    - destruct (label_eqb (b_label b) n).
      + eexists _, _. split; [reflexivity|]. split; [constructor; [now apply enc_break|exact F]|reflexivity].
      + destruct (IH e' (pops + 1) F X) as (p & bs' & -> & F' & M). eexists _, _. split; [reflexivity|]. split; [now constructor|]. cbn. now f_equal.
    - destruct (IH e' pops F X) as (p & bs' & -> & F' & M). eexists _, _. split; [reflexivity|]. split; [now constructor|]. cbn. now f_equal.
  Qed.
  Lemma find_loop_ok pos : forall bs e, Forall2 enc bs e -> existsb (fun b => match b with EPlain => false | _ => true end) e = true ->
    exists p bs', find_loop pos bs = Some (p, bs') /\ Forall2 enc bs' e /\ map b_type bs' = map b_type bs.
  Proof.
    induction bs as [|b bs IH]; intros e H X; inversion H as [|? x ? e' E F]; subst; [discriminate|]. cbn [existsb find_loop] in *.
    assert (Q : is_loop b = match x with EPlain => false | _ => true end).
    { unfold is_loop. destruct x; cbn in E; [destruct E as (A & B & _); destruct (b_type b); congruence|destruct E as (-> & _); reflexivity|destruct E as (-> & _); reflexivity]. }
    rewrite Q. destruct x; cbn [orb] in X.
    - destruct (IH e' F X) as (p & bs' & -> & F' & M). eexists _, _. split; [reflexivity|]. split; [now constructor|]. cbn. now f_equal.
    - eexists _, _. split; [reflexivity|]. split; [constructor; [now apply enc_break|exact F]|reflexivity].
    - eexists _, _. split; [reflexivity|]. split; [constructor; [now apply enc_break|exact F]|reflexivity].
  Qed.
  Lemma tag_name_ok s ts : at_ s ts -> runs (tag_name K) s (fun b s' => b = match ts with TTag w :: _ => word "name" w | _ => false end /\ got s ts s').
  Proof.
    intro H. unfold tag_name. eapply look_ok; [exact H|]. intros s1 G. apply runs_ret. split; [|exact G]. destruct ts as [|t ts]; [reflexivity|].
    destruct t; reflexivity.
  Qed.
  Lemma break_cmd D e n V us l s ts : label_ok K us l -> (l <> None -> allowed K D (Some "foreverypart")) ->
      match l with Some x => existsb (encl_named x) e | None => existsb (fun b => match b with EPlain => false | _ => true end) e end = true ->
      ctx s D e n V -> at_ s (us ++ TSemicolon :: ts) -> runs (command K FU (lit "break")) s (ends s ts D e n V).
  Proof.
    intros LO AL FO X H. change (command K FU (lit "break")) with (cmd_break K FU). unfold cmd_break.
    assert (Z : forall s1, at_ s1 (TSemicolon :: ts) -> same s s1 -> runs (on_c (do_break (C_umax K) l) ;; ret FEnd) s1 (ends s ts D e n V)).
    { intros s1 T1 S1. assert (X1 : ctx s1 D e n V) by (eapply ctx_kept; [exact X|apply stays_kept, S1|destruct S1, X; congruence]).
      assert (Y : exists c, do_break (C_umax K) l (p_c s1) = Some c /\ Forall2 enc (blocks c) (e ++ [EPlain]) /\ map b_type (blocks c) = types s1 /\ c_includes c = c_includes (p_c s1)).
      { destruct X1 as [_ X1 _ _]. unfold do_break. destruct l as [x|].
        - destruct (find_label_ok x (length (c_code (p_c s1)) + 1) _ _ 0 X1) as (p & bs & -> & F & M); [rewrite existsb_app, FO; reflexivity|].
          eexists. split; [reflexivity|]. destruct bs; [inversion F; destruct e; discriminate|]. split; [exact F|]. split; [exact M|reflexivity].
        - destruct (find_loop_ok (length (c_code (p_c s1))) _ _ X1) as (p & bs & -> & F & M); [rewrite existsb_app, FO; reflexivity|].
          eexists. split; [reflexivity|]. destruct bs; [inversion F; destruct e; discriminate|]. split; [exact F|]. split; [exact M|reflexivity]. }
      destruct Y as (c & E & F & M & I). apply runs_bind. unfold runs, on_c. rewrite E. split; [reflexivity|]. split; [exact T1|].
      split; [unfold types at 1; cbn [w_c p_c]; rewrite M; apply types_kept, stays_kept, S1|].
      destruct X1 as [X1 X2 X3 X4]. constructor; cbn; [exact X1|exact F|congruence|exact X4]. }
    destruct l as [x|].
    - destruct LO as (c & -> & ->). cbn [app] in H. eapply runs_then; [apply tag_name_ok, H|]. cbv beta. intros b s1 [-> G1].
      change (word "name" (lit "name")) with true. cbv iota. apply runs_bind.
      assert (E1 : p_caps s1 = D) by (destruct G1 as (_ & ((-> & _) & _) & _); apply X).
      eapply runs_then; [eapply (va_ok K 0 (Some "foreverypart")); [apply G1|now left|rewrite E1; apply AL; discriminate]|]. cbv beta. intros _ s2 (T2 & S2 & P2).
      eapply read_ok; [exact T2|]. intros s3 G3. cbv beta.
      eapply runs_then; [apply (static_string_ok K FU (fun y => y = const_text L c) [TStr c]); [exists (TStr c); split; [reflexivity|]; exists c; auto|apply G3]|].
      cbv beta. intros y s4 [-> G4]. apply runs_ret. apply Z; [apply G4|].
      eapply same_trans; [apply G1|]. eapply same_trans; [exact S2|]. eapply same_trans; [apply G3|apply G4].
    - cbn [label_ok] in LO. subst us. cbn [app] in H. eapply runs_then; [apply tag_name_ok, H|]. cbv beta. intros b s1 [-> G1]. cbv iota.
      apply runs_bind, runs_ret. apply Z; apply G1.
  Qed.
  Lemma do_continue_ok : forall e bs, Forall2 enc bs (e ++ [EPlain]) -> continue_ok e = true -> exists l, do_continue 0 bs = (2, l).
  Proof.
    induction e as [|x e IH]; intros bs H X; [discriminate|]. inversion H as [|b ? bs' ? E F]; subst. cbn [do_continue]. destruct x; [|discriminate|].
    - cbn in X, E. destruct E as (A & B & _). destruct (IH bs' F X) as (l & El). exists l. destruct (b_type b); try contradiction; exact El.
    - destruct E as (-> & _). change (0 + 1) with 1. cbn [app] in F.
      assert (Q : exists b2 bs2, bs' = b2 :: bs2 /\ b_type b2 <> BWhile).
      { destruct e as [|z e]; inversion F as [|b2 y bs2 ? E2 F2]; subst; exists b2, bs2; (split; [reflexivity|]); [cbn in E2; tauto|].
        destruct z; [cbn in E2; tauto|cbn in E2; destruct E2; congruence|discriminate X]. }
      destruct Q as (b2 & bs2 & -> & Q). cbn [do_continue]. destruct (b_type b2); try contradiction; eexists; reflexivity.
  Qed.
  Lemma continue_cmd D e n V s ts : allowed K D (Some "vnd.stalwart.while") -> continue_ok e = true -> ctx s D e n V -> at_ s (TSemicolon :: ts) ->
    runs (command K FU (lit "continue")) s (ends s ts D e n V).
  Proof.
    intros AL CO X H. change (command K FU (lit "continue")) with (va K 0 (capd (Some "vnd.stalwart.while")) ;;
      on_c (fun c => match do_continue 0 (blocks c) with (2, l) => Some (emit l c) | _ => None end) ;; ret FEnd).
    eapply runs_then; [eapply va_ok; [exact H|now left|destruct X as [-> _ _ _]; exact AL]|]. cbv beta. intros _ s1 (T1 & S1 & P1).
    assert (X1 : ctx s1 D e n V) by (eapply ctx_kept; [exact X|apply stays_kept, S1|destruct S1, X; congruence]).
    destruct X1 as [X1 X2 X3 X4]. destruct (do_continue_ok _ _ X2 CO) as (l & E). apply runs_bind. unfold runs, on_c. rewrite E.
    split; [reflexivity|]. split; [exact T1|]. split; [apply (types_kept s s1), stays_kept, S1|]. constructor; cbn; assumption.
  Qed.
End Cmds.
