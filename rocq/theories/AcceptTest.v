(** Proofs that valid scripts are accepted: conditions. *)
From Coq Require Import Lia.
From Verif Require Import Base Lib Address Var Value SetVar Flags Comparator Message EditHeader
  Expr ExprTok Event Notify AddrTest Vacation Sieve Utf8 Lexer Scope StringTok HeaderVar Compile ParseArgs ParseBase Parse CompileSpec GrammarSpec
  ArgSpec RefineSpec GrammarProofs ArgProofs1 AcceptSpec AcceptBase AcceptArgs AcceptTests AcceptTests2 AcceptTests3 AcceptTests4.
Import ListNotations.
Local Open Scope string_scope.
Local Open Scope list_scope.

(** What conditions and actions do not change *)
Definition kept (s s' : pst) : Prop :=
  p_caps s' = p_caps s /\ c_blk (p_c s') = c_blk (p_c s) /\ c_stack (p_c s') = c_stack (p_c s) /\ c_last (p_c s') = c_last (p_c s) /\
  c_includes (p_c s') = c_includes (p_c s).
Lemma kept_refl s : kept s s.
Proof. repeat split. Qed.
Lemma kept_trans s s' s'' : kept s s' -> kept s' s'' -> kept s s''.
Proof. intros (A & B & C & D & E) (A' & B' & C' & D' & E'). repeat split; congruence. Qed.
Lemma stays_kept s s' : stays s s' -> kept s s'.
Proof. intros (A & B & C & D & E & _). repeat split; assumption. Qed.

Scheme valid_test_ind2 := Induction for valid_test Sort Prop
  with valid_tests_ind2 := Induction for valid_tests Sort Prop.
Combined Scheme valid_tests_mutind from valid_test_ind2, valid_tests_ind2.

Lemma last_map {A B} (f : A -> B) d l : last (map f l) (f d) = f (last l d).
Proof. induction l as [|x [|y l] IH]; auto. Qed.
Lemma patch_tests t ps : forall l, map is_test (patch (to_cond t) ps l) = map is_test l.
Proof.
  assert (U : forall p l, map is_test (update p (to_cond t) l) = map is_test l).
  { intros p l. revert p. induction l as [|i l IH]; intros [|p]; cbn; auto; [destruct i; reflexivity|now rewrite IH]. }
  unfold patch. induction ps as [|p ps IH]; intro l; cbn [fold_left]; [reflexivity|]. now rewrite IH, U.
Qed.

Section Test.
  Variable K : cenv.
  Variable FU : nat.
  Variable D : list (list capability).
  Notation L := (C_L K).
  Notation at_ := (at_ K).
  Notation got := (got K).

  Lemma got_kept s ts s' : got s ts s' -> kept s s' /\ p_v s' = p_v s.
  Proof. intros (_ & (A & B) & _). split; [now apply stays_kept|exact B]. Qed.
  Lemma parse_expr_ok V us e s ts : expr_is K V us e -> p_v s = V -> at_ s (us ++ ts) -> runs (parse_expr K) s (fun _ s' => got s ts s').
  Proof.
    intros (t & src & -> & X & Y) EV H. unfold parse_expr. cbn [app] in H. eapply read_ok; [exact H|]. intros s1 G. apply runs_bind.
    eapply (runs_lift _ src).
    { destruct t; try contradiction; [now rewrite X|exact X]. }
    unfold runs. assert (Z : compile_text L (token_map K s1) src = Parsed e); [|rewrite Z; exact G].
    rewrite <- Y. f_equal. assert (EV1 : p_v s1 = V) by (rewrite <- EV; apply G).
    unfold token_map, names_token. now rewrite EV1.
  Qed.

  (** *** One test *)

  Definition left (s : pst) (ts : list tok) (W : vst) (s' : pst) : Prop := at_ s' ts /\ kept s s' /\ p_v s' = W.
  Lemma is_test_not i : is_test i = true -> is_test (set_not i) = true.
  Proof. destruct i; cbn; auto. Qed.
  Lemma leaf_ok n c V us W s ts : In (n, c) test_needs -> allowed K D c -> valid_args K D V n us W ->
    p_v s = V -> p_caps s = D -> p_params s = [] -> stop ts -> at_ s (us ++ ts) ->
    runs (leaf K FU (lit n)) s (fun i s' => is_test i = true /\ left s ts W s').
  Proof.
    intros I AL X EV EC EP ST H. destruct (args_ok K FU V D n us W X) as (c' & m & I' & F & AC).
    assert (E : c' = c).
    { clear - I I'. unfold test_needs in *. cbn [In] in I.
      repeat (destruct I as [I|I]; [injection I as <- <-; cbn [In] in I'; repeat (destruct I' as [I'|I']; [first [discriminate I'|now injection I' as <-]|]); contradiction|]).
      contradiction. }
    subst c'. assert (NE : word "eval" (lit n) = false).
    { clear - I. unfold test_needs in I. cbn [In] in I. repeat (destruct I as [I|I]; [injection I as <- <-; reflexivity|]). contradiction. }
    unfold leaf. rewrite NE, F. eapply runs_then; [eapply va_ok; [exact H|now left|now rewrite EC]|].
    cbv beta. intros _ s1 (T1 & S1 & P1). cbn [Nat.eqb] in P1.
    eapply runs_then; [eapply AC; [destruct S1; congruence| |congruence|exact ST|exact T1]|].
    - destruct S1 as ((-> & _) & _). exact EC.
    - cbv beta. intros t s2 (A & B & C). apply runs_ret. split; [reflexivity|]. split; [exact A|]. split; [|exact C].
      eapply kept_trans; apply stays_kept; [apply S1|exact B].
  Qed.
  Lemma eval_ok V us e s ts : allowed K D (Some "vnd.stalwart.expressions") -> expr_is K V us e -> p_v s = V -> p_caps s = D -> at_ s (us ++ ts) ->
    runs (leaf K FU (lit "eval")) s (fun i s' => is_test i = true /\ left s ts V s').
  Proof.
    intros AL X EV EC H. change (leaf K FU (lit "eval")) with (va K 0 (capd (Some "vnd.stalwart.expressions")) ;; e <- parse_expr K ;; ret (IxEval e)).
    eapply runs_then; [eapply va_ok; [exact H|now left|now rewrite EC]|].
    cbv beta. intros _ s1 (T1 & S1 & P1). eapply runs_then; [eapply parse_expr_ok; [exact X|destruct S1; congruence|exact T1]|].
    cbv beta. intros y s2 G. apply runs_ret. split; [reflexivity|]. split; [apply G|]. destruct (got_kept _ _ _ G) as [A B]. split.
    - eapply kept_trans; [apply stays_kept, S1|exact A].
    - destruct S1; congruence.
  Qed.

  (** *** All of them *)

  Definition ends (s : pst) : Prop := is_test (last (c_code (p_c s)) IxStop) = true.
  Definition goes (stk : list tblock) (s : pst) (ts : list tok) (W : vst) (Q : unit -> pst -> Prop) : Prop :=
    forall s', left s ts W s' -> ends s' ->
      match stk with
      | [] => Q tt s'
      | _ => forall b nt fuel, t_p b = 0 -> runs (loop fuel (test_step K FU) (b, stk, nt)) s' Q
      end.
  Lemma after_ok b stk n1 n2 i s0 s ts W Q : t_p b = 0 -> is_test i = true -> left s0 ts W s -> goes stk s0 ts W Q ->
    runs (after_test K b stk n1 n2 i) s (fun r s' => match r with
                                                  | inl st => forall fuel, runs (loop fuel (test_step K FU) st) s' Q
                                                  | inr u => Q u s'
                                                  end).
  Proof.
    intros P T H G. unfold after_test. rewrite P. cbn [close_parens]. apply runs_bind, runs_ret. apply runs_bind. unfold push. apply runs_modify.
    set (s' := w_c _ _). assert (X : left s0 ts W s').
    { destruct H as (A & B & C). split; [exact A|]. split; [|exact C]. eapply kept_trans; [exact B|repeat split]. }
    assert (Y : ends s').
    { unfold ends, s'. cbn. rewrite last_last. destruct n1; [now apply is_test_not|exact T]. }
    specialize (G _ X Y). destruct stk as [|p stk]; apply runs_ret; [exact G|]. intro fuel. now apply G.
  Qed.
  Lemma test_head d V us W : valid_test K D d V us W -> exists w us', us = TIdent w :: us'.
  Proof. destruct 1; eauto. Qed.
  Lemma tests_head d V us W : valid_tests K D d V us W -> exists w us', us = TIdent w :: us'.
  Proof. destruct 1 as [d V us W H|d V us V1 vs W H H']; apply test_head in H; destruct H as (w & us' & ->); cbn [app]; eauto. Qed.

  Definition test_good d V us W := forall b stk nt s ts Q fuel, length stk = d -> t_p b = 0 -> p_v s = V -> p_caps s = D -> stop ts ->
    at_ s (us ++ ts) -> goes stk s ts W Q -> runs (loop fuel (test_step K FU) (b, stk, nt)) s Q.
  Definition tests_good d V us W := forall b stk nt s ts Q fuel, length stk = d -> stk <> [] -> t_p b = 0 -> p_v s = V -> p_caps s = D ->
    at_ s (us ++ TParenClose :: ts) -> goes stk s (TParenClose :: ts) W Q -> runs (loop fuel (test_step K FU) (b, stk, nt)) s Q.

  Lemma goes_from stk s s1 ts W Q : kept s s1 -> goes stk s ts W Q -> goes stk s1 ts W Q.
  Proof. intros S G s' (A & B & C). apply G. split; [exact A|]. split; [eapply kept_trans; eauto|exact C]. Qed.
  (** The word that begins a test *)
  Lemma word_step w b stk nt s ts Q :
    at_ s (TIdent w :: ts) -> (forall s', at_ s' ts -> kept s s' -> p_v s' = p_v s -> p_params s' = [] ->
      runs (if word "not" w then k <- peek K ;; if word_next k then ret (inl (b, stk, negb nt)) else fail
            else if oneof ["anyof"; "allof"] w then
              if Nat.ltb (length stk) (l_tests (C_lim K)) then
                expect K TParenOpen ;;
                ret (inl ({| t_all := xorb (word "allof" w) nt; t_not := nt; t_p := 0; t_jmps := [] |}, b :: stk, nt))
              else fail
            else if word "true" w then after_test K b stk false false (IxTest (if nt then TeFalse else TeTrue))
            else if word "false" w then after_test K b stk false false (IxTest (if nt then TeTrue else TeFalse))
            else i <- leaf K FU w ;; after_test K b stk nt nt i) s'
        (fun r s'' => match r with
                      | inl st => forall fuel, runs (loop fuel (test_step K FU) st) s'' Q
                      | inr u => Q u s''
                      end)) ->
    forall fuel, runs (loop fuel (test_step K FU) (b, stk, nt)) s Q.
  Proof.
    intros H X [|fuel]; [exact Logic.I|]. cbn [loop]. apply runs_bind. unfold test_step at 1. eapply read_ok; [exact H|]. intros s1 G1.
    apply runs_bind. eapply reset_ok; [apply G1|]. intros s2 T2 S2 P2. cbv iota.
    destruct (got_kept _ _ _ G1) as [A B]. specialize (X s2 T2). eapply runs_weaken; [apply X; [|destruct S2; congruence|exact P2]|].
    - eapply kept_trans; [exact A|apply stays_kept, S2].
    - intros [st|u] s3 Y; [apply Y|exact Y].
  Qed.

  Lemma tests_all : (forall d V us W, valid_test K D d V us W -> test_good d V us W) /\
                    (forall d V us W, valid_tests K D d V us W -> tests_good d V us W).
  Proof.
    apply (valid_tests_mutind K D (fun d V us W _ => test_good d V us W) (fun d V us W _ => tests_good d V us W)).
    - intros d V b stk nt s ts Q fuel EL EP EV EC ST H G. eapply word_step; [exact H|]. intros s1 T1 S1 E1 _.
      change (runs (after_test K b stk false false (IxTest (if nt then TeFalse else TeTrue))) s1
        (fun r s'' => match r with inl st => forall fuel, runs (loop fuel (test_step K FU) st) s'' Q | inr u => Q u s'' end)).
      eapply after_ok; [exact EP|reflexivity| |exact G]. split; [exact T1|]. split; [exact S1|congruence].
    - intros d V b stk nt s ts Q fuel EL EP EV EC ST H G. eapply word_step; [exact H|]. intros s1 T1 S1 E1 _.
      change (runs (after_test K b stk false false (IxTest (if nt then TeTrue else TeFalse))) s1
        (fun r s'' => match r with inl st => forall fuel, runs (loop fuel (test_step K FU) st) s'' Q | inr u => Q u s'' end)).
      eapply after_ok; [exact EP|reflexivity| |exact G]. split; [exact T1|]. split; [exact S1|congruence].
    - intros d V n c us W I AL X b stk nt s ts Q fuel EL EP EV EC ST H G. cbn [app] in H. eapply word_step; [exact H|]. intros s1 T1 S1 E1 P1.
      assert (N : word "not" (lit n) = false /\ oneof ["anyof"; "allof"] (lit n) = false /\ word "true" (lit n) = false /\ word "false" (lit n) = false).
      { clear - I. unfold test_needs in I. cbn [In] in I. repeat (destruct I as [I|I]; [injection I as <- <-; repeat split|]). contradiction. }
      destruct N as (N1 & N2 & N3 & N4). rewrite N1, N2, N3, N4.
      eapply runs_then; [eapply leaf_ok; [exact I|exact AL|exact X|congruence| |exact P1|exact ST|exact T1]|].
      + destruct S1 as (-> & _). exact EC.
      + cbv beta. intros i s2 (Y & A & B & C). eapply after_ok; [exact EP|exact Y| |exact G]. split; [exact A|]. split; [eapply kept_trans; eauto|exact C].
    - intros d V us e AL X b stk nt s ts Q fuel EL EP EV EC ST H G. cbn [app] in H. eapply word_step; [exact H|]. intros s1 T1 S1 E1 P1.
      change (runs (i <- leaf K FU (lit "eval") ;; after_test K b stk nt nt i) s1
        (fun r s'' => match r with inl st => forall fuel, runs (loop fuel (test_step K FU) st) s'' Q | inr u => Q u s'' end)).
      eapply runs_then; [eapply eval_ok; [exact AL|exact X|congruence| |exact T1]|].
      + destruct S1 as (-> & _). exact EC.
      + cbv beta. intros i s2 (Y & A & B & C). eapply after_ok; [exact EP|exact Y| |exact G]. split; [exact A|]. split; [eapply kept_trans; eauto|exact C].
    - intros d V us W X IH b stk nt s ts Q fuel EL EP EV EC ST H G. cbn [app] in H. eapply word_step; [exact H|]. intros s1 T1 S1 E1 P1.
      change (runs (k <- peek K ;; if word_next k then ret (inl (b, stk, negb nt)) else fail) s1
        (fun r s'' => match r with inl st => forall fuel, runs (loop fuel (test_step K FU) st) s'' Q | inr u => Q u s'' end)).
      eapply look_ok; [exact T1|]. intros s2 G2. destruct (test_head _ _ _ _ X) as (w & us' & ->). cbn [app peeks word_next].
      apply runs_ret. intro fuel'. destruct (got_kept _ _ _ G2) as [A B]. apply IH with (ts := ts); auto.
      + congruence.
      + destruct A as (-> & _), S1 as (-> & _). exact EC.
      + apply G2.
      + eapply goes_from; [|exact G]. eapply kept_trans; eauto.
    - intros d V w us W I LT X IH b stk nt s ts Q fuel EL EP EV EC ST H G. cbn [app] in H. rewrite <- app_assoc in H.
      eapply word_step; [exact H|]. intros s1 T1 S1 E1 P1.
      assert (N : word "not" (lit w) = false /\ oneof ["anyof"; "allof"] (lit w) = true) by (destruct I as [<-|[<-|[]]]; split; reflexivity).
      destruct N as (N1 & N2). rewrite N1, N2. rewrite (proj2 (Nat.ltb_lt _ _)) by (rewrite EL; exact LT).
      eapply runs_then; [eapply expect_ok; [reflexivity|exact T1]|]. cbv beta. intros _ s2 G2. apply runs_ret. intro fuel'.
      destruct (got_kept _ _ _ G2) as [A B].
      apply IH with (ts := ts); [cbn [length]; congruence|discriminate|reflexivity|congruence| |apply G2|].
      + destruct A as (-> & _), S1 as (-> & _). exact EC.
      + intros s3 (T3 & S3 & E3) EN. cbv iota. intros b3 nt3 fuel3 P3.
        destruct fuel3 as [|fuel3]; [exact Logic.I|]. cbn [loop]. apply runs_bind. unfold test_step at 1. eapply read_ok; [exact T3|]. intros s4 G4.
        apply runs_bind. eapply reset_ok; [apply G4|]. intros s5 T5 S5 P5. cbv iota. rewrite P3. apply runs_bind. unfold inside, runs at 1.
        destruct (forallb _ _); [|exact Logic.I]. apply runs_bind, runs_modify.
        destruct (got_kept _ _ _ G4) as [A4 B4].
        set (s6 := w_c _ _). assert (Y : left s ts W s6).
        { split; [exact T5|]. split; [|change (p_v s6) with (p_v s5); destruct S5; congruence].
          eapply kept_trans; [exact S1|]. eapply kept_trans; [exact A|]. eapply kept_trans; [exact S3|]. eapply kept_trans; [exact A4|].
          eapply kept_trans; [apply stays_kept, S5|]. repeat split. }
        assert (Z : ends s6).
        { unfold ends in *.
          assert (M : map is_test (c_code (p_c s6)) = map is_test (c_code (p_c s3))).
          { unfold s6. cbn [p_c w_c with_code c_code]. rewrite patch_tests. destruct S5 as ((_ & _ & _ & _ & _ & M5) & _). rewrite M5.
            destruct G4 as (_ & ((_ & _ & _ & _ & _ & M4) & _) & _). exact M4. }
          rewrite <- EN. rewrite <- !(last_map is_test). now rewrite M. }
        specialize (G _ Y Z). destruct stk as [|p stk']; [apply runs_ret; apply runs_ret; exact G|]. apply runs_ret. now apply G.
    - intros d V us W X IH b stk nt s ts Q fuel EL NE EP EV EC H G.
      apply IH with (ts := TParenClose :: ts); auto. exists TParenClose, ts. split; [reflexivity|exact Logic.I].
    - intros d V us V1 vs W X IH X' IH' b stk nt s ts Q fuel EL NE EP EV EC H G. rewrite <- app_assoc in H. cbn [app] in H.
      apply IH with (ts := TComma :: vs ++ TParenClose :: ts); auto; [exists TComma; eexists; split; [reflexivity|exact Logic.I]|].
      intros s3 (T3 & S3 & E3) EN. destruct stk as [|p stk]; [easy|]. intros b3 nt3 fuel3 P3.
      destruct fuel3 as [|fuel3]; [exact Logic.I|]. cbn [loop]. apply runs_bind. unfold test_step at 1. eapply read_ok; [exact T3|]. intros s4 G4.
      apply runs_bind. eapply reset_ok; [apply G4|]. intros s5 T5 S5 P5. cbv iota. apply runs_bind, runs_get.
      assert (EN5 : is_test (last (c_code (p_c s5)) IxStop) = true).
      { unfold ends in EN. rewrite <- EN, <- !(last_map is_test). destruct S5 as ((_ & _ & _ & _ & _ & ->) & _).
        destruct G4 as (_ & ((_ & _ & _ & _ & _ & ->) & _) & _). reflexivity. }
      rewrite EN5. cbn [is_nil negb andb]. eapply look_ok; [exact T5|]. intros s6 G6.
      destruct (tests_head _ _ _ _ X') as (w & us' & EQ). assert (WN : word_next (peeks (vs ++ TParenClose :: ts)) = true) by (rewrite EQ; reflexivity).
      rewrite WN. apply runs_bind. unfold push. apply runs_modify. apply runs_ret.
      destruct (got_kept _ _ _ G4) as [A4 B4]. destruct (got_kept _ _ _ G6) as [A6 B6].
      set (s7 := w_c _ _). assert (KK : kept s s7).
      { eapply kept_trans; [exact S3|]. eapply kept_trans; [exact A4|]. eapply kept_trans; [apply stays_kept, S5|]. eapply kept_trans; [exact A6|]. repeat split. }
      apply IH' with (ts := ts); [exact EL|discriminate|exact P3| | |apply G6|].
      + change (p_v s7) with (p_v s6). destruct S5; congruence.
      + destruct KK as (-> & _). exact EC.
      + eapply goes_from; [|exact G]. exact KK.
  Qed.
  Lemma parse_test_ok V us W s ts : valid_test K D 0 V us W -> p_v s = V -> p_caps s = D -> stop ts -> at_ s (us ++ ts) ->
    runs (Parse.parse_test K FU) s (fun _ s' => left s ts W s').
  Proof.
    intros X EV EC ST H. unfold Parse.parse_test. eapply runs_then.
    - apply (proj1 tests_all 0 V us W X) with (ts := ts) (Q := fun _ s' => left s ts W s'); auto. intros s' A _. exact A.
    - cbv beta. intros _ s' (A & B & C). unfold push. apply runs_modify. split; [exact A|]. split; [eapply kept_trans; [exact B|repeat split]|exact C].
  Qed.
End Test.
