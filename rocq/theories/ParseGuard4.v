(** The compiler keeps the regions of the [require]s through every command. *)
From Coq Require Import Lia.
From Verif Require Import Base Lib Address Var Value SetVar Flags Comparator Message EditHeader
  Expr ExprTok Event Notify AddrTest Vacation Mime Sieve Utf8 Lexer Scope StringTok Run RunSpec Compile CompileSpec ParseArgs ParseBase
  Parse ParseSpec CompileProofs8 CompileProofs9 ParseCaps1 ParseCaps2 ParseGuard1 ParseGuard2 ParseGuard3.
Import ListNotations.
Local Open Scope string_scope.
Local Open Scope list_scope.

Definition tr {A} (Pre : pst -> Prop) (m : P A) (Post : A -> pst -> Prop) : Prop :=
  forall s a s', Pre s -> m s = Ok a s' -> Post a s'.
Lemma tr_ret {A} (a : A) (Pre : pst -> Prop) (Post : A -> pst -> Prop) : (forall s, Pre s -> Post a s) -> tr Pre (ret a) Post.
Proof. intros H s x s' Hs E. injection E as <- <-. auto. Qed.
Lemma tr_fail {A} Pre (Post : A -> pst -> Prop) : tr Pre fail Post.
Proof. intros s x s' _ E. discriminate. Qed.
Lemma tr_bind {A B} (m : P A) (k : A -> P B) Pre Mid Post : tr Pre m Mid -> (forall a, tr (Mid a) (k a) Post) -> tr Pre (bind m k) Post.
Proof.
  intros H1 H2 s b s' Hs E. unfold bind in E. destruct (m s) as [a s1| | |] eqn:E1; try discriminate. eapply H2; eauto.
Qed.
Lemma tr_pre {A} (m : P A) (Pre Pre' : pst -> Prop) Post : (forall s, Pre s -> Pre' s) -> tr Pre' m Post -> tr Pre m Post.
Proof. intros H1 H2 s a s' Hs. apply H2. auto. Qed.
Lemma tr_post {A} (m : P A) Pre (Post Post' : A -> pst -> Prop) : (forall a s, Post a s -> Post' a s) -> tr Pre m Post -> tr Pre m Post'.
Proof. intros H1 H2 s a s' Hs E. eauto. Qed.
Lemma tr_get {A B} (f : pst -> A) (k : A -> P B) Pre Post : (forall a, tr (fun s => Pre s /\ f s = a) (k a) Post) -> tr Pre (bind (get f) k) Post.
Proof. intros H s b s' Hs E. unfold bind, get in E. eapply (H (f s)); eauto. Qed.
Lemma tr_modify f (Pre : pst -> Prop) (Post : unit -> pst -> Prop) : (forall s, Pre s -> Post tt (f s)) -> tr Pre (modify f) Post.
Proof. intros H s b s' Hs E. injection E as <- <-. auto. Qed.
Lemma tr_loop {A B} (I : A -> pst -> Prop) (step : A -> P (A + B)) Post :
  (forall a, tr (I a) (step a) (fun r s => match r with inl a' => I a' s | inr b => Post b s end)) ->
  forall n a, tr (I a) (loop n step a) Post.
Proof.
  intros H n. induction n as [|n IH]; intros a; [intros s x s' _ E; discriminate|]. cbn [loop].
  eapply tr_bind; [apply H|]. intros [a'|b]; [apply IH|]. now apply tr_ret.
Qed.
Definition stable (Pre : pst -> Prop) : Prop := forall s s', still s s' -> Pre s -> Pre s'.
Lemma stable_and (A B : pst -> Prop) : stable A -> stable B -> stable (fun s => A s /\ B s).
Proof. intros HA HB s s' S [X Y]. split; eauto. Qed.
Lemma stable_caps (A : list (list capability) -> Prop) : stable (fun s => A (p_caps s)).
Proof. intros s s' S H. now rewrite (st_caps _ _ S). Qed.

Section Main.
  Variable K : cenv.
  Variable FU : nat.
  Notation nc := (C_nocheck K).

  Lemma tr_use {A B} (m : P A) (k : A -> P B) (Q : list (list capability) -> A -> Prop) Pre Post :
    stable Pre -> (forall cs, pc cs m (Q cs)) -> (forall a, tr (fun s => Pre s /\ Q (p_caps s) a) (k a) Post) -> tr Pre (bind m k) Post.
  Proof.
    intros S H1 H2. eapply tr_bind; [|exact H2]. intros s a s' Hs E. destruct (H1 _ _ _ _ eq_refl E) as [St Qa].
    split; [eauto|]. now rewrite (st_caps _ _ St).
  Qed.
  Lemma tr_skip {A B} (m : P A) (k : A -> P B) Pre Post : stable Pre -> (forall cs, pc cs m always) -> (forall a, tr Pre (k a) Post) ->
    tr Pre (bind m k) Post.
  Proof. intros S H1 H2. eapply tr_use; [exact S|exact H1|]. intro a. eapply tr_pre; [|apply H2]. now intros s [H _]. Qed.
  Lemma tr_last {A} (m : P A) Pre : stable Pre -> (forall cs, pc cs m always) -> tr Pre m (fun _ s => Pre s).
  Proof. intros S H s a s' Hs E. destruct (H _ _ _ _ eq_refl E). eauto. Qed.

  Lemma allowed cs l : allc K cs l -> allowed_exts nc cs l.
  Proof.
    intros H N x Ix. unfold allc in H. rewrite Forall_forall in H. specialize (H x Ix). unfold has in H. rewrite N in H.
    now rewrite orb_false_r in H.
  Qed.

  (** The invariant; [l] are the jumps that wait for the end of an if. *)
  Definition WI (G : list region) (T : pending) (l : list nat) (s : pst) : Prop :=
    CI nc G T (p_c s) (p_caps s) /\ b_if (c_blk (p_c s)) = l.
  Lemma like_marks a b : Forall2 marked a b -> Forall2 like a b.
  Proof. apply Forall2_impl. apply marked_like. Qed.
  Lemma wi_still G T l : stable (WI G T l).
  Proof.
    intros s s' S [H B]. split; [|now rewrite (st_blk _ _ S)]. rewrite (st_caps _ _ S).
    pose proof (ci_like _ _ _ _ _ (c_code (p_c s')) H (like_marks _ _ (st_code _ _ S))) as X.
    replace (p_c s') with (with_code (c_code (p_c s')) (p_c s)); [exact X|]. unfold with_code.
    rewrite <- (st_blk _ _ S), <- (st_stack _ _ S), <- (st_last _ _ S), <- (st_incl _ _ S). now destruct (p_c s').
  Qed.
  Hint Resolve wi_still stable_and stable_caps : core.

  Lemma wi_emit G T l s i : WI G T l s -> harmless i -> allc K (p_caps s) (exts i) -> WI G T l (w_c (emit [i] (p_c s)) s).
  Proof. intros [H B] Hi A. split; [|exact B]. apply ci_emit; auto using allowed. Qed.
  Lemma wi_later G T l s k i : WI G T l s -> fits k i = true -> allc K (p_caps s) (exts i) ->
    WI G ((length (c_code (p_c s)), k) :: T) l (w_c (emit [i] (p_c s)) s).
  Proof. intros [H B] Hi A. split; [|exact B]. apply ci_later; auto using allowed. Qed.
  Lemma wi_weaken G T T' l s : WI G T l s -> (forall x, In x T <-> In x T') -> WI G T' l s.
  Proof.
    intros [H B] E. split; [|exact B]. destruct H as [A1 A2 A3 A4 A5 A6 A7 A8 A9 A10]. constructor; auto.
    - eapply inv_weaken; [exact A1|]. intro x. rewrite !in_app_iff, E. reflexivity.
    - eapply rg_weaken; [exact A3|]. intro x. rewrite !in_app_iff, E. auto.
    - intros p k Ip. apply (A5 p k). now apply E.
  Qed.

  (** *** Tests *)
  Lemma tr_emit G T l i (Post : unit -> pst -> Prop) : harmless i -> (forall s, WI G T l s -> Post tt s) ->
    tr (fun s => WI G T l s /\ allc K (p_caps s) (exts i)) (push [i]) Post.
  Proof. intros Hi HP. apply tr_modify. intros s [H A]. apply HP. now apply wi_emit. Qed.
  Lemma set_not_ext i : exts (set_not i) = exts i.
  Proof. destruct i; try reflexivity. cbn. destruct t; reflexivity. Qed.
  Lemma stable_len n : stable (fun s => length (c_code (p_c s)) = n).
  Proof. intros s s' S <-. apply (len_like _ _ (like_marks _ _ (st_code _ _ S))). Qed.
  Definition TI G l (st : tstate) (s : pst) : Prop :=
    let '(b, stk, _) := st in WI G (tpend (b :: stk)) l s /\ t_jmps (last (b :: stk) top_tblock) = [].
  Definition TQ G l (r : tstate + unit) (s : pst) : Prop := match r with inl st => TI G l st s | inr _ => WI G [] l s end.
  Lemma pc_close_parens cs n : pc cs (close_parens K n) always.
  Proof.
    induction n as [|n IH]; cbn [close_parens]; [now apply pc_ret|]. apply pc_bind_st; [apply pc_expect|]. auto.
  Qed.
  Lemma tr_after G l b stk x y i : harmless i -> t_jmps (last (b :: stk) top_tblock) = [] ->
    tr (fun s => WI G (tpend (b :: stk)) l s /\ allc K (p_caps s) (exts i)) (after_test K b stk x y i) (TQ G l).
  Proof.
    intros Hi LJ. unfold after_test.
    apply tr_skip; [apply stable_and; [auto|apply (stable_caps (fun cs => allc K cs (exts i)))]|intro cs; apply pc_close_parens|intros _].
    eapply tr_bind with (Mid := fun _ => WI G (tpend (b :: stk)) l).
    - eapply tr_pre; [|apply tr_emit; [|intros s H; exact H]].
      + intros s [H A]. split; [exact H|]. destruct x; [rewrite set_not_ext|]; exact A.
      + destruct x; [now apply harmless_not|exact Hi].
    - intros _. destruct stk as [|b2 stk]; apply tr_ret; intros s H; cbn [TQ TI].
      + eapply wi_weaken; [exact H|]. cbn in LJ. cbn. rewrite LJ. reflexivity.
      + split; [exact H|]. exact LJ.
  Qed.
  Lemma harmless_test t : harmless (IxTest t).
  Proof. split; reflexivity. Qed.

  Lemma tr_inside {B} ps (k : unit -> P B) Pre Post : (forall a, tr Pre (k a) Post) -> tr Pre (bind (inside ps) k) Post.
  Proof.
    intros H s a s' Hs E. unfold bind, inside in E. destruct (forallb _ ps); [|discriminate]. eapply H; eauto.
  Qed.
  Lemma tr_test_step G l st : tr (TI G l st) (test_step K FU st) (TQ G l).
  Proof.
    destruct st as [[b stk] n]. unfold test_step. intros s0 a s1 [H LJ]. revert s0 a s1 H.
    change (tr (WI G (tpend (b :: stk)) l) (test_step K FU (b, stk, n)) (TQ G l)). unfold test_step.
    apply tr_skip; [auto|intro; apply pc_next|intro t]. apply tr_skip; [auto|intro; apply pc_reset|intros _].
    assert (AT : forall x y i, harmless i -> tr (fun s => WI G (tpend (b :: stk)) l s /\ allc K (p_caps s) (exts i)) (after_test K b stk x y i) (TQ G l)).
    { intros x y i Hi. now apply tr_after. }
    assert (A0 : forall x y i, harmless i -> exts i = [] -> tr (WI G (tpend (b :: stk)) l) (after_test K b stk x y i) (TQ G l)).
    { intros x y i Hi Ei. eapply tr_pre; [|apply AT; exact Hi]. intros s H. split; [exact H|]. rewrite Ei. constructor. }
    destruct t; try apply tr_fail.
    - (* ( *)
      apply tr_ret. intros s H. split; [exact H|]. destruct stk; exact LJ.
    - (* ) *)
      destruct (t_p b) as [|m].
      + destruct stk as [|prev stk']; [apply tr_fail|]. apply tr_inside. intros _.
        eapply tr_bind with (Mid := fun _ => WI G (tpend (prev :: stk')) l).
        * apply tr_modify. intros s [H B]. split; [|exact B]. cbn [w_c p_c p_caps].
          apply (ci_cond nc G (tpend (b :: prev :: stk'))); [exact H|..].
          -- intros p Ip. cbn. apply in_app_iff. left. apply in_map_iff. eauto.
          -- intros x Ix. cbn. apply in_app_iff. right. exact Ix.
          -- intros x Ix. cbn in Ix. apply in_app_iff in Ix as [Ix|Ix]; [|now left]. right. apply in_map_iff in Ix as (p & <- & Ip). exact Ip.
        * intros _. destruct stk' as [|b3 stk]; apply tr_ret; intros s H; cbn [TQ TI].
          -- eapply wi_weaken; [exact H|]. cbn in LJ. cbn. rewrite LJ. reflexivity.
          -- split; [exact H|exact LJ].
      + apply tr_ret. intros s H. split; [exact H|]. destruct stk; exact LJ.
    - (* , *)
      apply tr_get. intro code. destruct (_ && _) eqn:C; [|apply tr_fail].
      assert (Nil : stk <> []) by (destruct stk; [discriminate|congruence]).
      eapply tr_pre with (Pre' := fun s => WI G (tpend (b :: stk)) l s /\ length (c_code (p_c s)) = length code); [intros s [H <-]; auto|].
      apply tr_skip; [apply stable_and; auto using stable_len|intro; apply pc_peek|intro k]. destruct (word_next k); [|apply tr_fail].
      eapply tr_bind with (Mid := fun _ => WI G ((length code, PCond) :: tpend (b :: stk)) l).
      + apply tr_modify. intros s [H <-]. apply wi_later; [exact H|destruct (t_all b); reflexivity|destruct (t_all b); constructor].
      + intros _. apply tr_ret. intros s H. split; [|destruct stk; [congruence|exact LJ]].
        eapply wi_weaken; [exact H|]. intros x. cbn [tpend flat_map t_jmps]. rewrite map_app. cbn [map]. cbn [In]. rewrite !in_app_iff.
        cbn [In]. tauto.
    - (* a word *)
      destruct (word "not" w).
      + apply tr_skip; [auto|intro; apply pc_peek|intro k]. destruct (word_next k); [|apply tr_fail]. apply tr_ret. intros s H. split; auto.
      + destruct (oneof ["anyof"; "allof"] w).
        * destruct (Nat.ltb _ _); [|apply tr_fail]. apply tr_skip; [auto|intro; apply pc_expect|intros _]. apply tr_ret. intros s H.
          split; [|destruct stk; exact LJ]. exact H.
        * destruct (word "true" w); [apply A0; [apply harmless_test|destruct n; reflexivity]|].
          destruct (word "false" w); [apply A0; [apply harmless_test|destruct n; reflexivity]|].
          eapply tr_use; [auto|intro cs; apply ok_leaf|]. intro i. intros s0 a s1 [H [A Hi]] E.
          eapply AT; [exact Hi|split; [exact H|exact A]|exact E].
    - (* unknown *)
      apply tr_skip; [auto|intro; apply pc_ignore_test|intros _]. apply A0; [apply harmless_test|reflexivity].
  Qed.
  Lemma tr_parse_test G l : tr (WI G [] l) (parse_test K FU) (fun _ s => WI G [(length (c_code (p_c s)) - 1, PJz)] l s).
  Proof.
    unfold parse_test. eapply tr_bind with (Mid := fun _ => WI G [] l).
    - eapply tr_pre; [|apply (tr_loop (TI G l) (test_step K FU)); intro st; eapply tr_post; [|apply tr_test_step]].
      + intros s H. split; [exact H|reflexivity].
      + intros [x|x] s H; exact H.
    - intros _. apply tr_modify. intros s H. cbn [w_c p_c emit with_code c_code]. rewrite app_length. cbn [length].
      rewrite Nat.add_sub. apply (wi_later G [] l s PJz); [exact H|reflexivity|constructor].
  Qed.
  Notation umax := (C_umax K).
  Notation lim := (C_lim K).

  (** *** require *)
  Definition RI G cs (l : list capability) (s : pst) : Prop := match p_caps s with
    | [] => False
    | b :: bs => exists b0 new, cs = b0 :: bs /\ b = new ++ b0 /\ (forall x, In x new -> In x l) /\
        CI nc G [] (p_c s) cs /\ b_if (c_blk (p_c s)) = []
    end.
  Lemma ri_still G cs l : stable (RI G cs l).
  Proof.
    intros s s' S H. unfold RI in *. rewrite (st_caps _ _ S). destruct (p_caps s) as [|b bs]; [exact H|].
    destruct H as (b0 & new & -> & -> & Hn & HC & HB). exists b0, new. split; [reflexivity|]. split; [reflexivity|]. split; [exact Hn|]. split.
    - pose proof (ci_like _ _ _ _ _ (c_code (p_c s')) HC (like_marks _ _ (st_code _ _ S))) as X.
      replace (p_c s') with (with_code (c_code (p_c s')) (p_c s)); [exact X|]. unfold with_code.
      rewrite <- (st_blk _ _ S), <- (st_stack _ _ S), <- (st_last _ _ S), <- (st_incl _ _ S). now destruct (p_c s').
    - now rewrite (st_blk _ _ S).
  Qed.
  Lemma tr_cap1 G cs l c : tr (RI G cs l) (add_cap1 K l c) (fun l' s => RI G cs l' s).
  Proof.
    unfold add_cap1. apply tr_get. intros ok. destruct ok; [apply tr_ret; intros s [H _]; exact H|].
    eapply tr_bind with (Mid := fun _ => RI G cs (l ++ [c])); [|intro u; apply tr_ret; auto]. apply tr_modify. intros s [H _]. unfold RI in *.
    cbn [w_caps p_caps p_c]. destruct (p_caps s) as [|b bs]; [destruct H|]. destruct H as (b0 & new & -> & -> & Hn & HC & HB).
    exists b0, (c :: new). split; [reflexivity|]. split; [reflexivity|]. split; [|auto]. intros x [<-|Ix]; apply in_app_iff; [right; now left|left; auto].
  Qed.
  Lemma tr_cap G cs l c : tr (RI G cs l) (add_cap K l c) (fun l' s => RI G cs l' s).
  Proof.
    unfold add_cap. apply tr_get. intros ok. destruct ok; [apply tr_ret; intros s [H _]; exact H|].
    eapply tr_pre; [intros s [H _]; exact H|]. eapply tr_bind; [apply tr_cap1|]. intro l'. cbv beta.
    destruct (cap_eqb _ _); [apply tr_cap1|now apply tr_ret].
  Qed.
  Hint Resolve ri_still : core.
  Lemma tr_require_list G cs : tr (RI G cs []) (require_list K FU) (fun l s => RI G cs l s).
  Proof.
    unfold require_list. apply tr_skip; [auto|intro; apply pc_next|intro t]. destruct t; try apply tr_fail.
    - apply (tr_loop (RI G cs)). intro l. apply tr_skip; [auto|intro; apply pc_next|intro t]. destruct t; try apply tr_fail.
      eapply tr_bind; [apply tr_cap|]. intro l'. cbv beta. apply tr_skip; [auto|intro; apply pc_next|intro t].
      destruct t; try apply tr_fail; now apply tr_ret.
    - apply tr_cap.
  Qed.
  Lemma tr_require G cs : tr (RI G cs []) (l <- require_list K FU ;; modify (fun s => w_c (do_require l (p_c s)) s) ;; ret FEnd)
    (fun f s => f = FEnd /\ WI G [] [] s).
  Proof.
    eapply tr_bind; [apply tr_require_list|]. intro l. cbv beta. eapply tr_bind with (Mid := fun _ => WI G [] []); [|intros _; now apply tr_ret].
    apply tr_modify. intros s H. unfold RI in H. destruct (p_caps s) as [|b bs] eqn:E; [destruct H|].
    destruct H as (b0 & new & -> & -> & Hn & HC & HB). split.
    - cbn [w_c p_c p_caps]. rewrite E. now apply ci_require.
    - cbn [w_c p_c]. unfold do_require. destruct l; [exact HB|]. destruct (b_require _); exact HB.
  Qed.

  (** *** Commands *)
  Definition FQ (f : follow) (s : pst) : Prop := match f with
    | FBlock t _ => t <> BNot /\ exists G l, WI G (hpend t (length (c_code (p_c s)) - 1)) l s /\ (l <> [] -> t = BElsIf \/ t = BElse)
    | _ => exists G, WI G [] [] s
    end.
  Lemma fq_end G s : WI G [] [] s -> FQ FEnd s.
  Proof. intro H. now exists G. Qed.
  Definition cap_ok (c : option capability) (cs : list (list capability)) : Prop := given_cap K cs c.
  Lemma tr_va {B} n c (k : unit -> P B) Pre Post : stable Pre -> (forall a, tr (fun s => Pre s /\ given_cap K (p_caps s) c) (k a) Post) ->
    tr Pre (bind (va K n c) k) Post.
  Proof. intros S H. eapply (tr_use (va K n c) k (fun cs _ => given_cap K cs c)); [exact S|intro cs; apply pc_va|exact H]. Qed.
  Lemma st_cap G T l c : stable (fun s => WI G T l s /\ given_cap K (p_caps s) c).
  Proof. apply stable_and; [auto|]. apply (stable_caps (fun cs => given_cap K cs c)). Qed.
  Hint Resolve st_cap : core.
  Lemma tr_push_end G l i (Pre : pst -> Prop) : l = [] -> harmless i -> (forall s, Pre s -> WI G [] l s /\ allc K (p_caps s) (exts i)) ->
    tr Pre (push [i] ;; ret FEnd) FQ.
  Proof.
    intros -> Hi HP. eapply tr_pre; [exact HP|]. eapply tr_bind with (Mid := fun _ => WI G [] []); [apply tr_emit; auto|].
    intro u. apply tr_ret. apply fq_end.
  Qed.
  Lemma tr_simple G c m : (forall cs, given_cap K cs c -> pc cs m (fun i => allc K cs (extensions_with "mailbox" i) /\ harmless i)) -> tr (WI G [] []) (simple K c m) FQ.
  Proof.
    intro Hm. unfold simple. apply tr_va; [auto|intros _]. intros s0 f s1 [H Hc] E.
    unfold bind in E at 1. destruct (m s0) as [i s2| | |] eqn:Em; try discriminate.
    destruct (Hm _ Hc _ _ _ eq_refl Em) as [St [A Hi]]. rewrite <- (st_caps _ _ St) in A. apply (wi_still _ _ _ _ _ St) in H.
    eapply (tr_push_end G [] i (fun s => WI G [] [] s /\ allc K (p_caps s) (exts i))); eauto.
  Qed.

  Lemma tr_foreverypart G : tr (WI G [] []) (cmd_foreverypart K FU) FQ.
  Proof.
    unfold cmd_foreverypart. apply tr_va; [auto|intros _]. apply tr_get. intro stk. destruct (Nat.eqb _ _); [apply tr_fail|].
    eapply tr_pre; [intros s [H _]; exact H|]. unfold tag_name.
    apply tr_skip; [auto| |intro named].
    { intro cs. apply pc_bind_st; [apply pc_peek|]. intro k. now apply pc_ret. }
    apply tr_skip; [auto| |intro lab].
    { intro cs. destruct named; [|now apply pc_ret]. apply pc_bind_st; [apply pc_next|]. intros _. apply pc_bind_st; [apply pc_static_string|].
      intro n. destruct (existsb _ _); [apply pc_fail|now apply pc_ret]. }
    eapply tr_bind with (Mid := fun _ => FQ (FBlock BFor lab)); [|intros _; now apply tr_ret].
    apply tr_modify. intros s [H Hc]. split; [discriminate|]. exists G, []. split; [|congruence].
    assert (A : allc K (p_caps s) ["foreverypart"%string]) by (constructor; [exact Hc|constructor]).
    pose proof (wi_emit G [] [] s IxForEveryPartPush H (conj eq_refl eq_refl) A) as H1.
    pose proof (wi_later G [] [] _ PFor (IxForEveryPart umax) H1 eq_refl A) as H2.
    unfold emit, with_code in *. cbn [w_c p_c c_code c_blk c_stack c_last c_includes hpend] in *. rewrite <- app_assoc in H2. cbn [app] in H2.
    replace (length (c_code (p_c s) ++ [IxForEveryPartPush; IxForEveryPart umax]) - 1) with (length (c_code (p_c s) ++ [IxForEveryPartPush])); [exact H2|].
    rewrite !app_length. cbn. lia.
  Qed.
  Lemma tr_on_c f (Pre : pst -> Prop) (Post : unit -> pst -> Prop) : (forall s c, Pre s -> f (p_c s) = Some c -> Post tt (w_c c s)) -> tr Pre (on_c f) Post.
  Proof. intros H s a s' Hs E. unfold on_c in E. destruct (f (p_c s)) as [c|] eqn:F; [|discriminate]. injection E as <- <-. eauto. Qed.
  Lemma tr_break G : tr (WI G [] []) (cmd_break K FU) FQ.
  Proof.
    unfold cmd_break, tag_name.
    apply tr_skip; [auto| |intro named].
    { intro cs. apply pc_bind_st; [apply pc_peek|]. intro k. now apply pc_ret. }
    apply tr_skip; [auto| |intro lab].
    { intro cs. destruct named; [|now apply pc_ret]. eapply pc_bind; [apply pc_va|]. intros _ _. apply pc_bind_st; [apply pc_next|].
      intros _. apply pc_bind_st; [apply pc_static_string|]. intro n. now apply pc_ret. }
    eapply tr_bind with (Mid := fun _ => WI G [] []); [|intros _; apply tr_ret; apply fq_end].
    apply tr_on_c. intros s c [H B] E. destruct (ci_break _ _ _ _ _ _ _ H B E) as [X Y]. split; [exact X|exact Y].
  Qed.
  Lemma tr_continue G : tr (WI G [] []) (cmd_continue K) FQ.
  Proof.
    unfold cmd_continue. apply tr_va; [auto|intros _]. eapply tr_bind with (Mid := fun _ => WI G [] []); [|intros _; apply tr_ret; apply fq_end].
    apply tr_on_c. intros s c [[H B] _] E. destruct (do_continue 0 (blocks (p_c s))) as [m is] eqn:D.
    destruct m as [|[|[|m]]]; try discriminate. injection E as <-.
    assert (X : is = [] \/ exists b, is = [IxJmp (b_start b)] /\ In (b_start b, PWhile) (pends (c_blk (p_c s)) (c_stack (p_c s)))).
    { cbn [blocks do_continue] in D. destruct (b_type (c_blk (p_c s))) eqn:Tb.
      all: apply (do_continue_spec _ _ (c_blk (p_c s))) in D; auto; congruence. }
    split; [|exact B]. destruct X as [->|(b & -> & Ib)].
    - cbn [w_c p_c p_caps]. unfold emit, with_code. rewrite app_nil_r. destruct (p_c s). exact H.
    - cbn [w_c p_c p_caps]. eapply ci_back; [exact H|exact Ib|discriminate].
  Qed.
  Lemma tr_vacation G : tr (WI G [] []) (va K 0 (Some (cap "vacation")) ;; p <- cmd_vacation K FU ;;
      modify (fun s => w_c (emit [IxTest (fst p); IxJz (length (c_code (p_c s)) + 3); snd p] (p_c s)) s) ;; ret FEnd) FQ.
  Proof.
    apply tr_va; [auto|intros _]. intros s0 f s1 [H Hc] E.
    unfold bind in E at 1. destruct (cmd_vacation K FU s0) as [p s2| | |] eqn:Em; try discriminate.
    destruct (ok_c_vacation K FU _ Hc _ _ _ eq_refl Em) as [St [[A1 A2] [V Tv]]]. rewrite <- (st_caps _ _ St) in A1, A2.
    apply (wi_still _ _ _ _ _ St) in H. unfold bind, modify, ret in E. injection E as <- <-. exists G. destruct H as [H B]. split; [|exact B].
    cbn [w_c p_c p_caps]. apply ci_vacation; auto using allowed.
  Qed.
  Lemma tr_include G n : tr (WI G [] []) (if Nat.ltb n (l_includes lim) then
        va K 0 (Some (cap "include")) ;; i <- cmd_include K FU ;;
        modify (fun s => let c := p_c s in
                         w_c {| c_code := c_code c ++ [i]; c_blk := c_blk c; c_stack := c_stack c; c_last := c_last c;
                                c_includes := c_includes c + 1 |} s) ;; ret FEnd
      else fail) FQ.
  Proof.
    destruct (Nat.ltb _ _); [|apply tr_fail]. apply tr_va; [auto|intros _]. intros s0 f s1 [H Hc] E.
    unfold bind in E at 1. destruct (cmd_include K FU s0) as [i s2| | |] eqn:Em; try discriminate.
    destruct (ok_c_include K FU _ Hc _ _ _ eq_refl Em) as [St [A Hi]]. rewrite <- (st_caps _ _ St) in A.
    apply (wi_still _ _ _ _ _ St) in H. unfold bind, modify, ret in E. injection E as <- <-. exists G.
    destruct (wi_emit _ _ _ _ _ H Hi A) as [X B]. split; [|exact B]. destruct X. constructor; auto.
  Qed.
  Lemma pc_globals cs l : pc cs (globals K l) always.
  Proof. induction l as [|n l IH]; cbn [globals]; [now apply pc_ret|]. apply pc_bind_st; [apply pc_on_v|]. auto. Qed.
  Lemma tr_unknown G w : tr (WI G [] []) (unknown K FU w) (fun _ => WI G [] []).
  Proof.
    unfold unknown. apply tr_get. intro ok. destruct ok; [|apply tr_fail].
    eapply tr_pre with (Pre' := fun s => WI G [] [] s /\ given_cap K (p_caps s) (Some (cap "ihave"))).
    - intros s [H E]. split; [exact H|]. cbn [given_cap]. unfold has. unfold has_cap in E.
      apply orb_true_iff in E as [E|E]; [now rewrite E|]. apply andb_true_iff in E as [E _]. discriminate.
    - apply tr_skip; [auto|intro; apply pc_ignore_instruction|intros _]. eapply tr_pre; [|apply (tr_emit G [] [] (IxInvalid w)); [split; reflexivity|auto]].
      intros s [H Hc]. split; [exact H|]. constructor; [exact Hc|constructor].
  Qed.
  Lemma tr_return G : tr (WI G [] []) (va K 0 (Some (cap "include")) ;; modify (fun s => w_c (do_return (p_c s)) s) ;; ret FEnd) FQ.
  Proof.
    apply tr_va; [auto|intros _]. eapply tr_bind with (Mid := fun _ => WI G [] []); [|intros _; apply tr_ret; apply fq_end].
    apply tr_modify. intros s [H Hc]. unfold do_return. destruct (length (filter is_for (blocks (p_c s)))) as [|m]; cbn [app].
    - apply wi_emit; [exact H|split; reflexivity|]. constructor; [exact Hc|constructor].
    - pose proof (wi_emit G [] [] s (IxForEveryPartPop (S m)) H (conj eq_refl eq_refl) (Forall_nil _)) as H1.
      pose proof (wi_emit G [] [] _ IxReturn H1 (conj eq_refl eq_refl) ltac:(constructor; [exact Hc|constructor])) as H2.
      unfold emit, with_code in *. cbn [w_c p_c c_code c_blk c_stack c_last c_includes] in *. rewrite <- app_assoc in H2. exact H2.
  Qed.
  Lemma tr_while G : tr (WI G [] []) (va K 0 (Some (cap "vnd.stalwart.while")) ;; e <- parse_expr K ;; push [IxWhile e umax] ;; ret (FBlock BWhile None)) FQ.
  Proof.
    apply tr_va; [auto|intros _]. apply tr_skip; [auto|intro; apply pc_expr|intro e].
    eapply tr_bind with (Mid := fun _ => FQ (FBlock BWhile None)); [|intros _; now apply tr_ret].
    apply tr_modify. intros s [H Hc]. split; [discriminate|]. exists G, []. split; [|congruence].
    cbn [w_c p_c emit with_code c_code hpend]. rewrite app_length. cbn [length]. rewrite Nat.add_sub.
    apply (wi_later G [] [] s PWhile); [exact H|reflexivity|]. constructor; [exact Hc|constructor].
  Qed.

  Definition go_on (w : text) : bool := oneof ["elsif"; "else"] w.
  Lemma word_not n w : word n w = true -> go_on (lit n) = false -> go_on w = false.
  Proof. unfold word. intros H E. apply teqb_spec in H. now rewrite H. Qed.

  Lemma tr_command G l w : (l <> [] -> go_on w = true) -> tr (WI G [] l) (command K FU w) FQ.
  Proof.
    intro Hl.
    assert (L : forall n, word n w = true -> go_on (lit n) = false -> l = []).
    { intros n Hw Hg. pose proof (word_not _ _ Hw Hg) as X. destruct l; [reflexivity|]. rewrite Hl in X; discriminate. }
    unfold command.
    destruct (word "require" w) eqn:Ew; [rewrite (L _ Ew eq_refl)|clear Ew].
    { intros s0 f s1 H E. assert (X : f = FEnd /\ WI G [] [] s1); [|destruct X as [-> X]; now exists G]. refine (tr_require G (p_caps s0) _ _ _ _ E). destruct H as [H B]. unfold RI.
      pose proof (ci_caps _ _ _ _ _ H) as F. unfold blocks in F. inversion F as [|? b ? bs F1 F2 Q1 Q2]; subst.
      exists b, []. split; [reflexivity|]. split; [reflexivity|]. split; [intros x []|]. rewrite Q2. auto. }
    destruct (word "if" w) eqn:Ew; [rewrite (L _ Ew eq_refl)|clear Ew].
    { eapply tr_bind; [apply tr_parse_test|]. intro u; cbv beta.
      eapply tr_bind with (Mid := fun _ => FQ (FBlock BIf None)); [|intros _; now apply tr_ret].
      apply tr_modify. intros s H. split; [discriminate|]. exists G, []. split; [|congruence].
      replace (w_c (with_blk (with_if [] (c_blk (p_c s))) (p_c s)) s) with s; [exact H|]. destruct H as [_ B].
      destruct s as [lx c v m cp mm pr]. cbn in *. destruct c as [code b stk la inc]. cbn in *. destruct b. cbn in *. now subst. }
    destruct (word "elsif" w) eqn:Ee.
    { apply tr_get. intro la. destruct la; try apply tr_fail.
      all: eapply tr_pre; [intros s [H _]; exact H|]; eapply tr_bind; [apply tr_parse_test|]; intro u; cbv beta; apply tr_ret;
        intros s H; split; [discriminate|]; exists G, l; split; [exact H|auto]. }
    destruct (word "else" w) eqn:Es.
    { apply tr_get. intro la. destruct la; try apply tr_fail.
      all: apply tr_ret; intros s [H _]; split; [discriminate|]; exists G, l; split; [exact H|auto]. }
    assert (l = []) as ->. { destruct l; [reflexivity|]. unfold go_on, oneof in Hl. cbn [existsb] in Hl. rewrite Ee, Es in Hl. discriminate Hl. congruence. }
    clear L Hl. destruct (word "foreverypart" w); [apply tr_foreverypart|]. destruct (word "break" w); [apply tr_break|].
    destruct (word "vacation" w); [apply tr_vacation|].
    destruct (word "include" w). { apply tr_get. intro n. eapply tr_pre; [intros s [H _]; exact H|]. apply tr_include. }
    destruct (word "return" w); [apply tr_return|].
    destruct (word "global" w).
    { apply tr_va; [auto|intros _]. eapply tr_pre; [intros s [H _]; exact H|]. apply tr_va; [auto|intros _].
      eapply tr_pre; [intros s [H _]; exact H|]. apply tr_skip; [auto|intro; apply pc_static_strings|intro x].
      apply tr_skip; [auto|intro; apply pc_globals|intros _]. apply tr_ret. apply fq_end. }
    destruct (word "while" w); [apply tr_while|]. destruct (word "continue" w); [apply tr_continue|].
    destruct (find_word w (commands K FU)) as [[c m]|] eqn:Ef.
    - apply tr_simple. intros cs Hc. eapply ok_command; eauto.
    - eapply tr_bind; [apply tr_unknown|]. intro u. apply tr_ret. intros s H. exists G. exact H.
  Qed.
End Main.
