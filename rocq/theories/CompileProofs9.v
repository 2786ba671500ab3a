(** Jumps of compiled scripts, for every sequence of tokens: commands. *)
From Coq Require Import Lia.
From Verif Require Import Base Lib Address Var Value Flags Comparator Message EditHeader Expr Event
  Notify Vacation Mime Sieve Run RunSpec Compile CompileSpec CompileProofs8.

Section Commands.
  Variable umax : nat.
  Variable lim : limits.

  Lemma pends_start n b stk : pends (with_start n b) stk = pends b stk.
  Proof. destruct stk; reflexivity. Qed.
  Lemma chain_start n b stk : chain (with_start n b) stk <-> chain b stk.
  Proof. destruct stk; reflexivity. Qed.

  Lemma open_inv t l s s' r : t <> BNot ->
    Inv (hpend t (length (c_code s) - 1) ++ pends (c_blk s) (c_stack s)) (c_code s) -> chain (c_blk s) (c_stack s) ->
    (b_if (c_blk s) <> [] -> t = BElsIf \/ t = BElse) ->
    open lim t l s = Some s' -> SI r s'.
  Proof.
    intros Nt I C B H. unfold open in H. destruct (Nat.ltb _ _); [|discriminate]. injection H as <-.
    constructor; cbn [c_code c_blk c_stack].
    - rewrite pends_eq. cbn [bpend new_blk b_if b_break map app b_type with_start b_start]. now rewrite pends_start.
    - cbn [chain new_blk b_break b_type with_start b_if]. split; [congruence|]. split; [exact B|]. now apply chain_start.
    - cbn. congruence.
  Qed.

  Lemma test_then_inv t r s r' s' : t = BIf \/ t = BElsIf -> Forall token_ok r ->
    Inv (pends (c_blk s) (c_stack s)) (c_code s) -> chain (c_blk s) (c_stack s) ->
    (b_if (c_blk s) <> [] -> t = BElsIf) ->
    test_then umax lim t r s = Some (r', s') -> SI r' s' /\ Forall token_ok r'.
  Proof.
    intros T F I C B H. unfold test_then in H.
    destruct (parse_test _ _ _ _ _ _ _ _) as [| |code r1] eqn:P; try discriminate.
    destruct r1 as [|[] r1]; try discriminate. destruct (open _ _ _ _) as [s1|] eqn:O; [|discriminate]. injection H as <- <-.
    apply (parse_inv umax lim _ _ _ _ _ _ _ _ (pends (c_blk s) (c_stack s))) in P as (code1 & -> & I1 & F1); auto.
    inversion F1; subst. split; [|assumption].
    eapply open_inv; [| | | |exact O].
    - destruct T; subst; discriminate.
    - cbn [with_code c_code c_blk c_stack]. rewrite app_length, Nat.add_sub.
      replace (hpend t (length code1)) with [(length code1, PJz)] by (destruct T; subst; reflexivity).
      apply inv_later; [exact I1|reflexivity].
    - exact C.
    - cbn. intros X. left. auto.
  Qed.

  Lemma pend_target P code p k : Inv P code -> In (p, k) P -> target_ok code p.
  Proof.
    intros I H. destruct (iv_pend _ _ I _ _ H) as (i & N & Fi & W). split; [|split; [|exact W]].
    - apply Nat.lt_le_incl. apply nth_error_Some. congruence.
    - unfold vac. rewrite N. eapply fits_not_vac; eauto.
  Qed.

  Lemma no_break b stk : chain b stk -> is_loop b = false -> b_break b = [].
  Proof. destruct stk; intros [H _] L; destruct (b_break b); auto; rewrite H in L by discriminate; discriminate. Qed.


  Lemma close_inv clear r s s' : (match clear with Some i => harmless i | None => True end) ->
    Inv (pends (c_blk s) (c_stack s)) (c_code s) -> chain (c_blk s) (c_stack s) -> b_if (c_blk s) = [] ->
    close umax clear r s = Some s' -> SI r s'.
  Proof.
    intros Hc I C B H. unfold close in H. destruct (c_stack s) as [|prev stk] eqn:St; [discriminate|].
    set (code := c_code s ++ match clear with Some i => [i] | None => [] end) in *.
    assert (I1 : Inv (pends (c_blk s) (prev :: stk)) code).
    { unfold code. destruct clear; [now apply inv_harmless|now rewrite app_nil_r]. }
    clearbody code. clear I. rewrite pends_eq in I1.
    pose proof C as [C0 [C1 C2]]. assert (NB := no_break _ _ C). unfold bpend in I1. rewrite B in I1. cbn [app] in I1.
    assert (LoopCase : forall k i, hpend (b_type (c_blk s)) (b_start prev) = [(b_start prev, k)] ->
       b_type (c_blk s) <> BElsIf /\ b_type (c_blk s) <> BElse -> i = put k ->
       forall s1, s1 = {| c_code := patch (to_jmp (length (code ++ [IxJmp (b_start prev)]))) (b_break (c_blk s))
           (update (b_start prev) (i (length (code ++ [IxJmp (b_start prev)]))) (code ++ [IxJmp (b_start prev)]));
         c_blk := prev; c_stack := stk; c_last := BNot; c_includes := c_includes s |} -> SI r s1).
    { intros k i Hp Nt -> s1 ->. rewrite Hp in I1. cbn [app] in I1.
      assert (T0 : target_ok code (b_start prev)) by (eapply pend_target; [exact I1|]; apply in_app_iff; right; now left).
      assert (I2 := inv_snoc _ _ (IxJmp (b_start prev)) I1 eq_refl ltac:(cbn; intros t [<-|[]]; now left)).
      assert (PB : forall p, In p (b_break (c_blk s)) -> patchable (code ++ [IxJmp (b_start prev)]) PJmp p).
      { intros p Ip. eapply pend_patchable; [exact I2|]. apply in_app_iff. left. apply in_map_iff. eauto. }
      assert (PS : patchable (code ++ [IxJmp (b_start prev)]) k (b_start prev)).
      { eapply pend_patchable; [exact I2|]. apply in_app_iff. right. now left. }
      remember (code ++ [IxJmp (b_start prev)]) as code2.
      constructor; cbn [c_code c_blk c_stack].
      - change (to_jmp (length code2)) with (put PJmp (length code2)).
        apply (inv_patch PJmp (length code2) (b_break (c_blk s)) (map (fun p => (p, PJmp)) (b_break (c_blk s)) ++ pends prev stk)).
        + apply (inv_update _ _ code2 (b_start prev) k (length code2) I2); auto.
          * apply target_end.
          * intros x. rewrite !in_app_iff. cbn [In]. tauto.
          * intros x. rewrite !in_app_iff. cbn [In]. intros [X|[<-|X]]; auto.
        + apply Forall_forall. intros p Ip. apply patchable_update. auto.
        + pose proof (target_end code2) as (X & Y & Z). split; [rewrite update_length; exact X|]. now rewrite !vac_update.
        + intros x. rewrite in_app_iff. auto.
        + intros x. rewrite in_app_iff. intros [X|X]; auto. apply in_map_iff in X as (p & <- & Ip). auto.
      - exact C2.
      - intros X. destruct (C1 X) as [Q|Q]; tauto. }
    assert (PI : forall p, In p (b_if prev) -> In (p, PJmp) (pends prev stk)).
    { intros p Ip. rewrite pends_eq. apply in_app_iff. left. apply in_bpend. auto. }
    assert (WI : forall x l, In x (pends (with_if l prev) stk) <-> (In (fst x) l /\ snd x = PJmp) \/
       (In (fst x) (b_break prev) /\ snd x = PJmp) \/ In x (match stk with [] => [] | p2 :: stk' => hpend (b_type prev) (b_start p2) ++ pends p2 stk' end)).
    { intros x l. rewrite pends_eq, in_app_iff, in_bpend. cbn [with_if b_if b_break b_type]. tauto. }
    assert (W0 : forall x, In x (pends prev stk) <-> (In (fst x) (b_if prev) /\ snd x = PJmp) \/
       (In (fst x) (b_break prev) /\ snd x = PJmp) \/ In x (match stk with [] => [] | p2 :: stk' => hpend (b_type prev) (b_start p2) ++ pends p2 stk' end)).
    { intros x. rewrite pends_eq, in_app_iff, in_bpend. tauto. }
    assert (CW : forall l, chain (with_if l prev) stk <-> chain prev stk) by (intros l; destruct stk; reflexivity).
    assert (IfCase : forall t, b_type (c_blk s) = t -> t = BIf \/ t = BElsIf ->
       match r with
       | KElsIf :: _ | KElse :: _ =>
           let prev := with_if (b_if prev ++ [length code]) prev in
           let code := code ++ [IxJmp umax] in
           Some {| c_code := update (b_start prev) (to_jz (length code)) code; c_blk := prev; c_stack := stk; c_last := t; c_includes := c_includes s |}
       | _ =>
           let cur := length code in
           Some {| c_code := patch (to_jmp cur) (b_if prev) (update (b_start prev) (to_jz cur) code);
                   c_blk := with_if [] prev; c_stack := stk; c_last := BNot; c_includes := c_includes s |}
       end = Some s' -> SI r s').
    { intros t Tt Ti X.
      assert (Hp : hpend (b_type (c_blk s)) (b_start prev) = [(b_start prev, PJz)]) by (rewrite Tt; destruct Ti as [Q|Q]; rewrite Q; reflexivity).
      rewrite Hp in I1. rewrite NB in I1 by (unfold is_loop; rewrite Tt; destruct Ti as [Q|Q]; rewrite Q; reflexivity). cbn [map app] in I1.
      assert (GO : goes_on r = true \/ goes_on r = false) by (destruct (goes_on r); auto).
      destruct GO as [GO|GO].
      - assert (Y : s' = {| c_code := update (b_start prev) (to_jz (length (code ++ [IxJmp umax]))) (code ++ [IxJmp umax]);
          c_blk := with_if (b_if prev ++ [length code]) prev; c_stack := stk; c_last := t; c_includes := c_includes s |}).
        { destruct r as [|[] r]; try discriminate GO; injection X as <-; reflexivity. }
        subst s'. assert (I2 := inv_later _ _ PJmp (IxJmp umax) I1 eq_refl).
        constructor; cbn [c_code c_blk c_stack].
        + apply (inv_update _ _ (code ++ [IxJmp umax]) (b_start prev) PJz _ I2).
          * eapply pend_patchable; [exact I2|]. right. now left.
          * apply target_end.
          * intros x. rewrite WI, in_app_iff. cbn [In]. rewrite W0. intros [[[Q|[Q|[]]] K]|Q]; try tauto.
            left. destruct x. cbn in *. congruence.
          * intros x. rewrite WI, in_app_iff. cbn [In]. rewrite W0. intros [<-|[<-|Q]]; cbn; auto 6. tauto.
        + now apply CW.
        + intros _. exact GO.
      - assert (Y : s' = {| c_code := patch (to_jmp (length code)) (b_if prev) (update (b_start prev) (to_jz (length code)) code);
          c_blk := with_if [] prev; c_stack := stk; c_last := BNot; c_includes := c_includes s |}).
        { destruct r as [|[] r]; try discriminate GO; injection X as <-; reflexivity. }
        subst s'. constructor; cbn [c_code c_blk c_stack].
        + change (to_jmp (length code)) with (put PJmp (length code)).
          apply (inv_patch PJmp (length code) (b_if prev) (pends prev stk)).
          * apply (inv_update _ _ code (b_start prev) PJz _ I1).
            -- eapply pend_patchable; [exact I1|]. now left.
            -- apply target_end.
            -- intros x. now right.
            -- intros x [<-|Q]; auto.
          * apply Forall_forall. intros p Ip. apply (patchable_update code PJmp p PJz). eapply pend_patchable; [exact I1|]. right. auto.
          * change (to_jz (length code)) with (put PJz (length code)). pose proof (target_end code) as (X1 & Y & Z). split; [rewrite update_length; exact X1|]. now rewrite !vac_update.
          * intros x. rewrite WI, W0. cbn. tauto.
          * intros x. rewrite WI, W0. cbn. tauto.
        + now apply CW.
        + cbn. congruence. }
    destruct (b_type (c_blk s)) eqn:Tb.
    - (* not *)
      injection H as <-. rewrite NB in I1 by (unfold is_loop; now rewrite Tb). constructor; cbn [c_code c_blk c_stack]; auto.
      intros X. destruct (C1 X); discriminate.
    - exact (IfCase _ eq_refl (or_introl eq_refl) H).
    - exact (IfCase _ eq_refl (or_intror eq_refl) H).
    - (* else *)
      injection H as <-. rewrite NB in I1 by (unfold is_loop; now rewrite Tb). cbn [map app hpend] in I1.
      constructor; cbn [c_code c_blk c_stack].
      + change (to_jmp (length code)) with (put PJmp (length code)).
        apply (inv_patch PJmp (length code) (b_if prev) (pends prev stk)); auto.
        * apply Forall_forall. intros p Ip. eapply pend_patchable; [exact I1|]. auto.
        * apply target_end.
        * intros x. rewrite WI, W0. cbn. tauto.
        * intros x. rewrite WI, W0. cbn. tauto.
      + now apply CW.
      + cbn. congruence.
    - injection H as H. apply (LoopCase PFor to_for); auto. split; discriminate.
    - injection H as H. apply (LoopCase PWhile to_while); auto. split; discriminate.
  Qed.

  Lemma blocks_inv bs s P code (x : nat * pk) : bs <> [] -> (forall y, In y (lpends bs) <-> In y (lpends (blocks s)) \/ y = x) ->
    Inv (x :: pends (c_blk s) (c_stack s)) code -> P = pends (c_blk (with_blocks bs s)) (c_stack (with_blocks bs s)) -> Inv P code.
  Proof.
    intros N A I ->. eapply inv_weaken; [exact I|]. intros y. cbn [In].
    destruct bs as [|b stk]; [congruence|]. cbn [with_blocks c_blk c_stack]. specialize (A y). cbn [lpends blocks] in A. rewrite A. intuition.
  Qed.

  Lemma break_inv l r s s' : Inv (pends (c_blk s) (c_stack s)) (c_code s) -> chain (c_blk s) (c_stack s) ->
    b_if (c_blk s) = [] -> do_break umax l s = Some s' -> SI r s'.
  Proof.
    intros I C B H. unfold do_break in H. destruct l as [n|].
    - destruct (find_label n 0 _ (blocks s)) as [[pops bs]|] eqn:Fi; [|discriminate]. injection H as <-.
      apply find_label_spec in Fi as (A & D & T). cbn [blocks] in T. destruct bs as [|b1 bs]; [destruct T|]. destruct T as (_ & T & _).
      specialize (D C). cbn [lchain] in D.
      assert (I1 := inv_snoc _ _ (IxForEveryPartPop pops) I eq_refl ltac:(intros t [])).
      assert (I2 := inv_later _ _ PJmp (IxJmp umax) I1 eq_refl).
      constructor; cbn [emit with_code with_blocks c_code c_blk c_stack].
      + replace (c_code s ++ [IxForEveryPartPop pops; IxJmp umax]) with ((c_code s ++ [IxForEveryPartPop pops]) ++ [IxJmp umax]) by (now rewrite <- app_assoc).
        eapply (blocks_inv (b1 :: bs) s); [discriminate| |exact I2|reflexivity]. rewrite app_length. exact A.
      + exact D.
      + congruence.
    - destruct (find_loop _ (blocks s)) as [[f bs]|] eqn:Fi; [|discriminate]. injection H as <-.
      apply find_loop_spec in Fi as (A & D & T). cbn [blocks] in T. destruct bs as [|b1 bs]; [destruct T|]. destruct T as (_ & T & _).
      specialize (D C). cbn [lchain] in D.
      constructor; cbn [emit with_code with_blocks c_code c_blk c_stack]; [|exact D|congruence].
      destruct f; cbn [app].
      + assert (I1 := inv_snoc _ _ (IxForEveryPartPop 1) I eq_refl ltac:(intros t [])).
        assert (I2 := inv_later _ _ PJmp (IxJmp umax) I1 eq_refl).
        replace (c_code s ++ [IxForEveryPartPop 1; IxJmp umax]) with ((c_code s ++ [IxForEveryPartPop 1]) ++ [IxJmp umax]) by (now rewrite <- app_assoc).
        eapply (blocks_inv (b1 :: bs) s); [discriminate| |exact I2|reflexivity]. rewrite app_length. exact A.
      + assert (I2 := inv_later _ _ PJmp (IxJmp umax) I eq_refl).
        eapply (blocks_inv (b1 :: bs) s); [discriminate| |exact I2|reflexivity]. exact A.
  Qed.

  Lemma require_inv P p caps code : Inv P code ->
    Inv P (update p (fun i => match i with IxRequire l => IxRequire (l ++ caps) | _ => i end) code).
  Proof.
    set (f := fun i => match i with IxRequire l => IxRequire (l ++ caps) | _ => i end). intros [A B C].
    assert (V : forall q, vac (update p f code) q = vac code q).
    { intros q. unfold vac. rewrite nth_update. destruct (Nat.eqb q p); [|reflexivity]. destruct (nth_error code q) as [i|]; [|reflexivity]. now destruct i. }
    assert (N : forall q i, nth_error code q = Some i -> (match i with IxRequire _ => False | _ => True end) -> nth_error (update p f code) q = Some i).
    { intros q i Hq Hi. rewrite nth_update, Hq. destruct (Nat.eqb q p); [|reflexivity]. cbn. now destruct i. }
    constructor.
    - intros j i t Nj It. assert (Nj' : exists i', nth_error code j = Some i' /\ In t (targets i')).
      { rewrite nth_update in Nj. destruct (Nat.eqb j p); [|eauto]. destruct (nth_error code j) as [i'|]; [|discriminate]. injection Nj as <-.
        exists i'. split; [reflexivity|]. destruct i'; exact It. }
      destruct Nj' as (i' & Nj' & It'). destruct (A j i' t Nj' It') as [(X & Y & Z)|]; [left|now right].
      split; [now rewrite update_length|]. now rewrite !V.
    - intros q k H. destruct (B q k H) as (i & Nq & Fi & W). exists i. split; [|now rewrite V]. apply N; [exact Nq|]. destruct k, i; try discriminate; exact Logic.I.
    - intros q W. rewrite V in W. destruct (C q W) as (a & j & -> & N1 & VT & N2). exists a, j. split; [reflexivity|].
      split; [apply N; [exact N1|destruct j; try discriminate; exact Logic.I]|]. split; [exact VT|]. apply N; [exact N2|exact Logic.I].
  Qed.

  Lemma command_inv t r s r' s' : SI (t :: r) s -> Forall token_ok (t :: r) -> command umax lim t r s = Some (r', s') ->
    SI r' s' /\ Forall token_ok r'.
  Proof.
    intros [I C B] F H. inversion F as [|? ? Ft Fr]; subst.
    assert (B0 : goes_on (t :: r) = false -> b_if (c_blk s) = []).
    { intros G. destruct (b_if (c_blk s)); [reflexivity|]. rewrite B in G by discriminate. discriminate. }
    destruct t; cbn [command] in H; try discriminate.
    - (* if *)
      rewrite <- (B0 eq_refl) in H.
      eapply test_then_inv; [left; reflexivity|exact Fr| | | |exact H]; cbn [with_blk c_blk c_stack c_code].
      + replace (with_if (b_if (c_blk s)) (c_blk s)) with (c_blk s) by (now destruct (c_blk s)). exact I.
      + replace (with_if (b_if (c_blk s)) (c_blk s)) with (c_blk s) by (now destruct (c_blk s)). exact C.
      + cbn. rewrite (B0 eq_refl). congruence.
    - destruct (c_last s); try discriminate; (eapply test_then_inv; [right; reflexivity|exact Fr| | | |exact H]; auto).
    - assert (X : exists r1 s1, r = KOpen :: r1 /\ open lim BElse None s = Some s1 /\ r' = r1 /\ s' = s1).
      { destruct (c_last s); try discriminate; (destruct r as [|[] r]; try discriminate); (destruct (open lim BElse None s); [|discriminate]);
          injection H as <- <-; eauto 6. }
      destruct X as (r1 & s1 & -> & O & -> & ->). inversion Fr; subst. split; [|assumption].
      eapply open_inv; [| | | |exact O]; [discriminate|exact I|exact C|auto].
    - (* foreverypart *)
      destruct (Nat.eqb _ _); [discriminate|].
      match type of H with (if ?x then _ else _) = _ => destruct x; [discriminate|] end.
      destruct r as [|[] r]; try discriminate. destruct (open _ _ _ _) as [s1|] eqn:O; [|discriminate]. injection H as <- <-.
      inversion Fr; subst. split; [|assumption].
      assert (I1 := inv_snoc _ _ IxForEveryPartPush I eq_refl ltac:(intros t [])).
      assert (I2 := inv_later _ _ PFor (IxForEveryPart umax) I1 eq_refl).
      eapply open_inv; [| | | |exact O]; cbn [emit with_code c_code c_blk c_stack]; [discriminate| |exact C|].
      + replace (c_code s ++ [IxForEveryPartPush; IxForEveryPart umax]) with ((c_code s ++ [IxForEveryPartPush]) ++ [IxForEveryPart umax]) by (now rewrite <- app_assoc).
        rewrite (app_length (c_code s ++ [IxForEveryPartPush])). cbn [length]. rewrite Nat.add_sub. exact I2.
      + rewrite (B0 eq_refl). congruence.
    - (* while *)
      destruct r as [|[] r]; try discriminate. destruct (open _ _ _ _) as [s1|] eqn:O; [|discriminate]. injection H as <- <-.
      inversion Fr; subst. split; [|assumption].
      assert (I2 := inv_later _ _ PWhile (IxWhile e umax) I eq_refl).
      eapply open_inv; [| | | |exact O]; cbn [emit with_code c_code c_blk c_stack]; [discriminate| |exact C|].
      + rewrite app_length. cbn [length]. rewrite Nat.add_sub. exact I2.
      + rewrite (B0 eq_refl). congruence.
    - destruct (do_break umax label s) as [s1|] eqn:D; [|discriminate]. injection H as <- <-. split; [|exact Fr].
      eapply break_inv; eauto.
    - destruct (do_continue 0 (blocks s)) as [m is] eqn:D. destruct m as [|[|[|m]]]; try discriminate. injection H as <- <-. split; [|exact Fr].
      assert (X : is = [] \/ exists b, is = [IxJmp (b_start b)] /\ In (b_start b, PWhile) (pends (c_blk s) (c_stack s))).
      { cbn [blocks do_continue] in D. destruct (b_type (c_blk s)) eqn:Tb.
        all: apply (do_continue_spec _ _ (c_blk s)) in D; auto; congruence. }
      constructor; cbn [emit with_code c_code c_blk c_stack]; [|exact C|intros Y; now rewrite (B0 eq_refl) in Y].
      destruct X as [->|(b & -> & Ib)]; [now rewrite app_nil_r|].
      apply inv_snoc; auto. cbn. intros t [<-|[]]. left. eapply pend_target; eauto.
    - injection H as <- <-. split; [|exact Fr]. unfold do_return.
      constructor; cbn [emit with_code c_code c_blk c_stack]; [|exact C|intros Y; now rewrite (B0 eq_refl) in Y].
      destruct (length (filter is_for (blocks s))) as [|m]; cbn [app].
      + apply inv_snoc; auto. intros t [].
      + replace (c_code s ++ [IxForEveryPartPop (S m); IxReturn]) with ((c_code s ++ [IxForEveryPartPop (S m)]) ++ [IxReturn]) by (now rewrite <- app_assoc).
        apply inv_snoc; auto; [|intros t []]. apply inv_snoc; auto. intros t [].
    - destruct (Nat.ltb _ _); [|discriminate]. injection H as <- <-. split; [|exact Fr].
      constructor; cbn [c_code c_blk c_stack]; [|exact C|intros Y; now rewrite (B0 eq_refl) in Y]. now apply inv_harmless.
    - injection H as <- <-. split; [|exact Fr]. unfold do_require. destruct caps as [|cp caps].
      + constructor; auto; intros Y; now rewrite (B0 eq_refl) in Y.
      + destruct (b_require (c_blk s)) as [p|].
        * constructor; cbn [with_code c_code c_blk c_stack]; [now apply require_inv|exact C|intros Y; now rewrite (B0 eq_refl) in Y].
        * constructor; cbn [emit with_code with_blk c_code c_blk c_stack].
          -- replace (pends (with_require (length (c_code s)) (c_blk s)) (c_stack s)) with (pends (c_blk s) (c_stack s)) by (destruct (c_stack s); reflexivity).
             apply inv_snoc; auto. intros t [].
          -- destruct (c_stack s); exact C.
          -- cbn. intros Y; now rewrite (B0 eq_refl) in Y.
    - injection H as <- <-. split; [|exact Fr].
      constructor; cbn [emit with_code c_code c_blk c_stack]; [|exact C|intros Y; now rewrite (B0 eq_refl) in Y]. now apply inv_harmless.
    - injection H as <- <-. split; [|exact Fr]. constructor; auto; intros Y; now rewrite (B0 eq_refl) in Y.
    - injection H as <- <-. split; [|exact Fr]. destruct Ft as [F1 F2].
      constructor; cbn [emit with_code c_code c_blk c_stack]; [|exact C|intros Y; now rewrite (B0 eq_refl) in Y]. now apply inv_vacation.
    - destruct (close umax clear r s) as [s1|] eqn:D; [|discriminate]. injection H as <- <-. split; [|exact Fr].
      eapply close_inv; eauto.
  Qed.

  Lemma go_inv f : forall r s s', SI r s -> Forall token_ok r -> go umax lim f r s = COk s' -> SI [] s' /\ c_stack s' = [].
  Proof.
    induction f as [|f IH]; intros [|t r] s s' I F H; cbn [go] in H; try discriminate.
    - destruct (c_stack s) eqn:E; [|discriminate]. injection H as <-. auto.
    - destruct (c_stack s) eqn:E; [|discriminate]. injection H as <-. auto.
    - destruct (command umax lim t r s) as [[r1 s1]|] eqn:D; [|discriminate].
      destruct (command_inv _ _ _ _ _ I F D) as [I1 F1]. eauto.
  Qed.

  Lemma compile_inv r code : Forall token_ok r -> compile umax lim r = Some code -> Inv [] code.
  Proof.
    unfold compile. intros F H. destruct (go umax lim (length r) r start) as [| |s] eqn:G; try discriminate. injection H as <-.
    assert (I0 : SI r start).
    { constructor; cbn; try congruence.
      - constructor; cbn.
        + intros [|j] i t X; discriminate.
        + intros p k [].
        + intros p X. unfold vac in X. destruct p; discriminate.
      - split; [congruence|reflexivity]. }
    destruct (go_inv _ _ _ _ I0 F G) as [[I C B] St]. rewrite St in *. cbn [pends] in I. rewrite app_nil_r in I.
    destruct C as [C1 C2]. unfold bpend in I.
    destruct (b_if (c_blk s)); [|specialize (B ltac:(discriminate)); discriminate].
    destruct (b_break (c_blk s)); [exact I|]. specialize (C1 ltac:(discriminate)). unfold is_loop in C1. rewrite C2 in C1. discriminate.
  Qed.

  Theorem compiled_jumps r code x : Forall token_ok r -> compile umax lim r = Some code -> s_code x = code ->
    jumps_inside x /\ guarded x.
  Proof.
    intros F H Q. destruct (compile_inv r code F H) as [A B C]. unfold jumps_inside, guarded. rewrite Q. split.
    - intros i p I T. apply In_nth_error in I as [j N]. destruct (A j i p N T) as [[X _]|[k []]]. exact X.
    - intros p i N V. assert (W : vac code p = true) by (unfold vac; now rewrite N).
      destruct (C p W) as (q & j & -> & N1 & VT & N2). exists q, j. repeat split; auto.
      + intros ->. apply In_nth_error in H0 as [j2 N3]. destruct (A j2 k (q + 1) N3 H1) as [(_ & _ & X)|[k2 []]].
        replace (q + 1 + 1) with (q + 2) in X by lia. congruence.
      + intros ->. apply In_nth_error in H0 as [j2 N3]. destruct (A j2 k (q + 2) N3 H1) as [(_ & X & _)|[k2 []]]. congruence.
  Qed.
End Commands.
