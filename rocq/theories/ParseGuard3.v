(** The end of a block keeps the regions of the [require]s: those of the block end. *)
From Coq Require Import Lia.
From Verif Require Import Base Lib Address Var Value SetVar Flags Comparator Message EditHeader
  Expr ExprTok Event Notify AddrTest Vacation Mime Sieve Utf8 Lexer Scope StringTok Run RunSpec Compile CompileSpec ParseArgs ParseBase
  Parse ParseSpec CompileProofs8 CompileProofs9 ParseCaps1 ParseGuard1 ParseGuard2.
Import ListNotations.

Section Close.
  Variable nocheck : bool.
  Variable umax : nat.
  Notation CI := (CI nocheck).

  Definition ended (e : nat) (b : blk) : list region := map (fun q => (q, Some e)) (req_of b).
  Lemma opens_cons b bs : opens (b :: bs) = map (fun q => (q, None)) (req_of b) ++ opens bs.
  Proof. unfold opens, reqs. cbn [flat_map]. apply map_app. Qed.
  Lemma rg_end_block b bs G P code : RG nocheck (opens (b :: bs) ++ G) P code -> RG nocheck (opens bs ++ ended (length code) b ++ G) P code.
  Proof.
    intro H. eapply rg_close; [exact H|..]; rewrite opens_cons.
    - intros r. rewrite !in_app_iff. intros [X|[X|X]]; auto. right. unfold ended in X. apply in_map_iff in X as (q & <- & Iq). exists q.
      split; [reflexivity|]. rewrite !in_app_iff. left. left. apply in_map_iff. eauto.
    - intros r. rewrite !in_app_iff. intros [[X|X]|X]; auto. right. apply in_map_iff in X as (q & <- & Iq). split; [reflexivity|]. right. left.
      apply in_map_iff. cbn. eauto.
  Qed.

  (** What is left to show once the code is known. *)
  Lemma ci_fin G b prev prev' stk c caps s' code : CI G [] c caps -> c_blk c = b -> c_stack c = prev :: stk ->
    c_code s' = code -> c_blk s' = prev' -> c_stack s' = stk ->
    Inv (pends prev' stk) code -> chain prev' stk -> lv prev' stk -> req_of prev' = req_of prev ->
    (forall p k, In (p, k) (pends prev' stk) -> k <> PJmp -> In (p, k) (pends prev stk)) ->
    (exists e, e <= length code /\ RG nocheck (opens (prev' :: stk) ++ ended e b ++ G) (pends prev' stk) code) ->
    length (c_code c) <= length code ->
    (forall q l, nth_error (c_code c) q = Some (IxRequire l) -> nth_error code q = Some (IxRequire l)) ->
    exists G', CI G' [] s' (tl caps).
  Proof.
    intros H Eb Es Ec' Eb' Es' I C Lv Rq Hp (e & Le & R) Len Nx. exists (ended e b ++ G).
    pose proof (ci_lv _ _ _ _ _ H) as L0. rewrite Eb, Es in L0. rewrite lv_eq in L0. destruct L0 as (_ & _ & _ & L1 & _).
    assert (Pp : forall p k, In (p, k) (pends prev stk) -> In (p, k) (pends b (prev :: stk))).
    { intros p k Ip. rewrite (pends_eq b). apply in_app_iff. right. apply in_app_iff. now right. }
    constructor; unfold blocks; rewrite ?Ec', ?Eb', ?Es'; auto.
    - intros p k [].
    - intros r Ir. apply in_app_iff in Ir as [Ir|Ir]; [|now apply (ci_G _ _ _ _ _ H)]. apply in_map_iff in Ir as (q & <- & _). now exists e.
    - intros p k Ip Nk r Ir Hr. apply (Hp p k) in Ip; [|exact Nk]. apply in_app_iff in Ir as [Ir|Ir].
      + apply in_map_iff in Ir as (q & <- & Iq). destruct Hr as [Hr _]. cbn in Hr.
        destruct (heads_in _ _ _ _ Ip Nk) as (a & Ia & ->). pose proof (L1 a q (or_intror Ia) Iq). lia.
      + apply (ci_f _ _ _ _ _ H p k) in Hr; auto. rewrite Eb, Es. auto.
    - intros x Ix. assert (X : In x (c_stack c)) by (rewrite Es; now right). pose proof (ci_start _ _ _ _ _ H x X). lia.
    - intros q Iq. destruct (ci_req _ _ _ _ _ H q) as (l & N); [|eauto]. unfold blocks. rewrite Eb, Es. unfold reqs in *. cbn [flat_map] in *.
      rewrite Rq in Iq. apply in_app_iff. now right.
    - pose proof (ci_caps _ _ _ _ _ H) as F. unfold blocks in F. rewrite Eb, Es in F. inversion F as [|? c1 ? ? _ F1]; subst. cbn [tl].
      inversion F1 as [|? c2 ? ? F2 F3]; subst.
      assert (D : forall q x, declares (c_code c) q x -> declares (c_code s') q x). { intros q x (k & N & Ik). exists k. auto. }
      constructor.
      + rewrite Rq. intros x Ix. destruct (F2 x Ix) as (q & Iq & Dq). eauto.
      + eapply Forall2_impl; [|exact F3]. cbv beta. intros b' k X x Ix. destruct (X x Ix) as (q & Iq & Dq). eauto.
  Qed.

  Lemma ci_close G clear r c c' caps : (match clear with Some i => harmless i /\ exts i = [] | None => True end) ->
    CI G [] c caps -> b_if (c_blk c) = [] -> close umax clear r c = Some c' ->
    (exists G', CI G' [] c' (tl caps)) /\ (b_if (c_blk c') <> [] -> goes_on r = true).
  Proof.
    intros Hc H Bi E.
    assert (SIx : SI r c').
    { eapply close_inv; [| |exact (ci_chain _ _ _ _ _ H)|exact Bi|exact E]; [destruct clear; [apply Hc|exact Logic.I]|exact (ci_inv _ _ _ _ _ H)]. }
    split; [|apply SIx]. destruct SIx as [I' C' _].
    (* the variables of the block are cleared *)
    assert (H1 : CI G [] (emit (match clear with Some i => [i] | None => [] end) c) caps).
    { destruct clear as [i|]; [apply ci_emit; [exact H|apply Hc|destruct Hc as [_ ->]; apply allowed_nil]|].
      unfold emit, with_code. rewrite app_nil_r. destruct c. exact H. }
    unfold close in E. destruct (c_stack c) as [|prev stk] eqn:St; [discriminate|]. cbv zeta in E.
    set (code := c_code c ++ match clear with Some i => [i] | None => [] end) in *.
    set (c1 := emit (match clear with Some i => [i] | None => [] end) c) in *.
    assert (Ec1 : c_code c1 = code) by reflexivity. assert (Eb1 : c_blk c1 = c_blk c) by reflexivity. assert (Es1 : c_stack c1 = prev :: stk) by exact St.
    clearbody c1 code. clear H. rename H1 into H. remember (c_blk c) as b eqn:Eb. clear Eb Bi0 || idtac.
    pose proof (ci_lv _ _ _ _ _ H) as L0. rewrite Eb1, Es1 in L0. rewrite lv_eq in L0. destruct L0 as (_ & Lb & Lh & Ls & Lp).
    pose proof (ci_chain _ _ _ _ _ H) as C0. rewrite Eb1, Es1 in C0. pose proof C0 as [_ [C1 C2]]. assert (NB := no_break _ _ C0).
    pose proof (ci_rg _ _ _ _ _ H) as R0. unfold blocks in R0. rewrite Eb1, Es1, Ec1 in R0. cbn [app] in R0.
    pose proof (ci_inv _ _ _ _ _ H) as I0. rewrite Eb1, Es1, Ec1 in I0. cbn [app] in I0.
    assert (Pe : pends b (prev :: stk) = map (fun p => (p, PJmp)) (b_break b) ++ hpend (b_type b) (b_start prev) ++ pends prev stk).
    { rewrite pends_eq. unfold bpend. now rewrite Bi. }
    rewrite Pe in R0, I0.
    (* after the end of the block's regions, jumps to the end come from inside the open regions *)
    assert (ToEnd : forall n p r, (forall q, In q (reqs (prev :: stk)) -> q < p) -> length code <= n ->
              In r (opens (prev :: stk) ++ ended n b ++ G) -> within r n -> within r p).
    { intros n p r0 Hq Ln Ir Hr. apply in_app_iff in Ir as [Ir|Ir].
      - apply in_opens in Ir as (q & -> & Iq). split; [cbn; auto|exact Logic.I].
      - exfalso. apply in_app_iff in Ir as [Ir|Ir].
        + apply in_map_iff in Ir as (q & <- & _). destruct Hr as [_ Hr]. cbn in Hr. lia.
        + destruct (ci_G _ _ _ _ _ H r0 Ir) as (e & Ee). pose proof (proj2 (rg_end _ _ _ _ (ci_rg _ _ _ _ _ H) r0 (in_or_app _ _ _ (or_intror Ir)))) as Y.
          destruct Hr as [_ Hr]. rewrite Ee, Ec1 in Y. rewrite Ee in Hr. lia. }
    assert (Opens : forall l, opens (with_if l prev :: stk) = opens (prev :: stk)) by reflexivity.
    assert (Sx : forall k, hpend (b_type b) (b_start prev) = [(b_start prev, k)] -> forall q, In q (reqs (prev :: stk)) -> q < b_start prev).
    { intros k Ek q Iq. eapply Lh; [rewrite Ek; now left|exact Iq]. }
    assert (Hif : forall l p k, In (p, k) (pends (with_if l prev) stk) -> k <> PJmp -> In (p, k) (pends prev stk)).
    { intros l p k Ip Nk. rewrite pends_eq in *. apply in_app_iff in Ip as [Ip|Ip].
      - apply in_bpend in Ip as [_ Ip]. cbn in Ip. congruence.
      - apply in_app_iff. now right. }
    (* loops *)
    assert (LoopCase : forall k, hpend (b_type b) (b_start prev) = [(b_start prev, k)] -> k <> PJmp ->
       forall s1, s1 = {| c_code := patch (to_jmp (length (code ++ [IxJmp (b_start prev)]))) (b_break b)
           (update (b_start prev) (put k (length (code ++ [IxJmp (b_start prev)]))) (code ++ [IxJmp (b_start prev)]));
         c_blk := prev; c_stack := stk; c_last := BNot; c_includes := c_includes c |} -> c' = s1 -> exists G', CI G' [] c' (tl caps)).
    { intros k Hp Nk s1 Es' Ec'. subst s1.
      assert (Ik : In (b_start prev, k) (pends b (prev :: stk))). { rewrite Pe, Hp. apply in_app_iff. right. now left. }
      assert (H2 : CI G [] (emit [IxJmp (b_start prev)] c1) caps). { eapply ci_back; [exact H| |exact Nk]. rewrite Eb1, Es1. exact Ik. }
      pose proof (ci_rg _ _ _ _ _ H2) as R2. pose proof (ci_inv _ _ _ _ _ H2) as I2. unfold blocks in R2. unfold emit in R2, I2.
      cbn [emit with_code c_code c_blk c_stack app] in R2, I2. rewrite Eb1, Es1, Ec1, Pe in R2, I2.
      assert (Ln : length code <= length (code ++ [IxJmp (b_start prev)])) by (rewrite app_length; lia).
      assert (Nq : forall q l, nth_error (c_code c1) q = Some (IxRequire l) -> nth_error (code ++ [IxJmp (b_start prev)]) q = Some (IxRequire l)).
      { intros q l N. rewrite Ec1 in N. now apply req_app. }
      remember (code ++ [IxJmp (b_start prev)]) as code2 eqn:E2. clear E2.
      apply rg_end_block in R2. subst c'. cbn [c_code c_blk c_stack] in *.
      eapply (ci_fin G b prev prev stk c1 caps); try reflexivity; cbn [c_code c_blk c_stack]; eauto.
      - exists (length code2). split; [rewrite patch_length, update_length; lia|].
        apply (rg_patch nocheck _ PJmp (length code2) (b_break b) (map (fun p => (p, PJmp)) (b_break b) ++ pends prev stk)).
        + eapply rg_update; [exact R2|..].
          * intros r0 Ir Hr. eapply ToEnd; eauto.
          * eapply pend_fits; [exact I2|]. rewrite Hp. apply in_app_iff. right. now left.
          * intros x. rewrite Hp, !in_app_iff. cbn [In app]. intros [X|[[<-|[]]|X]]; auto.
        + intros p r0 Ip Ir Hr. eapply ToEnd; eauto.
        + intros p Ip. rewrite fits_update. eapply pend_fits; [exact I2|]. apply in_app_iff. left. apply in_map_iff. eauto.
        + intros x. rewrite in_app_iff. intros [X|X]; auto. apply in_map_iff in X as (p & <- & Ip). auto.
      - rewrite patch_length, update_length, Ec1. exact Ln.
      - intros q l N. apply (req_patch PJmp). rewrite nth_update. rewrite (Nq _ _ N). destruct (Nat.eqb q (b_start prev)); [|reflexivity].
        destruct k; reflexivity. }
    (* if and elsif *)
    assert (IfCase : forall t, b_type b = t -> t = BIf \/ t = BElsIf ->
       match r with
       | KElsIf :: _ | KElse :: _ =>
           Some {| c_code := update (b_start prev) (to_jz (length (code ++ [IxJmp umax]))) (code ++ [IxJmp umax]);
                   c_blk := with_if (b_if prev ++ [length code]) prev; c_stack := stk; c_last := t; c_includes := c_includes c |}
       | _ =>
           Some {| c_code := patch (to_jmp (length code)) (b_if prev) (update (b_start prev) (to_jz (length code)) code);
                   c_blk := with_if [] prev; c_stack := stk; c_last := BNot; c_includes := c_includes c |}
       end = Some c' -> exists G', CI G' [] c' (tl caps)).
    { intros t Tt Ti X.
      assert (Hp : hpend (b_type b) (b_start prev) = [(b_start prev, PJz)]) by (rewrite Tt; destruct Ti as [Q|Q]; rewrite Q; reflexivity).
      assert (Nb : b_break b = []) by (apply NB; unfold is_loop; rewrite Tt; destruct Ti as [Q|Q]; rewrite Q; reflexivity).
      rewrite Hp, Nb in R0, I0. cbn [map app] in R0, I0.
      assert (GO : goes_on r = true \/ goes_on r = false) by (destruct (goes_on r); auto). destruct GO as [GO|GO].
      - assert (Y : c' = {| c_code := update (b_start prev) (to_jz (length (code ++ [IxJmp umax]))) (code ++ [IxJmp umax]);
          c_blk := with_if (b_if prev ++ [length code]) prev; c_stack := stk; c_last := t; c_includes := c_includes c |}).
        { destruct r as [|[] r]; try discriminate GO; injection X as <-; reflexivity. }
        assert (Lq : forall q, In q (reqs (prev :: stk)) -> q < length code).
        { intros q Iq. rewrite <- Ec1. eapply req_len; [exact H|]. unfold blocks. rewrite Eb1, Es1. unfold reqs in *. cbn [flat_map] in *.
          apply in_app_iff. now right. }
        assert (R2 : RG nocheck (opens (b :: prev :: stk) ++ G) ((length code, PJmp) :: (b_start prev, PJz) :: pends prev stk) (code ++ [IxJmp umax])).
        { apply rg_snoc.
          - eapply rg_weaken; [exact R0|]. intros x Ix. now right.
          - intros _ x [].
          - intros x _. left. exists PJmp. now left. }
        assert (Fz : fits PJz (nth (b_start prev) (code ++ [IxJmp umax]) IxStop) = true).
        { pose proof (inv_later _ _ PJmp (IxJmp umax) I0 eq_refl) as I2. eapply pend_fits; [exact I2|]. right. now left. }
        assert (Ln : length code <= length (code ++ [IxJmp umax])) by (rewrite app_length; lia).
        assert (Nq : forall q l, nth_error (c_code c1) q = Some (IxRequire l) -> nth_error (code ++ [IxJmp umax]) q = Some (IxRequire l)).
        { intros q l N. rewrite Ec1 in N. now apply req_app. }
        remember (code ++ [IxJmp umax]) as code2 eqn:E2. clear E2.
        apply rg_end_block in R2. subst c'. cbn [c_code c_blk c_stack] in *.
        eapply (ci_fin G b prev _ stk c1 caps); try reflexivity; cbn [c_code c_blk c_stack]; eauto.
        + apply lv_if; [exact Lp|]. intros p q Ip Iq. apply in_app_iff in Ip as [Ip|[<-|[]]]; [|now apply Lq].
          pose proof Lp as Lp'. rewrite lv_eq in Lp'. destruct Lp' as (Y & _). exact (Y p q Ip Iq).
        + exists (length code2). split; [rewrite update_length; lia|]. rewrite Opens. change (to_jz (length code2)) with (put PJz (length code2)).
          eapply rg_update; [exact R2|..].
          * intros r0 Ir Hr. eapply ToEnd; eauto.
          * exact Fz.
          * assert (PP : forall p k, In (p, k) (pends prev stk) -> In (p, k) (pends (with_if (b_if prev ++ [length code]) prev) stk)).
            { intros p k Ip. rewrite pends_eq in *. apply in_app_iff in Ip as [Ip|Ip]; apply in_app_iff; [left|now right].
              apply in_bpend in Ip. apply in_bpend. cbn [with_if b_if b_break]. rewrite in_app_iff. tauto. }
            intros [p k] [Q|[Q|Ip]].
            -- injection Q as <- <-. left. rewrite pends_eq. apply in_app_iff. left. apply in_bpend. cbn. rewrite in_app_iff. cbn. auto.
            -- injection Q as <- <-. now right.
            -- left. auto.
        + rewrite update_length, Ec1. exact Ln.
        + intros q l N. rewrite nth_update. rewrite (Nq _ _ N). destruct (Nat.eqb q (b_start prev)); reflexivity.
      - assert (Y : c' = {| c_code := patch (to_jmp (length code)) (b_if prev) (update (b_start prev) (to_jz (length code)) code);
          c_blk := with_if [] prev; c_stack := stk; c_last := BNot; c_includes := c_includes c |}).
        { destruct r as [|[] r]; try discriminate GO; injection X as <-; reflexivity. }
        apply rg_end_block in R0. subst c'. cbn [c_code c_blk c_stack] in *.
        eapply (ci_fin G b prev _ stk c1 caps); try reflexivity; cbn [c_code c_blk c_stack]; eauto.
        + apply lv_if; [exact Lp|]. intros p q [].
        + exists (length code). split; [rewrite patch_length, update_length; lia|]. rewrite Opens.
          apply (rg_patch nocheck _ PJmp (length code) (b_if prev) (pends prev stk)).
          * change (to_jz (length code)) with (put PJz (length code)). eapply rg_update; [exact R0|..].
            -- intros r0 Ir Hr. eapply ToEnd; eauto.
            -- eapply pend_fits; [exact I0|]. now left.
            -- intros x [<-|Ix]; auto.
          * intros p r0 Ip Ir Hr. eapply ToEnd; eauto. intros q Iq. pose proof Lp as Lp'. rewrite lv_eq in Lp'. destruct Lp' as (Z & _).
            exact (Z p q Ip Iq).
          * intros p Ip. change (to_jz (length code)) with (put PJz (length code)). rewrite fits_update. eapply pend_fits; [exact I0|]. right.
            rewrite pends_eq. apply in_app_iff. left. apply in_bpend. auto.
          * intros [p k] Ip. rewrite pends_eq in *. apply in_app_iff in Ip as [Ip|Ip]; [|left; apply in_app_iff; now right].
            apply in_bpend in Ip as [[Ip|Ip] Ek]; [now right|]. left. apply in_app_iff. left. apply in_bpend. auto.
        + rewrite patch_length, update_length, Ec1. lia.
        + intros q l N. rewrite Ec1 in N. apply (req_patch PJmp). rewrite nth_update, N. destruct (Nat.eqb q (b_start prev)); reflexivity. }
    assert (Hb0 : b_type b = BNot \/ b_type b = BElse -> hpend (b_type b) (b_start prev) = []) by (intros [->| ->]; reflexivity).
    destruct (b_type b) eqn:Tb.
    - (* not *)
      rewrite NB, Hb0 in R0, I0 by (unfold is_loop; rewrite ?Tb; auto). cbn [map app] in R0, I0. apply rg_end_block in R0.
      injection E as <-. cbn [c_code c_blk c_stack] in *.
      eapply (ci_fin G b prev prev stk c1 caps); try reflexivity; cbn [c_code c_blk c_stack]; eauto.
      + rewrite Ec1. lia.
      + rewrite Ec1. auto.
    - exact (IfCase _ eq_refl (or_introl eq_refl) E).
    - exact (IfCase _ eq_refl (or_intror eq_refl) E).
    - (* else *)
      rewrite NB, Hb0 in R0, I0 by (unfold is_loop; rewrite ?Tb; auto). cbn [map app] in R0, I0. apply rg_end_block in R0.
      injection E as <-. cbn [c_code c_blk c_stack] in *.
      eapply (ci_fin G b prev _ stk c1 caps); try reflexivity; cbn [c_code c_blk c_stack]; eauto.
      + apply lv_if; [exact Lp|]. intros p q [].
      + exists (length code). split; [rewrite patch_length; lia|]. rewrite Opens.
        apply (rg_patch nocheck _ PJmp (length code) (b_if prev) (pends prev stk)); [exact R0|..].
        * intros p r0 Ip Ir Hr. eapply ToEnd; eauto. intros q Iq. pose proof Lp as Lp'. rewrite lv_eq in Lp'. destruct Lp' as (Z & _).
          exact (Z p q Ip Iq).
        * intros p Ip. eapply pend_fits; [exact I0|]. rewrite pends_eq. apply in_app_iff. left. apply in_bpend. auto.
        * intros [p k] Ip. rewrite pends_eq in *. apply in_app_iff in Ip as [Ip|Ip]; [|left; apply in_app_iff; now right].
          apply in_bpend in Ip as [[Ip|Ip] Ek]; [now right|]. left. apply in_app_iff. left. apply in_bpend. auto.
      + rewrite patch_length, Ec1. lia.
      + intros q l N. rewrite Ec1 in N. now apply (req_patch PJmp).
    - injection E as E. eapply (LoopCase PFor); [reflexivity|discriminate|reflexivity|]. symmetry. exact E.
    - injection E as E. eapply (LoopCase PWhile); [reflexivity|discriminate|reflexivity|]. symmetry. exact E.
  Qed.
End Close.
