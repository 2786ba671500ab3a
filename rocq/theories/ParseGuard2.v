(** The compiler's control structure keeps the regions of its [require]s. *)
From Coq Require Import Lia.
From Verif Require Import Base Lib Address Var Value SetVar Flags Comparator Message EditHeader
  Expr ExprTok Event Notify AddrTest Vacation Mime Sieve Utf8 Lexer Scope StringTok Run RunSpec Compile CompileSpec ParseArgs ParseBase
  Parse ParseSpec CompileProofs8 CompileProofs9 ParseCaps1 ParseGuard1.
Import ListNotations.

Lemma cap_eqb_spec a b : cap_eqb a b = true <-> a = b.
Proof.
  destruct a, b; cbn; split; intro H; try discriminate; try reflexivity.
  - apply Nat.eqb_eq in H. congruence.
  - injection H as ->. apply Nat.eqb_refl.
  - apply teqb_spec in H. congruence.
  - injection H as ->. now apply teqb_spec.
Qed.
Lemma Forall2_impl {A B} (P Q : A -> B -> Prop) : (forall a b, P a b -> Q a b) -> forall l l', Forall2 P l l' -> Forall2 Q l l'.
Proof. intros H l l' F. induction F; constructor; auto. Qed.
Definition req_of (b : blk) : list nat := match b_require b with Some q => [q] | None => [] end.
Definition reqs (bs : list blk) : list nat := flat_map req_of bs.
Definition opens (bs : list blk) : list region := map (fun q => (q, None)) (reqs bs).
Lemma in_opens bs r : In r (opens bs) <-> exists q, r = (q, None) /\ In q (reqs bs).
Proof. unfold opens. rewrite in_map_iff. split; [intros (q & <- & H)|intros (q & -> & H)]; eauto. Qed.
Lemma in_reqs bs q : In q (reqs bs) <-> exists b, In b bs /\ In q (req_of b).
Proof. unfold reqs. apply in_flat_map. Qed.

(** A block's jumps start inside the regions that will be open at their targets. *)
Fixpoint lv (b : blk) (stk : list blk) : Prop :=
  (forall p q, In p (b_if b) -> In q (reqs (b :: stk)) -> q < p) /\
  (forall p q, In p (b_break b) -> In q (reqs stk) -> q < p) /\
  match stk with
  | [] => True
  | prev :: stk' =>
      (forall p k q, In (p, k) (hpend (b_type b) (b_start prev)) -> In q (reqs stk) -> q < p) /\
      (forall a q, In a stk -> In q (req_of b) -> b_start a < q) /\ lv prev stk'
  end.
Lemma lv_eq b stk : lv b stk = ((forall p q, In p (b_if b) -> In q (reqs (b :: stk)) -> q < p) /\
  (forall p q, In p (b_break b) -> In q (reqs stk) -> q < p) /\
  match stk with
  | [] => True
  | prev :: stk' =>
      (forall p k q, In (p, k) (hpend (b_type b) (b_start prev)) -> In q (reqs stk) -> q < p) /\
      (forall a q, In a stk -> In q (req_of b) -> b_start a < q) /\ lv prev stk'
  end).
Proof. destruct stk; reflexivity. Qed.
Lemma lv_start n b stk : lv (with_start n b) stk <-> lv b stk.
Proof. rewrite !lv_eq. reflexivity. Qed.
Lemma lv_if l b stk : lv b stk -> (forall p q, In p l -> In q (reqs (b :: stk)) -> q < p) -> lv (with_if l b) stk.
Proof. rewrite !lv_eq. intros (_ & B & C) H. split; [exact H|]. split; [exact B|]. exact C. Qed.
Lemma heads_in b stk p k : In (p, k) (pends b stk) -> k <> PJmp -> exists a, In a stk /\ p = b_start a.
Proof.
  revert b. induction stk as [|prev stk IH]; intros b H N; rewrite pends_eq in H; apply in_app_iff in H as [H|H].
  - apply in_bpend in H as [_ H]. cbn in H. congruence.
  - destruct H.
  - apply in_bpend in H as [_ H]. cbn in H. congruence.
  - apply in_app_iff in H as [H|H].
    + exists prev. split; [now left|]. destruct (b_type b); cbn in H; try contradiction; destruct H as [H|[]]; congruence.
    + destruct (IH prev H N) as (a & I & E). exists a. split; [now right|exact E].
Qed.
Lemma lv_break b stk : lv b stk -> forall p, In p (b_break b) -> forall q, In q (reqs stk) -> q < p.
Proof. rewrite lv_eq. intros (_ & H & _). eauto. Qed.

Section CI.
  Variable nocheck : bool.

  Record CI (G : list region) (T : pending) (c : cst) (caps : list (list capability)) : Prop := {
    ci_inv : Inv (T ++ pends (c_blk c) (c_stack c)) (c_code c);
    ci_chain : chain (c_blk c) (c_stack c);
    ci_rg : RG nocheck (opens (blocks c) ++ G) (T ++ pends (c_blk c) (c_stack c)) (c_code c);
    ci_lv : lv (c_blk c) (c_stack c);
    ci_T : forall p k, In (p, k) T -> (forall q, In q (reqs (blocks c)) -> q < p) /\ (forall r, In r G -> ~ within r p);
    ci_G : forall r, In r G -> exists e, snd r = Some e;
    ci_f : forall p k, In (p, k) (pends (c_blk c) (c_stack c)) -> k <> PJmp -> forall r, In r G -> ~ within r p;
    ci_start : forall b, In b (c_stack c) -> b_start b < length (c_code c);
    ci_req : forall q, In q (reqs (blocks c)) -> exists l, nth_error (c_code c) q = Some (IxRequire l);
    ci_caps : Forall2 (fun b l => forall x, In x l -> exists q, In q (req_of b) /\ declares (c_code c) q x) (blocks c) caps
  }.

  Lemma closed_end G T c caps r : CI G T c caps -> In r G -> within r (length (c_code c)) -> False.
  Proof.
    intros H Ir [_ X]. destruct (ci_G _ _ _ _ H r Ir) as (e & E).
    pose proof (proj2 (rg_end _ _ _ _ (ci_rg _ _ _ _ H) r (in_or_app _ _ _ (or_intror Ir)))) as Y. rewrite E in *. lia.
  Qed.
  Lemma req_len G T c caps q : CI G T c caps -> In q (reqs (blocks c)) -> q < length (c_code c).
  Proof.
    intros H Iq. apply (rg_end _ _ _ _ (ci_rg _ _ _ _ H) (q, None)). apply in_app_iff. left. apply in_opens. eauto.
  Qed.
  (** The end of the code is inside the open regions only. *)
  Lemma at_end G T c caps r p : CI G T c caps -> In r (opens (blocks c) ++ G) -> within r p -> (forall r, In r G -> ~ within r p) ->
    within r (length (c_code c)).
  Proof.
    intros H Ir Hr N. apply in_app_iff in Ir as [Ir|Ir]; [|destruct (N r Ir Hr)].
    apply in_opens in Ir as (q & -> & Iq). split; [cbn; eapply req_len; eauto|exact Logic.I].
  Qed.
  Lemma ci_covered G T c caps l n : CI G T c caps -> (nocheck = false -> forall x, In x l -> existsb (existsb (cap_eqb (cap x))) caps = true) ->
    covered nocheck (opens (blocks c) ++ G) (c_code c) (length (c_code c) + n) l.
  Proof.
    intros H A NC x Ix. specialize (A NC x Ix). apply existsb_exists in A as (lv0 & I1 & A). apply existsb_exists in A as (y & I2 & E).
    apply cap_eqb_spec in E. subst y.
    assert (X : exists b, In b (blocks c) /\ exists q, In q (req_of b) /\ declares (c_code c) q (cap x)).
    { pose proof (ci_caps _ _ _ _ H) as F. revert I1. clear - F I2. induction F as [|b l0 bs ls Hb F IH]; [intros []|].
      intros [->|I1]; [exists b; split; [now left|auto]|]. destruct (IH I1) as (b' & Ib & R). exists b'. split; [now right|exact R]. }
    destruct X as (b & Ib & q & Iq & D). assert (Iq' : In q (reqs (blocks c))) by (apply in_reqs; eauto).
    exists (q, None). split; [apply in_app_iff; left; apply in_opens; eauto|]. split; [|exact D].
    split; [cbn|exact Logic.I]. pose proof (req_len _ _ _ _ _ H Iq'). lia.
  Qed.
  Definition allowed_exts (caps : list (list capability)) (l : list String.string) : Prop :=
    nocheck = false -> forall x, In x l -> existsb (existsb (cap_eqb (cap x))) caps = true.
  Lemma allowed_nil caps : allowed_exts caps [].
  Proof. intros _ x []. Qed.

  Definition w_code (l : list instruction) (c : cst) : cst := with_code l c.
  (** Change the code only. *)
  Lemma ci_recode G T T' c caps code' : CI G T c caps ->
    Inv (T' ++ pends (c_blk c) (c_stack c)) code' ->
    RG nocheck (opens (blocks c) ++ G) (T' ++ pends (c_blk c) (c_stack c)) code' ->
    (forall p k, In (p, k) T' -> In (p, k) T \/ p = length (c_code c)) ->
    length (c_code c) <= length code' ->
    (forall q l, nth_error (c_code c) q = Some (IxRequire l) -> nth_error code' q = Some (IxRequire l)) ->
    CI G T' (with_code code' c) caps.
  Proof.
    intros H I R HT L N. constructor; cbn [with_code c_code c_blk c_stack]; auto; try apply H.
    - intros p k Ip. destruct (HT p k Ip) as [X| ->]; [now apply (ci_T _ _ _ _ H p k)|]. split.
      + intros q Iq. eapply req_len; eauto.
      + intros r Ir X. eapply closed_end; eauto.
    - intros b Ib. pose proof (ci_start _ _ _ _ H b Ib). lia.
    - intros q Iq. destruct (ci_req _ _ _ _ H q Iq) as (l & E). eauto.
    - pose proof (ci_caps _ _ _ _ H) as F. unfold blocks in *. cbn [with_code c_blk c_stack]. eapply Forall2_impl; [|exact F].
      cbv beta. intros b l X x Ix. destruct (X x Ix) as (q & Iq & (k & Nk & Ik)). exists q. split; [exact Iq|]. exists k. auto.
  Qed.
  Lemma req_app code l' q (l : list capability) : nth_error code q = Some (IxRequire l) -> nth_error (code ++ l') q = Some (IxRequire l).
  Proof. intro N. rewrite nth_error_app1; [exact N|]. apply nth_error_Some. congruence. Qed.

  Lemma ci_emit G T c caps i : CI G T c caps -> harmless i -> allowed_exts caps (exts i) -> CI G T (emit [i] c) caps.
  Proof.
    intros H Hi A. apply (ci_recode G T T c caps); auto.
    - apply inv_harmless; [apply H|exact Hi].
    - apply rg_snoc; [apply H|..].
      + rewrite <- (Nat.add_0_r (length (c_code c))). eapply ci_covered; eauto.
      + destruct Hi as [-> _]. intros t [].
    - rewrite app_length. lia.
    - intros q l N. now apply req_app.
  Qed.
  Lemma ci_later G T c caps k i : CI G T c caps -> fits k i = true -> allowed_exts caps (exts i) ->
    CI G ((length (c_code c), k) :: T) (emit [i] c) caps.
  Proof.
    intros H Hi A. apply (ci_recode G T ((length (c_code c), k) :: T) c caps); auto.
    - cbn [app]. apply inv_later; [apply H|exact Hi].
    - cbn [app]. eapply rg_snoc.
      + eapply rg_weaken; [apply H|]. intros x Ix. now right.
      + rewrite <- (Nat.add_0_r (length (c_code c))). eapply ci_covered; eauto.
      + intros t _. left. exists k. now left.
    - intros p k' [E|Ip]; [injection E as <- <-; auto|auto].
    - rewrite app_length. lia.
    - intros q l N. now apply req_app.
  Qed.
  (** A jump back to the head of a block. *)
  Lemma ci_back G c caps p k : CI G [] c caps -> In (p, k) (pends (c_blk c) (c_stack c)) -> k <> PJmp ->
    CI G [] (emit [IxJmp p] c) caps.
  Proof.
    intros H Ip Nk. apply (ci_recode G [] [] c caps); auto.
    - apply inv_snoc; [apply H|reflexivity|]. cbn. intros t [<-|[]]. left. eapply pend_target; [exact (ci_inv _ _ _ _ H)|exact Ip].
    - apply rg_snoc; [apply H|intros _ x []|]. cbn. intros t [<-|[]]. right. intros r Ir Hr. eapply at_end; eauto.
      eapply ci_f; eauto.
    - rewrite app_length. lia.
    - intros q l N. now apply req_app.
  Qed.
  Lemma ci_vacation G T c caps t v : CI G T c caps -> is_vacation_test (IxTest t) = true -> targets v = [] ->
    allowed_exts caps (test_ext t) -> allowed_exts caps (exts v) ->
    CI G T (emit [IxTest t; IxJz (length (c_code c) + 3); v] c) caps.
  Proof.
    intros H V Tv A1 A2. apply (ci_recode G T T c caps); auto.
    - now apply inv_vacation; [apply H|..].
    - apply rg_app; [apply H|]. intros [|[|[|n]]] i N; cbn in N; try (destruct n; discriminate); injection N as <-.
      + split; [eapply ci_covered; eauto|intros x []].
      + split; [intros _ x []|]. intros x [<-|[]]. right. intros r Ir Hr.
        assert (X : within r (length (c_code c))).
        { eapply at_end; eauto. intros r' Ir' Hr'. eapply closed_end; eauto. destruct Hr' as [X1 X2]. destruct (ci_G _ _ _ _ H r' Ir') as (e & E).
          rewrite E in X2. pose proof (proj2 (rg_end _ _ _ _ (ci_rg _ _ _ _ H) r' (in_or_app _ _ _ (or_intror Ir')))) as Y. rewrite E in Y. lia. }
        apply in_app_iff in Ir as [Ir|Ir]; [|destruct (closed_end _ _ _ _ _ H Ir X)].
        apply in_opens in Ir as (q & -> & Iq). split; [|exact Logic.I]. cbn. pose proof (req_len _ _ _ _ _ H Iq). lia.
      + split; [eapply ci_covered; eauto|]. rewrite Tv. intros x [].
    - rewrite app_length. lia.
    - intros q l N. now apply req_app.
  Qed.
  Lemma ci_like G T c caps code : CI G T c caps -> Forall2 like (c_code c) code -> CI G T (with_code code c) caps.
  Proof.
    intros H F. apply (ci_recode G T T c caps); auto.
    - eapply inv_like; [exact F|apply H].
    - eapply rg_like; [exact F|apply H].
    - now rewrite (len_like _ _ F).
    - intros q l N. destruct (nth_like' _ _ F _ _ N) as (j & E & L'). rewrite E. f_equal. pose proof (lk_req _ _ L') as Q.
      destruct j; cbn in Q; congruence.
  Qed.
  (** Patch conditional jumps inside a test. *)
  Lemma req_patch k t ps : forall code q l, nth_error code q = Some (IxRequire l) -> nth_error (patch (put k t) ps code) q = Some (IxRequire l).
  Proof.
    unfold patch. induction ps as [|p ps IH]; intros code q l N; cbn [fold_left]; [exact N|]. apply IH. rewrite nth_update.
    destruct (Nat.eqb q p); [|exact N]. rewrite N. destruct k; reflexivity.
  Qed.
  Lemma ci_cond G T c caps ps T' : CI G T c caps -> (forall p, In p ps -> In (p, PCond) T) ->
    (forall x, In x T' -> In x T) -> (forall x, In x T -> In x T' \/ In (fst x) ps) ->
    CI G T' (with_code (patch (to_cond (length (c_code c))) ps (c_code c)) c) caps.
  Proof.
    intros H A B C. change (to_cond (length (c_code c))) with (put PCond (length (c_code c))). apply (ci_recode G T T' c caps); auto.
    - apply (inv_patch PCond (length (c_code c)) ps (T ++ pends (c_blk c) (c_stack c))); [apply H|..].
      + apply Forall_forall. intros p Ip. eapply pend_patchable; [exact (ci_inv _ _ _ _ H)|]. apply in_app_iff. left. auto.
      + apply target_end.
      + intros x. rewrite !in_app_iff. intros [X|X]; auto.
      + intros x. rewrite !in_app_iff. intros [X|X]; auto. destruct (C x X); auto.
    - apply (rg_patch nocheck _ PCond (length (c_code c)) ps (T ++ pends (c_blk c) (c_stack c))); [apply H|..].
      + intros p r Ip Ir Hr. apply in_app_iff in Ir as [Ir|Ir]; [|destruct (closed_end _ _ _ _ _ H Ir Hr)].
        apply in_opens in Ir as (q & -> & Iq). split; [|exact Logic.I]. cbn. exact (proj1 (ci_T _ _ _ _ H p PCond (A p Ip)) q Iq).
      + intros p Ip. eapply pend_fits; [exact (ci_inv _ _ _ _ H)|]. apply in_app_iff. left. auto.
      + intros x. rewrite !in_app_iff. intros [X|X]; auto. destruct (C x X); auto.
    - rewrite patch_length. lia.
    - intros q l N. now apply req_patch.
  Qed.

  (** *** require *)
  Lemma update_same f g : (forall i : instruction, f i = g i) -> forall l n, update n f l = update n g l.
  Proof. intro E. induction l as [|i l IH]; intros [|n]; cbn; congruence. Qed.
  Lemma ci_require G c b caps l new : CI G [] c (b :: caps) -> b_if (c_blk c) = [] -> (forall x, In x new -> In x l) ->
    CI G [] (do_require l c) ((new ++ b) :: caps).
  Proof.
    intros H Bi Hn. unfold do_require. destruct l as [|x0 l0].
    - replace new with (@nil capability); [exact H|]. destruct new as [|y new]; [reflexivity|]. destruct (Hn y); now left.
    - set (l := x0 :: l0) in *. clearbody l. destruct (b_require (c_blk c)) as [p|] eqn:Br.
      + assert (Ip : In p (reqs (blocks c))). { cbn. unfold req_of. rewrite Br. now left. }
        destruct (ci_req _ _ _ _ H p Ip) as (l1 & N1).
        assert (Nx : nth_error (update p (more_caps l) (c_code c)) p = Some (IxRequire (l1 ++ l))).
        { rewrite nth_update, Nat.eqb_refl, N1. reflexivity. }
        change (update p _ (c_code c)) with (update p (more_caps l) (c_code c)).
        constructor; cbn [with_code c_code c_blk c_stack]; try apply H.
        * apply require_inv, H.
        * apply rg_more, H.
        * intros x Ix. rewrite update_length. now apply (ci_start _ _ _ _ H).
        * intros q Iq. destruct (ci_req _ _ _ _ H q Iq) as (l2 & N2). rewrite nth_update. destruct (Nat.eqb q p); [|eauto].
          rewrite N2. cbn. eauto.
        * pose proof (ci_caps _ _ _ _ H) as F. unfold blocks in *. cbn [with_code c_blk c_stack] in *. inversion F as [|? ? ? ? F1 F2]; subst.
          constructor.
          -- intros x Ix. apply in_app_iff in Ix as [Ix|Ix].
             ++ exists p. split; [unfold req_of; rewrite Br; now left|]. exists (l1 ++ l). split; [exact Nx|]. apply in_app_iff. right. auto.
             ++ destruct (F1 x Ix) as (q & Iq & D). exists q. split; [exact Iq|]. now apply declares_more.
          -- eapply Forall2_impl; [|exact F2]. cbv beta. intros b' k X x Ix. destruct (X x Ix) as (q & Iq & D). exists q. split; [exact Iq|].
             now apply declares_more.
      + assert (E0 : reqs (blocks c) = reqs (c_stack c)). { cbn. unfold req_of at 1. now rewrite Br. }
        assert (Pe : pends (with_require (length (c_code c)) (c_blk c)) (c_stack c) = pends (c_blk c) (c_stack c)) by (destruct (c_stack c); reflexivity).
        constructor; cbn [emit with_code with_blk c_code c_blk c_stack app].
        * rewrite Pe. apply inv_snoc; [apply H|reflexivity|intros t []].
        * pose proof (ci_chain _ _ _ _ H) as X. destruct (c_stack c); exact X.
        * rewrite Pe. unfold blocks. cbn [emit with_code with_blk c_blk c_stack].
          change (opens (with_require (length (c_code c)) (c_blk c) :: c_stack c) ++ G) with ((length (c_code c), None) :: (opens (c_stack c) ++ G)).
          apply rg_open.
          -- pose proof (ci_rg _ _ _ _ H) as X. unfold opens in *. rewrite E0 in X. exact X.
          -- intros j i t N It. destruct (iv_res _ _ (ci_inv _ _ _ _ H) _ _ _ N It) as [(X & _)|X]; auto.
        * pose proof (ci_lv _ _ _ _ H) as X. rewrite lv_eq in X. destruct X as (_ & X2 & X3). rewrite lv_eq.
          cbn [with_require b_if b_break b_type]. split; [rewrite Bi; intros p q []|]. split; [exact X2|].
          destruct (c_stack c) as [|prev stk] eqn:St; [exact Logic.I|]. destruct X3 as (Y1 & Y2 & Y3). split; [exact Y1|]. split; [|exact Y3].
          intros a q Ia [<-|[]]. apply (ci_start _ _ _ _ H). now rewrite St.
        * intros p k [].
        * apply H.
        * rewrite Pe. apply H.
        * intros x Ix. rewrite app_length. pose proof (ci_start _ _ _ _ H x Ix). lia.
        * intros q Iq. unfold blocks in Iq. cbn [emit with_code with_blk c_blk c_stack] in Iq. cbn in Iq. destruct Iq as [<-|Iq].
          -- exists l. rewrite nth_error_app2, Nat.sub_diag by lia. reflexivity.
          -- destruct (ci_req _ _ _ _ H q) as (l2 & N2); [rewrite E0; exact Iq|]. exists l2. now apply req_app.
        * pose proof (ci_caps _ _ _ _ H) as F. unfold blocks in *. cbn [emit with_code with_blk c_blk c_stack c_code] in *.
          inversion F as [|? ? ? ? F1 F2]; subst. constructor.
          -- intros x Ix. exists (length (c_code c)). split; [now left|]. exists l. split; [rewrite nth_error_app2, Nat.sub_diag by lia; reflexivity|].
             apply in_app_iff in Ix as [Ix|Ix]; [auto|]. destruct (F1 x Ix) as (q & Iq & _). unfold req_of in Iq. rewrite Br in Iq. destruct Iq.
          -- eapply Forall2_impl; [|exact F2]. cbv beta. intros b' k X x Ix. destruct (X x Ix) as (q & Iq & D). exists q. split; [exact Iq|].
             now apply declares_app.
  Qed.

  (** *** The beginning of a block *)
  Variable umax : nat.
  Variable lim : limits.
  Lemma ci_open G c c' caps t l : CI G (hpend t (length (c_code c) - 1)) c caps -> t <> BNot -> 0 < length (c_code c) ->
    (b_if (c_blk c) <> [] -> t = BElsIf \/ t = BElse) -> open lim t l c = Some c' -> CI G [] c' ([] :: caps) /\ b_if (c_blk c') = [].
  Proof.
    intros H Nt L0 Bi E. pose proof (open_inv lim t l c c' [] Nt (ci_inv _ _ _ _ H) (ci_chain _ _ _ _ H) Bi E) as [I C _].
    unfold open in E. destruct (Nat.ltb _ _); [|discriminate]. injection E as <-. split; [|reflexivity].
    cbn [c_code c_blk c_stack] in *.
    assert (Pe : pends (new_blk t l) (with_start (length (c_code c) - 1) (c_blk c) :: c_stack c) =
                 hpend t (length (c_code c) - 1) ++ pends (c_blk c) (c_stack c)).
    { rewrite pends_eq. cbn [bpend new_blk b_if b_break map app b_type with_start b_start]. now rewrite pends_start. }
    constructor; cbn [c_code c_blk c_stack app]; auto.
    - rewrite Pe. exact (ci_rg _ _ _ _ H).
    - rewrite lv_eq. cbn [new_blk b_if b_break b_type]. split; [intros p q []|]. split; [intros p q []|].
      split; [|split; [intros a q _ []|apply lv_start, H]]. intros p k q Ip Iq. exact (proj1 (ci_T _ _ _ _ H p k Ip) q Iq).
    - intros p k [].
    - apply H.
    - rewrite Pe. intros p k Ip Nk. apply in_app_iff in Ip as [Ip|Ip]; [exact (proj2 (ci_T _ _ _ _ H p k Ip))|exact (ci_f _ _ _ _ H p k Ip Nk)].
    - intros b [<-|Ib]; [cbn; lia|now apply (ci_start _ _ _ _ H)].
    - exact (ci_req _ _ _ _ H).
    - constructor; [intros x []|]. pose proof (ci_caps _ _ _ _ H) as F. inversion F as [|? ? ? ? F1 F2]; subst. constructor; [exact F1|exact F2].
  Qed.

  (** *** break *)
  Definition brk (pos : nat) (b b' : blk) : Prop := b' = b \/ b' = with_break (b_break b ++ [pos]) b.
  Lemma brk_refl pos bs : Forall2 (brk pos) bs bs.
  Proof. induction bs; constructor; auto. now left. Qed.
  Lemma find_label_brk n pos : forall bs m r bs', find_label n m pos bs = Some (r, bs') -> Forall2 (brk pos) bs bs'.
  Proof.
    induction bs as [|b bs IH]; intros m r bs' H; [discriminate|]. cbn [find_label] in H.
    assert (Rec : forall m, option_map (fun r => (fst r, b :: snd r)) (find_label n m pos bs) = Some (r, bs') -> Forall2 (brk pos) (b :: bs) bs').
    { intros m' X. destruct (find_label n m' pos bs) as [[r1 bs1]|] eqn:E; [|discriminate]. injection X as <- <-. constructor; [now left|eauto]. }
    destruct (is_for b); [|eauto]. destruct (label_eqb _ _); [|eauto]. injection H as <- <-. constructor; [now right|apply brk_refl].
  Qed.
  Lemma find_loop_brk pos : forall bs f bs', find_loop pos bs = Some (f, bs') -> Forall2 (brk (if f then pos + 1 else pos)) bs bs'.
  Proof.
    induction bs as [|b bs IH]; intros f bs' H; [discriminate|]. cbn [find_loop] in H. destruct (is_loop b).
    - injection H as <- <-. constructor; [now right|apply brk_refl].
    - destruct (find_loop pos bs) as [[r1 bs1]|] eqn:E; [|discriminate]. injection H as <- <-. constructor; [now left|eauto].
  Qed.
  Lemma brk_req pos b b' : brk pos b b' -> req_of b' = req_of b.
  Proof. intros [->| ->]; reflexivity. Qed.
  Lemma brk_reqs pos bs bs' : Forall2 (brk pos) bs bs' -> reqs bs' = reqs bs.
  Proof. induction 1 as [|b b' bs bs' H F IH]; [reflexivity|]. unfold reqs in *. cbn [flat_map]. now rewrite (brk_req _ _ _ H), IH. Qed.
  Lemma brk_starts pos bs bs' : Forall2 (brk pos) bs bs' -> forall b', In b' bs' -> exists b, In b bs /\ b_start b' = b_start b.
  Proof.
    induction 1 as [|b b' bs bs' H F IH]; [intros x []|]. intros x [<-|Ix].
    - exists b. split; [now left|]. destruct H as [->| ->]; reflexivity.
    - destruct (IH x Ix) as (y & Iy & E). exists y. split; [now right|exact E].
  Qed.
  Lemma brk_lv pos bs : forall b b' bs', brk pos b b' -> Forall2 (brk pos) bs bs' -> (forall q, In q (reqs (b :: bs)) -> q < pos) ->
    lv b bs -> lv b' bs'.
  Proof.
    induction bs as [|x bs IH]; intros b b' bs' Hb F L H; inversion F as [|? x' ? bs1 Hx F1]; subst; rewrite lv_eq in *; destruct H as (A & B & C).
    - split; [|split; [|exact Logic.I]].
      + cbn [reqs flat_map]. rewrite (brk_req _ _ _ Hb). destruct Hb as [->| ->]; exact A.
      + intros p q _ [].
    - assert (Rq := brk_reqs _ _ _ F). destruct C as (C1 & C2 & C3). split; [|split; [|split; [|split]]].
      + intros p q Ip Iq. apply (A p q); [destruct Hb as [->| ->]; exact Ip|]. change (In q (req_of b' ++ reqs (x' :: bs1))) in Iq.
        rewrite Rq, (brk_req _ _ _ Hb) in Iq. exact Iq.
      + intros p q Ip Iq. rewrite Rq in Iq. destruct Hb as [->| ->]; [eauto|]. cbn [with_break b_break] in Ip.
        apply in_app_iff in Ip as [Ip|[<-|[]]]; [eauto|]. apply L. change (In q (req_of b ++ reqs (x :: bs))). apply in_app_iff. now right.
      + intros p k q Ip Iq. rewrite Rq in Iq. apply (C1 p k q); [|exact Iq].
        replace (b_type b) with (b_type b') by (destruct Hb as [->| ->]; reflexivity).
        replace (b_start x) with (b_start x') by (destruct Hx as [->| ->]; reflexivity). exact Ip.
      + intros a q Ia Iq. rewrite (brk_req _ _ _ Hb) in Iq. destruct (brk_starts _ _ _ F a Ia) as (y & Iy & ->). eauto.
      + apply (IH x x'); auto. intros q Iq. apply L. change (In q (req_of b ++ reqs (x :: bs))). apply in_app_iff. now right.
  Qed.
  Lemma brk_caps (pos : nat) code : forall bs bs' caps, Forall2 (brk pos) bs bs' ->
    Forall2 (fun b l => forall x, In x l -> exists q, In q (req_of b) /\ declares code q x) bs caps ->
    Forall2 (fun b l => forall x, In x l -> exists q, In q (req_of b) /\ declares code q x) bs' caps.
  Proof.
    intros bs bs' caps F. revert caps. induction F as [|b b' bs bs' H F IH]; intros caps X; inversion X; subst; constructor; auto.
    now rewrite (brk_req _ _ _ H).
  Qed.

  Lemma ci_break G c c' caps l : CI G [] c caps -> b_if (c_blk c) = [] -> do_break umax l c = Some c' -> CI G [] c' caps /\ b_if (c_blk c') = [].
  Proof.
    intros H Bi E.
    assert (Go : forall pos bs pre, Forall2 (brk pos) (blocks c) bs -> (forall x, In x (lpends bs) <-> In x (lpends (blocks c)) \/ x = (pos, PJmp)) ->
      (lchain (blocks c) -> lchain bs) -> Forall (fun i => harmless i /\ exts i = []) pre -> pos = length (c_code c) + length pre ->
      CI G [] (emit (pre ++ [IxJmp umax]) (with_blocks bs c)) caps /\ b_if (c_blk (emit (pre ++ [IxJmp umax]) (with_blocks bs c))) = []).
    { intros pos bs pre F A D Hp Ep. inversion F as [|b0 b' ? stk' Hb Fs]; subst b0 bs.
      assert (HE1 : CI G [] (emit pre c) caps).
      { clear E A D. clear pos Ep b' stk' F Hb Fs.
        assert (X : forall c, CI G [] c caps -> CI G [] (emit pre c) caps); [|now apply X]. clear - Hp nocheck.
        induction Hp as [|i pre [Hi He] Hp IH]; intros c H.
        - unfold emit, with_code. rewrite app_nil_r. destruct c. exact H.
        - specialize (IH (emit [i] c)). unfold emit, with_code in *. cbn in *. rewrite <- app_assoc in IH. apply IH.
          apply ci_emit; [exact H|exact Hi|]. rewrite He. apply allowed_nil. }
      pose proof (ci_later G [] (emit pre c) caps PJmp (IxJmp umax) HE1 eq_refl (allowed_nil _)) as HE2.
      unfold emit, with_code in HE2. cbn [c_code c_blk c_stack c_last c_includes] in HE2. rewrite app_length, <- Ep, <- app_assoc in HE2. destruct HE2 as [I2 C2 R2 L2 T2 G2 F2 S2 Q2 K2].
      cbn [emit with_code with_blocks c_code c_blk c_stack app blocks] in *. split.
      - assert (PP : forall x, In x ((pos, PJmp) :: pends (c_blk c) (c_stack c)) <-> In x (pends b' stk')).
        { intros x. specialize (A x). cbn [lpends blocks] in A. rewrite A. cbn [In]. intuition. }
        constructor; cbn [emit with_code with_blocks c_code c_blk c_stack app blocks].
        + eapply inv_weaken; [exact I2|exact PP].
        + exact (D C2).
        + change (RG nocheck (map (fun q => (q, None)) (reqs (b' :: stk')) ++ G) (pends b' stk') (c_code c ++ pre ++ [IxJmp umax])).
          rewrite (brk_reqs _ _ _ F). eapply rg_weaken; [exact R2|]. apply PP.
        + eapply (brk_lv pos (c_stack c)); eauto. intros q Iq. exact (proj1 (T2 pos PJmp (or_introl eq_refl)) q Iq).
        + intros p k [].
        + exact G2.
        + intros p k Ip Nk. apply PP in Ip as [Ip|Ip]; [injection Ip as <- <-; congruence|eauto].
        + intros x Ix. destruct (brk_starts _ _ _ Fs x Ix) as (y & Iy & ->). auto.
        + change (blocks (emit _ _)) with (b' :: stk'). rewrite (brk_reqs _ _ _ F). exact Q2.
        + eapply brk_caps; eauto.
      - destruct Hb as [->| ->]; exact Bi. }
    unfold do_break in E. destruct l as [n|].
    - destruct (find_label n 0 _ (blocks c)) as [[pops bs]|] eqn:Fi; [|discriminate]. injection E as <-.
      apply (Go (length (c_code c) + 1) bs [IxForEveryPartPop pops]).
      + eapply find_label_brk; eauto.
      + apply find_label_spec in Fi as (A & _). exact A.
      + apply find_label_spec in Fi as (_ & D & _). exact D.
      + repeat constructor.
      + reflexivity.
    - destruct (find_loop _ (blocks c)) as [[f bs]|] eqn:Fi; [|discriminate]. injection E as <-.
      apply (Go (if f then length (c_code c) + 1 else length (c_code c)) bs (if f then [IxForEveryPartPop 1] else [])).
      + eapply find_loop_brk; eauto.
      + apply find_loop_spec in Fi as (A & _). exact A.
      + apply find_loop_spec in Fi as (_ & D & _). exact D.
      + destruct f; repeat constructor.
      + destruct f; cbn; lia.
  Qed.
End CI.
