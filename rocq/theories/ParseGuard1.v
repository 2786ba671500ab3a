(** Regions of the code in which a [require] has been executed. *)
From Coq Require Import Lia.
From Verif Require Import Base Lib Address Var Value SetVar Flags Comparator Message EditHeader
  Expr ExprTok Event Notify AddrTest Vacation Mime Sieve Utf8 Lexer Scope StringTok Run RunSpec Compile CompileSpec ParseArgs ParseBase
  Parse ParseSpec CompileProofs8 CompileProofs9 ParseCaps1.
Import ListNotations.

Definition exts := extensions_with "mailbox".
Definition is_require (i : instruction) : option (list capability) := match i with IxRequire l => Some l | _ => None end.

(** *** Instructions that differ only in what does not matter here *)
Record like (i j : instruction) : Prop := {
  lk_targets : targets j = targets i;
  lk_vac : is_vacation j = is_vacation i;
  lk_vtest : is_vacation_test j = is_vacation_test i;
  lk_fits : forall k, fits k j = fits k i;
  lk_ext : exts j = exts i;
  lk_req : is_require j = is_require i;
  lk_jump : targets i <> [] -> is_vacation_test i = false -> match i with IxJz _ => j = i | _ => True end
}.
Lemma like_refl i : like i i.
Proof. constructor; auto. intros _ _. now destruct i. Qed.
Lemma marked_like i j : marked i j -> like i j.
Proof.
  intros [<-|(t & t' & -> & -> & A & B)]; [apply like_refl|]. constructor; cbn in *; auto.
Qed.
Lemma nth_like l l' : Forall2 like l l' -> forall n j, nth_error l' n = Some j -> exists i, nth_error l n = Some i /\ like i j.
Proof.
  induction 1 as [|i j l l' H F IH]; intros [|n] x E; cbn in *; try discriminate; [injection E as <-; eauto|auto].
Qed.
Lemma nth_like' l l' : Forall2 like l l' -> forall n i, nth_error l n = Some i -> exists j, nth_error l' n = Some j /\ like i j.
Proof.
  induction 1 as [|i j l l' H F IH]; intros [|n] x E; cbn in *; try discriminate; [injection E as <-; eauto|auto].
Qed.
Lemma len_like (l l' : list instruction) : Forall2 like l l' -> length l' = length l.
Proof. induction 1; cbn; congruence. Qed.
Lemma vac_like l l' n : Forall2 like l l' -> vac l' n = vac l n.
Proof.
  intro F. unfold vac. destruct (nth_error l' n) as [j|] eqn:E.
  - destruct (nth_like _ _ F _ _ E) as (i & -> & Li). apply (lk_vac _ _ Li).
  - destruct (nth_error l n) as [i|] eqn:E'; [|reflexivity]. destruct (nth_like' _ _ F _ _ E') as (j & Ej & _). congruence.
Qed.
Lemma inv_like P l l' : Forall2 like l l' -> Inv P l -> Inv P l'.
Proof.
  intros F [A B C]. constructor.
  - intros j i t N T. destruct (nth_like _ _ F _ _ N) as (i0 & N0 & Li). rewrite (lk_targets _ _ Li) in T.
    destruct (A _ _ _ N0 T) as [(X & Y & Z)|]; [left|now right]. split; [rewrite (len_like _ _ F); exact X|]. now rewrite !(vac_like _ _ _ F).
  - intros p k H. destruct (B _ _ H) as (i & N & Fi & W). destruct (nth_like' _ _ F _ _ N) as (j & N' & Li). exists j.
    rewrite (lk_fits _ _ Li), (vac_like _ _ _ F). auto.
  - intros p W. rewrite (vac_like _ _ _ F) in W. destruct (C p W) as (q & j & -> & N & VT & N2).
    destruct (nth_like' _ _ F _ _ N) as (j1 & N1 & L1). destruct (nth_like' _ _ F _ _ N2) as (j2 & N3 & L2).
    exists q, j1. rewrite (lk_vtest _ _ L1). repeat split; auto. rewrite N3. f_equal. apply (lk_jump _ _ L2); [discriminate|reflexivity].
Qed.

(** *** Regions *)
(** From after a [require] to an end; [None]: still open. *)
Definition region := (nat * option nat)%type.
Definition within (r : region) (p : nat) : Prop := fst r < p /\ match snd r with Some e => p < e | None => True end.
Definition declares (code : list instruction) (q : nat) (c : capability) : Prop :=
  exists l, nth_error code q = Some (IxRequire l) /\ In c l.

Section Guard.
  Variable nocheck : bool.
Record RG (R : list region) (P : pending) (code : list instruction) : Prop := {
  rg_jump : forall j i t, nth_error code j = Some i -> In t (targets i) -> (exists k, In (j, k) P) \/
    (forall r, In r R -> within r t -> within r j);
  rg_need : nocheck = false -> forall j i c, nth_error code j = Some i -> In c (exts i) ->
    exists r, In r R /\ within r j /\ declares code (fst r) (cap c);
  rg_end : forall r, In r R -> fst r < length code /\ match snd r with Some e => e <= length code | None => True end
}.

Lemma rg_like R P l l' : Forall2 like l l' -> RG R P l -> RG R P l'.
Proof.
  intros F [A B C]. constructor.
  - intros j i t N T. destruct (nth_like _ _ F _ _ N) as (i0 & N0 & Li). rewrite (lk_targets _ _ Li) in T. eauto.
  - intros NC j i c N T. destruct (nth_like _ _ F _ _ N) as (i0 & N0 & Li). rewrite (lk_ext _ _ Li) in T.
    destruct (B NC _ _ _ N0 T) as (r & Ir & Hr & (k & Nk & Ik)). exists r. split; [exact Ir|]. split; [exact Hr|].
    destruct (nth_like' _ _ F _ _ Nk) as (j' & N' & L'). exists k. split; [|exact Ik]. rewrite N'. f_equal.
    pose proof (lk_req _ _ L') as Q. destruct j'; cbn in Q; try discriminate. congruence.
  - intros r Ir. rewrite (len_like _ _ F). auto.
Qed.
Lemma rg_weaken R P P' code : RG R P code -> (forall x, In x P -> In x P') -> RG R P' code.
Proof.
  intros [A B C] H. constructor; auto. intros j i t N T. destruct (A j i t N T) as [[k I]|]; [left; exists k; auto|now right].
Qed.
Definition covered (R : list region) (code : list instruction) (j : nat) (l : list String.string) : Prop :=
  nocheck = false -> forall c, In c l -> exists r, In r R /\ within r j /\ declares code (fst r) (cap c).
Lemma declares_app code l q c : declares code q c -> declares (code ++ l) q c.
Proof. intros (k & N & I). exists k. split; [|exact I]. rewrite nth_error_app1; [exact N|]. apply nth_error_Some. congruence. Qed.
Lemma rg_app R P code l : RG R P code ->
  (forall n i, nth_error l n = Some i -> covered R code (length code + n) (exts i) /\
     forall t, In t (targets i) -> (exists k, In (length code + n, k) P) \/ forall r, In r R -> within r t -> within r (length code + n)) ->
  RG R P (code ++ l).
Proof.
  intros [A B C] H. constructor.
  - intros j i t N T. destruct (Nat.lt_ge_cases j (length code)) as [L|L].
    + rewrite nth_error_app1 in N by lia. eauto.
    + rewrite nth_error_app2 in N by lia. destruct (H _ _ N) as [_ H2]. replace j with (length code + (j - length code)) by lia. auto.
  - intros NC j i c N T. destruct (Nat.lt_ge_cases j (length code)) as [L|L].
    + rewrite nth_error_app1 in N by lia. destruct (B NC _ _ _ N T) as (r & X & Y & Z). exists r. auto using declares_app.
    + rewrite nth_error_app2 in N by lia. destruct (H _ _ N) as [H1 _]. destruct (H1 NC c T) as (r & X & Y & Z).
      replace (length code + (j - length code)) with j in Y by lia. exists r. auto using declares_app.
  - intros r Ir. rewrite app_length. destruct (C r Ir) as [X Y]. split; [lia|]. destruct (snd r); [lia|exact Y].
Qed.
Lemma rg_snoc R P code i : RG R P code -> covered R code (length code) (exts i) ->
  (forall t, In t (targets i) -> (exists k, In (length code, k) P) \/ forall r, In r R -> within r t -> within r (length code)) ->
  RG R P (code ++ [i]).
Proof.
  intros H H1 H2. apply rg_app; [exact H|]. intros [|n] j N; [|destruct n; discriminate]. injection N as <-. rewrite Nat.add_0_r. auto.
Qed.
Lemma put_ext k t i : exts (put k t i) = exts i.
Proof. destruct k, i; reflexivity. Qed.
Lemma put_req k t i : is_require (put k t i) = is_require i.
Proof. destruct k, i; reflexivity. Qed.
Lemma declares_put p k t code q c : declares code q c -> declares (update p (put k t) code) q c.
Proof.
  intros (l & N & I). exists l. split; [|exact I]. rewrite nth_update. destruct (Nat.eqb q p); [|exact N]. rewrite N. cbn.
  destruct k; reflexivity.
Qed.
Lemma put_target k t i x : In x (targets (put k t i)) -> x = t \/ In x (targets i).
Proof. destruct k, i; cbn; intuition. Qed.
Lemma rg_update R P P' code p k t : RG R P code -> (forall r, In r R -> within r t -> within r p) -> fits k (nth p code IxStop) = true ->
  (forall x, In x P -> In x P' \/ fst x = p) -> RG R P' (update p (put k t) code).
Proof.
  intros [A B C] H Fk HP. constructor.
  - intros j i x N T. rewrite nth_update in N. destruct (Nat.eqb_spec j p) as [->|Ne].
    + destruct (nth_error code p) as [i0|] eqn:E; [|discriminate]. injection N as <-.
      rewrite (nth_error_nth _ _ _ E) in Fk. rewrite (put_targets _ _ _ Fk) in T. destruct T as [<-|[]]. now right.
    + destruct (A j i x N T) as [[k' I]|X]; [|now right]. left. exists k'. destruct (HP _ I) as [|Q]; [assumption|]. cbn in Q. contradiction.
  - intros NC j i c N T. rewrite nth_update in N.
    assert (N' : exists i0, nth_error code j = Some i0 /\ In c (exts i0)).
    { destruct (Nat.eqb j p); [|eauto]. destruct (nth_error code j) as [i0|]; [|discriminate]. injection N as <-.
      rewrite put_ext in T. eauto. }
    destruct N' as (i0 & N0 & T0). destruct (B NC _ _ _ N0 T0) as (r & X & Y & Z). exists r. auto using declares_put.
  - intros r Ir. rewrite update_length. auto.
Qed.
Lemma fits_update p k t code q k2 : fits k2 (nth q (update p (put k t) code) IxStop) = fits k2 (nth q code IxStop).
Proof.
  destruct (nth_error (update p (put k t) code) q) as [i|] eqn:E.
  - rewrite (nth_error_nth _ _ _ E). rewrite nth_update in E. destruct (Nat.eqb q p).
    + destruct (nth_error code q) as [i0|] eqn:E0; [|discriminate]. injection E as <-. rewrite put_fits. now rewrite (nth_error_nth _ _ _ E0).
    + now rewrite (nth_error_nth _ _ _ E).
  - apply nth_error_None in E. rewrite update_length in E. rewrite !nth_overflow; auto. now rewrite update_length.
Qed.
Lemma pend_fits P code p k : Inv P code -> In (p, k) P -> fits k (nth p code IxStop) = true.
Proof. intros I H. destruct (iv_pend _ _ I _ _ H) as (i & N & F & _). now rewrite (nth_error_nth _ _ _ N). Qed.
Lemma rg_patch R k t : forall ps P P' code, RG R P code -> (forall p r, In p ps -> In r R -> within r t -> within r p) ->
  (forall p, In p ps -> fits k (nth p code IxStop) = true) ->
  (forall x, In x P -> In x P' \/ In (fst x) ps) -> RG R P' (patch (put k t) ps code).
Proof.
  induction ps as [|p ps IH]; intros P P' code G H Fk HP; cbn [patch fold_left].
  - eapply rg_weaken; [exact G|]. intros x I. destruct (HP x I) as [|[]]. assumption.
  - apply (IH (filter (fun x => negb (Nat.eqb (fst x) p)) P ++ P')).
    + eapply rg_update; [exact G|..].
      * intros r Ir. apply H; [now left|exact Ir].
      * apply Fk. now left.
      * intros x I. destruct (Nat.eqb_spec (fst x) p) as [|Ne]; [now right|]. left. apply in_app_iff. left. apply filter_In.
        split; [exact I|]. now rewrite (proj2 (Nat.eqb_neq _ _) Ne).
    + intros q r Iq. apply H. now right.
    + intros q Iq. rewrite fits_update. apply Fk. now right.
    + intros x I. apply in_app_iff in I as [I|I]; [|now left]. apply filter_In in I as [I1 I2]. destruct (HP x I1) as [|[Q|Q]]; auto.
      rewrite <- Q, Nat.eqb_refl in I2. discriminate.
Qed.
(** A new region starts at the end. *)
Lemma rg_open R P code l : RG R P code -> (forall j i t, nth_error code j = Some i -> In t (targets i) -> (exists k, In (j, k) P) \/ t <= length code) ->
  RG ((length code, None) :: R) P (code ++ [IxRequire l]).
Proof.
  intros [A B C] T. constructor.
  - intros j i t N It. destruct (Nat.lt_ge_cases j (length code)) as [L|L].
    + rewrite nth_error_app1 in N by lia. destruct (T _ _ _ N It) as [X|X]; [now left|].
      destruct (A _ _ _ N It) as [Y|Y]; [now left|]. right. intros r [<-|Ir]; [|auto]. intros [Z _]. cbn in Z. lia.
    + rewrite nth_error_app2 in N by lia. destruct (j - length code) as [|m]; [|destruct m; discriminate]. injection N as <-. destruct It.
  - intros NC j i c N It. destruct (Nat.lt_ge_cases j (length code)) as [L|L].
    + rewrite nth_error_app1 in N by lia. destruct (B NC _ _ _ N It) as (r & X & Y & Z). exists r. split; [now right|]. auto using declares_app.
    + rewrite nth_error_app2 in N by lia. destruct (j - length code) as [|m]; [|destruct m; discriminate]. injection N as <-. destruct It.
  - intros r [<-|Ir]; rewrite app_length; cbn [fst snd length]; [split; [lia|exact I]|]. destruct (C r Ir) as [X Y]. split; [lia|].
    destruct (snd r); [lia|exact Y].
Qed.
Definition more_caps (l : list capability) (i : instruction) : instruction :=
  match i with IxRequire k => IxRequire (k ++ l) | _ => i end.
Lemma declares_more p l code q c : declares code q c -> declares (update p (more_caps l) code) q c.
Proof.
  intros (k & N & I). unfold declares. rewrite nth_update. destruct (Nat.eqb q p); [|eauto]. rewrite N. cbn. exists (k ++ l).
  split; [reflexivity|]. apply in_app_iff. now left.
Qed.
Lemma rg_more R P code p l : RG R P code -> RG R P (update p (more_caps l) code).
Proof.
  intros [A B C].
  assert (N' : forall j i, nth_error (update p (more_caps l) code) j = Some i ->
    exists i0, nth_error code j = Some i0 /\ targets i = targets i0 /\ exts i = exts i0).
  { intros j i N. rewrite nth_update in N. destruct (Nat.eqb j p); [|eauto]. destruct (nth_error code j) as [i0|]; [|discriminate].
    injection N as <-. exists i0. split; [reflexivity|]. destruct i0; split; reflexivity. }
  constructor.
  - intros j i t N It. destruct (N' _ _ N) as (i0 & N0 & Q & _). rewrite Q in It. eauto.
  - intros NC j i c N It. destruct (N' _ _ N) as (i0 & N0 & _ & Q). rewrite Q in It. destruct (B NC _ _ _ N0 It) as (r & X & Y & Z).
    exists r. auto using declares_more.
  - intros r Ir. rewrite update_length. auto.
Qed.
(** Close regions at the end of the code. *)
Lemma rg_close R R' P code : RG R P code -> (forall r, In r R' -> In r R \/ exists q, r = (q, Some (length code)) /\ In (q, None) R) ->
  (forall r, In r R -> In r R' \/ (snd r = None /\ In (fst r, Some (length code)) R')) -> RG R' P code.
Proof.
  intros [A B C] H1 H2. constructor.
  - intros j i t N It. destruct (A _ _ _ N It) as [X|X]; [now left|]. right. intros r Ir Hr.
    destruct (H1 r Ir) as [Y|(q & -> & Y)]; [auto|]. destruct Hr as [Z1 Z2]. cbn in Z1, Z2.
    specialize (X _ Y (conj Z1 Logic.I)). destruct X as [X _]. split; [exact X|]. cbn. apply nth_error_Some. congruence.
  - intros NC j i c N It. destruct (B NC _ _ _ N It) as (r & X & Y & Z). destruct (H2 r X) as [X'|[E X']]; [eauto|].
    exists (fst r, Some (length code)). split; [exact X'|]. split; [|exact Z]. destruct Y as [Y _]. split; [exact Y|]. cbn.
    apply nth_error_Some. congruence.
  - intros r Ir. destruct (H1 r Ir) as [X|(q & -> & X)]; [auto|]. destruct (C _ X) as [Y _]. cbn in *. auto.
Qed.
End Guard.
