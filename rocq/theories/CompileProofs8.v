(** Jumps of compiled scripts, for every sequence of tokens. *)
From Coq Require Import Lia.
From Verif Require Import Base Lib Address Var Value Flags Comparator Message EditHeader Expr Event
  Notify Vacation Mime Sieve Run RunSpec Compile CompileSpec.

(** *** Fuel *)
Lemma closings_length n : forall r r', closings n r = Some r' -> length r' + n = length r.
Proof.
  induction n as [|n IH]; intros r r' H; cbn in H; [injection H as <-; lia|].
  destruct r as [|[] r]; try discriminate. apply IH in H. cbn. lia.
Qed.
Lemma parse_fuel umax lim f : forall r code b stk n, length r < f -> parse_test umax lim f r code b stk n <> PFuel.
Proof.
  induction f as [|f IH]; intros r code b stk n L; [lia|].
  assert (G : forall i r' n', length r' < length r ->
    match closings (t_p b) r' with
    | None => PErr
    | Some r'' => match stk with
       | [] => POk ((code ++ [i]) ++ [IxJz umax]) r''
       | _ => parse_test umax lim f r'' (code ++ [i]) {| t_all := t_all b; t_not := t_not b; t_p := 0; t_jmps := t_jmps b |} stk n'
       end
    end <> PFuel).
  { intros i r' n' Lr. destruct (closings (t_p b) r') as [r''|] eqn:Cl; [|discriminate]. apply closings_length in Cl.
    destruct stk; [discriminate|]. apply IH. lia. }
  cbn [parse_test]. destruct r as [|t r]; [discriminate|]. cbn [length] in *.
  destruct t; try discriminate; try (apply G; lia).
  - destruct (peek_word r); [|discriminate]. apply IH. lia.
  - destruct (Nat.ltb _ _); [|discriminate]. destruct r as [|[] r]; try discriminate. apply IH. cbn in L. lia.
  - destruct (Nat.ltb _ _); [|discriminate]. destruct r as [|[] r]; try discriminate. apply IH. cbn in L. lia.
  - destruct stk; [discriminate|]. destruct (_ && _); [|discriminate]. apply IH. lia.
  - apply IH. lia.
  - destruct (t_p b); [|apply IH; lia]. destruct stk as [|p [|q stk]]; try discriminate. apply IH. lia.
Qed.
Lemma parse_shorter umax lim f : forall r code b stk n code' r', parse_test umax lim f r code b stk n = POk code' r' -> length r' < length r.
Proof.
  induction f as [|f IH]; intros r code b stk n code' r0 H; [discriminate|].
  assert (G : forall i r' n', length r' < length r ->
    match closings (t_p b) r' with
    | None => PErr
    | Some r'' => match stk with
       | [] => POk ((code ++ [i]) ++ [IxJz umax]) r''
       | _ => parse_test umax lim f r'' (code ++ [i]) {| t_all := t_all b; t_not := t_not b; t_p := 0; t_jmps := t_jmps b |} stk n'
       end
    end = POk code' r0 -> length r0 < length r).
  { intros i r' n' Lr. destruct (closings (t_p b) r') as [r''|] eqn:Cl; [|discriminate]. apply closings_length in Cl.
    destruct stk; [injection 1 as <- <-; lia|]. intros X. apply IH in X. lia. }
  cbn [parse_test] in H. destruct r as [|t r]; [discriminate|]. cbn [length] in *.
  destruct t; try discriminate; try (apply G in H; lia).
  - destruct (peek_word r); [|discriminate]. apply IH in H. lia.
  - destruct (Nat.ltb _ _); [|discriminate]. destruct r as [|[] r]; try discriminate. apply IH in H. cbn. lia.
  - destruct (Nat.ltb _ _); [|discriminate]. destruct r as [|[] r]; try discriminate. apply IH in H. cbn. lia.
  - destruct stk; [discriminate|]. destruct (_ && _); [|discriminate]. apply IH in H. lia.
  - apply IH in H. lia.
  - destruct (t_p b); [|apply IH in H; lia]. destruct stk as [|p [|q stk]]; try discriminate.
    + injection H as <- <-. lia.
    + apply IH in H. lia.
Qed.
Lemma test_then_shorter umax lim t r s r' s' : test_then umax lim t r s = Some (r', s') -> length r' < length r.
Proof.
  unfold test_then. destruct (parse_test _ _ _ _ _ _ _ _) as [| |code r1] eqn:P; try discriminate.
  apply parse_shorter in P. destruct r1 as [|[] r1]; try discriminate. destruct (open _ _ _ _); [|discriminate].
  injection 1 as <- <-. cbn in P. lia.
Qed.
Lemma command_shorter umax lim t r s r' s' : command umax lim t r s = Some (r', s') -> length r' <= length r.
Proof.
  destruct t; cbn [command]; intros H; try discriminate;
    repeat match type of H with
      | match ?x with _ => _ end = _ => destruct x; try discriminate
      | (if ?x then _ else _) = _ => destruct x; try discriminate
      | option_map _ ?x = _ => destruct x; try discriminate; cbn [option_map] in H
      end;
    try (injection H as <- <-); try (apply test_then_shorter in H); cbn [length]; lia.
Qed.
Lemma go_fuel umax lim f : forall r s, length r <= f -> go umax lim f r s <> CFuel.
Proof.
  induction f as [|f IH]; intros [|t r] s L; cbn [go length] in *; try (destruct (c_stack s); discriminate); [lia|].
  destruct (command umax lim t r s) as [[r' s']|] eqn:C; [|discriminate]. apply IH. apply command_shorter in C. lia.
Qed.
(** The fuel is enough: a script that is not compiled is one the compiler rejects. *)
Lemma compile_total umax lim r : go umax lim (length r) r start <> CFuel.
Proof. apply go_fuel. lia. Qed.

(** *** Pending jumps *)
Inductive pk := PJmp | PJz | PCond | PFor | PWhile.
Definition fits (k : pk) (i : instruction) : bool :=
  match k, i with
  | PJmp, IxJmp _ | PJz, IxJz _ | PCond, (IxJz _ | IxJnz _) | PFor, IxForEveryPart _ | PWhile, IxWhile _ _ => true
  | _, _ => false
  end.
Definition put (k : pk) (t : nat) : instruction -> instruction :=
  match k with PJmp => to_jmp t | PJz => to_jz t | PCond => to_cond t | PFor => to_for t | PWhile => to_while t end.
Definition vac (code : list instruction) (p : nat) : bool :=
  match nth_error code p with Some i => is_vacation i | None => false end.
Definition target_ok (code : list instruction) (t : nat) : Prop :=
  t <= length code /\ vac code t = false /\ vac code (t + 1) = false.
Definition pending := list (nat * pk).

Record Inv (pend : pending) (code : list instruction) : Prop := {
  iv_res : forall j i t, nth_error code j = Some i -> In t (targets i) -> target_ok code t \/ exists k, In (j, k) pend;
  iv_pend : forall p k, In (p, k) pend -> exists i, nth_error code p = Some i /\ fits k i = true /\ vac code (p + 1) = false;
  iv_vac : forall p, vac code p = true -> exists q j, p = q + 2 /\ nth_error code q = Some j /\ is_vacation_test j = true /\
    nth_error code (q + 1) = Some (IxJz (q + 3))
}.

Lemma put_targets k t i : fits k i = true -> targets (put k t i) = [t].
Proof. destruct k, i; cbn; try discriminate; reflexivity. Qed.
Lemma put_fits k t i k2 : fits k2 (put k t i) = fits k2 i.
Proof. destruct k, i, k2; reflexivity. Qed.
Lemma put_vac k t i : is_vacation (put k t i) = is_vacation i.
Proof. destruct k, i; reflexivity. Qed.
Lemma put_vtest k t i : is_vacation_test (put k t i) = is_vacation_test i.
Proof. destruct k, i; reflexivity. Qed.
Lemma fits_not_vac k i : fits k i = true -> is_vacation i = false.
Proof. destruct k, i; cbn; try discriminate; reflexivity. Qed.

Lemma nth_update p f l : forall j, nth_error (update p f l) j = if Nat.eqb j p then option_map f (nth_error l j) else nth_error l j.
Proof.
  revert p. induction l as [|i l IH]; intros p j.
  - destruct p, j; cbn; try reflexivity; destruct (Nat.eqb _ _); reflexivity.
  - destruct p, j; cbn; try reflexivity. apply IH.
Qed.
Lemma update_length p f : forall l, length (update p f l) = length l.
Proof. intros l. revert p. induction l as [|i l IH]; intros [|p]; cbn; auto. Qed.
Lemma patch_length f ps : forall l, length (patch f ps l) = length l.
Proof. unfold patch. induction ps as [|p ps IH]; intros l; cbn; [reflexivity|]. now rewrite IH, update_length. Qed.

Lemma vac_app code l p : p < length code -> vac (code ++ l) p = vac code p.
Proof. intros L. unfold vac. now rewrite nth_error_app1. Qed.
Lemma vac_end code p : length code <= p -> vac code p = false.
Proof. intros L. unfold vac. rewrite (proj2 (nth_error_None _ _)); auto. Qed.

Lemma inv_weaken P P' code : Inv P code -> (forall x, In x P <-> In x P') -> Inv P' code.
Proof.
  intros [A B C] E. constructor.
  - intros j i t N T. destruct (A j i t N T) as [|[k I]]; [now left|]. right. exists k. now apply E.
  - intros p k I. apply B. now apply E.
  - exact C.
Qed.

(** Append an instruction that is no vacation. *)
Lemma inv_snoc P code i : Inv P code -> is_vacation i = false ->
  (forall t, In t (targets i) -> target_ok code t \/ t = length code) -> Inv P (code ++ [i]).
Proof.
  intros [A B C] V T.
  assert (V1 : forall p, vac (code ++ [i]) p = vac code p).
  { intros p. unfold vac. destruct (Nat.lt_trichotomy p (length code)) as [L|[->|L]].
    - now rewrite nth_error_app1.
    - rewrite nth_error_app2, Nat.sub_diag by lia. cbn. rewrite V. now rewrite (proj2 (nth_error_None _ _)).
    - rewrite !(proj2 (nth_error_None _ _)); auto; rewrite ?app_length; cbn; lia. }
  assert (K : forall t, target_ok code t -> target_ok (code ++ [i]) t).
  { intros t (X & Y & Z). split; [rewrite app_length; lia|]. now rewrite !V1. }
  constructor.
  - intros j i0 t N I. destruct (Nat.lt_ge_cases j (length code)) as [L|L].
    + rewrite nth_error_app1 in N by lia. destruct (A _ _ _ N I) as [X|X]; [left; auto|now right].
    + rewrite nth_error_app2 in N by lia. destruct (j - length code) as [|m]; [|destruct m; discriminate]. injection N as <-.
      left. destruct (T _ I) as [X| ->]; [auto|]. split; [rewrite app_length; cbn; lia|]. rewrite !V1. split; apply vac_end; lia.
  - intros p k I. destruct (B p k I) as (i0 & N & F & W). exists i0. split.
    + rewrite nth_error_app1; [exact N|]. apply nth_error_Some. congruence.
    + now rewrite V1.
  - intros p W. rewrite V1 in W. destruct (C p W) as (q & j & -> & N & VT & N2). exists q, j. split; [reflexivity|].
    assert (q + 2 < length code). { unfold vac in W. destruct (nth_error code (q + 2)) eqn:E; [|discriminate]. apply nth_error_Some. congruence. }
    rewrite !nth_error_app1 by lia. auto.
Qed.
(** Append a jump to be resolved later. *)
Lemma inv_later P code k i : Inv P code -> fits k i = true -> Inv ((length code, k) :: P) (code ++ [i]).
Proof.
  intros [A B C] F. pose proof (fits_not_vac _ _ F) as V.
  assert (V1 : forall p, vac (code ++ [i]) p = vac code p).
  { intros p. unfold vac. destruct (Nat.lt_trichotomy p (length code)) as [L|[->|L]].
    - now rewrite nth_error_app1.
    - rewrite nth_error_app2, Nat.sub_diag by lia. cbn. rewrite V. now rewrite (proj2 (nth_error_None _ _)).
    - rewrite !(proj2 (nth_error_None _ _)); auto; rewrite ?app_length; cbn; lia. }
  constructor.
  - intros j i0 t N I. destruct (Nat.lt_ge_cases j (length code)) as [L|L].
    + rewrite nth_error_app1 in N by lia. destruct (A _ _ _ N I) as [(X & Y & Z)|[k2 X]].
      * left. split; [rewrite app_length; lia|]. now rewrite !V1.
      * right. exists k2. now right.
    + assert (j = length code). { assert (j < length (code ++ [i])) by (apply nth_error_Some; congruence). rewrite app_length in H; cbn in H. lia. }
      subst j. right. exists k. now left.
  - intros p k0 [Q|I].
    + injection Q as <- <-. exists i. split; [rewrite nth_error_app2, Nat.sub_diag by lia; reflexivity|]. split; [exact F|].
      rewrite V1. apply vac_end. lia.
    + destruct (B p k0 I) as (i0 & N & F0 & W). exists i0. split.
      * rewrite nth_error_app1; [exact N|]. apply nth_error_Some. congruence.
      * now rewrite V1.
  - intros p W. rewrite V1 in W. destruct (C p W) as (q & j & -> & N & VT & N2). exists q, j. split; [reflexivity|].
    assert (q + 2 < length code). { unfold vac in W. destruct (nth_error code (q + 2)) eqn:E; [|discriminate]. apply nth_error_Some. congruence. }
    rewrite !nth_error_app1 by lia. auto.
Qed.
(** Append a whole vacation action. *)
Lemma inv_vacation P code t v : Inv P code -> is_vacation_test (IxTest t) = true -> targets v = [] ->
  Inv P (code ++ [IxTest t; IxJz (length code + 3); v]).
Proof.
  intros I VT TV.
  assert (L3 : length (code ++ [IxTest t; IxJz (length code + 3); v]) = length code + 3) by (rewrite app_length; reflexivity).
  assert (V1 : forall p, p <= length code + 1 -> vac (code ++ [IxTest t; IxJz (length code + 3); v]) p = vac code p).
  { intros p L. unfold vac. destruct (Nat.lt_ge_cases p (length code)) as [L1|L1].
    - now rewrite nth_error_app1.
    - rewrite nth_error_app2 by lia. rewrite (proj2 (nth_error_None code p)) by lia.
      destruct (p - length code) as [|[|m]] eqn:E; try reflexivity. lia. }
  destruct I as [A B C]. constructor.
  - intros j i0 t0 N It. destruct (Nat.lt_ge_cases j (length code)) as [L|L].
    + rewrite nth_error_app1 in N by lia. destruct (A _ _ _ N It) as [(X & Y & Z)|X]; [left|now right].
      split; [rewrite L3; lia|]. rewrite !V1 by lia. auto.
    + rewrite nth_error_app2 in N by lia. left. destruct (j - length code) as [|[|[|m]]]; cbn in N.
      * injection N as <-. destruct It.
      * injection N as <-. destruct It as [<-|[]]. split; [rewrite L3; lia|]. split; apply vac_end; rewrite L3; lia.
      * injection N as <-. rewrite TV in It. destruct It.
      * destruct m; discriminate.
  - intros p k Ip. destruct (B p k Ip) as (i0 & N & F & W). exists i0.
    assert (p < length code) by (apply nth_error_Some; congruence). rewrite nth_error_app1, V1 by lia. auto.
  - intros p W. destruct (Nat.le_gt_cases p (length code + 1)) as [L|L].
    + rewrite V1 in W by lia. destruct (C p W) as (q & j & -> & N & VT' & N2). exists q, j. split; [reflexivity|].
      assert (q + 2 < length code). { unfold vac in W. destruct (nth_error code (q + 2)) eqn:E; [|discriminate]. apply nth_error_Some. congruence. }
      rewrite !nth_error_app1 by lia. auto.
    + assert (p = length code + 2).
      { unfold vac in W. destruct (nth_error _ p) eqn:E; [|discriminate].
        assert (p < length code + 3) by (rewrite <- L3; apply nth_error_Some; congruence). lia. }
      subst p. exists (length code), (IxTest t). split; [reflexivity|].
      rewrite !nth_error_app2 by lia. rewrite Nat.sub_diag. replace (length code + 1 - length code) with 1 by lia. auto.
Qed.

(** Resolve. *)
Definition patchable (code : list instruction) (k : pk) (p : nat) : Prop :=
  exists i, nth_error code p = Some i /\ fits k i = true /\ vac code (p + 1) = false.
Lemma vac_update p k t code q : vac (update p (put k t) code) q = vac code q.
Proof.
  unfold vac. rewrite nth_update. destruct (Nat.eqb q p); [|reflexivity]. destruct (nth_error code q); cbn; [apply put_vac|reflexivity].
Qed.
Lemma patchable_update code k p k2 t q : patchable code k p -> patchable (update q (put k2 t) code) k p.
Proof.
  intros (i & N & F & W). unfold patchable. rewrite vac_update, nth_update. destruct (Nat.eqb p q); [|eauto].
  rewrite N. exists (put k2 t i). split; [reflexivity|]. rewrite put_fits. auto.
Qed.
Lemma inv_update P P' code p k t : Inv P code -> patchable code k p -> target_ok code t ->
  (forall x, In x P' -> In x P) -> (forall x, In x P -> In x P' \/ fst x = p) ->
  Inv P' (update p (put k t) code).
Proof.
  intros [A B C] (i0 & N0 & F0 & W0) T I1 I2.
  assert (K : forall t, target_ok code t -> target_ok (update p (put k t) code) t).
  { intros t0 (X & Y & Z). split; [rewrite update_length; exact X|]. now rewrite !vac_update. }
  constructor.
  - intros j i t0 N It. rewrite nth_update in N. destruct (Nat.eqb_spec j p) as [->|Ne].
    + rewrite N0 in N. cbn in N. injection N as <-. rewrite put_targets in It by exact F0. destruct It as [<-|[]]. left. auto.
    + destruct (A j i t0 N It) as [(X & Y & Z)|[k2 X]].
      * left. split; [rewrite update_length; exact X|]. now rewrite !vac_update.
      * right. exists k2. destruct (I2 _ X) as [|Q]; [assumption|]. cbn in Q. contradiction.
  - intros q k2 I. apply I1 in I. apply B in I. now apply patchable_update.
  - intros q W. rewrite vac_update in W. destruct (C q W) as (a & j & -> & N & VT & N2).
    exists a. rewrite !nth_update.
    assert (Ne : Nat.eqb (a + 1) p = false).
    { apply Nat.eqb_neq. intros <-. replace (a + 1 + 1) with (a + 2) in W0 by lia. congruence. }
    rewrite Ne. destruct (Nat.eqb a p).
    + rewrite N. exists (put k t j). split; [reflexivity|]. split; [reflexivity|]. now rewrite put_vtest.
    + exists j. auto.
Qed.
Lemma inv_patch k t : forall ps P code P', Inv P code -> Forall (patchable code k) ps -> target_ok code t ->
  (forall x, In x P' -> In x P) -> (forall x, In x P -> In x P' \/ In (fst x) ps) ->
  Inv P' (patch (put k t) ps code).
Proof.
  induction ps as [|p ps IH]; intros P code P' I F T I1 I2.
  - cbn. eapply inv_weaken; [exact I|]. intros x. split; [|apply I1]. intros H. destruct (I2 x H) as [|[]]; assumption.
  - inversion F as [|? ? F1 F2]; subst. cbn [patch fold_left].
    apply (IH (filter (fun x => negb (Nat.eqb (fst x) p) || existsb (fun y => Nat.eqb (fst x) (fst y) && match snd x, snd y with
        | PJmp, PJmp | PJz, PJz | PCond, PCond | PFor, PFor | PWhile, PWhile => true | _, _ => false end) P') P)).
    + apply (inv_update P); auto.
      * intros x H. now apply filter_In in H.
      * intros x H. destruct (Nat.eqb_spec (fst x) p) as [->|Ne]; [now right|]. left. apply filter_In. split; [exact H|].
        now rewrite (proj2 (Nat.eqb_neq _ _) Ne).
    + eapply Forall_impl; [|exact F2]. intros q. apply patchable_update.
    + destruct T as (X & Y & Z). split; [rewrite update_length; exact X|]. now rewrite !vac_update.
    + intros x H. apply filter_In. split; [now apply I1|]. apply orb_true_iff. right. apply existsb_exists. exists x. split; [exact H|].
      rewrite Nat.eqb_refl. now destruct (snd x).
    + intros x H. apply filter_In in H as [H1 H2]. destruct (I2 x H1) as [|[Q|Q]]; auto.
      rewrite <- Q, Nat.eqb_refl in H2. cbn in H2. apply existsb_exists in H2 as (y & Iy & E). left.
      apply andb_true_iff in E as [E1 E2]. apply Nat.eqb_eq in E1. destruct x as [a b], y as [c d]. cbn in *. subst c.
      subst p. destruct b, d; try discriminate; exact Iy.
Qed.

(** *** Tests *)
Lemma harmless_not i : harmless i -> harmless (set_not i).
Proof. destruct i; auto. Qed.
Lemma inv_harmless P code i : Inv P code -> harmless i -> Inv P (code ++ [i]).
Proof. intros I [T V]. apply inv_snoc; auto. rewrite T. intros t []. Qed.
Lemma target_end code : target_ok code (length code).
Proof. split; [lia|]. split; apply vac_end; lia. Qed.
Lemma pend_patchable P code k p : Inv P code -> In (p, k) P -> patchable code k p.
Proof. intros [_ B _] H. apply B in H. exact H. Qed.

Definition tpend (bs : list tblock) : pending := flat_map (fun b => map (fun p => (p, PCond)) (t_jmps b)) bs.
Lemma closings_ok n : forall r r', closings n r = Some r' -> Forall token_ok r -> Forall token_ok r'.
Proof.
  induction n as [|n IH]; intros r r' H F; cbn in H; [now injection H as <-|].
  destruct r as [|[] r]; try discriminate. inversion F; subst. eauto.
Qed.

Section Tests.
  Variable umax : nat.
  Variable lim : limits.

  Lemma parse_inv f : forall r code b stk n code' r' P, Forall token_ok r ->
    Inv (tpend (b :: stk) ++ P) code -> t_jmps (last (b :: stk) top_tblock) = [] ->
    parse_test umax lim f r code b stk n = POk code' r' ->
    exists code1, code' = code1 ++ [IxJz umax] /\ Inv P code1 /\ Forall token_ok r'.
  Proof.
    induction f as [|f IH]; intros r code b stk n code' r0 P F I LJ H; [discriminate|].
    assert (G : forall i r' n', harmless i -> Forall token_ok r' ->
      match closings (t_p b) r' with
      | None => PErr
      | Some r'' => match stk with
         | [] => POk ((code ++ [i]) ++ [IxJz umax]) r''
         | _ => parse_test umax lim f r'' (code ++ [i]) {| t_all := t_all b; t_not := t_not b; t_p := 0; t_jmps := t_jmps b |} stk n'
         end
      end = POk code' r0 -> exists code1, code' = code1 ++ [IxJz umax] /\ Inv P code1 /\ Forall token_ok r0).
    { intros i r' n' Ha F' X. destruct (closings (t_p b) r') as [r''|] eqn:Cl; [|discriminate].
      apply closings_ok in Cl; [|exact F']. destruct stk as [|b2 stk].
      - injection X as <- <-. eexists. split; [reflexivity|]. split; [|exact Cl].
        apply inv_harmless; [|exact Ha]. cbn in LJ. unfold tpend in I. cbn in I. rewrite LJ in I. exact I.
      - eapply (IH _ _ _ _ _ _ _ P Cl); [| |exact X].
        + apply inv_harmless; [|exact Ha]. exact I.
        + cbn [last] in *. exact LJ. }
    cbn [parse_test] in H. destruct r as [|t r]; [discriminate|]. inversion F as [|? ? F1 F2]; subst.
    destruct t; try discriminate; try (eapply G; [| |exact H]; auto).
    all: try (split; destruct n; reflexivity).
    - destruct (peek_word r); [|discriminate]. eapply IH; eauto.
    - destruct (Nat.ltb _ _); [|discriminate]. destruct r as [|[] r]; try discriminate. inversion F2; subst. refine (IH _ _ _ _ _ _ _ P _ _ _ H); [assumption| |].
      + cbn. exact I.
      + cbn [last] in *. destruct stk; exact LJ.
    - destruct (Nat.ltb _ _); [|discriminate]. destruct r as [|[] r]; try discriminate. inversion F2; subst. refine (IH _ _ _ _ _ _ _ P _ _ _ H); [assumption| |].
      + cbn. exact I.
      + cbn [last] in *. destruct stk; exact LJ.
    - cbn in F1. destruct n; [now apply harmless_not|exact F1].
    - destruct stk as [|b2 stk]; [discriminate|]. destruct (_ && _); [|discriminate].
      refine (IH _ _ _ _ _ _ _ P _ _ _ H); [assumption| |].
      + eapply inv_weaken; [apply (inv_later (tpend (b :: b2 :: stk) ++ P) code PCond (if t_all b then IxJz umax else IxJnz umax)); [exact I|destruct (t_all b); reflexivity]|].
        intros x. cbn [tpend flat_map t_jmps]. rewrite map_app. cbn [map]. rewrite !in_app_iff. cbn [In]. rewrite !in_app_iff. tauto.
      + exact LJ.
    - refine (IH _ _ _ _ _ _ _ P _ _ _ H); [assumption|exact I|]. destruct stk; exact LJ.
    - destruct (t_p b) as [|m].
      2:{ refine (IH _ _ _ _ _ _ _ P _ _ _ H); [assumption|exact I|]. destruct stk; exact LJ. }
      destruct stk as [|b2 stk]; [discriminate|].
      assert (X : Inv (tpend (b2 :: stk) ++ P) (patch (to_cond (length code)) (t_jmps b) code)).
      { apply (inv_patch PCond (length code) _ _ _ _ I).
        - apply Forall_forall. intros p Ip. eapply pend_patchable; [exact I|]. apply in_app_iff. left. cbn. apply in_app_iff. left.
          apply in_map_iff. eauto.
        - apply target_end.
        - intros x. cbn. rewrite !in_app_iff. tauto.
        - intros x. cbn. rewrite !in_app_iff. intros [[Q|Q]|Q]; auto. right. apply in_map_iff in Q as (p & <- & Ip). exact Ip. }
      destruct stk as [|b3 stk].
      + injection H as <- <-. eexists. split; [reflexivity|]. split; [|assumption]. cbn in X. cbn in LJ. rewrite LJ in X. exact X.
      + refine (IH _ _ _ _ _ _ _ P _ _ _ H); [assumption|exact X|]. cbn [last] in *. exact LJ.
  Qed.
End Tests.

(** *** Blocks *)
Definition bpend (b : blk) : pending := map (fun p => (p, PJmp)) (b_if b ++ b_break b).
Definition hpend (t : btype) (p : nat) : pending :=
  match t with BIf | BElsIf => [(p, PJz)] | BFor => [(p, PFor)] | BWhile => [(p, PWhile)] | BNot | BElse => [] end.
Fixpoint pends (b : blk) (stk : list blk) : pending :=
  bpend b ++ match stk with [] => [] | prev :: stk' => hpend (b_type b) (b_start prev) ++ pends prev stk' end.
Definition lpends (l : list blk) : pending := match l with [] => [] | b :: stk => pends b stk end.

(** Jumps over the rest of an if wait for an elsif or else. *)
Fixpoint chain (b : blk) (stk : list blk) : Prop :=
  (b_break b <> [] -> is_loop b = true) /\
  match stk with
  | [] => b_type b = BNot
  | prev :: stk' => (b_if prev <> [] -> b_type b = BElsIf \/ b_type b = BElse) /\ chain prev stk'
  end.
Definition lchain (l : list blk) : Prop := match l with [] => True | b :: stk => chain b stk end.
Definition goes_on (r : list token) : bool := match r with KElsIf :: _ | KElse :: _ => true | _ => false end.

Record SI (r : list token) (s : cst) : Prop := {
  si_inv : Inv (pends (c_blk s) (c_stack s)) (c_code s);
  si_chain : chain (c_blk s) (c_stack s);
  si_if : b_if (c_blk s) <> [] -> goes_on r = true
}.

Lemma in_bpend x b : In x (bpend b) <-> (In (fst x) (b_if b) \/ In (fst x) (b_break b)) /\ snd x = PJmp.
Proof.
  unfold bpend. rewrite in_map_iff. setoid_rewrite in_app_iff. destruct x as [p k]. cbn. split.
  - intros (y & Q & H). injection Q as <- <-. auto.
  - intros [H ->]. exists p. auto.
Qed.
Lemma pends_eq b stk : pends b stk = bpend b ++ match stk with [] => [] | prev :: stk' => hpend (b_type b) (b_start prev) ++ pends prev stk' end.
Proof. destruct stk; reflexivity. Qed.

Lemma find_label_spec n pos : forall l pops r bs, find_label n pops pos l = Some (r, bs) ->
  (forall x, In x (lpends bs) <-> In x (lpends l) \/ x = (pos, PJmp)) /\ (lchain l -> lchain bs) /\
  match l, bs with b :: _, b' :: _ => b_type b' = b_type b /\ b_if b' = b_if b /\ b_start b' = b_start b | _, _ => False end.
Proof.
  induction l as [|b l IH]; intros pops r bs H; [discriminate|]. cbn [find_label] in H.
  assert (Rec : forall m, option_map (fun r => (fst r, b :: snd r)) (find_label n m pos l) = Some (r, bs) ->
    (forall x, In x (lpends bs) <-> In x (lpends (b :: l)) \/ x = (pos, PJmp)) /\ (lchain (b :: l) -> lchain bs) /\
    match bs with b' :: _ => b_type b' = b_type b /\ b_if b' = b_if b /\ b_start b' = b_start b | _ => False end).
  { intros m X. destruct (find_label n m pos l) as [[r1 bs1]|] eqn:Fi; [|discriminate]. injection X as <- <-.
    destruct (IH _ _ _ Fi) as (A & B & C). destruct l as [|c l]; [discriminate|]. destruct bs1 as [|c1 bs1]; [destruct C|].
    destruct C as (C1 & C2 & C3). cbn [snd lpends lchain] in *. split; [|split; [|auto]].
    - intros x. rewrite (pends_eq b (c1 :: bs1)), (pends_eq b (c :: l)), !in_app_iff, A, C3. tauto.
    - cbn [chain]. rewrite C2. tauto. }
  destruct (is_for b) eqn:Ef; [|now apply (Rec pops)].
  destruct (label_eqb (b_label b) n); [|now apply (Rec (pops + 1))].
  injection H as <- <-. split; [|split; [|auto]].
  - intros x. cbn [lpends]. rewrite !pends_eq, !in_app_iff, !in_bpend. cbn [with_break b_if b_break b_type]. rewrite in_app_iff. cbn [In].
    destruct x as [p k]. cbn [fst snd]. split.
    + intros [[[H|[H|[<-|[]]]] ->]|H]; auto 6; tauto.
    + intros [[[H ->]|H]|H]; [tauto|auto|]. injection H as -> ->. auto 6.
  - assert (Lo : is_loop b = true) by (unfold is_for, is_loop in *; destruct (b_type b); congruence).
    cbn [lchain]. destruct l as [|c l]; cbn [chain]; intros [_ Q]; (split; [intros _; exact Lo|exact Q]).
Qed.
Lemma find_loop_spec pos : forall l f bs, find_loop pos l = Some (f, bs) ->
  (forall x, In x (lpends bs) <-> In x (lpends l) \/ x = (if f then pos + 1 else pos, PJmp)) /\ (lchain l -> lchain bs) /\
  match l, bs with b :: _, b' :: _ => b_type b' = b_type b /\ b_if b' = b_if b /\ b_start b' = b_start b | _, _ => False end.
Proof.
  induction l as [|b l IH]; intros f bs H; [discriminate|]. cbn [find_loop] in H. destruct (is_loop b) eqn:El.
  - injection H as <- <-. split; [|split; [|auto]].
    + intros x. cbn [lpends]. rewrite !pends_eq, !in_app_iff, !in_bpend. cbn [with_break b_if b_break b_type]. rewrite in_app_iff. cbn [In].
      destruct x as [p k]. cbn [fst snd]. split.
      * intros [[[H|[H|[<-|[]]]] ->]|H]; auto 6; tauto.
      * intros [[[H ->]|H]|H]; [tauto|auto|]. injection H as -> ->. auto 6.
    + cbn [lchain]. destruct l as [|c l]; cbn [chain]; intros [_ Q]; (split; [intros _; exact El|exact Q]).
  - destruct (find_loop pos l) as [[f1 bs1]|] eqn:Fi; [|discriminate]. injection H as <- <-.
    destruct (IH _ _ eq_refl) as (A & B & C). destruct l as [|c l]; [discriminate|]. destruct bs1 as [|c1 bs1]; [destruct C|].
    destruct C as (C1 & C2 & C3). cbn [snd lpends lchain] in *. split; [|split; [|auto]].
    + intros x. rewrite (pends_eq b (c1 :: bs1)), (pends_eq b (c :: l)), !in_app_iff, A, C3. tauto.
    + cbn [chain]. rewrite C2. tauto.
Qed.
Lemma do_continue_spec : forall l found top, (found = 1 -> b_type top = BWhile) ->
  forall m is, do_continue found l = (m, is) -> is = [] \/ exists b, is = [IxJmp (b_start b)] /\ In (b_start b, PWhile) (pends top l).
Proof.
  induction l as [|b l IH]; intros found top W m is H; cbn [do_continue] in H; [injection H as <- <-; now left|].
  rewrite pends_eq.
  destruct (Nat.eqb_spec found 1) as [->|Ne].
  - destruct (b_type b) eqn:Tb; try (injection H as <- <-; right; exists b; split; [reflexivity|];
      rewrite (W eq_refl); apply in_app_iff; right; now left).
    destruct (IH 2 b ltac:(discriminate) _ _ H) as [|(c & Q & I)]; [now left|]. right. exists c. split; [exact Q|].
    rewrite !in_app_iff. auto.
  - assert (R : exists f', do_continue f' l = (m, is) /\ (f' = 1 -> b_type b = BWhile)).
    { destruct (b_type b); try (exists found; split; [exact H|congruence]). exists (found + 1). auto. }
    destruct R as (f' & R & W'). destruct (IH f' b W' _ _ R) as [|(c & Q & I)]; [now left|]. right. exists c. split; [exact Q|].
    rewrite !in_app_iff. auto.
Qed.
