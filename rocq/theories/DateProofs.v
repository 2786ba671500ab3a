(** Proofs about the parts of a date. *)
From Verif Require Import Base Lib Var Value ValueProofs Comparator ComparatorSpec ComparatorProofs Message AddrTest DateSpec.

Notation val := (fold_left (fun a d => 10 * a + d)%N).
Lemma digits_val_inv : forall s a n, digits_val a s = Some n ->
  exists ds, Forall (fun d => (d < 10)%N) ds /\ s = map (N.add 48) ds /\ n = val ds a.
Proof.
  induction s as [|c s IH]; intros a n H; cbn [digits_val] in H.
  - injection H as <-. exists []. repeat split. constructor.
  - destruct (is_digit_ascii c) eqn:D; [|discriminate]. destruct (IH _ _ H) as (ds & F & -> & ->).
    unfold is_digit_ascii, between in D. exists ((c - 48)%N :: ds). split; [constructor; [lia|exact F]|]. split.
    + cbn [map]. f_equal. lia.
    + cbn [fold_left]. f_equal. lia.
Qed.
Lemma show_go_length : forall fuel n acc w, (n < 10 ^ N.of_nat w)%N -> 1 <= w ->
  length (show_pos_go fuel n acc) <= w + length acc.
Proof.
  induction fuel as [|f IH]; intros n acc w H W; cbn [show_pos_go]; [lia|].
  destruct (N.eqb (n / 10) 0) eqn:E; [cbn [length]; lia|].
  destruct w as [|w]; [lia|]. assert (W1 : 1 <= w).
  { destruct w; [|lia]. exfalso. change (10 ^ N.of_nat 1)%N with 10%N in H. apply N.eqb_neq in E. apply E. apply N.div_small. exact H. }
  specialize (IH (n / 10)%N ((48 + n mod 10)%N :: acc) w). cbn [length] in IH.
  assert (n / 10 < 10 ^ N.of_nat w)%N.
  { apply N.div_lt_upper_bound; [lia|]. rewrite Nat2N.inj_succ, N.pow_succ_r' in H. exact H. }
  specialize (IH H0 W1). lia.
Qed.
Lemma show_digits n : exists ds, Forall (fun d => (d < 10)%N) ds /\ show_N n = map (N.add 48) ds /\ n = val ds 0%N.
Proof.
  pose proof (parse_show_N n) as P. unfold parse_nat in P. destruct (show_N n) as [|c s] eqn:E; [discriminate|].
  exact (digits_val_inv _ _ _ P).
Qed.
Lemma val_zeros : forall k ds, val (repeat 0%N k ++ ds) 0%N = val ds 0%N.
Proof. induction k as [|k IH]; intro ds; [reflexivity|]. cbn [repeat app fold_left]. apply IH. Qed.
Lemma pad_decimal w n : 1 <= w -> (n < 10 ^ N.of_nat w)%N -> decimal w (pad w n) n.
Proof.
  intros W H. destruct (show_digits n) as (ds & F & E & V).
  pose proof (show_go_length (S (N.to_nat (N.size n))) n [] w H W) as Ln. fold (show_N n) in Ln. cbn [length] in Ln.
  exists (repeat 0%N (w - length (show_N n)) ++ ds). unfold pad.
  assert (Ld : length (show_N n) = length ds) by (rewrite E, map_length; reflexivity).
  split; [rewrite app_length, repeat_length; lia|]. split; [|split].
  - apply Forall_app. split; [|exact F]. apply Forall_forall. intros x I. apply repeat_spec in I. lia.
  - rewrite map_app, <- E. f_equal. clear. induction (w - length (show_N n)); cbn; [reflexivity|]. f_equal. exact IHn0.
  - rewrite val_zeros. exact V.
Qed.
(** No number is written with a zero in front. *)
Lemma show_go_head : forall fuel n acc, (n < 2 ^ N.of_nat fuel)%N -> n <> 0%N -> hd 0%N (show_pos_go fuel n acc) <> 48%N.
Proof.
  induction fuel as [|f IH]; intros n acc H Nz; [change (2 ^ N.of_nat 0)%N with 1%N in H; lia|]. cbn [show_pos_go].
  destruct (N.eqb (n / 10) 0) eqn:E.
  - cbn [hd]. apply N.eqb_eq in E. pose proof (N.div_mod n 10 ltac:(lia)). lia.
  - apply IH; [|lia]. rewrite Nat2N.inj_succ, N.pow_succ_r' in H. pose proof (N.div_mod n 10 ltac:(lia)). lia.
Qed.
Lemma show_head n : hd 0%N (show_N n) = 48%N -> show_N n = [48%N].
Proof.
  intro H. destruct (N.eq_dec n 0) as [->|Nz]; [reflexivity|]. exfalso. revert H. apply show_go_head; [|exact Nz].
  rewrite Nat2N.inj_succ, N2Nat.id. pose proof (N.size_gt n). rewrite N.pow_succ_r'. lia.
Qed.
Lemma show_decimal n : exists w, decimal w (show_N n) n.
Proof. destruct (show_digits n) as (ds & F & E & V). exists (length ds), ds. auto. Qed.

(** *** Order *)
Lemma val_less : forall a b x y, length a = length b -> Forall (fun d => (d < 10)%N) a -> Forall (fun d => (d < 10)%N) b ->
  (x < y)%N -> (val a x < val b y)%N.
Proof.
  induction a as [|d a IH]; intros [|e b] x y Ln Fa Fb H; cbn in Ln; try discriminate; [exact H|].
  inversion Fa; inversion Fb; subst. cbn [fold_left]. apply IH; auto; lia.
Qed.
Lemma digits_cmp : forall a b x s t, length a = length b -> Forall (fun d => (d < 10)%N) a -> Forall (fun d => (d < 10)%N) b ->
  tcmp (map (N.add 48) a ++ s) (map (N.add 48) b ++ t) = match N.compare (val a x) (val b x) with Eq => tcmp s t | c => c end.
Proof.
  induction a as [|d a IH]; intros [|e b] x s t Ln Fa Fb; cbn in Ln; try discriminate.
  - cbn [map app fold_left]. rewrite N.compare_refl. reflexivity.
  - inversion Fa; inversion Fb; subst. cbn [map app tcmp fold_left].
    destruct (N.compare (48 + d) (48 + e)) eqn:C.
    + apply N.compare_eq in C. assert (d = e) by lia. subst e. apply IH; auto.
    + rewrite N.compare_lt_iff in C. pose proof (val_less a b (10 * x + d) (10 * x + e) ltac:(lia) ltac:(assumption) ltac:(assumption) ltac:(lia)) as V.
      apply N.compare_lt_iff in V. rewrite V. reflexivity.
    + rewrite N.compare_gt_iff in C. pose proof (val_less b a (10 * x + e) (10 * x + d) ltac:(lia) ltac:(assumption) ltac:(assumption) ltac:(lia)) as V.
      apply N.compare_gt_iff in V. rewrite V. reflexivity.
Qed.
Lemma decimal_cmp w t n t' n' s s' : decimal w t n -> decimal w t' n' ->
  tcmp (t ++ s) (t' ++ s') = match N.compare n n' with Eq => tcmp s s' | c => c end.
Proof.
  intros (a & La & Fa & -> & ->) (b & Lb & Fb & -> & ->). apply digits_cmp; auto; congruence.
Qed.
Lemma three_cmp w sep t t' a b c a' b' c' : three w sep t a b c -> three w sep t' a' b' c' ->
  tcmp t t' = match N.compare a a' with Eq => match N.compare b b' with Eq => N.compare c c' | x => x end | x => x end.
Proof.
  intros (x & y & z & X & Y & Z & ->) (x' & y' & z' & X' & Y' & Z' & ->).
  rewrite (decimal_cmp _ _ _ _ _ _ _ X X'). destruct (N.compare a a'); try reflexivity.
  cbn [tcmp]. rewrite N.compare_refl. rewrite (decimal_cmp _ _ _ _ _ _ _ Y Y'). destruct (N.compare b b'); try reflexivity.
  cbn [tcmp]. rewrite N.compare_refl. rewrite <- (app_nil_r z), <- (app_nil_r z'). rewrite (decimal_cmp _ _ _ _ _ _ _ Z Z').
  destruct (N.compare c c'); reflexivity.
Qed.
Lemma three_lt w sep t t' a b c a' b' c' : three w sep t a b c -> three w sep t' a' b' c' ->
  (text_before t t' <-> before3 a b c a' b' c').
Proof.
  intros H H'. rewrite <- tcmp_before, (three_cmp _ _ _ _ _ _ _ _ _ _ H H'). unfold before3.
  destruct (N.compare_spec a a'), (N.compare_spec b b'), (N.compare_spec c c'); split; intro G; try discriminate; try reflexivity; lia.
Qed.
Lemma three_eq w sep t t' a b c a' b' c' : three w sep t a b c -> three w sep t' a' b' c' ->
  (t = t' <-> a = a' /\ b = b' /\ c = c').
Proof.
  intros H H'. rewrite <- tcmp_eq, (three_cmp _ _ _ _ _ _ _ _ _ _ H H').
  destruct (N.compare_spec a a'), (N.compare_spec b b'), (N.compare_spec c c'); split; intro G; try discriminate; try reflexivity; try lia; auto.
Qed.
