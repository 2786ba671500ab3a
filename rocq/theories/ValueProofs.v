(** Proofs about values, integers and match variables. *)
From Verif Require Import Base Lib Var Value ValueSpec.

(** *** Match variables *)
Lemma nth_upd {A} i j (x : A) l :
  nth_error (upd i x l) j = if Nat.eqb i j then (match nth_error l j with Some _ => Some x | None => None end)
                            else nth_error l j.
Proof.
  revert i j. induction l as [|y l IH]; intros [|i] [|j]; simpl; try reflexivity.
  - destruct (Nat.eqb i j); reflexivity.
  - apply IH.
Qed.

(** The last value given for position [k]. *)
Fixpoint last_for (k : nat) (set : list (nat * text)) (d : option text) : option text :=
  match set with
  | [] => d
  | (i, t) :: set' => last_for k set' (if Nat.eqb i k then Some t else d)
  end.

Lemma last_for_d k set d : last_for k set d = match last_for k set None with Some t => Some t | None => d end.
Proof.
  revert d. induction set as [|[i t] set IH]; intro d; simpl; [reflexivity|].
  rewrite IH. rewrite (IH (if Nat.eqb i k then Some t else None)).
  destruct (last_for k set None); [reflexivity|]. destruct (Nat.eqb i k); reflexivity.
Qed.

Lemma set_match_nth set : forall m i,
  nth_error (set_match_variables set m) i =
  match nth_error m i with
  | None => None
  | Some v => Some (match last_for i set None with Some t => VStr t | None => v end)
  end.
Proof.
  induction set as [|[k t] set IH]; intros m i; simpl.
  - destruct (nth_error m i); reflexivity.
  - rewrite IH, nth_upd. rewrite (last_for_d i set (if Nat.eqb k i then Some t else None)).
    destruct (Nat.eqb k i), (nth_error m i), (last_for i set None); reflexivity.
Qed.

Lemma last_for_not_in k set : ~ In k (map fst set) -> last_for k set None = None.
Proof.
  induction set as [|[i t] set IH]; simpl; intro H; [reflexivity|].
  destruct (Nat.eqb i k) eqn:E; [apply Nat.eqb_eq in E; tauto|]. apply IH. tauto.
Qed.
Lemma last_for_in k t set : NoDup (map fst set) -> In (k, t) set -> last_for k set None = Some t.
Proof.
  induction set as [|[i u] set IH]; simpl; intros N H; [destruct H|].
  inversion N as [|? ? N1 N2]; subst. destruct H as [H|H].
  - injection H as -> ->. rewrite Nat.eqb_refl, last_for_d, (last_for_not_in k set N1). reflexivity.
  - assert (Nat.eqb i k = false) as ->.
    { apply Nat.eqb_neq. intros ->. apply N1. change k with (fst (k, t)). apply in_map, H. }
    apply IH; assumption.
Qed.

Lemma set_match_exact set m : NoDup (map fst set) ->
  length (set_match_variables set m) = length m /\
  (forall k t, In (k, t) set -> k < length m -> nth_error (set_match_variables set m) k = Some (VStr t)) /\
  (forall k, ~ In k (map fst set) -> nth_error (set_match_variables set m) k = nth_error m k).
Proof.
  intro N. split; [|split].
  - clear N. revert m. induction set as [|[k t] set IH]; intro m; simpl; [reflexivity|].
    rewrite IH. clear. revert k. induction m as [|y m IH]; intros [|k]; simpl; try reflexivity. rewrite IH. reflexivity.
  - intros k t H Hk. rewrite set_match_nth, (last_for_in k t set N H).
    destruct (nth_error m k) eqn:E; [reflexivity|]. apply nth_error_None in E. lia.
  - intros k H. rewrite set_match_nth, (last_for_not_in k set H). destruct (nth_error m k); reflexivity.
Qed.

Lemma clear_loop_exact fuel : forall p m i, (p < 2 ^ N.of_nat fuel)%N ->
  nth_error (clear_loop fuel p m) i =
  match nth_error m i with
  | None => None
  | Some v => Some (if N.testbit p (N.of_nat i) then vdefault else v)
  end.
Proof.
  induction fuel as [|fuel IH]; intros p m i H.
  - simpl in H. assert (p = 0)%N as -> by lia. cbn [clear_loop]. rewrite N.bits_0. destruct (nth_error m i); reflexivity.
  - cbn [clear_loop]. destruct (N.eqb p 0) eqn:E.
    + apply N.eqb_eq in E. subst p. rewrite N.bits_0. destruct (nth_error m i); reflexivity.
    + apply N.eqb_neq in E. set (k := N.log2 p). rewrite N2Nat.id.
      assert (Hk : N.testbit p k = true) by (apply N.bit_log2, E).
      assert (HX : forall j, N.testbit (N.lxor p (N.shiftl 1 k)) j = if N.eqb j k then false else N.testbit p j).
      { intro j. rewrite N.lxor_spec, N.shiftl_1_l, N.pow2_bits_eqb, (N.eqb_sym k j).
        destruct (N.eqb j k) eqn:Ej; [apply N.eqb_eq in Ej; subst; rewrite Hk; reflexivity|apply xorb_false_r]. }
      assert (HL : (N.lxor p (N.shiftl 1 k) < 2 ^ N.of_nat fuel)%N).
      { destruct (N.eq_dec (N.lxor p (N.shiftl 1 k)) 0) as [Z|Z].
        { rewrite Z. apply N.neq_0_lt_0, N.pow_nonzero. lia. }
        apply N.log2_lt_pow2; [lia|].
        assert (B : N.testbit (N.lxor p (N.shiftl 1 k)) (N.log2 (N.lxor p (N.shiftl 1 k))) = true) by (apply N.bit_log2, Z).
        rewrite HX in B. destruct (N.eqb (N.log2 (N.lxor p (N.shiftl 1 k))) k) eqn:Ek; [discriminate|].
        apply N.eqb_neq in Ek.
        assert (N.log2 (N.lxor p (N.shiftl 1 k)) <= k)%N.
        { destruct (N.le_gt_cases (N.log2 (N.lxor p (N.shiftl 1 k))) k) as [Q|Q]; [exact Q|].
          rewrite N.bits_above_log2 in B by exact Q. discriminate. }
        assert (k < N.of_nat (S fuel))%N by (apply N.log2_lt_pow2; lia). lia. }
      rewrite IH by exact HL. rewrite HX.
      assert (HU : nth_error (match nth_error m (N.to_nat k) with
              | Some v => if v_is_empty v then m else upd (N.to_nat k) vdefault m
              | None => m end) i =
              match nth_error m i with None => None | Some v => Some (if Nat.eqb (N.to_nat k) i then vdefault else v) end).
      { destruct (nth_error m (N.to_nat k)) eqn:En.
        - destruct (v_is_empty v) eqn:Ev.
          + destruct (Nat.eqb (N.to_nat k) i) eqn:Ei.
            * apply Nat.eqb_eq in Ei. subst i. rewrite En. destruct v as [[|]| | |]; try discriminate. reflexivity.
            * destruct (nth_error m i); reflexivity.
          + rewrite nth_upd. destruct (Nat.eqb (N.to_nat k) i), (nth_error m i); reflexivity.
        - destruct (Nat.eqb (N.to_nat k) i) eqn:Ei.
          + apply Nat.eqb_eq in Ei. subst i. rewrite En. reflexivity.
          + destruct (nth_error m i); reflexivity. }
      rewrite HU. destruct (nth_error m i) as [v|]; [|reflexivity]. f_equal.
      assert (Hi : N.eqb (N.of_nat i) k = Nat.eqb (N.to_nat k) i).
      { destruct (Nat.eqb (N.to_nat k) i) eqn:Ei.
        - apply Nat.eqb_eq in Ei. apply N.eqb_eq. lia.
        - apply Nat.eqb_neq in Ei. apply N.eqb_neq. lia. }
      rewrite Hi. destruct (Nat.eqb (N.to_nat k) i) eqn:Ei; [|reflexivity].
      apply Nat.eqb_eq in Ei. assert (N.of_nat i = k) as -> by lia. rewrite Hk. reflexivity.
Qed.

Lemma clear_match_exact p m i : (p < 2 ^ 64)%N ->
  nth_error (clear_match_variables p m) i =
  match nth_error m i with
  | None => None
  | Some v => Some (if N.testbit p (N.of_nat i) then VStr [] else v)
  end.
Proof. apply (clear_loop_exact 64). Qed.

(** *** Integers as texts *)
Lemma digits_val_app a b acc :
  digits_val acc (a ++ b) = match digits_val acc a with Some n => digits_val n b | None => None end.
Proof.
  revert acc. induction a as [|c a IH]; intro acc; [reflexivity|]. simpl.
  destruct (is_digit_ascii c); [apply IH|reflexivity].
Qed.

Lemma digit_char d : (d < 10)%N -> is_digit_ascii (48 + d)%N = true.
Proof. intro H. unfold is_digit_ascii, between. lia. Qed.

Lemma show_go_val fuel : forall n acc a, (n < 2 ^ N.of_nat fuel)%N -> fuel <> 0 ->
  exists k, digits_val a (show_pos_go fuel n acc) = digits_val (a * 10 ^ k + n)%N acc.
Proof.
  induction fuel as [|fuel IH]; intros n acc a H F; [lia|]. cbn [show_pos_go].
  assert (D : (n mod 10 < 10)%N) by (apply N.mod_lt; lia).
  assert (E : n = (10 * (n / 10) + n mod 10)%N) by (apply N.div_mod; lia).
  destruct (N.eqb (n / 10) 0) eqn:Z.
  - apply N.eqb_eq in Z. exists 1%N. cbn [digits_val]. rewrite (digit_char _ D).
    f_equal. rewrite N.pow_1_r. replace (48 + n mod 10 - 48)%N with (n mod 10)%N by lia. lia.
  - apply N.eqb_neq in Z.
    assert (H' : (n / 10 < 2 ^ N.of_nat fuel)%N).
    { apply N.div_lt_upper_bound; [lia|]. replace (N.of_nat (S fuel)) with (N.succ (N.of_nat fuel)) in H by lia.
      rewrite N.pow_succ_r' in H. lia. }
    destruct fuel as [|fuel']; [change (2 ^ N.of_nat 0)%N with 1%N in H'; lia|].
    destruct (IH (n / 10)%N ((48 + n mod 10)%N :: acc) a H') as [k Hk]; [lia|].
    exists (N.succ k). rewrite Hk. cbn [digits_val]. rewrite (digit_char _ D). f_equal.
    rewrite N.pow_succ_r'. replace (48 + n mod 10 - 48)%N with (n mod 10)%N by lia. lia.
Qed.

Lemma show_go_nonempty fuel n acc : fuel <> 0 \/ acc <> [] -> show_pos_go fuel n acc <> [].
Proof.
  revert n acc. induction fuel as [|fuel IH]; intros n acc H; cbn [show_pos_go]; [tauto|].
  destruct (N.eqb (n / 10) 0); [discriminate|]. apply IH. right. discriminate.
Qed.

Lemma parse_show_N n : parse_nat (show_N n) = Some n.
Proof.
  unfold parse_nat, show_N.
  assert (H : (n < 2 ^ N.of_nat (S (N.to_nat (N.size n))))%N).
  { rewrite Nat2N.inj_succ, N2Nat.id. pose proof (N.size_gt n). rewrite N.pow_succ_r'. lia. }
  destruct (show_go_val _ n [] 0%N H) as [k Hk]; [lia|].
  pose proof (show_go_nonempty (S (N.to_nat (N.size n))) n []) as NE.
  destruct (show_pos_go _ n []) as [|c s] eqn:E; [exfalso; apply NE; [left; lia|reflexivity]|].
  rewrite Hk. simpl. f_equal.
Qed.

Lemma show_N_head n c s : show_N n = c :: s -> (48 <= c <= 57)%N.
Proof.
  intro E. pose proof (parse_show_N n) as P. rewrite E in P. unfold parse_nat in P. cbn [digits_val] in P.
  destruct (is_digit_ascii c) eqn:D; [|discriminate]. unfold is_digit_ascii, between in D. lia.
Qed.

Lemma parse_show_i64 z : in_i64 z -> parse_i64 (show_Z z) = Some z.
Proof.
  intro H. unfold show_Z. assert (C : in_i64b z = true) by (unfold in_i64b, in_i64 in *; lia).
  destruct (Z.ltb z 0) eqn:E.
  - unfold parse_i64. rewrite parse_show_N. replace (- Z.of_N (Z.to_N (- z)))%Z with z by lia. rewrite C. reflexivity.
  - assert (E2 : Z.of_N (Z.to_N z) = z) by lia.
    pose proof (parse_show_N (Z.to_N z)) as P. destruct (show_N (Z.to_N z)) as [|c s] eqn:Es; [discriminate|].
    pose proof (show_N_head _ _ _ Es) as Hc. unfold parse_i64.
    assert (G : match parse_nat (c :: s) with Some n => if in_i64b (Z.of_N n) then Some (Z.of_N n) else None | None => None end = Some z)
      by (rewrite P, E2, C; reflexivity).
    destruct c as [|p]; [exact G|].
    do 6 (destruct p as [p|p|]; try exact G; try lia).
Qed.

Lemma parse_number_int L z : in_i64 z -> parse_number L (VStr (v_text L (VInt z))) = VInt z.
Proof.
  intro H. cbn [v_text parse_number]. pose proof (parse_show_i64 z H) as P.
  destruct (show_Z z) eqn:E; [discriminate|]. rewrite P. reflexivity.
Qed.
Lemma v_integer_text L z : in_i64 z -> v_integer (VStr (v_text L (VInt z))) = z.
Proof.
  intro H. cbn [v_text v_integer]. pose proof (parse_show_i64 z H) as P.
  destruct (show_Z z) eqn:E; [discriminate|]. rewrite P. reflexivity.
Qed.

(** *** Saturation *)
Lemma clamp_saturates z : saturates z (clamp_i64 z).
Proof.
  unfold saturates, in_i64, clamp_i64. change i64_min with (-9223372036854775808)%Z.
  change i64_max with 9223372036854775807%Z. lia.
Qed.

Lemma int_operand_parse L v z : int_operand L v z -> parse_number L v = VInt z.
Proof. intros [z' | z' H]; [reflexivity|apply (parse_number_int L z' H)]. Qed.

Lemma add_saturates L a b : exists r, op_add L (VInt a) (VInt b) = VInt r /\ saturates (a + b) r.
Proof. eexists. split; [reflexivity|apply clamp_saturates]. Qed.
Lemma sub_saturates L x y a b : int_operand L x a -> int_operand L y b ->
  exists r, op_sub L x y = VInt r /\ saturates (a - b) r.
Proof.
  intros X Y. exists (clamp_i64 (a - b)). split; [|apply clamp_saturates].
  pose proof (int_operand_parse _ _ _ X) as PX. pose proof (int_operand_parse _ _ _ Y) as PY.
  unfold op_sub. destruct X, Y; rewrite ?PX, ?PY; reflexivity.
Qed.
Lemma mul_saturates L x y a b : int_operand L x a -> int_operand L y b ->
  exists r, op_mul L x y = VInt r /\ saturates (a * b) r.
Proof.
  intros X Y. exists (clamp_i64 (a * b)). split; [|apply clamp_saturates].
  unfold op_mul. rewrite (int_operand_parse _ _ _ X), (int_operand_parse _ _ _ Y). reflexivity.
Qed.
Lemma div_zero L x y a : int_operand L x a -> int_operand L y 0 -> op_div L x y = VFloat f64_zero.
Proof.
  intros X Y. unfold op_div. rewrite (int_operand_parse _ _ _ X), (int_operand_parse _ _ _ Y). reflexivity.
Qed.
Lemma div_total L x y : exists r, op_div L x y = VFloat r \/ op_div L x y = VInt 0.
Proof.
  unfold op_div. destruct (parse_number L x), (parse_number L y); simpl; eauto.
  Unshelve. all: exact f64_zero.
Qed.
Lemma minus_exact L x a : int_operand L x a -> a <> (-9223372036854775808)%Z -> op_minus L x = Some (VInt (- a)).
Proof.
  intros X H. unfold op_minus. rewrite (int_operand_parse _ _ _ X).
  change i64_min with (-9223372036854775808)%Z.
  destruct (Z.eqb a (-9223372036854775808)) eqn:E; [apply Z.eqb_eq in E; congruence|reflexivity].
Qed.
