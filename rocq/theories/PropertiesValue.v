(** Properties of values: C24 (integer arithmetic), C42 (match variables), C50
    (integers as texts). *)
From Verif Require Import Base Lib Var Value ValueSpec ValueProofs.

(** C24 *)
Theorem C24_add_saturates :
  forall L a b, exists r, op_add L (VInt a) (VInt b) = VInt r /\ saturates (a + b) r.
Proof. exact add_saturates. Qed.
Print Assumptions C24_add_saturates.

Theorem C24_subtract_saturates :
  forall L x y a b, int_operand L x a -> int_operand L y b ->
    exists r, op_sub L x y = VInt r /\ saturates (a - b) r.
Proof. exact sub_saturates. Qed.
Print Assumptions C24_subtract_saturates.

Theorem C24_multiply_saturates :
  forall L x y a b, int_operand L x a -> int_operand L y b ->
    exists r, op_mul L x y = VInt r /\ saturates (a * b) r.
Proof. exact mul_saturates. Qed.
Print Assumptions C24_multiply_saturates.

Theorem C24_divide_total :
  forall L x y, exists r, op_div L x y = VFloat r \/ op_div L x y = VInt 0.
Proof. exact div_total. Qed.
Print Assumptions C24_divide_total.

Theorem C24_divide_by_zero :
  forall L x y a, int_operand L x a -> int_operand L y 0 -> op_div L x y = VFloat f64_zero.
Proof. exact div_zero. Qed.
Print Assumptions C24_divide_by_zero.

Theorem C24_negate_partial :
  forall L x a, int_operand L x a -> a <> (-9223372036854775808)%Z -> op_minus L x = Some (VInt (- a)).
Proof. exact minus_exact. Qed.
Print Assumptions C24_negate_partial.

(** C24, finding: negating the smallest integer overflows instead of
    saturating. *)
Theorem C24_negate_refuted :
  exists L a, in_i64 a /\ op_minus L (VInt a) = None.
Proof.
  exists ascii_lib, (-9223372036854775808)%Z.
  split; [unfold in_i64; vm_compute; split; discriminate|reflexivity].
Qed.
Print Assumptions C24_negate_refuted.

Example C24_cases :
  op_add ascii_lib (VInt 9223372036854775807) (VInt 1) = VInt 9223372036854775807 /\
  op_sub ascii_lib (VStr (lit "-9223372036854775808")) (VInt 1) = VInt (-9223372036854775808) /\
  op_mul ascii_lib (VStr (lit "-12")) (VInt 12) = VInt (-144) /\
  int_operand ascii_lib (VStr (lit "-12")) (-12).
Proof.
  repeat split; try reflexivity. apply (io_text ascii_lib (-12)). unfold in_i64. vm_compute. split; discriminate.
Qed.

(** C42: setting captured values changes exactly the named positions. *)
Theorem C42_set_exact :
  forall set m, NoDup (map fst set) ->
    length (set_match_variables set m) = length m /\
    (forall k t, In (k, t) set -> k < length m -> nth_error (set_match_variables set m) k = Some (VStr t)) /\
    (forall k, ~ In k (map fst set) -> nth_error (set_match_variables set m) k = nth_error m k).
Proof. exact set_match_exact. Qed.
Print Assumptions C42_set_exact.
Example C42_set_case :
  set_match_variables [(2, lit "x"); (0, lit "y")] [VStr (lit "a"); VStr (lit "b"); VStr (lit "c")]
  = [VStr (lit "y"); VStr (lit "b"); VStr (lit "x")].
Proof. reflexivity. Qed.

(** C42: clearing changes exactly the positions of the mask, to the empty
    text. *)
Theorem C42_clear_exact :
  forall positions m i, (positions < 2 ^ 64)%N ->
    nth_error (clear_match_variables positions m) i =
    match nth_error m i with
    | None => None
    | Some v => Some (if N.testbit positions (N.of_nat i) then VStr [] else v)
    end.
Proof. exact clear_match_exact. Qed.
Print Assumptions C42_clear_exact.
Example C42_clear_case :
  clear_match_variables 5 [VStr (lit "a"); VStr (lit "b"); VInt 3] = [VStr []; VStr (lit "b"); VStr []].
Proof. reflexivity. Qed.

(** C50: the text of an integer denotes that integer again, both where
    expressions read numbers and where actions read integers. *)
Theorem C50_integer_text_round_trip :
  forall L z, in_i64 z ->
    parse_number L (VStr (v_text L (VInt z))) = VInt z /\ v_integer (VStr (v_text L (VInt z))) = z.
Proof. exact (fun L z H => conj (parse_number_int L z H) (v_integer_text L z H)). Qed.
Print Assumptions C50_integer_text_round_trip.
Example C50_case :
  in_i64 (-9223372036854775808) /\
  v_text ascii_lib (VInt (-9223372036854775808)) = lit "-9223372036854775808".
Proof. split; [unfold in_i64; vm_compute; split; discriminate|reflexivity]. Qed.
