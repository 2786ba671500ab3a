(** Property C86: the operators of expressions on texts, numbers and arrays. *)
From Verif Require Import Base Lib Var Value Expr ValueSpec ValueProofs OperatorSpec OperatorProofs.
Require Import Coq.Floats.SpecFloat.
Local Open Scope string_scope.
Local Open Scope list_scope.

(** *** Addition *)

(** If an operand is an array, [+] puts the elements of the left one before those of
    the right one; a value that is not an array is one element. *)
Theorem C86_add_arrays : forall L a b, is_array a \/ is_array b ->
  bin_sem L BAdd a b = VArr (elements a ++ elements b).
Proof. intros L [s|z|f|l] [s'|z'|f'|l'] [H|H]; cbn in H; try contradiction; reflexivity. Qed.
Print Assumptions C86_add_arrays.
(** If an operand is a text and none is an array, the text of the sum is the two texts one
    after the other. *)
Theorem C86_add_texts : forall L a b, is_text a \/ is_text b -> ~ is_array a -> ~ is_array b ->
  v_text L (bin_sem L BAdd a b) = v_text L a ++ v_text L b.
Proof.
  intros L [s|z|f|l] [s'|z'|f'|l'] H A B; cbn in H, A, B; try tauto; cbn [bin_sem op_add];
    try (destruct s; reflexivity); destruct s' as [|c s']; cbn [v_text v_display]; rewrite ?app_nil_r; reflexivity.
Qed.
Print Assumptions C86_add_texts.
(** An empty text adds nothing: a number stays a number.  A text with something in it makes a text. *)
Theorem C86_add_empty : forall L v, ~ is_array v -> bin_sem L BAdd (VStr []) v = v /\ bin_sem L BAdd v (VStr []) = v.
Proof.
  intros L [s|z|f|l] A; cbn in A; try tauto; cbn [bin_sem op_add]; split; try reflexivity. destruct s; [reflexivity|]. cbn [v_display]. now rewrite app_nil_r.
Qed.
Print Assumptions C86_add_empty.
Theorem C86_add_makes_text : forall L a b c s, a = VStr (c :: s) \/ b = VStr (c :: s) -> ~ is_array a -> ~ is_array b ->
  bin_sem L BAdd a b = VStr (v_text L a ++ v_text L b).
Proof. intros L a b c s [-> | ->] A B; [destruct b|destruct a as [[|]| | |]]; cbn in A, B; try tauto; reflexivity. Qed.
Print Assumptions C86_add_makes_text.
(** Two numbers are added: exactly and clamped if both are integers, as floats otherwise. *)
Theorem C86_add_numbers : forall L x y,
  exists r, bin_sem L BAdd (var_of_number x) (var_of_number y) = var_of_number r /\
    match x, y with
    | NInt a, NInt b => exists z, r = NInt z /\ saturates (a + b) z
    | NInt a, NFloat g => r = NFloat (f64_add (f64_of_Z a) g)
    | NFloat f, NInt b => r = NFloat (f64_add (f64_of_Z b) f)
    | NFloat f, NFloat g => r = NFloat (f64_add f g)
    end.
Proof.
  intros L [a|f] [b|g]; cbn [var_of_number bin_sem op_add]; try (eexists (NFloat _); split; reflexivity).
  exists (NInt (clamp_i64 (a + b))). split; [reflexivity|]. eexists. split; [reflexivity|]. apply clamp_saturates.
Qed.
Print Assumptions C86_add_numbers.
Example C86_add_ex :
  bin_sem ascii_lib BAdd (VArr [VInt 1; VStr (lit "x")]) (VStr (lit "y")) = VArr [VInt 1; VStr (lit "x"); VStr (lit "y")] /\
  bin_sem ascii_lib BAdd (VStr (lit "a")) (VArr [VStr (lit "b")]) = VArr [VStr (lit "a"); VStr (lit "b")] /\
  bin_sem ascii_lib BAdd (VInt 7) (VStr (lit "x")) = VStr (lit "7x") /\
  bin_sem ascii_lib BAdd (VInt 7) (VStr []) = VInt 7.
Proof. repeat split; reflexivity. Qed.

(** *** Subtraction, multiplication, division *)

(** An array minus a value is the array without the elements equal to the value; a value
    that is not an array minus an array is the same. *)
Theorem C86_subtract_arrays : forall L l b, exists r, bin_sem L BSub (VArr l) b = VArr r /\
  without (fun x => bin_sem L BEq x b = VInt 1) l r.
Proof.
  intros L l b. eexists. split; [reflexivity|].
  pose proof (filter_without (fun x => v_eqb L x b) l) as H.
  induction H; constructor; auto; cbn; unfold op_eq, vbool; [rewrite H; reflexivity|].
  destruct (v_eqb L x b); congruence.
Qed.
Print Assumptions C86_subtract_arrays.
Theorem C86_subtract_from_array : forall L a l, ~ is_array a -> bin_sem L BSub a (VArr l) = bin_sem L BSub (VArr l) a.
Proof. intros L a l H; destruct a; cbn in H; try tauto; reflexivity. Qed.
Print Assumptions C86_subtract_from_array.
(** The other arithmetic works on the numbers the operands stand for; every value stands for
    one. *)
Theorem C86_arithmetic : forall L b x y m n, stands_for L x m -> stands_for L y n ->
  (b = BSub /\ ~ is_array x /\ ~ is_array y) \/ b = BMul ->
  (both_ints m n -> exists p q z, m = NInt p /\ n = NInt q /\ bin_sem L b x y = VInt z /\
     saturates (match b with BSub => p - q | _ => p * q end) z) /\
  (~ both_ints m n -> bin_sem L b x y =
     VFloat (match b, m with
             | BSub, _ => f64_sub (as_float m) (as_float n)
             | _, NFloat f => match n with NInt z => f64_mul (f64_of_Z z) f | NFloat g => f64_mul f g end
             | _, NInt z => f64_mul (f64_of_Z z) (as_float n)
             end)).
Proof.
  intros L b x y m n X Y B. apply stands_parse in X, Y.
  assert (E : bin_sem L b x y = match b with BSub => num_sub (parse_number L x) (parse_number L y) | _ => num_mul (parse_number L x) (parse_number L y) end).
  { destruct B as [(-> & A & C)| ->]; [|reflexivity]. destruct x, y; cbn in A, C; try tauto; reflexivity. }
  rewrite E, X, Y. assert (B' : b = BSub \/ b = BMul) by tauto. clear B E X Y.
  destruct m as [p|f], n as [q|g]; cbn; split; intros H; try tauto; destruct B' as [-> | ->]; cbn; try reflexivity;
    do 3 eexists; repeat split; apply clamp_saturates.
Qed.
Print Assumptions C86_arithmetic.
Theorem C86_divide : forall L x y m n, stands_for L x m -> stands_for L y n ->
  (is_zero n -> bin_sem L BDiv x y = VFloat (S754_zero false)) /\
  (~ is_zero n -> bin_sem L BDiv x y = VFloat (f64_div (as_float m) (as_float n))).
Proof.
  intros L x y m n X Y. apply stands_parse in X, Y. cbn [bin_sem]. unfold op_div. rewrite X, Y.
  destruct m as [p|f], n as [q|g]; cbn [num_div is_zero as_float]; rewrite <- ?f64_zero_eqb, <- ?Z.eqb_eq;
    split; intros H; try rewrite H; auto;
    [destruct (q =? 0)%Z|destruct (f64_eqb g f64_zero)|destruct (q =? 0)%Z|destruct (f64_eqb g f64_zero)]; auto; destruct (H eq_refl).
Qed.
Print Assumptions C86_divide.
Theorem C86_every_value_stands_for_a_number : forall L v, exists n, stands_for L v n.
Proof. exact stands_total. Qed.
Print Assumptions C86_every_value_stands_for_a_number.
Example C86_arithmetic_ex :
  bin_sem ascii_lib BSub (VArr [VInt 1; VStr (lit "x"); VStr (lit "1"); VInt 2]) (VInt 1) = VArr [VStr (lit "x"); VInt 2] /\
  bin_sem ascii_lib BMul (VStr (lit "-4")) (VStr (lit "5")) = VInt (-20) /\
  bin_sem ascii_lib BDiv (VInt 3) (VInt 4) = VFloat (S754_finite false 6755399441055744 (-53)) /\
  stands_for ascii_lib (VStr (lit "x")) (NInt 0).
Proof. repeat split; try reflexivity. apply sf_other; (reflexivity || discriminate). Qed.

(** *** Comparison *)

(** The six comparisons agree with one another. *)
Theorem C86_comparisons_agree : forall L a b,
  answers (bin_sem L BNe a b) (bin_sem L BEq a b = VInt 0) /\
  answers (bin_sem L BLe a b) (bin_sem L BLt a b = VInt 1 \/ bin_sem L BEq a b = VInt 1) /\
  answers (bin_sem L BGe a b) (bin_sem L BGt a b = VInt 1 \/ bin_sem L BEq a b = VInt 1) /\
  ~ (bin_sem L BLt a b = VInt 1 /\ bin_sem L BEq a b = VInt 1) /\
  ~ (bin_sem L BGt a b = VInt 1 /\ bin_sem L BEq a b = VInt 1) /\
  ~ (bin_sem L BLt a b = VInt 1 /\ bin_sem L BGt a b = VInt 1).
Proof.
  intros L a b. cbn [bin_sem]. unfold op_ne, op_eq, op_le, op_lt, op_ge, op_gt, answers.
  pose proof (eqb_cmp L a b) as H.
  destruct (v_cmp L a b) as [[]|], (v_eqb L a b); cbn;
    try (assert (X := proj1 H eq_refl); discriminate); try (assert (X := proj2 H eq_refl); discriminate);
    intuition (try discriminate).
Qed.
Print Assumptions C86_comparisons_agree.
(** Unless a value is not a number, one of <, == and > holds. *)
Theorem C86_total : forall L a b, ~ has_nan L a -> ~ has_nan L b ->
  bin_sem L BLt a b = VInt 1 \/ bin_sem L BEq a b = VInt 1 \/ bin_sem L BGt a b = VInt 1.
Proof.
  intros L a b A B. cbn [bin_sem]. unfold op_lt, op_eq, op_gt.
  destruct (v_cmp L a b) as [[]|] eqn:E; cbn; auto.
  - apply eqb_cmp in E. rewrite E. auto.
  - apply cmp_none in E. tauto.
Qed.
Print Assumptions C86_total.
Theorem C86_equal_reflexive : forall L a, ~ has_nan L a -> bin_sem L BEq a a = VInt 1.
Proof. intros L a A. cbn. unfold op_eq. destruct (cmp_refl L a) as [E|E]; [|contradiction]. apply eqb_cmp in E. rewrite E. reflexivity. Qed.
Print Assumptions C86_equal_reflexive.
Theorem C86_equal_symmetric : forall L a b, bin_sem L BEq a b = bin_sem L BEq b a.
Proof. intros. cbn. unfold op_eq. rewrite eqb_swap. reflexivity. Qed.
Print Assumptions C86_equal_symmetric.
(** [a < b] says the same as [b > a], unless a text is compared with an array. *)
Theorem C86_less_is_greater_partial : forall L a b, ~ clash a b ->
  bin_sem L BLt a b = bin_sem L BGt b a /\ bin_sem L BLe a b = bin_sem L BGe b a.
Proof.
  intros L a b C. cbn [bin_sem]. unfold op_lt, op_gt, op_le, op_ge. rewrite (cmp_swap L a b C).
  destruct (v_cmp L a b) as [[]|]; split; reflexivity.
Qed.
Print Assumptions C86_less_is_greater_partial.
(** Finding: a text and an array are each greater than the other. *)
Theorem C86_less_is_greater_refuted : exists L a b,
  bin_sem L BGt a b = VInt 1 /\ bin_sem L BGt b a = VInt 1.
Proof. exists ascii_lib, (VStr (lit "a")), (VArr [VStr (lit "a")]). split; reflexivity. Qed.
Print Assumptions C86_less_is_greater_refuted.
(** Finding: equality is not transitive. *)
Theorem C86_equal_transitive_refuted : exists L a b c,
  bin_sem L BEq a b = VInt 1 /\ bin_sem L BEq b c = VInt 1 /\ bin_sem L BEq a c = VInt 0.
Proof. exists ascii_lib, (VStr (lit "10")), (VInt 10), (VStr (lit "010")). repeat split; reflexivity. Qed.
Print Assumptions C86_equal_transitive_refuted.
(** Texts are compared as texts, integers as integers, and a text with a number as the number
    it stands for. *)
Theorem C86_equal_meaning : forall L,
  (forall s t, answers (bin_sem L BEq (VStr s) (VStr t)) (s = t)) /\
  (forall x y, answers (bin_sem L BEq (VInt x) (VInt y)) (x = y)) /\
  (forall s m n, stands_for L (VStr s) m ->
     bin_sem L BEq (VStr s) (var_of_number n) = bin_sem L BEq (var_of_number m) (var_of_number n) /\
     bin_sem L BLt (VStr s) (var_of_number n) = bin_sem L BLt (var_of_number m) (var_of_number n)) /\
  (forall v l, ~ is_array v -> bin_sem L BEq v (VArr l) = VInt 0) /\
  (forall l m, answers (bin_sem L BEq (VArr l) (VArr m)) (Forall2 (fun x y => bin_sem L BEq x y = VInt 1) l m)).
Proof.
  intros L. cbn [bin_sem]. unfold op_eq, op_lt. repeat split; intros.
  - apply vbool_answers. apply teqb_spec.
  - apply vbool_answers. cbn. apply Z.eqb_eq.
  - apply stands_parse in H. destruct n; cbn [var_of_number v_eqb]; rewrite H; destruct m; reflexivity.
  - apply stands_parse in H. destruct n; cbn [var_of_number v_cmp]; rewrite H; destruct m; reflexivity.
  - destruct v; cbn in H; try tauto; reflexivity.
  - apply vbool_answers. rewrite eqb_arr. revert m. induction l as [|x l IH]; intros [|y m]; cbn [eqb_list];
      try (split; [discriminate|intros Q; inversion Q]); [split; auto|].
    rewrite Bool.andb_true_iff, IH. split; [intros [A B]; constructor; auto; rewrite A; reflexivity|].
    intros Q. inversion Q; subst. split; auto. destruct (v_eqb L x y); auto. discriminate.
Qed.
Print Assumptions C86_equal_meaning.
Example C86_compare_ex :
  bin_sem ascii_lib BEq (VStr (lit "010")) (VInt 10) = VInt 1 /\
  bin_sem ascii_lib BLt (VArr [VInt 1; VInt 2]) (VArr [VInt 1; VStr (lit "3")]) = VInt 1 /\
  ~ clash (VArr [VInt 1; VInt 2]) (VArr [VInt 1; VStr (lit "3")]) /\ ~ has_nan ascii_lib (VArr [VInt 1; VInt 2]).
Proof.
  repeat split; try reflexivity.
  - intros H. inversion H as [| |x y l m A B C]; subst. clear H. cbn in A, B. intuition; subst; match goal with K : clash _ _ |- _ => solve [inversion K] end.
  - intros H. inversion H as [| |x l A B]; subst. clear H. cbn in A. intuition; subst; match goal with K : has_nan _ (VInt _) |- _ => solve [inversion K] end.
Qed.

(** *** Truth *)
Theorem C86_logic : forall L a b,
  answers (bin_sem L BAnd a b) (holds a /\ holds b) /\
  answers (bin_sem L BOr a b) (holds a \/ holds b) /\
  answers (bin_sem L BXor a b) ((holds a /\ ~ holds b) \/ (~ holds a /\ holds b)) /\
  exists v, un_sem L UNot a = Some v /\ answers v (~ holds a).
Proof.
  intros L a b. pose proof (to_bool_holds a) as A. pose proof (to_bool_holds b) as B.
  cbn [bin_sem un_sem]. unfold op_and, op_or, op_xor, op_not.
  repeat split; try (eexists; split; [reflexivity|]); apply vbool_answers; rewrite <- ?A, <- ?B;
    destruct (to_bool a), (to_bool b); cbn; intuition congruence.
Qed.
Print Assumptions C86_logic.
Example C86_logic_ex : holds (VStr (lit "0")) /\ ~ holds (VArr []) /\ bin_sem ascii_lib BXor (VInt 3) (VStr []) = VInt 1.
Proof. repeat split; (discriminate || auto). Qed.

(** *** Elements of arrays *)
Theorem C86_index : forall l i, in_i64 i -> (Z.of_nat (length l) < 2 ^ 63)%Z ->
  array_get (VArr l) (VInt i) =
  if Z.leb 0 i then match nth_error l (Z.to_nat i) with Some v => v | None => VStr [] end else VStr [].
Proof.
  intros l i I H. unfold array_get. cbn [v_array v_usize]. unfold in_i64, i64_min, i64_max in I.
  destruct (Z.leb_spec 0 i).
  - rewrite Z.mod_small by lia. destruct (Z.ltb_spec i (Z.of_nat (length l))).
    + destruct (nth_error l (Z.to_nat i)) eqn:E; [|apply nth_error_None in E; lia]. apply nth_error_nth. exact E.
    + rewrite (proj2 (nth_error_None l (Z.to_nat i))) by lia. reflexivity.
  - replace (i mod 2 ^ 64)%Z with (i + 2 ^ 64)%Z by (apply (Z.mod_unique_pos _ _ (-1)); lia).
    destruct (Z.ltb_spec (i + 2 ^ 64) (Z.of_nat (length l))); [lia|reflexivity].
Qed.
Print Assumptions C86_index.
(** A value that is not an array is its own only element; the empty text has none. *)
Theorem C86_index_scalar : forall v i, ~ is_array v ->
  array_get v i = array_get (VArr (match v with VStr [] => [] | _ => [v] end)) i.
Proof. intros [[|c s]|z|f|l] i H; cbn in H; try tauto; reflexivity. Qed.
Print Assumptions C86_index_scalar.
(** A text that is the decimal form of an index is that index; another text, an array
    and the empty text are index 0. *)
Theorem C86_index_text : forall a i, (0 <= i < 2 ^ 63)%Z -> array_get a (VStr (show_Z i)) = array_get a (VInt i).
Proof.
  intros a i I. unfold array_get.
  assert (E : v_usize (VStr (show_Z i)) = v_usize (VInt i)); [|rewrite E; reflexivity].
  unfold v_usize at 2. rewrite Z.mod_small by lia.
  assert (S : show_Z i = show_N (Z.to_N i)) by (destruct i; [reflexivity..|lia]).
  rewrite S. pose proof (parse_show_N (Z.to_N i)) as P. pose proof (show_N_head (Z.to_N i)) as Q.
  destruct (show_N (Z.to_N i)) as [|c s]; [cbn in P; discriminate|]. specialize (Q c s eq_refl).
  assert (X : v_usize (VStr (c :: s)) = match parse_nat (c :: s) with Some n => if N.ltb n (2 ^ 64) then Z.of_N n else 0%Z | None => 0%Z end).
  { assert (D : (c = 48 \/ c = 49 \/ c = 50 \/ c = 51 \/ c = 52 \/ c = 53 \/ c = 54 \/ c = 55 \/ c = 56 \/ c = 57)%N) by lia.
    repeat (destruct D as [-> |D]; [reflexivity|]). rewrite D. reflexivity. }
  rewrite X, P. destruct (N.ltb_spec (Z.to_N i) (2 ^ 64)); lia.
Qed.
Print Assumptions C86_index_text.
Example C86_index_ex :
  array_get (VArr [VStr (lit "a"); VStr (lit "b")]) (VInt 1) = VStr (lit "b") /\
  array_get (VArr [VStr (lit "a"); VStr (lit "b")]) (VInt (-1)) = VStr [] /\
  array_get (VArr [VStr (lit "a"); VStr (lit "b")]) (VStr (lit "1")) = VStr (lit "b").
Proof. repeat split; reflexivity. Qed.

(** *** Arrays as texts *)
Theorem C86_array_text : forall L l,
  v_text L (VArr l) = lines (from_first (map (fun v => match v with VArr _ => [] | _ => v_text L v end) l)).
Proof. exact array_text. Qed.
Print Assumptions C86_array_text.
Example C86_array_text_ex :
  v_text ascii_lib (VArr [VStr []; VStr (lit "a"); VInt 5; VStr []; VStr (lit "b")]) =
  lit "a" ++ [13; 10]%N ++ lit "5" ++ [13; 10; 13; 10]%N ++ lit "b".
Proof. reflexivity. Qed.
