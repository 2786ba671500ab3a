(** C47: spam scores. *)
From Verif Require Import Base Lib Var Value Comparator Spam SpamSpec SpamProofs SpamProofs2.
From Coq Require Import Floats.SpecFloat.

(** The value seen by spamtest lies in 0..10: 0 exactly for "not tested", 1
    exactly for "not spam" and 10 exactly for "spam"; percentages lie in 0..100. *)
Theorem C47_range : forall s,
  (0 <= spam_number s <= 10)%Z /\ (0 <= spam_percentage s <= 100)%Z /\
  (spam_number s = 0%Z <-> s = SpUnknown) /\ (spam_number s = 1%Z <-> s = SpHam) /\
  (spam_number s = 10%Z <-> s = SpSpam).
Proof. exact spam_number_range. Qed.
Print Assumptions C47_range.

(** Both values grow with the score, for every pair of f64 scores. *)
Theorem C47_monotone : forall a b, at_most a b ->
  (spam_number a <= spam_number b)%Z /\ (spam_percentage a <= spam_percentage b)%Z.
Proof. exact (fun a b H => conj (spam_number_mono a b H) (spam_percentage_mono a b H)). Qed.
Print Assumptions C47_monotone.
Definition half : spec_float := f64_div (f64_of_Z 1) (f64_of_Z 2).
Definition most : spec_float := f64_div (f64_of_Z 7) (f64_of_Z 8).
Example C47_case : at_most (SpMaybe half) (SpMaybe most) /\
  spam_number (SpMaybe half) = 5%Z /\ spam_number (SpMaybe most) = 8%Z /\
  spam_percentage (SpMaybe half) = 50%Z /\ spam_percentage (SpMaybe most) = 88%Z /\
  spam_number (SpMaybe (S754_infinity false)) = 9%Z.
Proof.
  split; [|vm_compute; repeat split; reflexivity].
  apply le_maybe; [vm_compute; reflexivity|vm_compute; reflexivity|left; vm_compute; reflexivity].
Qed.

(** A possible spam has a percentage of at least 1 and a value from 2 to 9.  The
    percentage is rounded up: it reaches [k] when the score times 100 exceeds
    [k - 1]; the value is rounded down: it reaches [k] when the score times 10 does. *)
Theorem C47_rounding : forall p k,
  (1 <= spam_percentage (SpMaybe p))%Z /\ (2 <= spam_number (SpMaybe p) <= 9)%Z /\
  ((2 <= k <= 100)%Z -> (k <= spam_percentage (SpMaybe p) <-> above (k - 1) (f64_mul p f64_100))%Z) /\
  ((3 <= k <= 9)%Z -> (k <= spam_number (SpMaybe p) <-> reaches k (f64_mul p f64_10))%Z).
Proof. exact maybe_scores. Qed.
Print Assumptions C47_rounding.

(** A status made from a number shows that number (and, for possible spam, ten
    times it as a percentage); numbers above 10 mean "not tested". *)
Theorem C47_from_number : forall n,
  (spam_number (spam_of_number n) = if Z.leb 0 n && Z.leb n 10 then n else 0)%Z /\
  ((2 <= n <= 10)%Z -> spam_percentage (spam_of_number n) = (10 * n)%Z) /\
  (virus_number (virus_of_number n) = if Z.leb 0 n && Z.leb n 5 then n else 0)%Z.
Proof.
  intros n. split; [|split].
  - unfold spam_of_number.
    destruct (Z.eqb_spec n 1); [subst; reflexivity|].
    destruct (Z.leb_spec 2 n), (Z.leb_spec n 9); cbn [andb].
    + assert (n = 2 \/ n = 3 \/ n = 4 \/ n = 5 \/ n = 6 \/ n = 7 \/ n = 8 \/ n = 9)%Z as A by lia.
      destruct A as [->|[->|[->|[->|[->|[->|[->| ->]]]]]]]; vm_compute; reflexivity.
    + destruct (Z.eqb_spec n 10); [subst; reflexivity|]. destruct (Z.leb_spec 0 n), (Z.leb_spec n 10); cbn; lia.
    + destruct (Z.eqb_spec n 10); [subst; reflexivity|]. destruct (Z.leb_spec 0 n), (Z.leb_spec n 10); cbn; lia.
    + lia.
  - intros H. assert (n = 2 \/ n = 3 \/ n = 4 \/ n = 5 \/ n = 6 \/ n = 7 \/ n = 8 \/ n = 9 \/ n = 10)%Z as A by lia.
    destruct A as [->|[->|[->|[->|[->|[->|[->|[->| ->]]]]]]]]; vm_compute; reflexivity.
  - unfold virus_of_number.
    destruct (Z.eqb_spec n 1), (Z.eqb_spec n 2), (Z.eqb_spec n 3), (Z.eqb_spec n 4), (Z.eqb_spec n 5);
      destruct (Z.leb_spec 0 n), (Z.leb_spec n 5); cbn; lia.
Qed.
Print Assumptions C47_from_number.

(** [spamtest :value "ge" :comparator "i;ascii-numeric" "k"] (and its [:percent]
    form) is true exactly when the value is at least [k]; hence a message more
    likely to be spam passes every such test a less likely one passes. *)
Theorem C47_threshold : forall L rx percent s k, (0 <= k <= 100)%Z ->
  spam_test L rx percent s CNumeric (MValue RGe) false (VStr (show_Z k)) =
  TBool (Z.leb k (if percent then spam_percentage s else spam_number s)) [].
Proof. exact (fun L rx p s k H => score_ge L rx _ _ k H). Qed.
Print Assumptions C47_threshold.
Theorem C47_threshold_monotone : forall L rx percent a b k, (0 <= k <= 100)%Z -> at_most a b ->
  spam_test L rx percent a CNumeric (MValue RGe) false (VStr (show_Z k)) = TBool true [] ->
  spam_test L rx percent b CNumeric (MValue RGe) false (VStr (show_Z k)) = TBool true [].
Proof.
  intros L rx p a b k H M. rewrite !C47_threshold by assumption. intros E. f_equal. injection E as E.
  destruct (C47_monotone a b M). destruct p; lia.
Qed.
Print Assumptions C47_threshold_monotone.
Example C47_threshold_case : spam_test ascii_lib (fun _ _ => None) false (SpMaybe half) CNumeric (MValue RGe) false (VStr (lit "5")) = TBool true []
  /\ spam_test ascii_lib (fun _ _ => None) false (SpMaybe half) CNumeric (MValue RGe) false (VStr (lit "6")) = TBool false [].
Proof. split; vm_compute; reflexivity. Qed.

(** RFC 5235 with [:count]: a tested message counts as one value.  In the code
    the count is 1.1, so [spamtest :count "eq" "1"] is false of every message. *)
Theorem C47_count_refuted :
  ~ (forall s, s <> SpUnknown ->
       spam_test ascii_lib (fun _ _ => None) false s CNumeric (MCount REq) false (VStr (lit "1")) = TBool true []).
Proof. intros H. assert (E := H SpHam ltac:(discriminate)). vm_compute in E. discriminate. Qed.
Print Assumptions C47_count_refuted.

(** Part of it holds: [:count "ge" "1"] is true of the tested messages and
    [:count "eq" "0"] of the others, for spamtest as for virustest.  Missing:
    the other relations to 1. *)
Theorem C47_count_partial : forall L rx percent s v,
  spam_test L rx percent s CNumeric (MCount RGe) false (VStr (lit "1")) =
    TBool (match s with SpUnknown => false | SpHam | SpMaybe _ | SpSpam => true end) [] /\
  spam_test L rx percent s CNumeric (MCount REq) false (VStr (lit "0")) =
    TBool (match s with SpUnknown => true | SpHam | SpMaybe _ | SpSpam => false end) [] /\
  virus_test L rx v CNumeric (MCount RGe) false (VStr (lit "1")) =
    TBool (match v with ViUnknown => false | ViClean | ViReplaced | ViCured | ViMaybe | ViVirus => true end) [] /\
  virus_test L rx v CNumeric (MCount REq) false (VStr (lit "0")) =
    TBool (match v with ViUnknown => true | ViClean | ViReplaced | ViCured | ViMaybe | ViVirus => false end) [].
Proof. intros L rx p s v. split; [|split; [|split]]; [destruct s|destruct s|destruct v|destruct v]; vm_compute; reflexivity. Qed.
Print Assumptions C47_count_partial.

(** The values of virustest, RFC 5235 2.2: 0 not tested, 1 no viruses, 2 replaced,
    3 cured, 4 possibly infected, 5 definitely infected. *)
Theorem C47_virus_threshold : forall L rx v k, (0 <= k <= 100)%Z ->
  virus_test L rx v CNumeric (MValue RGe) false (VStr (show_Z k)) =
  TBool (Z.leb k (match v with
                  | ViUnknown => 0 | ViClean => 1 | ViReplaced => 2 | ViCured => 3 | ViMaybe => 4 | ViVirus => 5
                  end)) [].
Proof. intros L rx v k H. unfold virus_test. rewrite score_ge by exact H. destruct v; reflexivity. Qed.
Print Assumptions C47_virus_threshold.
Example C47_virus_case :
  virus_test ascii_lib (fun _ _ => None) ViCured CNumeric (MValue RGe) false (VStr (lit "3")) = TBool true []
  /\ virus_test ascii_lib (fun _ _ => None) ViCured CNumeric (MValue RGe) false (VStr (lit "4")) = TBool false [].
Proof. split; vm_compute; reflexivity. Qed.

(** 'not' inverts the tests and does not change the captures. *)
Theorem C47_negated : forall L rx percent s v c m key,
  spam_test L rx percent s c m true key =
    (match spam_test L rx percent s c m false key with TBool b caps => TBool (negb b) caps | r => r end) /\
  virus_test L rx v c m true key =
    (match virus_test L rx v c m false key with TBool b caps => TBool (negb b) caps | r => r end).
Proof.
  intros L rx percent s v c m key. unfold spam_test, virus_test, score_test.
  split; destruct m; try (destruct (compare1 _ _ _ _ _ _ _) as [|b caps]; [reflexivity|]);
    rewrite Bool.xorb_true_r, Bool.xorb_false_r; reflexivity.
Qed.
Print Assumptions C47_negated.
