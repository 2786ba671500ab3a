(** Proofs about the rounding of spam scores. *)
From Coq Require Import Floats.SpecFloat Lia ZArith.
From Verif Require Import Base Lib Var Value Comparator Spam SpamSpec.

Lemma pow_pos_ e : (0 < 2 ^ Z.max 0 e)%Z. Proof. apply Z.pow_pos_nonneg; lia. Qed.

Lemma clamp_ge k z : (i64_min < k <= i64_max)%Z -> (k <= clamp_i64 z <-> k <= z)%Z.
Proof. unfold clamp_i64, i64_min, i64_max. lia. Qed.
Lemma zclamp_ge lo hi k z : (lo < k <= hi)%Z -> (k <= zclamp lo hi z <-> k <= z)%Z.
Proof. unfold zclamp. lia. Qed.

Lemma ceil_ge k f : (1 <= k <= 1000)%Z -> (k <= Zceil_f64 f <-> above (k - 1) f)%Z.
Proof.
  intros K. destruct f as [s|s| |s m e]; cbn [Zceil_f64 above]; try lia.
  - destruct s; unfold i64_min, i64_max; split; intros; try reflexivity; try discriminate; lia.
  - rewrite clamp_ge by (unfold i64_min, i64_max; lia). unfold scaled.
    set (z := if s then Z.neg m else Z.pos m). clearbody z. destruct (Z.leb_spec 0 e) as [E|E].
    + rewrite (Z.max_r 0 e), (Z.max_l 0 (- e)) by lia. change (2 ^ 0)%Z with 1%Z. lia.
    + rewrite (Z.max_l 0 e), (Z.max_r 0 (- e)) by lia. change (2 ^ 0)%Z with 1%Z. rewrite Z.mul_1_r.
      assert (P := Z.pow_pos_nonneg 2 (- e) ltac:(lia) ltac:(lia)). revert P. generalize (2 ^ (- e))%Z. intros d P.
      assert (D := Z.div_mod (- z) d ltac:(lia)). assert (B := Z.mod_pos_bound (- z) d P).
      revert D B. generalize (- z / d)%Z, (- z mod d)%Z. intros q r D B. split; intros H; nia.
Qed.
Lemma trunc_ge k f : (1 <= k <= 1000)%Z -> (k <= Z_of_f64 f <-> reaches k f)%Z.
Proof.
  intros K. destruct f as [s|s| |s m e]; cbn [Z_of_f64 reaches]; try lia.
  - destruct s; unfold i64_min, i64_max; split; intros; try reflexivity; try discriminate; lia.
  - rewrite clamp_ge by (unfold i64_min, i64_max; lia). unfold scaled.
    assert (N : (0 <= if Z.leb 0 e then Z.pos m * 2 ^ e else Z.pos m / 2 ^ (- e))%Z).
    { destruct (Z.leb_spec 0 e).
      - apply Z.mul_nonneg_nonneg; [lia|]. apply Z.pow_nonneg. lia.
      - apply Z.div_pos; [lia|]. apply Z.pow_pos_nonneg; lia. }
    destruct s.
    + assert (Q := pow_pos_ (- e)). assert (R := pow_pos_ e). split; intros H; [lia|]. nia.
    + clear N. destruct (Z.leb_spec 0 e) as [E|E].
      * rewrite (Z.max_r 0 e), (Z.max_l 0 (- e)) by lia. change (2 ^ 0)%Z with 1%Z. lia.
      * rewrite (Z.max_l 0 e), (Z.max_r 0 (- e)) by lia. change (2 ^ 0)%Z with 1%Z. rewrite Z.mul_1_r.
        assert (P := Z.pow_pos_nonneg 2 (- e) ltac:(lia) ltac:(lia)). revert P. generalize (2 ^ (- e))%Z. intros d P.
        generalize (Z.pos m). intros z.
        assert (D := Z.div_mod z d ltac:(lia)). assert (B := Z.mod_pos_bound z d P).
        revert D B. generalize (z / d)%Z, (z mod d)%Z. intros q r D B. split; intros H; nia.
Qed.
Lemma maybe_scores p k :
  (1 <= spam_percentage (SpMaybe p))%Z /\ (2 <= spam_number (SpMaybe p) <= 9)%Z /\
  ((2 <= k <= 100)%Z -> (k <= spam_percentage (SpMaybe p) <-> above (k - 1) (f64_mul p f64_100))%Z) /\
  ((3 <= k <= 9)%Z -> (k <= spam_number (SpMaybe p) <-> reaches k (f64_mul p f64_10))%Z).
Proof.
  unfold spam_percentage, spam_number. generalize (f64_mul p f64_100), (f64_mul p f64_10). intros x y.
  split; [unfold zclamp; lia|]. split; [unfold zclamp; lia|]. split; intros K.
  - rewrite zclamp_ge by lia. apply ceil_ge. lia.
  - rewrite zclamp_ge by lia. apply trunc_ge. lia.
Qed.
