(** Proofs about spam scores.  Floating point facts come from Flocq. *)
From Verif Require Import Base Lib Var Value Comparator Spam SpamSpec.
From Coq Require Import Floats.SpecFloat Reals Lia Lra.
From Flocq Require Import Core.Core IEEE754.BinarySingleNaN Calc.Bracket.

Lemma Hprec : Prec_gt_0 53. Proof. reflexivity. Qed.
Lemma Hmax : Prec_lt_emax 53 1024. Proof. reflexivity. Qed.
#[local] Existing Instance Hprec.
#[local] Existing Instance Hmax.



(** Coq's executable rounding is Flocq's rounding to nearest even. *)
Lemma rne_equiv s m l : SpecFloat.round_nearest_even m l = choice_mode mode_NE s m l.
Proof.
  destruct l as [|[]]; cbn; try reflexivity; destruct (Z.even m); reflexivity.
Qed.
Lemma bra_equiv sx mx ex lx :
  SpecFloat.binary_round_aux 53 1024 sx mx ex lx = binary_round_aux 53 1024 mode_NE sx mx ex lx.
Proof.
  unfold SpecFloat.binary_round_aux, binary_round_aux.
  set (mrse' := SpecFloat.shr_fexp _ _ _ _ _).
  case mrse'; intros mrs' e'; simpl.
  now rewrite (rne_equiv sx).
Qed.
Lemma mul_equiv x y (Hx : f64_valid x) (Hy : f64_valid y) :
  f64_mul x y = B2SF (Bmult mode_NE (SF2B (prec := 53) (emax := 1024) x Hx) (SF2B y Hy)).
Proof.
  unfold f64_mul, f64_prec, f64_emax.
  destruct x as [sx|sx| |sx mx ex], y as [sy|sy| |sy my ey]; try reflexivity.
  cbn [SFmul SF2B Bmult]. rewrite B2SF_SF2B. apply bra_equiv.
Qed.

(** The integer obtained from a finite float is its truncated value, saturated. *)
Lemma F2R_div m e : (e < 0)%Z -> F2R (Float radix2 m e) = (IZR m / IZR (2 ^ (- e)))%R.
Proof.
  intros H. unfold F2R; cbn [Fnum Fexp]. replace e with (- - e)%Z at 1 by lia.
  rewrite bpow_opp, <- IZR_Zpower by lia. reflexivity.
Qed.
Lemma F2R_int m e : (0 <= e)%Z -> F2R (Float radix2 m e) = IZR (m * 2 ^ e).
Proof.
  intros H. unfold F2R; cbn [Fnum Fexp]. rewrite <- IZR_Zpower by lia. now rewrite <- mult_IZR.
Qed.
Lemma floor_F2R m e : Zfloor (F2R (Float radix2 m e)) = (if Z.leb 0 e then m * 2 ^ e else m / 2 ^ (- e))%Z.
Proof.
  destruct (Z.leb_spec 0 e).
  - rewrite F2R_int by assumption. apply Zfloor_IZR.
  - rewrite F2R_div by assumption. apply Zfloor_div. assert (0 < 2 ^ (- e))%Z by (apply Z.pow_pos_nonneg; lia). lia.
Qed.
Lemma trunc_finite s m e : Z_of_f64 (S754_finite s m e) =
  clamp_i64 (Ztrunc (F2R (Float radix2 (cond_Zopp s (Zpos m)) e))).
Proof.
  unfold Z_of_f64. f_equal. destruct s; cbn [cond_Zopp].
  - change (- Z.pos m)%Z with (Z.neg m). change (Z.neg m) with (- Z.pos m)%Z.
    rewrite F2R_Zopp, Ztrunc_opp. rewrite Ztrunc_floor by (apply F2R_ge_0; cbn; lia). now rewrite floor_F2R.
  - rewrite Ztrunc_floor by (apply F2R_ge_0; cbn; lia). now rewrite floor_F2R.
Qed.
Lemma ceil_finite s m e : Zceil_f64 (S754_finite s m e) =
  clamp_i64 (Zceil (F2R (Float radix2 (cond_Zopp s (Zpos m)) e))).
Proof.
  unfold Zceil_f64. f_equal. change (if s then Z.neg m else Z.pos m)%Z with (cond_Zopp s (Z.pos m)).
  unfold Zceil. rewrite <- F2R_Zopp, floor_F2R. destruct (Z.leb 0 e); [lia|reflexivity].
Qed.


Definition rnd (r : R) : R := round radix2 (SpecFloat.fexp 53 1024) ZnearestE r.
Lemma rnd_le a b : (a <= b)%R -> (rnd a <= rnd b)%R.
Proof. apply round_le; [apply fexp_correct, Hprec|apply valid_rnd_N]. Qed.
Lemma rnd_0 : rnd 0 = 0%R.
Proof. apply round_0, valid_rnd_N. Qed.

Lemma clamp_mono a b : (a <= b)%Z -> (clamp_i64 a <= clamp_i64 b)%Z.
Proof. unfold clamp_i64. lia. Qed.
Lemma clamp_range a : (i64_min <= clamp_i64 a <= i64_max)%Z.
Proof. unfold clamp_i64, i64_min, i64_max. lia. Qed.

Section Conv.
  (** A conversion to i64 which saturates a monotone integer part. *)
  Variable f : R -> Z.
  Variable conv : spec_float -> Z.
  Hypothesis f_mono : forall a b, (a <= b)%R -> (f a <= f b)%Z.
  Hypothesis f_IZR : forall z, f (IZR z) = z.
  Hypothesis conv_finite : forall s m e, conv (S754_finite s m e) = clamp_i64 (f (F2R (Float radix2 (cond_Zopp s (Zpos m)) e))).
  Hypothesis conv_zero : forall s, conv (S754_zero s) = 0%Z.
  Hypothesis conv_inf : forall s, conv (S754_infinity s) = if s then i64_min else i64_max.

  Lemma conv_B b : is_finite (prec := 53) (emax := 1024) b = true -> conv (B2SF b) = clamp_i64 (f (B2R b)).
  Proof.
    destruct b as [s|s| |s m e B]; cbn [is_finite]; try discriminate; intros _; cbn [B2SF B2R].
    - rewrite conv_zero, (f_IZR 0). reflexivity.
    - apply conv_finite.
  Qed.

  Variable c : spec_float.
  Hypothesis c_valid : f64_valid c.
  Hypothesis c_finite : is_finite (SF2B (prec := 53) (emax := 1024) c c_valid) = true.
  Hypothesis c_pos : Bsign (SF2B (prec := 53) (emax := 1024) c c_valid) = false.
  Hypothesis c_gt : (0 < B2R (SF2B (prec := 53) (emax := 1024) c c_valid))%R.
  Let cb := SF2B (prec := 53) (emax := 1024) c c_valid.

  Lemma Bsign_ge b : is_finite (prec := 53) (emax := 1024) b = true -> Bsign b = false -> (0 <= B2R b)%R.
  Proof. destruct b as [s|s| |[] m e B]; cbn; try discriminate; intros _ _; try lra. apply F2R_ge_0; cbn; lia. Qed.
  Lemma Bsign_le b : is_finite (prec := 53) (emax := 1024) b = true -> Bsign b = true -> (B2R b <= 0)%R.
  Proof. destruct b as [s|s| |[] m e B]; cbn; try discriminate; intros _ _; try lra. apply F2R_le_0; cbn; lia. Qed.

  Lemma pow_big : (i64_max <= 2 ^ 1024)%Z /\ (- 2 ^ 1024 <= i64_min)%Z.
  Proof. vm_compute. split; discriminate. Qed.

  Lemma conv_mul x (Hx : f64_valid x) : is_finite (SF2B (prec := 53) (emax := 1024) x Hx) = true ->
    conv (f64_mul x c) = clamp_i64 (f (rnd (B2R (SF2B (prec := 53) (emax := 1024) x Hx) * B2R cb))).
  Proof.
    intros F. rewrite (mul_equiv x c Hx c_valid). fold cb. set (xb := SF2B x Hx) in *.
    assert (C := Bmult_correct 53 1024 Hprec Hmax mode_NE xb cb).
    cbn [round_mode] in C. fold (rnd (B2R xb * B2R cb)) in C.
    destruct (Rlt_bool_spec (Rabs (rnd (B2R xb * B2R cb))) (bpow radix2 1024)) as [LT|GE].
    - destruct C as (C1 & C2 & _). unfold cb in C2. rewrite F, c_finite in C2. rewrite <- C1. apply conv_B. exact C2.
    - unfold cb in C. rewrite c_pos, Bool.xorb_false_r in C. cbn [binary_overflow overflow_to_inf] in C.
      fold cb in C. rewrite C. cbn [binary_overflow overflow_to_inf]. destruct pow_big as [P1 P2].
      rewrite <- (IZR_Zpower radix2 1024) in GE by lia. change (Zpower radix2 1024) with (2 ^ 1024)%Z in GE.
      destruct (Bsign xb) eqn:S.
      + assert (N : (rnd (B2R xb * B2R cb) <= 0)%R).
        { rewrite <- rnd_0. apply rnd_le. assert (X := Bsign_le _ F S). fold cb in c_gt. nra. }
        rewrite Rabs_left1 in GE by exact N.
        assert (Q : (f (rnd (B2R xb * B2R cb)) <= - 2 ^ 1024)%Z).
        { rewrite <- (f_IZR (- 2 ^ 1024)). apply f_mono. rewrite opp_IZR. lra. }
        rewrite conv_inf. unfold clamp_i64. lia.
      + assert (N : (0 <= rnd (B2R xb * B2R cb))%R).
        { rewrite <- rnd_0. apply rnd_le. assert (X := Bsign_ge _ F S). fold cb in c_gt. nra. }
        rewrite Rabs_pos_eq in GE by exact N.
        assert (Q : (2 ^ 1024 <= f (rnd (B2R xb * B2R cb)))%Z).
        { rewrite <- (f_IZR (2 ^ 1024)). apply f_mono. lra. }
        rewrite conv_inf. unfold clamp_i64. assert (i64_min <= i64_max)%Z by (vm_compute; discriminate). lia.
  Qed.

  (** An infinite factor. *)
  Lemma mul_inf s : f64_mul (S754_infinity s) c = S754_infinity s.
  Proof.
    assert (C1 := c_finite). assert (C2 := c_pos). assert (C3 := c_gt). unfold f64_mul.
    destruct c as [sc|sc| |sc mc ec]; cbn in *; try discriminate.
    - exfalso. lra.
    - subst sc. now rewrite Bool.xorb_false_r.
  Qed.

  Lemma conv_mul_range x : f64_valid x -> x <> S754_nan -> (i64_min <= conv (f64_mul x c) <= i64_max)%Z.
  Proof.
    intros H N. destruct x as [s|s| |s m e].
    - rewrite (conv_mul _ H) by reflexivity. apply clamp_range.
    - rewrite mul_inf, conv_inf. destruct s; vm_compute; split; discriminate.
    - congruence.
    - rewrite (conv_mul _ H) by reflexivity. apply clamp_range.
  Qed.

  Lemma conv_mono x y : f64_valid x -> f64_valid y -> SFcompare x y = Some Lt \/ SFcompare x y = Some Eq ->
    (conv (f64_mul x c) <= conv (f64_mul y c))%Z.
  Proof.
    intros Hx Hy C.
    assert (NX : x <> S754_nan) by (intros ->; destruct C; discriminate).
    assert (NY : y <> S754_nan) by (intros ->; destruct x as [|[]| |[]]; destruct C; discriminate).
    assert (FIN : forall z (Hz : f64_valid z), z <> S754_nan -> (exists s, z = S754_infinity s) \/ is_finite (SF2B (prec := 53) (emax := 1024) z Hz) = true).
    { intros [s|s| |s m e] Hz NZ; cbn; eauto; congruence. }
    destruct (FIN x Hx NX) as [[s ->] | FX].
    - rewrite mul_inf, conv_inf. destruct s.
      + apply (conv_mul_range y Hy NY).
      + assert (y = S754_infinity false) as ->.
        { destruct y as [[]|[]| |[] ? ?]; destruct C; try discriminate; reflexivity. }
        now rewrite mul_inf, conv_inf.
    - destruct (FIN y Hy NY) as [[s ->] | FY].
      + rewrite (mul_inf s), conv_inf. destruct s.
        * exfalso. destruct x as [[]|[]| |[] ? ?]; destruct C; discriminate.
        * apply (conv_mul_range x Hx NX).
      + rewrite (conv_mul _ Hx FX), (conv_mul _ Hy FY). apply clamp_mono, f_mono, rnd_le.
        assert (BC := Bcompare_correct _ _ _ _ FX FY). unfold Bcompare in BC. rewrite !B2SF_SF2B in BC.
        fold cb in c_gt. apply Rmult_le_compat_r; [lra|].
        destruct (Rcompare_spec (B2R (SF2B (prec := 53) (emax := 1024) x Hx)) (B2R (SF2B (prec := 53) (emax := 1024) y Hy))) as [R|R|R];
          rewrite BC in C; try lra. destruct C; discriminate.
  Qed.
End Conv.

Lemma valid_10 : f64_valid f64_10. Proof. vm_compute. reflexivity. Qed.
Lemma valid_100 : f64_valid f64_100. Proof. vm_compute. reflexivity. Qed.
Lemma zclamp_mono lo hi a b : (a <= b)%Z -> (zclamp lo hi a <= zclamp lo hi b)%Z.
Proof. unfold zclamp. lia. Qed.

Lemma f64_10_val : f64_10 = S754_finite false 5629499534213120 (-49).
Proof. vm_compute. reflexivity. Qed.
Lemma f64_100_val : f64_100 = S754_finite false 7036874417766400 (-46).
Proof. vm_compute. reflexivity. Qed.

Lemma maybe_number_mono x y : f64_valid x -> f64_valid y -> SFcompare x y = Some Lt \/ SFcompare x y = Some Eq ->
  (spam_number (SpMaybe x) <= spam_number (SpMaybe y))%Z.
Proof.
  intros Hx Hy C. cbn [spam_number]. apply zclamp_mono.
  assert (V := valid_10). rewrite f64_10_val in *.
  apply (conv_mono Ztrunc Z_of_f64 Ztrunc_le Ztrunc_IZR trunc_finite (fun _ => eq_refl) (fun _ => eq_refl) _ V);
    try assumption; try reflexivity.
  cbn [SF2B B2R cond_Zopp]. apply F2R_gt_0. reflexivity.
Qed.
Lemma maybe_percentage_mono x y : f64_valid x -> f64_valid y -> SFcompare x y = Some Lt \/ SFcompare x y = Some Eq ->
  (spam_percentage (SpMaybe x) <= spam_percentage (SpMaybe y))%Z.
Proof.
  intros Hx Hy C. cbn [spam_percentage]. apply zclamp_mono.
  assert (V := valid_100). rewrite f64_100_val in *.
  apply (conv_mono Zceil Zceil_f64 Zceil_le Zceil_IZR ceil_finite (fun _ => eq_refl) (fun _ => eq_refl) _ V);
    try assumption; try reflexivity.
  cbn [SF2B B2R cond_Zopp]. apply F2R_gt_0. reflexivity.
Qed.

Lemma spam_number_mono a b : at_most a b -> (spam_number a <= spam_number b)%Z.
Proof.
  intros [x|x|x| |x y Vx Vy H|x]; try (cbn [spam_number]; unfold zclamp; lia).
  - destruct x; cbn [spam_number]; unfold zclamp; lia.
  - now apply maybe_number_mono.
Qed.
Lemma spam_percentage_mono a b : at_most a b -> (spam_percentage a <= spam_percentage b)%Z.
Proof.
  intros [x|x|x| |x y Vx Vy H|x]; try (cbn [spam_percentage]; unfold zclamp; lia).
  - destruct x; cbn [spam_percentage]; unfold zclamp; lia.
  - now apply maybe_percentage_mono.
Qed.
Lemma spam_number_range s : (0 <= spam_number s <= 10)%Z /\ (0 <= spam_percentage s <= 100)%Z /\
  (spam_number s = 0%Z <-> s = SpUnknown) /\ (spam_number s = 1%Z <-> s = SpHam) /\
  (spam_number s = 10%Z <-> s = SpSpam).
Proof.
  destruct s; cbn [spam_number spam_percentage]; unfold zclamp; repeat split; intros; try lia; try discriminate; reflexivity.
Qed.

(** The decimal text of a small number is read as that number. *)
Lemma small_key L k : (0 <= k <= 100)%Z -> v_number L (VStr (show_Z k)) = NInt k.
Proof.
  intros H. replace k with (Z.of_nat (Z.to_nat k)) by lia.
  assert (B : (Z.to_nat k <= 100)%nat) by lia. revert B. generalize (Z.to_nat k). clear.
  assert (Q : forallb (fun n => let t := show_Z (Z.of_nat n) in
              negb (mem_ch c_dot t) && negb (teqb t []) &&
              match parse_i64 t with Some z => Z.eqb z (Z.of_nat n) | None => false end) (seq 0 101) = true).
  { vm_compute. reflexivity. }
  intros n B. rewrite forallb_forall in Q. specialize (Q n). cbv zeta in Q.
  assert (I : In n (seq 0 101)) by (apply in_seq; lia). apply Q in I. clear Q.
  apply andb_true_iff in I as [I I3]. apply andb_true_iff in I as [I1 I2].
  unfold v_number, v_number_checked. destruct (show_Z (Z.of_nat n)) as [|c t]; [discriminate|].
  apply negb_true_iff in I1. rewrite I1. destruct (parse_i64 (c :: t)); [|discriminate].
  cbn [option_map]. apply Z.eqb_eq in I3. now subst.
Qed.
Lemma score_ge L rx status u k : (0 <= k <= 100)%Z ->
  score_test L rx status u CNumeric (MValue RGe) false (VStr (show_Z k)) = TBool (Z.leb k status) [].
Proof.
  intros H. unfold score_test, compare1, cmp_relational, rel_number, rel_cmp, k_number.
  rewrite small_key by assumption. cbn [v_number v_number_checked n_cmp is_ge xorb].
  rewrite Bool.xorb_false_r. f_equal. unfold is_ge. destruct (Z.compare_spec status k), (Z.leb_spec k status); lia.
Qed.
