(** Specification of spam scores (RFC 5235): what "more likely spam" means. *)
From Verif Require Import Base Lib Spam.
From Coq Require Import Floats.SpecFloat.

(** A representable f64: mantissa and exponent in range. *)
Definition f64_valid (x : spec_float) : Prop := SpecFloat.valid_binary 53 1024 x = true.
(** [x <= y] on f64 (false when one of them is NaN). *)
Definition f64_le (x y : spec_float) : Prop := SFcompare x y = Some Lt \/ SFcompare x y = Some Eq.

(** [at_most a b]: [b] is at least as likely to be spam as [a]; not tested comes first. *)
Inductive at_most : spam_status -> spam_status -> Prop :=
| le_same a : at_most a a
| le_unknown b : at_most SpUnknown b
| le_ham x : at_most SpHam (SpMaybe x)
| le_ham_spam : at_most SpHam SpSpam
| le_maybe x y : f64_valid x -> f64_valid y -> f64_le x y -> at_most (SpMaybe x) (SpMaybe y)
| le_maybe_spam x : at_most (SpMaybe x) SpSpam.

(** [k < f] and [k <= f] for an integer [k] and a float [f], by exact integer
    arithmetic: [f] is [m * 2^e] with the sign of [neg]. *)
Definition scaled (neg : bool) (m : positive) (e : Z) : Z := ((if neg then Z.neg m else Z.pos m) * 2 ^ Z.max 0 e)%Z.
Definition above (k : Z) (f : spec_float) : Prop :=
  match f with
  | S754_finite s m e => (k * 2 ^ Z.max 0 (- e) < scaled s m e)%Z
  | S754_infinity s => s = false
  | S754_zero _ => (k < 0)%Z
  | S754_nan => False
  end.
Definition reaches (k : Z) (f : spec_float) : Prop :=
  match f with
  | S754_finite s m e => (k * 2 ^ Z.max 0 (- e) <= scaled s m e)%Z
  | S754_infinity s => s = false
  | S754_zero _ => (k <= 0)%Z
  | S754_nan => False
  end.
