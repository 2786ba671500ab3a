(** Model of the spamtest and virustest status values:
    src/runtime/tests/test_spamtest.rs 20-199. *)
From Verif Require Import Base Lib Var Value Comparator.
From Coq Require Import Floats.SpecFloat.

(** lib.rs 304-309: lib.rs [SpamStatus], [VirusStatus] *)
Inductive spam_status := SpUnknown | SpHam | SpMaybe (pct : spec_float) | SpSpam.
(** lib.rs 312-319 [VirusStatus]. *)
Inductive virus_status := ViUnknown | ViClean | ViReplaced | ViCured | ViMaybe | ViVirus.

(** Rust core: The f64 constants 10.0 and 100.0. *)
Definition f64_10 : spec_float := f64_of_Z 10.
(** Rust core: the constant 100.0. *)
Definition f64_100 : spec_float := f64_of_Z 100.

(** test_spamtest.rs 114-121 [SpamStatus::from_number], on u32 *)
Definition spam_of_number (n : Z) : spam_status :=
  if Z.eqb n 1 then SpHam
  else if Z.leb 2 n && Z.leb n 9 then SpMaybe (f64_div (f64_of_Z n) f64_10)
  else if Z.eqb n 10 then SpSpam
  else SpUnknown.

(** Rust core: [i64::clamp] *)
Definition zclamp (lo hi z : Z) : Z := Z.max lo (Z.min hi z).

(** Rust core: [f64::ceil() as i64]: the least integer not below the value, saturating, NaN to 0.
    Simplification: one function for the two steps (the result of [ceil] is an exact integer). *)
Definition Zceil_f64 (f : spec_float) : Z :=
  match f with
  | S754_zero _ => 0
  | S754_nan => 0
  | S754_infinity s => if s then i64_min else i64_max
  | S754_finite s m e =>
      let z := (if s then Zneg m else Zpos m)%Z in
      clamp_i64 (if Z.leb 0 e then (z * 2 ^ e)%Z else - ((- z) / 2 ^ (- e)))%Z
  end.

(** test_spamtest.rs 123-130 [as_number] *)
Definition spam_number (s : spam_status) : Z :=
  match s with
  | SpUnknown => 0
  | SpHam => 1
  | SpMaybe p => zclamp 2 9 (Z_of_f64 (f64_mul p f64_10))
  | SpSpam => 10
  end.
(** test_spamtest.rs 132-138 [as_percentage]. *)
Definition spam_percentage (s : spam_status) : Z :=
  match s with
  | SpUnknown | SpHam => 0
  | SpMaybe p => zclamp 1 100 (Zceil_f64 (f64_mul p f64_100))
  | SpSpam => 100
  end.

(** test_spamtest.rs 153-162 [VirusStatus::as_number] *)
Definition virus_of_number (n : Z) : virus_status :=
  if Z.eqb n 1 then ViClean else if Z.eqb n 2 then ViReplaced else if Z.eqb n 3 then ViCured
  else if Z.eqb n 4 then ViMaybe else if Z.eqb n 5 then ViVirus else ViUnknown.
(** test_spamtest.rs 153-162 [VirusStatus::as_number]. *)
Definition virus_number (s : virus_status) : Z :=
  match s with ViUnknown => 0 | ViClean => 1 | ViReplaced => 2 | ViCured => 3 | ViMaybe => 4 | ViVirus => 5 end.

(** lines 50-57, 91-98: the f64 constant 1.1 *)
Definition f64_1_1 : spec_float := S754_finite false 4953959590107546 (-52).

Section T.
  Variable L : rustlib.
  Variable rx : text -> text -> option (list (option text)).
  (** lines 22-66 [TestSpamTest::exec] and 70-112 [TestVirusTest::exec] after
      the evaluation of the key; [status] is the number compared with it. *)
  Definition score_test (status : Z) (unknown : bool) (c : comparator) (m : mtype) (is_not : bool)
             (key : var) : tres :=
    match m with
    | MCount r =>
        TBool (xorb (rel_number r (NFloat (if unknown then f64_zero else f64_1_1)) (v_number L key)) is_not) []
    | _ => match compare1 L rx c m (KVar (VInt status)) (KVar key) [] with
           | CPanic => TPanic
           | CRes b caps => TBool (xorb b is_not) caps
           end
    end.
  (** test_spamtest.rs 22-66 [TestSpamTest::exec]. *)
  Definition spam_test (percent : bool) (st : spam_status) (c : comparator) (m : mtype) (is_not : bool)
             (key : var) : tres :=
    score_test (if percent then spam_percentage st else spam_number st)
               (match st with SpUnknown => true | _ => false end) c m is_not key.
  (** test_spamtest.rs 70-110 [TestVirusTest::exec]. *)
  Definition virus_test (st : virus_status) (c : comparator) (m : mtype) (is_not : bool) (key : var) : tres :=
    score_test (virus_number st) (match st with ViUnknown => true | _ => false end) c m is_not key.
End T.
