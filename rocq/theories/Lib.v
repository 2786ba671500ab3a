(** Rust library functions used by the modelled code.

    Functions whose definition is a short table or loop are written out here;
    the ones that depend on the Unicode database, on the float formatter or on
    the float parser are fields of [rustlib] and are arbitrary: every theorem
    quantifies over them. *)
From Verif Require Import Base.
From Coq Require Import Floats.SpecFloat.

(** Rust core and crates: parameters of the model (no lines of /repo). Unmodelled library functions. *)
Record rustlib := {
  chr_is_upper : ch -> bool;          (* char::is_uppercase *)
  chr_is_lower : ch -> bool;          (* char::is_lowercase *)
  chr_is_alnum : ch -> bool;          (* char::is_alphanumeric *)
  chr_is_ws : ch -> bool;             (* char::is_whitespace *)
  chr_is_ctl : ch -> bool;            (* char::is_control *)
  chr_lower : ch -> text;             (* char::to_lowercase *)
  chr_upper : ch -> text;             (* char::to_uppercase *)
  str_lower : text -> text;           (* str::to_lowercase *)
  str_upper : text -> text;           (* str::to_uppercase *)
  f64_parse : text -> option spec_float;   (* str::parse::<f64> *)
  f64_show : spec_float -> text            (* <f64 as Display>::fmt *)
}.

(** ASCII instance, used by the examples only. *)
Definition ascii_lib : rustlib := {|
  chr_is_upper := is_upper_ascii;
  chr_is_lower := is_lower_ascii;
  chr_is_alnum := is_alnum_ascii;
  chr_is_ws := is_ws_ascii;
  chr_is_ctl := fun c => N.ltb c 32 || N.eqb c 127;
  chr_lower := fun c => [lower_ascii c];
  chr_upper := fun c => [upper_ascii c];
  str_lower := lower_text;
  str_upper := upper_text;
  f64_parse := fun _ => None;
  f64_show := fun _ => []
|}.

(** Rust core. [char::len_utf8] *)
Definition len_utf8 (c : ch) : nat :=
  if N.ltb c 128 then 1 else if N.ltb c 2048 then 2 else if N.ltb c 65536 then 3 else 4.

(** Rust core. [str::len]: number of bytes. *)
Fixpoint blen (s : text) : nat :=
  match s with [] => 0 | c :: s' => len_utf8 c + blen s' end.

(** Rust core. [char::encode_utf8] *)
Definition utf8_char (c : ch) : list N :=
  if N.ltb c 128 then [c]
  else if N.ltb c 2048 then [192 + c / 64; 128 + c mod 64]%N
  else if N.ltb c 65536 then [224 + c / 4096; 128 + (c / 64) mod 64; 128 + c mod 64]%N
  else [240 + c / 262144; 128 + (c / 4096) mod 64; 128 + (c / 64) mod 64; 128 + c mod 64]%N.
(** Rust core: [String::into_bytes]. *)
Definition utf8 (s : text) : list N := flat_map utf8_char s.

(** Rust core. [str] ordering.  Simplification: Rust compares the UTF-8 bytes; UTF-8 preserves the order
    of code points, so code points are compared here. *)
Fixpoint tcmp (a b : text) : comparison :=
  match a, b with
  | [], [] => Eq
  | [], _ :: _ => Lt
  | _ :: _, [] => Gt
  | x :: a', y :: b' => match N.compare x y with Eq => tcmp a' b' | c => c end
  end.

(** Rust core. [str::starts_with] *)
Fixpoint starts_with (s p : text) {struct p} : bool :=
  match p, s with
  | [], _ => true
  | y :: p', x :: s' => N.eqb x y && starts_with s' p'
  | _ :: _, [] => false
  end.

(** Rust core. [str::contains] of a text *)
Fixpoint tcontains (s p : text) : bool :=
  starts_with s p || match s with [] => false | _ :: s' => tcontains s' p end.

(** Rust core: [slice::contains]. *)
Definition mem_ch (c : ch) (l : text) : bool := existsb (N.eqb c) l.

(** Rust core. [str::replace]: left-to-right, non-overlapping; an empty search text matches at every
    character boundary.  [skip] counts characters of a match still to be dropped. *)
Fixpoint treplace_go (find repl s : text) (skip : nat) : text :=
  match s with
  | [] => []
  | c :: s' =>
      match skip with
      | S k => treplace_go find repl s' k
      | 0 => if starts_with s find
             then repl ++ treplace_go find repl s' (length find - 1)
             else c :: treplace_go find repl s' 0
      end
  end.
(** Rust core: [str::replace], started. *)
Definition treplace (s find repl : text) : text :=
  match find with
  | [] => repl ++ flat_map (fun c => c :: repl) s
  | _ => treplace_go find repl s 0
  end.

(** Rust core: [usize::to_string]. Decimal digits of a natural number, most significant first.  [fuel]
    bounds the number of digits (the binary size of the number is enough). *)
Fixpoint show_pos_go (fuel : nat) (n : N) (acc : text) : text :=
  match fuel with
  | 0 => acc
  | S f => let acc' := (48 + n mod 10)%N :: acc in
           if N.eqb (n / 10) 0 then acc' else show_pos_go f (n / 10)%N acc'
  end.
(** Rust core: [usize::to_string], with enough fuel. *)
Definition show_N (n : N) : text := show_pos_go (S (N.to_nat (N.size n))) n [].

(** Rust core. [<i64 as Display>::fmt] *)
Definition show_Z (z : Z) : text :=
  if Z.ltb z 0 then 45%N :: show_N (Z.to_N (- z)) else show_N (Z.to_N z).

(** Rust core: [i64::MIN]. *)
Definition i64_min : Z := - 2 ^ 63.
(** Rust core: [i64::MAX]. *)
Definition i64_max : Z := 2 ^ 63 - 1.
(** The range of [i64] (for statements). *)
Definition in_i64 (z : Z) : Prop := (i64_min <= z <= i64_max)%Z.
(** The range of [i64], decided. *)
Definition in_i64b (z : Z) : bool := (Z.leb i64_min z && Z.leb z i64_max).
(** Rust core: the saturating operations of [i64] bring a result into this range. *)
Definition clamp_i64 (z : Z) : Z := Z.max i64_min (Z.min i64_max z).

(** Rust core, part of [str::parse]. Value of a non-empty all-digit text. *)
Fixpoint digits_val (acc : N) (s : text) : option N :=
  match s with
  | [] => Some acc
  | c :: s' => if is_digit_ascii c then digits_val (acc * 10 + (c - 48))%N s' else None
  end.
(** Rust core: [str::parse] of an unsigned number without a sign, before the check of its size. *)
Definition parse_nat (s : text) : option N :=
  match s with [] => None | _ => digits_val 0 s end.

(** Rust core. [str::parse::<i64>]: optional sign, at least one digit, overflow is an error. *)
Definition parse_i64 (s : text) : option Z :=
  let chk z := if in_i64b z then Some z else None in
  match s with
  | 45%N :: d => match parse_nat d with Some n => chk (- Z.of_N n)%Z | None => None end
  | 43%N :: d => match parse_nat d with Some n => chk (Z.of_N n) | None => None end
  | d => match parse_nat d with Some n => chk (Z.of_N n) | None => None end
  end.

(** IEEE binary64 operations (Coq's [SpecFloat], the executable specification
    of IEEE 754 binary floating point). *)
Definition f64_prec : Z := 53.
(** The exponent range of [f64]. *)
Definition f64_emax : Z := 1024.
(** Rust core: [f64] addition. *)
Definition f64_add := SFadd f64_prec f64_emax.
(** Rust core: [f64] subtraction. *)
Definition f64_sub := SFsub f64_prec f64_emax.
(** Rust core: [f64] multiplication. *)
Definition f64_mul := SFmul f64_prec f64_emax.
(** Rust core: [f64] division. *)
Definition f64_div := SFdiv f64_prec f64_emax.
(** Rust core: [f64] negation. *)
Definition f64_neg := SFopp.
(** Rust core: [f64] equality. *)
Definition f64_eqb := SFeqb.
(** Rust core: [f64::partial_cmp]. *)
Definition f64_cmp := SFcompare.
(** Rust core: [0.0]. *)
Definition f64_zero : spec_float := S754_zero false.
(** Rust core. [i64 as f64] *)
Definition f64_of_Z (z : Z) : spec_float := binary_normalize f64_prec f64_emax z 0 false.
(** Rust core. [f64 as i64]: truncation, saturating, NaN to 0. *)
Definition Z_of_f64 (f : spec_float) : Z :=
  match f with
  | S754_zero _ => 0
  | S754_nan => 0
  | S754_infinity s => if s then i64_min else i64_max
  | S754_finite s m e =>
      let a := if Z.leb 0 e then (Zpos m * 2 ^ e)%Z else (Zpos m / 2 ^ (- e))%Z in
      clamp_i64 (if s then - a else a)%Z
  end.

Arguments f64_of_Z : simpl never.
Arguments f64_add : simpl never.
Arguments f64_sub : simpl never.
Arguments f64_mul : simpl never.
Arguments f64_div : simpl never.
Arguments f64_cmp : simpl never.
Arguments f64_eqb : simpl never.
Arguments i64_min : simpl never.
Arguments i64_max : simpl never.
Arguments clamp_i64 : simpl never.
Arguments show_Z : simpl never.
Arguments parse_i64 : simpl never.
