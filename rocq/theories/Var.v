(** Model of [Variable] and [Number]: src/runtime/mod.rs 36-300 and the value
    operations of src/runtime/expression.rs 108-345. *)
From Verif Require Import Base Lib.
From Coq Require Import Floats.SpecFloat.

(** runtime/mod.rs 37-43 [Variable].  Simplification: [Arc] sharing is not
    modelled (values are immutable behind it). *)
Inductive var :=
| VStr (s : text)
| VInt (n : Z)
| VFloat (f : spec_float)
| VArr (l : list var).

(** compiler/mod.rs 282-285. compiler/mod.rs [Number] *)
Inductive number := NInt (n : Z) | NFloat (f : spec_float).

(** runtime/mod.rs 56-60 *)
Definition vdefault : var := VStr [].

Section V.
  Variable L : rustlib.

  (** runtime/mod.rs 273-289: an array is joined with CRLF, nested arrays are
      skipped; no separator while the result is still empty. *)
  Fixpoint join_crlf (res : text) (l : list var) : text :=
    match l with
    | [] => res
    | v :: l' =>
        let res1 := match res with [] => [] | _ => res ++ [c_cr; c_lf] end in
        join_crlf (res1 ++ match v with
                           | VStr s => s
                           | VInt n => show_Z n
                           | VFloat f => f64_show L f
                           | VArr _ => []
                           end) l'
    end.

  (** runtime/mod.rs 62-69 [Variable::to_string] *)
  Definition v_text (v : var) : text :=
    match v with
    | VStr s => s
    | VInt n => show_Z n
    | VFloat f => f64_show L f
    | VArr l => join_crlf [] l
    end.

  (** runtime/mod.rs 76-89 [to_number_checked] *)
  Definition v_number_checked (v : var) : option number :=
    match v with
    | VInt n => Some (NInt n)
    | VFloat f => Some (NFloat f)
    | VStr [] => None
    | VStr s => if mem_ch c_dot s then option_map NFloat (f64_parse L s)
                else option_map NInt (parse_i64 s)
    | VArr _ => None
    end.
  (** runtime/mod.rs 71-74 [to_number] *)
  Definition v_number (v : var) : number :=
    match v_number_checked v with Some n => n | None => NFloat (S754_infinity false) end.

  (** runtime/mod.rs 91-98 [to_integer] *)
  Definition v_integer (v : var) : Z :=
    match v with
    | VInt n => n
    | VFloat f => Z_of_f64 f
    | VStr [] => 0
    | VStr s => match parse_i64 s with Some n => n | None => 0 end
    | VArr _ => 0
    end%Z.

  (** runtime/mod.rs 109-115 [len] *)
  Fixpoint v_len (v : var) : nat :=
    match v with
    | VStr s => blen s
    | VInt _ | VFloat _ => 2
    | VArr l => (fix go l := match l with [] => 0 | x :: l' => (v_len x + 2) + go l' end) l
    end.

  (** runtime/mod.rs 117-122 [is_empty] *)
  Definition v_is_empty (v : var) : bool :=
    match v with VStr [] => true | _ => false end.

  (** runtime/mod.rs 131-137, 139-145 [into_array]/[to_array] *)
  Definition v_array (v : var) : list var :=
    match v with
    | VArr l => l
    | v => if v_is_empty v then [] else [v]
    end.

  (** runtime/mod.rs 147-161 [into_string_array]/[to_string_array] *)
  Definition v_strings (v : var) : list text :=
    match v with
    | VArr l => map v_text l
    | v => if v_is_empty v then [] else [v_text v]
    end.

  (** expression.rs 309-326 [Display] (used when texts are concatenated in
      expressions): arrays are joined with LF, recursively. *)
  Fixpoint v_display (v : var) : text :=
    match v with
    | VStr s => s
    | VInt n => show_Z n
    | VFloat f => f64_show L f
    | VArr l => (fix go (first : bool) l :=
                   match l with
                   | [] => []
                   | x :: l' => (if first then [] else [c_lf]) ++ v_display x ++ go false l'
                   end) true l
    end.

  (** expression.rs 234-250 [parse_number] *)
  Definition parse_number (v : var) : var :=
    match v with
    | VStr [] => VInt 0
    | VStr s => match parse_i64 s with
                | Some n => VInt n
                | None => match f64_parse L s with Some f => VFloat f | None => VInt 0 end
                end
    | VInt n => VInt n
    | VFloat f => VFloat f
    | VArr l => VInt (match l with [] => 1 | _ => 0 end)
    end.

  (** expression.rs 252-259 [to_bool] *)
  Definition to_bool (v : var) : bool :=
    match v with
    | VFloat f => negb (f64_eqb f f64_zero)
    | VInt n => negb (Z.eqb n 0)
    | VStr s => match s with [] => false | _ => true end
    | VArr l => match l with [] => false | _ => true end
    end.
  (** runtime/mod.rs 242-246 [From<bool> for Variable]. *)
  Definition vbool (b : bool) : var := VInt (if b then 1 else 0).

  (** expression.rs 262-277 [PartialEq] on two numeric variants *)
  Definition num_eqb (a b : var) : bool :=
    match a, b with
    | VInt a, VInt b => Z.eqb a b
    | VFloat a, VFloat b => f64_eqb a b
    | VInt a, VFloat b | VFloat b, VInt a => f64_eqb (f64_of_Z a) b
    | _, _ => false
    end.
  (** expression.rs 262-277 [PartialEq for Variable] *)
  Fixpoint v_eqb (a b : var) {struct a} : bool :=
    match a, b with
    | VStr a, VStr b => teqb a b
    | VStr _, (VInt _ | VFloat _) => num_eqb (parse_number a) b
    | (VInt _ | VFloat _), VStr _ => num_eqb a (parse_number b)
    | VArr l, VArr m =>
        (fix go l m := match l, m with
                       | [], [] => true
                       | x :: l', y :: m' => v_eqb x y && go l' m'
                       | _, _ => false
                       end) l m
    | VArr _, _ | _, VArr _ => false
    | _, _ => num_eqb a b
    end.

  (** expression.rs 281-301 [PartialOrd] on two numeric variants *)
  Definition num_cmp (a b : var) : option comparison :=
    match a, b with
    | VInt a, VInt b => Some (Z.compare a b)
    | VFloat a, VFloat b => f64_cmp a b
    | VInt a, VFloat b => f64_cmp (f64_of_Z a) b
    | VFloat a, VInt b => f64_cmp a (f64_of_Z b)
    | _, _ => None
    end.
  (** expression.rs 281-301 [PartialOrd for Variable] *)
  Fixpoint v_cmp (a b : var) {struct a} : option comparison :=
    match a, b with
    | VStr a, VStr b => Some (tcmp a b)
    | VStr _, (VInt _ | VFloat _) => num_cmp (parse_number a) b
    | (VInt _ | VFloat _), VStr _ => num_cmp a (parse_number b)
    | VArr l, VArr m =>
        (fix go l m := match l, m with
                       | [], [] => Some Eq
                       | [], _ :: _ => Some Lt
                       | _ :: _, [] => Some Gt
                       | x :: l', y :: m' =>
                           match v_cmp x y with Some Eq => go l' m' | c => c end
                       end) l m
    | (VArr _ | VStr _), _ => Some Gt
    | _, VArr _ => Some Lt
    | _, _ => num_cmp a b
    end.

  (** Rust core. Default methods lt, le, gt, ge of [PartialOrd] *)
  Definition is_lt (c : option comparison) : bool := match c with Some Lt => true | _ => false end.
  (** Rust core: [PartialOrd::le]. *)
  Definition is_le (c : option comparison) : bool :=
    match c with Some Lt | Some Eq => true | _ => false end.
  (** Rust core: [PartialOrd::gt]. *)
  Definition is_gt (c : option comparison) : bool := match c with Some Gt => true | _ => false end.
  (** Rust core: [PartialOrd::ge]. *)
  Definition is_ge (c : option comparison) : bool :=
    match c with Some Gt | Some Eq => true | _ => false end.

  (** runtime/mod.rs 248-257 [PartialEq for Number] *)
  Definition n_eqb (a b : number) : bool :=
    match a, b with
    | NInt a, NInt b => Z.eqb a b
    | NFloat a, NFloat b => f64_eqb a b
    | NInt a, NFloat b => f64_eqb (f64_of_Z a) b
    | NFloat a, NInt b => f64_eqb a (f64_of_Z b)
    end.
  (** runtime/mod.rs 261-271 [PartialOrd for Number] *)
  Definition n_cmp (a b : number) : option comparison :=
    match a, b with
    | NInt a, NInt b => Some (Z.compare a b)
    | NFloat a, NFloat b => f64_cmp a b
    | NInt a, NFloat b => f64_cmp (f64_of_Z a) b
    | NFloat a, NInt b => f64_cmp a (f64_of_Z b)
    end.

  (** expression.rs 109-139 [op_add] *)
  Definition op_add (a b : var) : var :=
    match a, b with
    | VInt a, VInt b => VInt (clamp_i64 (a + b))
    | VFloat a, VFloat b => VFloat (f64_add a b)
    | VInt i, VFloat f | VFloat f, VInt i => VFloat (f64_add (f64_of_Z i) f)
    | VArr a, VArr b => VArr (a ++ b)
    | VArr a, b => VArr (a ++ [b])
    | a, VArr b => VArr (a :: b)
    | VStr s, b => match s with [] => b | _ => VStr (s ++ v_display b) end
    | a, VStr s => match s with [] => a | _ => VStr (v_display a ++ s) end
    end.

  (** expression.rs 141-156 [op_subtract] on two numeric variants *)
  Definition num_sub (a b : var) : var :=
    match a, b with
    | VInt a, VInt b => VInt (clamp_i64 (a - b))
    | VFloat a, VFloat b => VFloat (f64_sub a b)
    | VInt a, VFloat b => VFloat (f64_sub (f64_of_Z a) b)
    | VFloat a, VInt b => VFloat (f64_sub a (f64_of_Z b))
    | _, _ => VInt 0
    end.
  (** expression.rs 141-156 [op_subtract]; the recursive call of line 154 is on
      numeric variants only, hence [num_sub]. *)
  Definition op_sub (a b : var) : var :=
    match a, b with
    | VArr l, b => VArr (filter (fun v => negb (v_eqb v b)) l)
    | a, VArr l => VArr (filter (fun v => negb (v_eqb v a)) l)
    | a, b => num_sub (parse_number a) (parse_number b)
    end.

  (** expression.rs 158-166 [op_multiply] *)
  Definition num_mul (a b : var) : var :=
    match a, b with
    | VInt a, VInt b => VInt (clamp_i64 (a * b))
    | VFloat a, VFloat b => VFloat (f64_mul a b)
    | VInt i, VFloat f | VFloat f, VInt i => VFloat (f64_mul (f64_of_Z i) f)
    | _, _ => VInt 0
    end.
  (** expression.rs 158-166 [op_multiply]. *)
  Definition op_mul (a b : var) : var := num_mul (parse_number a) (parse_number b).

  (** expression.rs 168-184 [op_divide] *)
  Definition num_div (a b : var) : var :=
    match a, b with
    | VInt a, VInt b =>
        VFloat (if Z.eqb b 0 then f64_zero else f64_div (f64_of_Z a) (f64_of_Z b))
    | VFloat a, VFloat b => VFloat (if f64_eqb b f64_zero then f64_zero else f64_div a b)
    | VInt a, VFloat b => VFloat (if f64_eqb b f64_zero then f64_zero else f64_div (f64_of_Z a) b)
    | VFloat a, VInt b => VFloat (if Z.eqb b 0 then f64_zero else f64_div a (f64_of_Z b))
    | _, _ => VInt 0
    end.
  (** expression.rs 168-184 [op_divide]. *)
  Definition op_div (a b : var) : var := num_div (parse_number a) (parse_number b).

  (** expression.rs 186-224 *)
  Definition op_and (a b : var) : var := vbool (to_bool a && to_bool b).
  (** expression.rs 190-192 [op_or]. *)
  Definition op_or (a b : var) : var := vbool (to_bool a || to_bool b).
  (** expression.rs 194-196 [op_xor]. *)
  Definition op_xor (a b : var) : var := vbool (xorb (to_bool a) (to_bool b)).
  (** expression.rs 198-200 [op_eq]. *)
  Definition op_eq (a b : var) : var := vbool (v_eqb a b).
  (** expression.rs 202-204 [op_ne]. *)
  Definition op_ne (a b : var) : var := vbool (negb (v_eqb a b)).
  (** expression.rs 206-208 [op_lt]. *)
  Definition op_lt (a b : var) : var := vbool (is_lt (v_cmp a b)).
  (** expression.rs 210-212 [op_le]. *)
  Definition op_le (a b : var) : var := vbool (is_le (v_cmp a b)).
  (** expression.rs 214-216 [op_gt]. *)
  Definition op_gt (a b : var) : var := vbool (is_gt (v_cmp a b)).
  (** expression.rs 218-220 [op_ge]. *)
  Definition op_ge (a b : var) : var := vbool (is_ge (v_cmp a b)).
  (** expression.rs 222-224 [op_not]. *)
  Definition op_not (a : var) : var := vbool (negb (to_bool a)).

  (** expression.rs 226-232 [op_minus]; [None] is the overflow of [-n] for
      i64::MIN (a panic when overflow checks are on). *)
  Definition op_minus (a : var) : option var :=
    match parse_number a with
    | VInt n => if Z.eqb n i64_min then None else Some (VInt (- n))
    | VFloat f => Some (VFloat (f64_neg f))
    | v => Some v
    end.
End V.
