(** Independent specifications for integers in expressions. *)
From Verif Require Import Base Lib Var.

(** [result] is [exact] clamped to the signed 64-bit range. *)
Definition saturates (exact result : Z) : Prop :=
  in_i64 result /\
  (in_i64 exact -> result = exact) /\
  (exact > 9223372036854775807 -> result = 9223372036854775807)%Z /\
  (exact < -9223372036854775808 -> result = -9223372036854775808)%Z.
(** An integer operand: an integer, or a text that is the decimal form of one. *)
Inductive int_operand (L : rustlib) : var -> Z -> Prop :=
| io_int : forall z, int_operand L (VInt z) z
| io_text : forall z, in_i64 z -> int_operand L (VStr (show_Z z)) z.
