(** Independent specification of the operators of expressions on texts, numbers
    and arrays. *)
From Verif Require Import Base Lib Var.
Require Import Coq.Floats.SpecFloat.

(** What counts as true. *)
Definition holds (v : var) : Prop :=
  match v with
  | VStr s => s <> []
  | VInt n => n <> 0%Z
  | VFloat f => f <> S754_zero false /\ f <> S754_zero true
  | VArr l => l <> []
  end.
(** A yes or no answer: 1 or 0. *)
Definition answers (v : var) (P : Prop) : Prop := (v = VInt 1 /\ P) \/ (v = VInt 0 /\ ~ P).

Definition is_array (v : var) : Prop := match v with VArr _ => True | _ => False end.
Definition is_text (v : var) : Prop := match v with VStr _ => True | _ => False end.
(** The elements an operand of [+] contributes when the other is an array. *)
Definition elements (v : var) : list var := match v with VArr l => l | v => [v] end.

(** [r] is [l] without the elements [out] holds of, in the same order. *)
Inductive without {A} (out : A -> Prop) : list A -> list A -> Prop :=
| w_nil : without out [] []
| w_drop x l r : out x -> without out l r -> without out (x :: l) r
| w_keep x l r : ~ out x -> without out l r -> without out (x :: l) (x :: r).

(** The number an operand of [-], [*] and [/] stands for.  An array with elements
    counts as 0 and an empty one as 1. *)
Inductive stands_for (L : rustlib) : var -> number -> Prop :=
| sf_int z : stands_for L (VInt z) (NInt z)
| sf_float f : stands_for L (VFloat f) (NFloat f)
| sf_decimal s z : parse_i64 s = Some z -> s <> [] -> stands_for L (VStr s) (NInt z)
| sf_point s f : parse_i64 s = None -> s <> [] -> f64_parse L s = Some f -> stands_for L (VStr s) (NFloat f)
| sf_other s : parse_i64 s = None -> s <> [] -> f64_parse L s = None -> stands_for L (VStr s) (NInt 0)
| sf_empty : stands_for L (VStr []) (NInt 0)
| sf_array x l : stands_for L (VArr (x :: l)) (NInt 0)
| sf_no_array : stands_for L (VArr []) (NInt 1).
Definition as_float (n : number) : spec_float :=
  match n with NInt z => f64_of_Z z | NFloat f => f end.
Definition is_zero (n : number) : Prop :=
  match n with NInt z => z = 0%Z | NFloat f => f = S754_zero false \/ f = S754_zero true end.
Definition both_ints (m n : number) : Prop :=
  match m, n with NInt _, NInt _ => True | _, _ => False end.

(** A float that is not a number, or a text that is read as one, inside a value. *)
Inductive has_nan (L : rustlib) : var -> Prop :=
| hn_float : has_nan L (VFloat S754_nan)
| hn_text s : f64_parse L s = Some S754_nan -> has_nan L (VStr s)
| hn_elem x l : In x l -> has_nan L x -> has_nan L (VArr l).
(** A text on one side where the other side has an array. *)
Inductive clash : var -> var -> Prop :=
| cl_left s l : clash (VStr s) (VArr l)
| cl_right s l : clash (VArr l) (VStr s)
| cl_elems x y l m : In x l -> In y m -> clash x y -> clash (VArr l) (VArr m).

(** An array as a text: the pieces with CRLF in between, from the first that is not
    empty on. *)
Fixpoint lines (l : list text) : text :=
  match l with
  | [] => []
  | [t] => t
  | t :: l' => t ++ [13; 10]%N ++ lines l'
  end.
Fixpoint from_first (l : list text) : list text :=
  match l with [] :: l' => from_first l' | _ => l end.
