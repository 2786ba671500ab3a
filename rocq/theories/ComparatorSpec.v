(** Independent specification of "a value matches a key". *)
From Verif Require Import Base Lib Var Value Glob GlobSpec Comparator.
From Coq Require Import Floats.SpecFloat.

(** Lexicographic order of texts. *)
Inductive text_before : text -> text -> Prop :=
| tb_prefix : forall y b, text_before [] (y :: b)
| tb_char : forall x y a b, (x < y)%N -> text_before (x :: a) (y :: b)
| tb_rest : forall x a b, text_before a b -> text_before (x :: a) (x :: b).

Section C.
  Variable L : rustlib.
  Variable rx : text -> text -> option (list (option text)).

  (** Text as seen by a comparator: octets, or lower-cased. *)
  Definition seen (c : comparator) (t : text) : text :=
    match c with COctet => t | _ => str_lower L t end.

  (** [a] is less than / equal to [b] for a comparator: as numbers for
      i;ascii-numeric (nothing is less than or equal to a NaN), else as texts. *)
  Definition less (c : comparator) (a b : cmpv) : Prop :=
    match c with
    | CNumeric => n_cmp (k_number L a) (k_number L b) = Some Lt
    | _ => text_before (seen c (k_text L a)) (seen c (k_text L b))
    end.
  Definition same (c : comparator) (a b : cmpv) : Prop :=
    match c with
    | CNumeric => n_cmp (k_number L a) (k_number L b) = Some Eq
    | _ => seen c (k_text L a) = seen c (k_text L b)
    end.
  (** The value [v] is greater than, ... the key [k]. *)
  Definition rel_holds (c : comparator) (r : rel) (v k : cmpv) : Prop :=
    match r with
    | RGt => less c k v
    | RGe => less c k v \/ same c v k
    | RLt => less c v k
    | RLe => less c v k \/ same c v k
    | REq => same c v k
    | RNe => ~ same c v k
    end.

  (** The relation asked for by a comparator and a match type between a value
      and a key (':count' and ':list' do not compare single values). *)
  Definition key_matches (c : comparator) (m : mtype) (v k : cmpv) : Prop :=
    let tv := k_text L v in let tk := k_text L k in
    match m with
    | MIs => match c with
             | CNumeric => n_cmp (k_number L v) (k_number L k) = Some Eq
             | _ => seen c tv = seen c tk
             end
    | MContains => tk = [] \/ exists before after, seen c tv = before ++ seen c tk ++ after
    | MValue r => rel_holds c r v k
    | MMatches positions =>
        let cm := match c with CCasemap => true | _ => false end in
        glob (pfold (chr_is_upper L) (chr_lower L) cm) tk
             (if cm then if N.eqb positions 0 then str_lower L tv
                         else flat_map (pfold (chr_is_upper L) (chr_lower L) true) tv
              else tv)
    | MRegex _ => rx tk tv <> None
    | MCount _ | MList => False
    end.

  (** Patterns with captures are supported up to 63 wildcards (see C02). *)
  Definition few_wildcards (m : mtype) (k : cmpv) : Prop :=
    match m with MMatches p => p = 0%N \/ wildcards (k_text L k) <= 63 | _ => True end.
End C.
