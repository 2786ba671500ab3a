(** Specification: the parts of a date (RFC 5260, section 4.2). *)
From Verif Require Import Base Lib Comparator ComparatorSpec Message AddrTest.

(** [t] is the number [n] in [w] decimal digits. *)
Definition decimal (w : nat) (t : text) (n : N) : Prop :=
  exists ds, length ds = w /\ Forall (fun d => (d < 10)%N) ds /\ t = map (N.add 48) ds /\
    n = fold_left (fun a d => 10 * a + d)%N ds 0%N.
(** Two or three of them with [sep] in between. *)
Definition three (w : nat) (sep : ch) (t : text) (a b c : N) : Prop :=
  exists x y z, decimal w x a /\ decimal 2 y b /\ decimal 2 z c /\ t = x ++ sep :: y ++ sep :: z.

(** Years of four digits; the other parts have two. *)
Definition ordinary (d : datetime) : Prop :=
  (dt_year d < 10000 /\ dt_month d < 100 /\ dt_day d < 100 /\ dt_hour d < 100 /\ dt_minute d < 100 /\ dt_second d < 100 /\
   dt_tz_hour d < 100 /\ dt_tz_minute d < 100)%N.

Section D.
  Variable A : addrparser.
  (** What a part of the date [d] shows.  The two formats of whole dates, the day number and
      the day of the week are mail_parser's. *)
  Definition part_is (d : datetime) (p : datepart) (t : text) : Prop :=
    match p with
    | DYear => decimal 4 t (dt_year d)
    | DMonth => decimal 2 t (dt_month d)
    | DDay => decimal 2 t (dt_day d)
    | DDate => three 4 45%N t (dt_year d) (dt_month d) (dt_day d)
    | DHour => decimal 2 t (dt_hour d)
    | DMinute => decimal 2 t (dt_minute d)
    | DSecond => decimal 2 t (dt_second d)
    | DTime => three 2 58%N t (dt_hour d) (dt_minute d) (dt_second d)
    | DZone => exists s h m, decimal 2 h (dt_tz_hour d) /\ decimal 2 m (dt_tz_minute d) /\ t = s :: h ++ m /\
        s = (if dt_before_gmt d then if N.eqb (dt_tz_hour d + dt_tz_minute d) 0 then 43 else 45 else 43)%N
    | DJulian => exists w, decimal w t (Z.to_N (dp_jdn A d - 2400001)) /\ (hd 0%N t = 48%N -> t = [48%N])
    | DWeekday => exists w, decimal w t (dp_weekday A d) /\ (hd 0%N t = 48%N -> t = [48%N])
    | DIso8601 => t = dp_rfc3339 A d
    | DStd11 => t = dp_rfc822 A d
    end.
End D.

(** One triple of numbers comes before the other. *)
Definition before3 (a b c a' b' c' : N) : Prop :=
  (a < a' \/ (a = a' /\ (b < b' \/ (b = b' /\ c < c'))))%N.
Definition compared (r : rel) (lt eq gt : Prop) : Prop :=
  match r with RGt => gt | RGe => gt \/ eq | RLt => lt | RLe => lt \/ eq | REq => eq | RNe => ~ eq end.
