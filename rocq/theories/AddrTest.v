(** Model of the address, envelope, date and currentdate tests:
    src/runtime/tests/test_address.rs, test_envelope.rs 19-170, test_date.rs. *)
From Verif Require Import Base Lib Var Value Glob Comparator Message.

(** No lines of /repo: mail_parser's Addr: display name and address. *)
Record mailaddr := { ad_name : option text; ad_addr : option text }.
(** Rust core: [Option::or]. *)
Definition or_else {A} (a b : option A) : option A := match a with Some _ => a | None => b end.

(** No lines of /repo: mail_parser's DateTime, as far as the tests look at it. *)
Record datetime := {
  dt_year : N; dt_month : N; dt_day : N; dt_hour : N; dt_minute : N; dt_second : N;
  dt_before_gmt : bool; dt_tz_hour : N; dt_tz_minute : N
}.
(** grammar/tests/test_date.rs 80-94: grammar/tests/test_date.rs [DatePart], [Zone] *)
Inductive datepart := DYear | DMonth | DDay | DDate | DJulian | DHour | DMinute | DSecond | DTime
                    | DIso8601 | DStd11 | DZone | DWeekday.
(** grammar/tests/test_date.rs 65-69 [Zone]. *)
Inductive zone := ZTime (tz : Z) | ZOriginal | ZLocal.

(** No lines of /repo: mail_parser functions on addresses and dates that stay abstract. *)
Record addrparser := {
  ap_parse : header -> option (list mailaddr);      (* the addresses of a header value; groups flattened *)
  ap_part : apart -> text -> option text;           (* parse_address_local_part, _domain, _user_part, _detail_part *)
  dp_parse : header -> option datetime;             (* the valid date of a header value *)
  dp_timezone : Z -> datetime -> datetime;          (* DateTime::to_timezone *)
  dp_local : datetime -> datetime;                  (* from_timestamp(to_timestamp) *)
  dp_rfc3339 : datetime -> text; dp_rfc822 : datetime -> text;
  dp_jdn : datetime -> Z;                           (* DateTime::julian_day *)
  dp_weekday : datetime -> N;
  dp_from_rfc3339 : text -> option datetime         (* DateTime::parse_rfc3339 *)
}.

(** Rust core: [format!("{:0w}")]: decimal, padded with zeros to at least [w] digits. *)
Definition pad (w : nat) (n : N) : text := repeat 48%N (w - length (show_N n)) ++ show_N n.

(** test_address.rs 136-160: [Vec] of the distinct non-empty values in order (the ':list' visitors). *)
Definition distinct (l : list text) : list text :=
  fold_left (fun vs v => match v with
                         | [] => vs
                         | _ => if existsb (teqb v) vs then vs else vs ++ [v]
                         end) l [].

Section A.
  Variable L : rustlib.
  Variable rx : text -> text -> option (list (option text)).
  Variable A : addrparser.

  (** test_address.rs 249-264 [AddressPart::eval] *)
  Definition part_eval (p : apart) (a : mailaddr) : option text :=
    let email := or_else (ad_addr a) (ad_name a) in
    match p, email with
    | PAll, _ => email
    | PName, _ => ad_name a
    | (PLocal | PDomain | PUser | PDetail), Some (c :: e) => ap_part A p (c :: e)
    | _, _ => email
    end.
  (** test_address.rs 282-296 [eval_string] *)
  Definition part_eval_string (p : apart) (a : text) : option text :=
    match a with
    | [] => Some []
    | _ => match p with
           | PLocal | PDomain | PUser | PDetail => ap_part A p a
           | PAll | PName => Some a
           end
    end.

  (** test_address.rs 174-246 [find_addresses]: the values handed to the visitor;
      a header without addresses counts as one empty value. *)
  Definition address_values (p : apart) (h : header) : list text :=
    match ap_parse A h with
    | Some l => flat_map (fun a => match part_eval p a with Some t => [t] | None => [] end) l
    | None => [[]]
    end.

  (** test_address.rs 29-168, test_envelope.rs 20-132: The common shape of the address and envelope
      tests over a list of values. *)
  Definition values_test (c : comparator) (m : mtype) (is_not : bool) (values : list text) (keys : list var) : tres :=
    match m with
    | MCount r =>
        let n := Z.of_nat (length (filter (fun v => match v with [] => false | _ => true end) values)) in
        TBool (xorb (existsb (fun k => rel_number r (NInt n) (v_number L k)) keys) is_not) []
    | MList => match distinct values with
               | [] => TBool (xorb false is_not) []
               | vs => TListContains (map (v_text L) keys) vs c
               end
    | _ => match values_loop L rx c m values keys [] with
           | CPanic => TPanic
           | CRes b caps => TBool (xorb b is_not) caps
           end
    end.

  (** test_address.rs 29-168 [TestAddress::exec]; [names] are the parsed header
      names, [keys] the evaluated keys; [None]: fuel exhaustion. *)
  Definition address_test (parts : list part) (current : nat) (names : list text) (index : option Z)
             (anychild : bool) (p : apart) (c : comparator) (m : mtype) (is_not : bool) (keys : list var)
    : option tres :=
    option_map (fun found => values_test c m is_not (flat_map (fun l => address_values p (l_header l)) found) keys)
               (find_headers parts current names index anychild).

  (** test_envelope.rs 136-168 [find_envelopes]: the values of one envelope item. *)
  Definition envelope_values (wanted : list envk) (p : apart) (z : option Z) (ev : envk * var) : list text :=
    if existsb (envk_eqb (fst ev)) wanted then
      let t := v_text L (snd ev) in
      match fst ev with
      | EnvFrom | EnvTo | EnvOrcpt => match part_eval_string p t with Some x => [x] | None => [] end
      | EnvByTimeAbsolute =>
          match z with
          | Some tz => match dp_from_rfc3339 A t with
                       | Some dt => [dp_rfc3339 A (dp_timezone A tz dt)]
                       | None => [[]]
                       end
          | None => [t]
          end
      | _ => [t]
      end
    else [].
  (** test_envelope.rs 20-132 [TestEnvelope::exec] *)
  Definition envelope_test (env : list (envk * var)) (wanted : list envk) (p : apart) (z : option Z)
             (c : comparator) (m : mtype) (is_not : bool) (keys : list var) : tres :=
    values_test c m is_not (flat_map (envelope_values wanted p z) env) keys.

  (** test_date.rs 263: [(n as f64 - 2400000.5) as i64], which rounds towards zero.  Simplification: of
      day numbers below 2^52 (these are exact as [f64]; a year is a [u16]). *)
  Definition julian (n : Z) : Z := Z.quot (2 * n - 4800001) 2.
  (** test_date.rs 257-282 [DatePart::eval], 286-292 [Zone::eval] *)
  Definition date_part (p : datepart) (d : datetime) : text :=
    match p with
    | DYear => pad 4 (dt_year d)
    | DMonth => pad 2 (dt_month d)
    | DDay => pad 2 (dt_day d)
    | DDate => pad 4 (dt_year d) ++ 45%N :: pad 2 (dt_month d) ++ 45%N :: pad 2 (dt_day d)
    | DJulian => show_Z (julian (dp_jdn A d))
    | DHour => pad 2 (dt_hour d)
    | DMinute => pad 2 (dt_minute d)
    | DSecond => pad 2 (dt_second d)
    | DTime => pad 2 (dt_hour d) ++ 58%N :: pad 2 (dt_minute d) ++ 58%N :: pad 2 (dt_second d)
    | DIso8601 => dp_rfc3339 A d
    | DStd11 => dp_rfc822 A d
    | DZone => (if dt_before_gmt d && (N.ltb 0 (dt_tz_hour d) || N.ltb 0 (dt_tz_minute d)) then 45%N else 43%N)
               :: pad 2 (dt_tz_hour d) ++ pad 2 (dt_tz_minute d)
    | DWeekday => show_N (dp_weekday A d)
    end.
  (** test_date.rs 285-293 [Zone::eval]. *)
  Definition zone_eval (z : zone) (d : datetime) : datetime :=
    match z with ZTime tz => dp_timezone A tz d | ZOriginal => d | ZLocal => dp_local A d end.
  (** test_date.rs 226-253 [find_dates] and the part of the date that is compared. *)
  Definition date_values (p : datepart) (z : zone) (h : header) : list text :=
    match dp_parse A h with Some d => [date_part p (zone_eval z d)] | None => [] end.

  (** test_date.rs 25-140 [TestDate::exec]; [name] is the parsed header name
      ([None]: not a header name).  ':regex' is compared as a wildcard pattern
      (lines 112-117); ':count' counts the dates. *)
  Definition as_glob (m : mtype) : mtype := match m with MRegex p => MMatches p | m => m end.
  (** test_date.rs 25-140 [TestDate::exec]. *)
  Definition date_test (parts : list part) (current : nat) (name : option text) (index : option Z)
             (anychild : bool) (p : datepart) (z : zone) (c : comparator) (m : mtype) (is_not : bool)
             (keys : list var) : option tres :=
    match name with
    | None => Some (TBool (xorb false is_not) [])
    | Some n =>
        option_map (fun found =>
          let values := flat_map (fun l => date_values p z (l_header l)) found in
          match m with
          | MCount r => TBool (xorb (existsb (fun k => rel_number r (NInt (Z.of_nat (length values))) (v_number L k)) keys) is_not) []
          | _ => values_test c (as_glob m) is_not values keys
          end) (find_headers parts current [n] index anychild)
    end.
  (** test_date.rs 144-223 [TestCurrentDate::exec]; [now] is the current time in
      the zone of the test. *)
  Definition currentdate_test (now : datetime) (p : datepart) (c : comparator) (m : mtype) (is_not : bool)
             (keys : list var) : tres :=
    match m with
    | MCount r => TBool (xorb (existsb (fun k => rel_number r (NFloat (f64_of_Z 1)) (v_number L k)) keys) is_not) []
    | _ => values_test c (as_glob m) is_not [date_part p now] keys
    end.
End A.
