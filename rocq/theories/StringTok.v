(** Model of the substitution of variables and encoded characters in strings:
    src/compiler/lexer/string.rs. *)
From Verif Require Import Base Lib Var Value Utf8 Lexer Scope.
From Coq Require Import Floats.SpecFloat.

(** string.rs 256-343: What a reference denotes: the result of [parse_variable] and
    [parse_match_variable].  [RLiteral]: an [InvalidNamespace] or [InvalidEnvelope] error, for which the
    caller keeps the text; [RError]: any other error. *)
Inductive vres := RVar (v : vartype) | RUnknown | RLiteral | RError.

(** string.rs 25-32 [State], with the bytes of the reference read so far (the
    code keeps the positions [var_start_pos] and [hex_start] instead) and the
    flags [var_is_number], [var_has_namespace]. *)
Inductive tstate :=
| KText
| KVar (raw : list N) (num ns : bool)
| KEnc (raw : list N) (uni : bool) (size : nat) (hex : list N).

(** string.rs 40-52: the local variables of the loop. *)
Record ts := { k_st : tstate; k_buf : list N; k_digits : bool; k_dots : bool; k_items : list value }.
(** string.rs 40-52: the same, as a function. *)
Definition mkt st b dg dt it : ts := {| k_st := st; k_buf := b; k_digits := dg; k_dots := dt; k_items := it |}.

(** line 79 *)
Definition name_byte (c : N) : bool :=
  is_alpha_ascii c || N.eqb c 95 || N.eqb c 91 || N.eqb c 93 || N.eqb c 42 || N.eqb c 45.
(** string.rs 161-204: [is_ascii_hexdigit] (Rust core library). *)
Definition is_hex (c : N) : bool := is_digit_ascii c || between 97 102 c || between 65 70 c.
(** string.rs 161-204: the white space between codes. *)
Definition is_blank (c : N) : bool := N.eqb c 32 || N.eqb c 9 || N.eqb c 13 || N.eqb c 10.
(** [from_str_radix(_, 16)] (Rust core library): one digit. *)
Definition hex_digit (c : N) : N :=
  if is_digit_ascii c then c - 48 else if between 97 102 c then c - 87 else c - 55.
(** [from_str_radix(code, 16)] without the overflow check. *)
Definition from_hex (code : list N) : N := fold_left (fun a c => a * 16 + hex_digit c)%N code 0%N.

(** string.rs 165-192: a complete code.  [None]: [InvalidUnicodeSequence]; otherwise
    the buffer and [is_var_error]. *)
Definition decode_code (uni : bool) (hex buf : list N) : option (list N * bool) :=
  match hex with
  | [] => Some (buf, false)
  | _ =>
      let v := from_hex hex in
      if uni then
        if N.leb v 4294967295 then
          if scalarb v then Some (buf ++ utf8_char v, false) else None
        else Some (buf, true)
      else if N.leb v 255 then Some (buf ++ [v], false) else Some (buf, true)
  end.

(** string.rs 216, 226, 234: The opening of a reference, as text: [bytes[var_start_pos - 2..]]. *)
Definition opened (raw : list N) : list N := 36%N :: 123%N :: raw.

Section Tok.
  (** [parse_decoded] *)
  Variable pd : bool.
  Variable resolve : list N -> bool -> bool -> vres.   (* name, var_is_number, var_has_namespace *)
  (** [add_value]: the items to append; [None] is an error. *)
  Variable add : list N -> bool -> bool -> option (list value).

  (** string.rs 207-219: a malformed reference is kept. *)
  Definition keep (buf raw : list N) (c : N) (items : list value) (dg dt : bool) : ts :=
    mkt KText (buf ++ opened raw ++ [c]) dg dt items.

  (** string.rs 58-81: a byte outside of references. *)
  Definition step_text (c last : N) (b : list N) (dg dt : bool) (items : list value) : option ts :=
    if N.eqb c 123 && N.eqb last 36 then Some (mkt (KVar [] true false) (removelast b) dg dt items)
    else if N.eqb c 46 then Some (mkt KText (b ++ [c]) (if dt then false else dg) true items)
    else if is_digit_ascii c then Some (mkt KText (b ++ [c]) dg dt items)
    else Some (mkt KText (b ++ [c]) false dt items).

  (** string.rs 82-159: a byte of a reference. *)
  Definition step_var (raw : list N) (num ns : bool) (c : N) (b : list N) (dg dt : bool) (items : list value)
    : option ts :=
    let err := Some (keep b raw c items dg dt) in
    let go num ns := Some (mkt (KVar (raw ++ [c]) num ns) b dg dt items) in
    if name_byte c then go false ns
    else if N.eqb c 46 then go false true
    else if is_digit_ascii c then go num ns
    else if N.eqb c 125 then
      match raw with
      | [] => err
      | _ =>
          match (match b with
                 | [] => Some (items, dg, dt)
                 | _ => option_map (fun l => (items ++ l, true, false)) (add b dg dt)
                 end) with
          | None => None
          | Some (items, dg, dt) =>
              match resolve raw num ns with
              | RVar v => Some (mkt KText [] dg dt (items ++ [XVariable v]))
              | RUnknown => Some (mkt KText [] dg dt items)
              | RLiteral => Some (keep [] raw c items dg dt)
              | RError => None
              end
          end
      end
    else if N.eqb c 58 then
      if pd && negb ns then
        if teqb_ic raw (lit "hex") then Some (mkt (KEnc (raw ++ [c]) false (length b) []) b dg dt items)
        else if teqb_ic raw (lit "unicode") then Some (mkt (KEnc (raw ++ [c]) true (length b) []) b dg dt items)
        else err
      else if ns then go false ns
      else err
    else err.

  (** string.rs 161-204: a byte of an encoded sequence. *)
  Definition step_enc (raw : list N) (uni : bool) (size : nat) (hex : list N) (c : N) (b : list N) (dg dt : bool)
    (items : list value) : option ts :=
    if is_hex c then Some (mkt (KEnc (raw ++ [c]) uni size (hex ++ [c])) b dg dt items)
    else if is_blank c || N.eqb c 125 then
      match decode_code uni hex b with
      | None => None
      | Some (b1, err) =>
          let ends := N.eqb c 125 && negb (Nat.eqb (length b1) size) in
          if err || (N.eqb c 125 && Nat.eqb (length b1) size) then
            Some (keep (if ends then b1 else firstn size b1) raw c items dg dt)
          else if N.eqb c 125 then Some (mkt KText b1 dg dt items)
          else Some (mkt (KEnc (raw ++ [c]) uni size []) b1 dg dt items)
      end
    else Some (keep (firstn size b) raw c items dg dt).

  (** string.rs 54-222: one byte; [None] is an error. *)
  Definition tok_step (c last : N) (t : ts) : option ts :=
    match k_st t with
    | KText => step_text c last (k_buf t) (k_digits t) (k_dots t) (k_items t)
    | KVar raw num ns => step_var raw num ns c (k_buf t) (k_digits t) (k_dots t) (k_items t)
    | KEnc raw uni size hex => step_enc raw uni size hex c (k_buf t) (k_digits t) (k_dots t) (k_items t)
    end.

  (** string.rs 224-247: the end of the string. *)
  Definition tok_end (t : ts) : option (list value) :=
    let b := match k_st t with
             | KText => k_buf t
             | KVar raw _ _ => k_buf t ++ opened raw
             | KEnc raw _ size _ => firstn size (k_buf t) ++ opened raw
             end in
    match b with
    | [] => Some (k_items t)
    | _ => option_map (app (k_items t)) (add b (k_digits t) (k_dots t))
    end.

  (** string.rs 54-247: the loop. *)
  Fixpoint tok_go (bs : list N) (last : N) (t : ts) : option (list value) :=
    match bs with
    | [] => tok_end t
    | c :: r => match tok_step c last t with Some t' => tok_go r c t' | None => None end
    end.

  (** string.rs 35-254 [tokenize_string]: [match items.len()] *)
  Definition pack (items : list value) : value :=
    match items with [] => XText [] | [x] => x | _ => XList items end.
  (** string.rs 35-254: the whole string. *)
  Definition tok_run (bs : list N) : option value :=
    option_map pack (tok_go bs 0%N (mkt KText [] true false [])).
End Tok.

Section Tokenize.
  Variable L : rustlib.
  Variable resolve : list N -> bool -> bool -> vres.

  (** string.rs 503-524, in [add_value] without [parse_decoded] *)
  Definition add_plain (buf : list N) (dg dt : bool) : option (list value) :=
    let s := into_string buf in
    Some [if dg then
            if dt then
              match (match utf8_strict buf with Some v => f64_parse L v | None => None end) with
              | Some n => if teqb (f64_show L n) s then XNumber (NFloat n) else XText s
              | None => XText s
              end
            else
              match (match utf8_strict buf with Some v => parse_i64 v | None => None end) with
              | Some n => if teqb (show_Z n) s then XNumber (NInt n) else XText s
              | None => XText s
              end
          else XText s].

  (** string.rs 35-254, called at 526: [tokenize_string(bytes, false)] *)
  Definition tokenize_inner (bs : list N) : option value := tok_run false resolve add_plain bs.

  (** string.rs 525-530, in [add_value] with [parse_decoded] *)
  Definition splice (v : value) : list value := match v with XList l => l | x => [x] end.
  (** string.rs 525-530: the decoded text is tokenized again. *)
  Definition add_decoded (buf : list N) (_ _ : bool) : option (list value) :=
    option_map splice (tokenize_inner buf).

  (** string.rs 35-254: [tokenize_string(bytes, true)] *)
  Definition tokenize_string (bs : list N) : option value := tok_run true resolve add_decoded bs.
End Tokenize.

Section Resolve.
  Variable L : rustlib.
  (** string.rs 345-471 [parse_header_variable], see HeaderVar.v *)
  Variable header_var : text -> option msgvar.
  Variable s : vst.
  (** Whether [register_match_var] succeeds. *)
  Variable matchable : bool.

  (** string.rs 295-313 *)
  Definition envelope_name (n : text) : option envk :=
    if teqb n (lit "from") then Some EnvFrom
    else if teqb n (lit "to") then Some EnvTo
    else if teqb n (lit "by_time_absolute") then Some EnvByTimeAbsolute
    else if teqb n (lit "by_time_relative") then Some EnvByTimeRelative
    else if teqb n (lit "by_mode") then Some EnvByMode
    else if teqb n (lit "by_trace") then Some EnvByTrace
    else if teqb n (lit "notify") then Some EnvNotify
    else if teqb n (lit "orcpt") then Some EnvOrcpt
    else if teqb n (lit "ret") then Some EnvRet
    else if teqb n (lit "envid") then Some EnvEnvid
    else None.

  (** string.rs 317-328 *)
  Definition body_variable (n : text) : option msgvar :=
    if teqb n (lit "text") then Some (MvTextBody false)
    else if teqb n (lit "html") then Some (MvHtmlBody false)
    else if teqb n (lit "to_text") then Some (MvTextBody true)
    else if teqb n (lit "to_html") then Some (MvHtmlBody true)
    else None.
  (** string.rs 324-328. *)
  Definition part_variable (n : text) : option msgvar :=
    if teqb n (lit "text") then Some MvContents
    else if teqb n (lit "raw") then Some MvRaw
    else None.

  (** string.rs 275-343 [parse_variable] *)
  Definition parse_variable (name : text) (ns : bool) : vres :=
    let plain := match parse_plain name s with Some v => RVar v | None => RUnknown end in
    if negb ns then plain
    else
      match split_dot (str_lower L name) with
      | None => plain
      | Some (space, n) =>
          if is_nil n then RLiteral
          else if teqb space (lit "global") || teqb space (lit "t") then RVar (TGlobal n)
          else if teqb space (lit "env") then RVar (TEnvironment n)
          else if teqb space (lit "envelope") then
            match envelope_name n with Some e => RVar (TEnvelope e) | None => RLiteral end
          else if teqb space (lit "header") then
            match header_var n with Some k => RVar (TMessage k) | None => RError end
          else if teqb space (lit "body") then
            match body_variable n with Some k => RVar (TMessage k) | None => RLiteral end
          else if teqb space (lit "part") then
            match part_variable n with Some k => RVar (TMessage k) | None => RLiteral end
          else RLiteral
      end.

  (** string.rs 256-273 [parse_match_variable]; [MAX_MATCH_VARIABLES] is 63 *)
  Definition parse_match_variable (name : text) : vres :=
    match parse_usize name with
    | None => RError
    | Some n => if N.ltb n 63 then if matchable then RVar (TMatch (N.to_nat n)) else RUnknown else RError
    end.

  (** string.rs 104-109; the name is ASCII, so the [unwrap] of line 103 succeeds. *)
  Definition resolve_ref (raw : list N) (num ns : bool) : vres :=
    if negb num then parse_variable raw ns else parse_match_variable raw.
End Resolve.
