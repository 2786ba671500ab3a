(** Model of the expression tokenizer, compiler/grammar/expr/tokenizer.rs.
    Simplifications: the input is a list of characters instead of UTF-8 bytes
    (every byte the tokenizer looks at is ASCII, other characters are only
    accepted, as a whole, inside string literals); all tokens are produced at
    once, although the parser pulls them one by one: either way the result is an
    error if any of them is. *)
From Verif Require Import Base Lib Var Value Expr.

(** tokenizer.rs 16-30: the fields that survive between characters *)
Record tst := { t_buf : text; t_number : bool; t_dot : bool; t_alpha : bool; t_start : bool; t_depth : nat }.
(** tokenizer.rs 251-284: the buffer and its flags after a token. *)
Definition tclear (start : bool) (depth : nat) : tst :=
  {| t_buf := []; t_number := false; t_dot := false; t_alpha := false; t_start := start; t_depth := depth |}.
(** tokenizer.rs 66-98: a character is added to the current word. *)
Definition tpush (st : tst) (c : ch) (number dot alpha : bool) : tst :=
  {| t_buf := t_buf st ++ [c]; t_number := t_number st || number; t_dot := t_dot st || dot;
     t_alpha := t_alpha st || alpha; t_start := t_start st; t_depth := t_depth st |}.

(** tokenizer.rs 178-205: a string literal, after its opening quote; [acc] is
    the buffer. *)
Fixpoint string_lit (stop last : ch) (acc : text) (s : text) : option (text * text) :=
  match s with
  | [] => None
  | c :: s' =>
      if negb (N.eqb last c_bslash) then
        if negb (N.eqb c stop) then string_lit stop c (acc ++ [c]) s' else Some (acc, s')
      else
        string_lit stop c
          (acc ++ [if N.eqb c 110 then c_lf else if N.eqb c 114 then c_cr else if N.eqb c 116 then 9%N else c]) s'
  end.

Section T.
  Variable L : rustlib.
  (** [token_map]: variables and functions by name *)
  Variable tm : text -> bool -> option token.

  (** tokenizer.rs 251-284 [parse_buf] (the flags are always reset by it) *)
  Definition parse_buf (st : tst) : option token :=
    let buf := t_buf st in
    if t_number st && negb (t_alpha st) then
      if t_dot st then option_map (fun f => TNum (NFloat f)) (f64_parse L buf)
      else option_map (fun z => TNum (NInt z)) (parse_i64 buf)
    else if negb (t_number st) && negb (t_dot st) && teqb buf (lit "true") then Some (TNum (NInt 1))
    else if negb (t_number st) && negb (t_dot st) && teqb buf (lit "false") then Some (TNum (NInt 0))
    else tm buf (t_dot st).

  (** tokenizer.rs 66-98: [buf.starts_with(b"header.")]. *)
  Definition prefix_header (buf : text) : bool := teqb (firstn 7 buf) (lit "header.").
  (** tokenizer.rs 66-98: [buf.last()]. *)
  Definition last_ch (buf : text) : ch := last buf 0%N.

  (** tokenizer.rs 66-98: is the character part of the current word? *)
  Definition in_word (st : tst) (c : ch) : option tst :=
    if is_alpha_ascii c || N.eqb c 95 then Some (tpush st c false false true)
    else if is_digit_ascii c then Some (tpush st c true false false)
    else if N.eqb c c_dot then Some (tpush st c false true false)
    else if (N.eqb c 91 && prefix_header (t_buf st))
         || (N.eqb c 45 && (N.eqb (last_ch (t_buf st)) 91 || prefix_header (t_buf st)))
         || (N.eqb c 58 && mem_ch c_dot (t_buf st))
         || (N.eqb c 93 && mem_ch 91%N (t_buf st))
         || (N.eqb c 42 && (N.eqb (last_ch (t_buf st)) 91 || N.eqb (last_ch (t_buf st)) c_dot))
    then Some (tpush st c false false false)
    else None.

  (** tokenizer.rs 106-212: the token that starts with [c]. *)
  Inductive delim := DTok (t : token) (rest : text) | DSpace | DErr.
  (** Rust core: [iter.peek()] compared with a character. *)
  Definition peek_is (x : N) (s : text) : bool := match s with c :: _ => N.eqb c x | [] => false end.
  (** tokenizer.rs 106-212: what a character outside of a word is. *)
  Definition delimiter (start : bool) (depth : nat) (c : ch) (s : text) : delim :=
    if N.eqb c 38 then DTok (TBin BAnd) (if peek_is 38 s then tl s else s)
    else if N.eqb c 124 then DTok (TBin BOr) (if peek_is 124 s then tl s else s)
    else if N.eqb c 33 then if peek_is 61 s then DTok (TBin BNe) (tl s) else DTok (TUn UNot) s
    else if N.eqb c 94 then DTok (TBin BXor) s
    else if N.eqb c 40 then DTok TOpen s
    else if N.eqb c 41 then (match depth with 0 => DErr | S _ => DTok TClose s end)
    else if N.eqb c 43 then DTok (TBin BAdd) s
    else if N.eqb c 42 then DTok (TBin BMul) s
    else if N.eqb c 47 then DTok (TBin BDiv) s
    else if N.eqb c 45 then DTok (if start then TUn UMinus else TBin BSub) s
    else if N.eqb c 61 then
      DTok (TBin (if peek_is 62 s then BGe else if peek_is 60 s then BLe else BEq)) (tl s)
    else if N.eqb c 62 then if peek_is 61 s then DTok (TBin BGe) (tl s) else DTok (TBin BGt) s
    else if N.eqb c 60 then if peek_is 61 s then DTok (TBin BLe) (tl s) else DTok (TBin BLt) s
    else if N.eqb c 44 then DTok TComma s
    else if N.eqb c 91 then DTok TOpenB s
    else if N.eqb c 93 then DTok TCloseB s
    else if N.eqb c c_space || N.eqb c c_cr || N.eqb c c_lf then DSpace
    else if N.eqb c c_dquote || N.eqb c 39 then
      match string_lit c 0%N [] s with Some (t, rest) => DTok (TStr t) rest | None => DErr end
    else DErr.
  (** tokenizer.rs 106-230: the value of [is_start] after a token. *)
  Definition is_start_after (t : token) : bool :=
    match t with TOpen | TComma | TBin _ => true | _ => false end.
  (** tokenizer.rs 106-230: the depth of parentheses and brackets after a token. *)
  Definition depth_after (t : token) (d : nat) : nat :=
    match t with TOpen => S d | TClose => d - 1 | _ => d end.

  (** tokenizer.rs 240-248: at the end of the input or at a closing brace *)
  Definition tfinish (st : tst) : option (list token) :=
    match t_depth st with
    | S _ => None
    | 0 => match t_buf st with
           | [] => Some []
           | _ => option_map (fun t => [t]) (parse_buf st)
           end
    end.

  (** tokenizer.rs 58-249 [next], all tokens *)
  Fixpoint tokens (fuel : nat) (s : text) (st : tst) : option (list token) :=
    match fuel with
    | 0 => None
    | S f =>
        match s with
        | [] => tfinish st
        | c :: s' =>
            match in_word st c with
            | Some st' => tokens f s' st'
            | None =>
                if N.eqb c 125 then tfinish st
                else
                  let prev := match t_buf st with [] => Some [] | _ => option_map (fun t => [t]) (parse_buf st) end in
                  let start := match t_buf st with [] => t_start st | _ => false end in
                  match prev with
                  | None => None
                  | Some p =>
                      match delimiter start (t_depth st) c s' with
                      | DErr => None
                      | DSpace => option_map (app p) (tokens f s' (tclear start (t_depth st)))
                      | DTok t rest =>
                          option_map (fun ts => p ++ t :: ts)
                            (tokens f rest (tclear (is_start_after t) (depth_after t (t_depth st))))
                      end
                  end
            end
        end
    end.
  (** tokenizer.rs 37-249: all tokens of an expression. *)
  Definition tokenize (s : text) : option (list token) := tokens (S (length s)) s (tclear true 0).
End T.

(** test.rs 566-591 [parse_expr]: tokenizer and parser together. *)
Definition compile_text (L : rustlib) (tm : text -> bool -> option token) (s : text) : parsed :=
  match tokenize L tm s with Some ts => parse ts | None => Rejected end.
