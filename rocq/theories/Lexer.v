(** Model of the script tokenizer, src/compiler/lexer/tokenizer.rs, and of the
    keyword table, src/compiler/lexer/word.rs.

    Simplification: line numbers and positions ([pos], [line_num],
    [line_start], [text_line_*], [token_line_*]), which only decorate errors
    and warnings, are left out here; LexPos.v has them. *)
From Verif Require Import Base Lib Var Utf8.
From Coq Require Import Floats.SpecFloat.

(** word.rs 143-276 [lookup_words]: the keyword table.  A [Word] is its
    spelling (the table is one-to-one). *)
Definition words : list text := map lit [
  "addflag"; "addheader"; "address"; "addresses"; "all"; "allof"; "anychild"; "anyof"; "body";
  "break"; "bymode"; "bytimeabsolute"; "bytimerelative"; "bytrace"; "comparator"; "contains";
  "content"; "contenttype"; "convert"; "copy"; "count"; "create"; "currentdate"; "date"; "days";
  "deleteheader"; "detail"; "discard"; "domain"; "duplicate"; "else"; "elsif"; "enclose";
  "encodeurl"; "envelope"; "environment"; "ereject"; "error"; "exists"; "extracttext"; "false";
  "fcc"; "fileinto"; "first"; "flags"; "foreverypart"; "from"; "global"; "handle"; "hasflag";
  "header"; "headers"; "if"; "ihave"; "importance"; "include"; "index"; "is"; "keep"; "last";
  "length"; "list"; "localpart"; "lower"; "lowerfirst"; "mailboxexists"; "mailboxid";
  "mailboxidexists"; "matches"; "message"; "metadata"; "metadataexists"; "mime"; "name"; "not";
  "notify"; "notify_method_capability"; "once"; "optional"; "options"; "originalzone"; "over";
  "param"; "percent"; "personal"; "quoteregex"; "quotewildcard"; "raw"; "redirect"; "regex";
  "reject"; "removeflag"; "replace"; "require"; "ret"; "return"; "seconds"; "servermetadata";
  "servermetadataexists"; "set"; "setflag"; "size"; "spamtest"; "specialuse"; "specialuse_exists";
  "stop"; "string"; "subject"; "subtype"; "text"; "true"; "type"; "under"; "uniqueid"; "upper";
  "upperfirst"; "user"; "vacation"; "valid_ext_list"; "valid_notify_method"; "value"; "virustest";
  "zone"; "eval"; "local"; "while"; "let"; "continue"]%string.
(** word.rs 143-276 [lookup_words]: the word is in the table. *)
Definition is_word (w : text) : bool := existsb (teqb w) words.

(** lexer/mod.rs 37-40 [StringConstant] *)
Inductive strconst := CText (s : text) | CNum (n : number).

(** lexer/mod.rs 18-34 [Token] *)
Inductive tok :=
| TCurlyOpen | TCurlyClose | TBracketOpen | TBracketClose | TParenOpen | TParenClose
| TComma | TSemicolon | TColon
| TStr (c : strconst)
| TVar (bytes : list N)
| TNumber (n : N)
| TIdent (w : text)
| TTag (w : text)
| TUnknown (s : text).

(** tokenizer.rs 55-60 [StringType] *)
Record strtype := { st_var : bool; st_other : bool; st_digits : bool; st_dots : bool }.
(** tokenizer.rs 55-60: [StringType::default()] as tokenizer.rs 331-571 creates it. *)
Definition st_default : strtype := {| st_var := false; st_other := false; st_digits := false; st_dots := false |}.
(** tokenizer.rs 331-571: [has_variables] is set. *)
Definition set_var (t : strtype) : strtype :=
  {| st_var := true; st_other := st_other t; st_digits := st_digits t; st_dots := st_dots t |}.
(** tokenizer.rs 331-571: [has_other] is set. *)
Definition set_other (t : strtype) : strtype :=
  {| st_var := st_var t; st_other := true; st_digits := st_digits t; st_dots := st_dots t |}.
(** tokenizer.rs 331-571: [has_digits] is set. *)
Definition set_digits (t : strtype) : strtype :=
  {| st_var := st_var t; st_other := st_other t; st_digits := true; st_dots := st_dots t |}.
(** tokenizer.rs 466-471, 539-544: a first '.', or a second one. *)
Definition set_dots (t : strtype) : strtype :=
  if st_dots t then set_other t
  else {| st_var := st_var t; st_other := st_other t; st_digits := st_digits t; st_dots := true |}.

(** tokenizer.rs 46-52 [State].  [SSkip] is the inner loop of lines 353-359,
    which drops the rest of the line after "text:"; in the code the state is
    already [MultiLine] there. *)
Inductive lstate := SNone | SBracket | SHash | SQuoted (t : strtype) | SSkip | SMulti (t : strtype).

(** tokenizer.rs 17-37 [Tokenizer]; the head of [l_next] is the last element
    of [next_token]. *)
Record lex := {
  l_in : list N; l_buf : list N; l_tag : bool; l_last : N; l_state : lstate; l_next : list tok }.
(** tokenizer.rs 17-37 [Tokenizer]: its fields. *)
Definition mk i b t l s n : lex :=
  {| l_in := i; l_buf := b; l_tag := t; l_last := l; l_state := s; l_next := n |}.

(** tokenizer.rs 63-80 [Tokenizer::new] *)
Definition lex_start (bytes : list N) : lex := mk bytes [] false 0%N SNone [].

(** compiler/mod.rs 28-96 [ErrorType], tokenizer.rs 574-583: The [ErrorType]s the tokenizer produces. *)
Inductive lerr := EInvalidChar | EUnterminatedComment | EUnterminatedString | EUnterminatedMultiline | EStringTooLong.

(** tokenizer.rs 331-571: Result of [Tokenizer::next]: end of input, a token, an error, or a panic. *)
Inductive lres :=
| LEof (l : lex)
| LTok (t : tok) (l : lex)
| LErr (e : lerr) (l : lex)
| LPanic.

(** (Rust core library): [usize::MAX] on a 64-bit target. *)
Definition usize_max : N := 18446744073709551615.
(** tokenizer.rs 82-129 (Rust core library): [str::parse::<usize>] of a text that does not start with a
    sign. *)
Definition parse_usize (s : text) : option N :=
  match parse_nat s with Some n => if N.leb n usize_max then Some n else None | None => None end.
(** tokenizer.rs 82-129 (Rust core library): [usize::saturating_mul] *)
Definition sat_mul (a b : N) : N := N.min usize_max (a * b).

Section Lex.
  Variable L : rustlib.
  Variable max_string : nat.   (* Compiler::max_string_size *)

  (** tokenizer.rs 92-97 *)
  Definition multiplier (b : list N) : N :=
    let c := last b 0%N in
    if N.eqb c 107 then 1024 else if N.eqb c 109 then 1048576 else if N.eqb c 103 then 1073741824 else 1.

  (** tokenizer.rs 82-129 [get_current_token] on a non-empty buffer; [None]: the
      [unwrap] of line 84 panics. *)
  Definition word_token (b : list N) (tag : bool) : option tok :=
    match utf8_strict b with
    | None => None
    | Some w =>
        Some (if is_word w then (if tag then TTag w else TIdent w)
              else
                let unknown := if tag then TUnknown (58%N :: w) else TUnknown w in
                if is_digit_ascii (hd 0%N b) then
                  let m := multiplier b in
                  match parse_usize (if N.ltb 1 m && Nat.ltb 1 (length b) then removelast b else b) with
                  | Some n => TNumber (sat_mul n m)
                  | None => unknown
                  end
                else unknown)
    end.

  (** tokenizer.rs 82-129: [get_current_token] as the loop uses it: return the pending word, or go on.
      *)
  Definition flush (b : list N) (tag : bool) (l : lex) (k : lres) : lres :=
    match b with
    | [] => k
    | _ => match word_token b tag with Some t => LTok t l | None => LPanic end
    end.

  (** tokenizer.rs 141-154 [get_token] in state [None] *)
  Definition punct (r b : list N) (tag : bool) (c : N) (p : tok) : lres :=
    flush b tag (mk r [] false c SNone [p]) (LTok p (mk r [] tag c SNone [])).

  (** tokenizer.rs 160-193: the token of a complete string *)
  Definition string_token (b : list N) (t : strtype) : tok :=
    if st_var t then TVar b
    else
      let s := into_string b in
      TStr (if negb (st_other t) && st_digits t then
              if negb (st_dots t) then
                match parse_i64 s with
                | Some n => if teqb (show_Z n) s then CNum (NInt n) else CText s
                | None => CText s
                end
              else
                match f64_parse L s with
                | Some f => if teqb (f64_show L f) s then CNum (NFloat f) else CText s
                | None => CText s
                end
            else CText s).

  (** tokenizer.rs 156-205 [get_string]: on error the buffer is not cleared. *)
  Definition get_string (r b : list N) (tag : bool) (c : N) (t : strtype) : lres :=
    if Nat.ltb (length b) max_string
    then LTok (string_token b t) (mk r [] tag c SNone [])
    else LErr EStringTooLong (mk r b tag c SNone []).

  (** tokenizer.rs 338-340 *)
  Definition word_byte (c : N) : bool :=
    is_lower_ascii c || is_digit_ascii c || N.eqb c 95 || N.eqb c 46 || N.eqb c 36.
  (** line 348 *)
  Definition head_alpha (r : list N) : bool := match r with c :: _ => is_alpha_ascii c | [] => false end.
  (** tokenizer.rs 249-251 [peek_byte], compared with a byte. *)
  Definition head_is (x : N) (r : list N) : bool := match r with c :: _ => N.eqb c x | [] => false end.
  (** tokenizer.rs 331-571: the bytes taken as white space. *)
  Definition space_byte (c : N) : bool := N.eqb c 10 || N.eqb c 32 || N.eqb c 9 || N.eqb c 13.
  (** [is_empty] (Rust core library). *)
  Definition is_nil {A} (l : list A) : bool := match l with [] => true | _ => false end.
  (** tokenizer.rs 370-393: the single-byte tokens *)
  Definition punct_of (c : N) : option tok :=
    if N.eqb c 123 then Some TCurlyOpen
    else if N.eqb c 125 then Some TCurlyClose
    else if N.eqb c 59 then Some TSemicolon
    else if N.eqb c 44 then Some TComma
    else if N.eqb c 91 then Some TBracketOpen
    else if N.eqb c 93 then Some TBracketClose
    else if N.eqb c 40 then Some TParenOpen
    else if N.eqb c 41 then Some TParenClose
    else None.
  (** tokenizer.rs 475-484: escapes other than of the quote and the backslash *)
  Definition unescape (last c : N) : N :=
    if N.eqb last 92 then
      if N.eqb c 110 then 10 else if N.eqb c 114 then 13 else if N.eqb c 116 then 9 else c
    else c.
  (** tokenizer.rs 457-462, 530-535: a digit; 485-488, 549-552: any other byte *)
  Definition other_byte (c : N) (t : strtype) : strtype := if N.eqb c 45 then t else set_other t.

  (** tokenizer.rs 331-571 [Iterator::next], the loop over the bytes. *)
  Fixpoint lex_go (i b : list N) (tag : bool) (last : N) (s : lstate) : lres :=
    match i with
    | [] =>
        let l := mk [] b tag last s [] in
        match s with
        | SBracket => LErr EUnterminatedComment l
        | SQuoted _ => LErr EUnterminatedString l
        | SSkip | SMulti _ => LErr EUnterminatedMultiline l
        | SNone | SHash => LEof l
        end
    | c :: r =>
        match s with
        | SNone =>
            if word_byte c then lex_go r (b ++ [c]) tag c s
            else if is_upper_ascii c then lex_go r (b ++ [lower_ascii c]) tag c s
            else if N.eqb c 58 then
              if is_nil b && head_alpha r then lex_go r b true c s
              else if teqb_ic b (lit "text") then lex_go r b tag c SSkip
              else punct r b tag c TColon
            else if N.eqb c 34 then
              flush b tag (mk r [] false c (SQuoted st_default) []) (lex_go r b tag c (SQuoted st_default))
            else if N.eqb c 47 then
              match r with
              | [] => LErr EInvalidChar (mk [] b tag c s [])
              | c1 :: r1 =>
                  if N.eqb c1 42
                  then flush b tag (mk r1 [] false 0 SBracket []) (lex_go r1 b tag 0%N SBracket)
                  else LErr EInvalidChar (mk r1 b tag c1 s [])
              end
            else if N.eqb c 35 then
              flush b tag (mk r [] false c SHash []) (lex_go r b tag c SHash)
            else if space_byte c then
              flush b tag (mk r [] false c s []) (lex_go r b tag c s)
            else match punct_of c with
                 | Some p => punct r b tag c p
                 | None => LErr EInvalidChar (mk r b tag c s [])
                 end
        | SBracket =>
            if N.eqb c 47 && N.eqb last 42 then lex_go r b tag c SNone else lex_go r b tag c s
        | SHash => if N.eqb c 10 then lex_go r b tag c SNone else lex_go r b tag c s
        | SQuoted t =>
            if N.eqb c 34 && negb (N.eqb last 92) then get_string r b tag c t
            else if N.eqb c 10 then lex_go r (b ++ [c]) tag c (SQuoted (set_other t))
            else if N.eqb c 123 && (N.eqb last 36 || N.eqb last 37) then
              lex_go r (b ++ [c]) tag c (SQuoted (set_var t))
            else if N.eqb c 92 then lex_go r (if N.eqb last 92 then b ++ [c] else b) tag c s
            else if is_digit_ascii c then lex_go r (b ++ [c]) tag c (SQuoted (set_digits t))
            else if N.eqb c 46 then lex_go r (b ++ [c]) tag c (SQuoted (set_dots t))
            else lex_go r (b ++ [unescape last c]) tag c (SQuoted (other_byte (unescape last c) t))
        | SSkip => if N.eqb c 10 then lex_go r [] false c (SMulti st_default) else lex_go r b tag c s
        | SMulti t =>
            if N.eqb c 46 && N.eqb last 10 then
              match r with
              | [] => lex_go r b tag c s
              | c1 :: r1 =>
                  if N.eqb c1 13 && head_is 10 r1 then get_string (tl r1) b tag 10%N t
                  else if N.eqb c1 10 then get_string r1 b tag c1 t
                  else if N.eqb c1 46 then lex_go r1 (b ++ [46%N]) tag c1 s
                  else lex_go r1 (b ++ [46%N; c1]) tag c1 s
              end
            else if N.eqb c 10 then lex_go r (b ++ [c]) tag c s
            else if N.eqb c 123 && (N.eqb last 36 || N.eqb last 37) then
              lex_go r (b ++ [c]) tag c (SMulti (set_var t))
            else if is_digit_ascii c then lex_go r (b ++ [c]) tag c (SMulti (set_digits t))
            else if N.eqb c 46 then lex_go r (b ++ [c]) tag c (SMulti (set_dots t))
            else lex_go r (b ++ [c]) tag c (SMulti (other_byte c t))
        end
    end.

  (** tokenizer.rs 331-334 and the loop: [Tokenizer::next] *)
  Definition lex_next (l : lex) : lres :=
    match l_next l with
    | t :: n => LTok t (mk (l_in l) (l_buf l) (l_tag l) (l_last l) (l_state l) n)
    | [] => lex_go (l_in l) (l_buf l) (l_tag l) (l_last l) (l_state l)
    end.

  (** tokenizer.rs 317-325 [peek]: the token is returned and stays the next one. *)
  Definition lex_peek (l : lex) : lres :=
    match l_next l with
    | t :: _ => LTok t l
    | [] => match lex_go (l_in l) (l_buf l) (l_tag l) (l_last l) (l_state l) with
            | LTok t l' => LTok t (mk (l_in l') (l_buf l') (l_tag l') (l_last l') (l_state l') (t :: l_next l'))
            | r => r
            end
    end.

  (** tokenizer.rs 253-307: Result of a parsing step: a value, a compile error, or a panic. *)
  Inductive pres (A : Type) := POk (a : A) (l : lex) | PErr | PPanic.
  Arguments POk {A}. Arguments PErr {A}. Arguments PPanic {A}.

  (** tokenizer.rs 253-263 [unwrap_next] *)
  Definition unwrap_next (l : lex) : pres tok :=
    match lex_next l with
    | LTok t l' => POk t l'
    | LEof _ | LErr _ _ => PErr
    | LPanic => PPanic
    end.

  (** tokenizer.rs 296-307 [expect_number] *)
  Definition expect_number (max : N) (l : lex) : pres N :=
    match unwrap_next l with
    | POk (TNumber n) l' => if N.ltb n max then POk n l' else PErr
    | POk _ _ | PErr => PErr
    | PPanic => PPanic
    end.
End Lex.

Arguments POk {A}. Arguments PErr {A}. Arguments PPanic {A}.

Section Const.
  Variable L : rustlib.
  (** lexer/mod.rs 43-48 [StringConstant::to_string] *)
  Definition const_text (c : strconst) : text :=
    match c with CText s => s | CNum (NInt n) => show_Z n | CNum (NFloat f) => f64_show L f end.
End Const.
