(** Model of the places the script tokenizer reports, src/compiler/lexer/tokenizer.rs:
    the tokenizer of Lexer.v with the fields left out there.

    A subtraction that would go below zero (a panic in debug builds, a huge number in
    release builds) gives [QOverflow].  Simplification: [line_num] is not bounded. *)
From Verif Require Import Base Lib Var Utf8 Lexer.

(** tokenizer.rs 23-31 [Tokenizer]: [pos], [line_num], [line_start], [text_line_num],
    [text_line_pos], [token_line_num], [token_line_pos]. *)
Record marks := { m_pos : N; m_line : N; m_start : N; m_tline : N; m_tpos : N; m_wline : N; m_wpos : N }.

(** tokenizer.rs 39-44 [TokenInfo] *)
Definition info := (tok * N * N)%type.

(** tokenizer.rs 17-37 [Tokenizer]; the head of [x_next] is the last element of [next_token]. *)
Record plx := {
  x_in : list N; x_buf : list N; x_tag : bool; x_last : N; x_state : lstate; x_next : list info; x_m : marks }.
(** tokenizer.rs 17-37 [Tokenizer]: its fields. *)
Definition pmk i b t l s n m : plx :=
  {| x_in := i; x_buf := b; x_tag := t; x_last := l; x_state := s; x_next := n; x_m := m |}.

(** tokenizer.rs 63-80 [Tokenizer::new] *)
Definition marks0 : marks :=
  {| m_pos := usize_max; m_line := 1; m_start := 0; m_tline := 0; m_tpos := 0; m_wline := 0; m_wpos := 0 |}.
(** tokenizer.rs 63-80 [Tokenizer::new] *)
Definition plex_start (bytes : list N) : plx := pmk bytes [] false 0%N SNone [] marks0.

(** tokenizer.rs 239-246 [next_byte]: [pos] is increased and wraps. *)
Definition step (m : marks) : marks :=
  {| m_pos := if N.eqb (m_pos m) usize_max then 0%N else (m_pos m + 1)%N; m_line := m_line m; m_start := m_start m;
     m_tline := m_tline m; m_tpos := m_tpos m; m_wline := m_wline m; m_wpos := m_wpos m |}.
(** tokenizer.rs 216-219 [new_line] *)
Definition new_line (m : marks) : marks :=
  {| m_pos := m_pos m; m_line := m_line m + 1; m_start := m_pos m;
     m_tline := m_tline m; m_tpos := m_tpos m; m_wline := m_wline m; m_wpos := m_wpos m |}.
(** tokenizer.rs 145, 211, 224, 259, 312: [self.pos - self.line_start] *)
Definition column (m : marks) : option N :=
  if N.leb (m_start m) (m_pos m) then Some (m_pos m - m_start m)%N else None.
(** tokenizer.rs 222-225 [text_start], the fields it sets. *)
Definition set_text (m : marks) (c : N) : marks :=
  {| m_pos := m_pos m; m_line := m_line m; m_start := m_start m;
     m_tline := m_line m; m_tpos := c; m_wline := m_wline m; m_wpos := m_wpos m |}.
(** tokenizer.rs 209-212: the fields [push_byte] sets for the first byte of a word. *)
Definition set_word (m : marks) (c : N) : marks :=
  {| m_pos := m_pos m; m_line := m_line m; m_start := m_start m;
     m_tline := m_tline m; m_tpos := m_tpos m; m_wline := m_line m; m_wpos := c |}.
(** tokenizer.rs 87: [token_line_pos] of a tag. *)
Definition set_wpos (m : marks) (c : N) : marks :=
  {| m_pos := m_pos m; m_line := m_line m; m_start := m_start m;
     m_tline := m_tline m; m_tpos := m_tpos m; m_wline := m_wline m; m_wpos := c |}.

(** tokenizer.rs 331-571: Result of [Tokenizer::next]: end of input, a token or an error, with
    their line and position, a panic, or a subtraction that overflows.  The byte of an error
    is [last_ch], which [InvalidCharacter] carries. *)
Inductive qres :=
| QEof (q : plx)
| QTok (t : tok) (line col : N) (q : plx)
| QErr (e : lerr) (c : N) (line col : N) (q : plx)
| QPanic
| QOverflow.

Section LexPos.
  Variable L : rustlib.
  Variable max_string : nat.   (* Compiler::max_string_size *)

  (** tokenizer.rs 208-214 [push_byte], as far as places go, and what follows it. *)
  Definition push (b : list N) (m : marks) (k : marks -> qres) : qres :=
    match b with
    | [] => match column m with Some c => k (set_word m c) | None => QOverflow end
    | _ => k m
    end.
  (** tokenizer.rs 222-225 [text_start] and what follows it. *)
  Definition text_start (m : marks) (k : marks -> qres) : qres :=
    match column m with Some c => k (set_text m c) | None => QOverflow end.

  (** tokenizer.rs 82-129: [get_current_token] as the loop uses it: return the pending word, or
      go on.  Line 87: a tag of the keyword table is placed one position before its word. *)
  Definition pflush (b : list N) (tag : bool) (m : marks) (q : marks -> plx) (k : qres) : qres :=
    match b with
    | [] => k
    | _ => match word_token b tag with
           | Some (TTag w) =>
               if N.leb 1 (m_wpos m)
               then QTok (TTag w) (m_wline m) (m_wpos m - 1)%N (q (set_wpos m (m_wpos m - 1)%N))
               else QOverflow
           | Some t => QTok t (m_wline m) (m_wpos m) (q m)
           | None => QPanic
           end
    end.

  (** tokenizer.rs 141-154 [get_token] in state [None] *)
  Definition ppunct (r b : list N) (tag : bool) (c : N) (p : tok) (m : marks) : qres :=
    match column m with
    | Some col =>
        pflush b tag m (fun m => pmk r [] false c SNone [(p, m_line m, col)] m)
          (QTok p (m_line m) col (pmk r [] tag c SNone [] m))
    | None => QOverflow
    end.

  (** tokenizer.rs 156-205 [get_string] *)
  Definition pget_string (r b : list N) (tag : bool) (c : N) (t : strtype) (m : marks) : qres :=
    if Nat.ltb (length b) max_string
    then QTok (string_token L b t) (m_tline m) (m_tpos m) (pmk r [] tag c SNone [] m)
    else QErr EStringTooLong c (m_tline m) (m_tpos m) (pmk r b tag c SNone [] m).

  (** tokenizer.rs 309-315 [invalid_character] *)
  Definition invalid (c : N) (m : marks) (q : plx) : qres :=
    match column m with Some col => QErr EInvalidChar c (m_line m) col q | None => QOverflow end.

  (** tokenizer.rs 331-571 [Iterator::next], the loop over the bytes. *)
  Fixpoint plex_go (i b : list N) (tag : bool) (last : N) (s : lstate) (m0 : marks) : qres :=
    match i with
    | [] =>
        let q := pmk [] b tag last s [] m0 in
        match s with
        | SBracket => QErr EUnterminatedComment last (m_tline m0) (m_tpos m0) q
        | SQuoted _ => QErr EUnterminatedString last (m_tline m0) (m_tpos m0) q
        | SSkip | SMulti _ => QErr EUnterminatedMultiline last (m_tline m0) (m_tpos m0) q
        | SNone | SHash => QEof q
        end
    | c :: r =>
        let m := step m0 in
        match s with
        | SNone =>
            if word_byte c then push b m (plex_go r (b ++ [c]) tag c s)
            else if is_upper_ascii c then push b m (plex_go r (b ++ [lower_ascii c]) tag c s)
            else if N.eqb c 58 then
              if is_nil b && head_alpha r then plex_go r b true c s m
              else if teqb_ic b (lit "text") then text_start m (plex_go r b tag c SSkip)
              else ppunct r b tag c TColon m
            else if N.eqb c 34 then
              text_start m (fun m =>
                pflush b tag m (pmk r [] false c (SQuoted st_default) []) (plex_go r b tag c (SQuoted st_default) m))
            else if N.eqb c 47 then
              match r with
              | [] => invalid c m (pmk [] b tag c s [] m)
              | c1 :: r1 =>
                  let m := step m in
                  if N.eqb c1 42
                  then text_start m (fun m =>
                    pflush b tag m (pmk r1 [] false 0 SBracket []) (plex_go r1 b tag 0%N SBracket m))
                  else invalid c1 m (pmk r1 b tag c1 s [] m)
              end
            else if N.eqb c 35 then
              pflush b tag m (pmk r [] false c SHash []) (plex_go r b tag c SHash m)
            else if space_byte c then
              let m := if N.eqb c 10 then new_line m else m in
              pflush b tag m (pmk r [] false c s []) (plex_go r b tag c s m)
            else match punct_of c with
                 | Some p => ppunct r b tag c p m
                 | None => invalid c m (pmk r b tag c s [] m)
                 end
        | SBracket =>
            if N.eqb c 47 && N.eqb last 42 then plex_go r b tag c SNone m
            else if N.eqb c 10 then plex_go r b tag c s (new_line m)
            else plex_go r b tag c s m
        | SHash => if N.eqb c 10 then plex_go r b tag c SNone (new_line m) else plex_go r b tag c s m
        | SQuoted t =>
            if N.eqb c 34 && negb (N.eqb last 92) then pget_string r b tag c t m
            else if N.eqb c 10 then push b (new_line m) (plex_go r (b ++ [c]) tag c (SQuoted (set_other t)))
            else if N.eqb c 123 && (N.eqb last 36 || N.eqb last 37) then
              push b m (plex_go r (b ++ [c]) tag c (SQuoted (set_var t)))
            else if N.eqb c 92 then
              if N.eqb last 92 then push b m (plex_go r (b ++ [c]) tag c s) else plex_go r b tag c s m
            else if is_digit_ascii c then push b m (plex_go r (b ++ [c]) tag c (SQuoted (set_digits t)))
            else if N.eqb c 46 then push b m (plex_go r (b ++ [c]) tag c (SQuoted (set_dots t)))
            else push b m (plex_go r (b ++ [unescape last c]) tag c (SQuoted (other_byte (unescape last c) t)))
        | SSkip =>
            if N.eqb c 10 then plex_go r [] false c (SMulti st_default) (new_line m) else plex_go r b tag c s m
        | SMulti t =>
            if N.eqb c 46 && N.eqb last 10 then
              match r with
              | [] => plex_go r b tag c s m
              | c1 :: r1 =>
                  let m := step m in
                  if N.eqb c1 13 && head_is 10 r1 then pget_string (tl r1) b tag 10%N t (new_line (step m))
                  else if N.eqb c1 10 then pget_string r1 b tag c1 t (new_line m)
                  else if N.eqb c1 46 then push b m (plex_go r1 (b ++ [46%N]) tag c1 s)
                  else push b m (plex_go r1 (b ++ [46%N; c1]) tag c1 s)
              end
            else if N.eqb c 10 then push b (new_line m) (plex_go r (b ++ [c]) tag c s)
            else if N.eqb c 123 && (N.eqb last 36 || N.eqb last 37) then
              push b m (plex_go r (b ++ [c]) tag c (SMulti (set_var t)))
            else if is_digit_ascii c then push b m (plex_go r (b ++ [c]) tag c (SMulti (set_digits t)))
            else if N.eqb c 46 then push b m (plex_go r (b ++ [c]) tag c (SMulti (set_dots t)))
            else push b m (plex_go r (b ++ [c]) tag c (SMulti (other_byte c t)))
        end
    end.

  (** tokenizer.rs 331-334 and the loop: [Tokenizer::next] *)
  Definition plex_next (q : plx) : qres :=
    match x_next q with
    | (t, line, col) :: n => QTok t line col (pmk (x_in q) (x_buf q) (x_tag q) (x_last q) (x_state q) n (x_m q))
    | [] => plex_go (x_in q) (x_buf q) (x_tag q) (x_last q) (x_state q) (x_m q)
    end.

  (** tokenizer.rs 317-325 [peek]: the token is returned and stays the next one. *)
  Definition plex_peek (q : plx) : qres :=
    match x_next q with
    | (t, line, col) :: _ => QTok t line col q
    | [] => match plex_go (x_in q) (x_buf q) (x_tag q) (x_last q) (x_state q) (x_m q) with
            | QTok t line col q' =>
                QTok t line col
                  (pmk (x_in q') (x_buf q') (x_tag q') (x_last q') (x_state q') ((t, line, col) :: x_next q') (x_m q'))
            | r => r
            end
    end.
End LexPos.

(** lexer/mod.rs 67-90 [Display for Token]. *)
Definition show_tok (L : rustlib) (t : tok) : text :=
  match t with
  | TCurlyOpen => lit "{" | TCurlyClose => lit "}" | TBracketOpen => lit "[" | TBracketClose => lit "]"
  | TParenOpen => lit "(" | TParenClose => lit ")" | TComma => lit "," | TSemicolon => lit ";" | TColon => lit ":"
  | TNumber n => show_N n
  | TIdent w => w
  | TTag w => 58%N :: w
  | TUnknown s => s
  | TVar bs => utf8_lossy bs
  | TStr c => const_text L c
  end.
(** compiler/mod.rs 462-472 [TokenInfo::expected]: the line, the position and the text of the
    token found. *)
Definition unexpected (L : rustlib) (i : info) : N * N * text :=
  let '(t, line, col) := i in (line, col, show_tok L t).
