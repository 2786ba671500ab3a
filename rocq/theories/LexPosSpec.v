(** Specification of the places in a script: what the line and the position that go with a
    token, or with an error, point at. *)
From Verif Require Import Base Lib Lexer LexPos.
Import ListNotations.
Local Open Scope string_scope.
Local Open Scope list_scope.

(** The line and the position of the byte [k] of a script.  Lines are counted from 1.  On the
    first line positions are counted from 0, on the others from 1. *)
Inductive place (script : list N) : nat -> N -> N -> Prop :=
| place_first a c r : script = a ++ c :: r -> ~ In 10%N a -> place script (length a) 1 (N.of_nat (length a))
| place_later z a c r : script = (z ++ [10%N]) ++ a ++ c :: r -> ~ In 10%N a ->
    place script (length ((z ++ [10%N]) ++ a)) (N.of_nat (2 + count_occ N.eq_dec z 10%N)) (N.of_nat (1 + length a)).

Definition starts_with (w after : list N) : Prop := exists r, after = w ++ r.
Definition ends_with (w before : list N) : Prop := exists r, before = r ++ w.
(** The word [w], in any case. *)
Definition starts_word (w after : list N) : Prop := w <> [] /\ exists u, starts_with u after /\ lower_text u = w.

(** A string starts with its quote, or with the colon after "text". *)
Definition quoted_here (after : list N) : Prop := starts_with (lit """") after.
Definition multiline_here (before after : list N) : Prop :=
  starts_with (lit ":") after /\ exists u, ends_with u before /\ lower_text u = lit "text".

(** How a token is spelled: what is before its place and what is from there on.  A tag that
    is not a word of the language is placed at its word, after the colon. *)
Definition spells (before : list N) (t : tok) (after : list N) : Prop :=
  match t with
  | TCurlyOpen => starts_with (lit "{") after
  | TCurlyClose => starts_with (lit "}") after
  | TBracketOpen => starts_with (lit "[") after
  | TBracketClose => starts_with (lit "]") after
  | TParenOpen => starts_with (lit "(") after
  | TParenClose => starts_with (lit ")") after
  | TComma => starts_with (lit ",") after
  | TSemicolon => starts_with (lit ";") after
  | TColon => starts_with (lit ":") after
  | TStr _ | TVar _ => quoted_here after \/ multiline_here before after
  | TNumber _ => exists d, starts_with [d] after /\ is_digit_ascii d = true
  | TIdent w => starts_word w after
  | TTag w => exists r, after = lit ":" ++ r /\ starts_word w r
  | TUnknown w => starts_word w after \/ exists u, w = lit ":" ++ u /\ ends_with (lit ":") before /\ starts_word u after
  end.

(** What an error points at; [c] is the character it names. *)
Definition at_fault (before : list N) (e : lerr) (c : N) (after : list N) : Prop :=
  match e with
  | EInvalidChar => starts_with [c] after
  | EUnterminatedComment => ends_with (lit "/") before /\ starts_with (lit "*") after
  | EUnterminatedString => quoted_here after
  | EUnterminatedMultiline => multiline_here before after
  | EStringTooLong => quoted_here after \/ multiline_here before after
  end.

(** Reading a script to its end, or to the first error. *)
Inductive item := Token (t : tok) (line col : N) | Fault (e : lerr) (c line col : N) | End (line : N).
Inductive reads (L : rustlib) (max : nat) : plx -> list item -> Prop :=
| reads_end q q' : plex_next L max q = QEof q' -> reads L max q [End (m_line (x_m q'))]
| reads_token q t line col q' is : plex_next L max q = QTok t line col q' -> reads L max q' is ->
    reads L max q (Token t line col :: is)
| reads_fault q e c line col q' : plex_next L max q = QErr e c line col q' -> reads L max q [Fault e c line col].

(** The item is at the byte [k] of the script; the end is on its last line. *)
Definition item_at (script : list N) (k : nat) (i : item) : Prop :=
  match i with
  | Token t line col => place script k line col /\ spells (firstn k script) t (skipn k script)
  | Fault e c line col => place script k line col /\ at_fault (firstn k script) e c (skipn k script)
  | End line => k = length script /\ line = N.of_nat (1 + count_occ N.eq_dec script 10%N)
  end.
(** The items follow each other in the script, from the byte [lo] on. *)
Inductive in_order (script : list N) : nat -> list item -> Prop :=
| order_nil lo : in_order script lo []
| order_cons lo k i is : lo <= k -> item_at script k i -> in_order script (k + 1) is -> in_order script lo (i :: is).

(** The same items without their places, as the tokenizer of Lexer.v reads them. *)
Inductive bare := BToken (t : tok) | BFault (e : lerr) | BEnd.
Definition forget (i : item) : bare := match i with Token t _ _ => BToken t | Fault e _ _ _ => BFault e | End _ => BEnd end.
Inductive lexes (L : rustlib) (max : nat) : lex -> list bare -> Prop :=
| lexes_end l l' : lex_next L max l = LEof l' -> lexes L max l [BEnd]
| lexes_token l t l' bs : lex_next L max l = LTok t l' -> lexes L max l' bs -> lexes L max l (BToken t :: bs)
| lexes_fault l e l' : lex_next L max l = LErr e l' -> lexes L max l [BFault e].
