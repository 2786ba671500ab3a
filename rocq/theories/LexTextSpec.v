(** * How a script is written: its tokens, with the white space and the comments between them *)
From Coq Require Import List NArith Bool Lia.
From Verif Require Import Base Lib Var Utf8 Lexer LexerSpec.
Import ListNotations.
Open Scope list_scope.

(** One thing written in a script. *)
Inductive lexeme :=
| XWord (w : list N)                            (* a word, in any case *)
| XTag (w : list N)                             (* a colon and a word *)
| XNumber (ds s : list N)                       (* digits and a quantifier *)
| XQuoted (q : list qitem)                      (* between double quotes *)
| XLines (w skip : list N) (t : text) (d : list N)  (* "text:", the rest of its line, lines, a line with a dot *)
| XPunct (c : N).

(** The bytes it is written with. *)
Definition spelling (x : lexeme) : list N :=
  match x with
  | XWord w => w
  | XTag w => 58%N :: w
  | XNumber ds s => ds ++ s
  | XQuoted q => 34%N :: utf8 (source q) ++ [34%N]
  | XLines w skip t d => w ++ skip ++ 10%N :: stuff true (utf8 t) ++ d
  | XPunct c => [c]
  end.

(** A letter, a digit or an underscore. *)
Definition name_byte (c : N) : Prop :=
  is_lower_ascii c = true \/ is_upper_ascii c = true \/ is_digit_ascii c = true \/ c = 95%N.
(** A letter to begin with. *)
Definition begins (w : list N) : Prop := match w with c :: _ => is_alpha_ascii c = true | [] => False end.

(** What may be written.  [max]: the greatest length of a string. *)
Definition wellformed (max : nat) (x : lexeme) : Prop :=
  match x with
  | XWord w | XTag w => begins w /\ Forall name_byte w
  | XNumber ds s => ds <> [] /\ Forall (fun c => is_digit_ascii c = true) ds /\ exists q, quantifier s q
  | XQuoted q => Forall q_wf q /\ understood q /\ length (utf8 (meaning q)) < max
  | XLines w skip t d =>
      text_colon w /\ ~ In 10%N skip /\ whole_lines (utf8 t) /\ dot_line d /\ Forall scalar t /\ length (utf8 t) < max
  | XPunct c => punct_of c <> None
  end.

(** The token it is. *)
Definition is_read_as (L : rustlib) (x : lexeme) (k : tok) : Prop :=
  match x with
  | XWord w => k = if is_word (lower_text w) then TIdent (lower_text w) else TUnknown (lower_text w)
  | XTag w => k = if is_word (lower_text w) then TTag (lower_text w) else TUnknown (58%N :: lower_text w)
  | XNumber ds s =>
      exists q, quantifier s q /\
        k = if N.leb (decimal ds) usize_max then TNumber (N.min usize_max (decimal ds * q))
            else TUnknown (ds ++ lower_text s)
  | XQuoted q => denotes L k (meaning q)
  | XLines _ _ t _ => denotes L k t
  | XPunct c => punct_of c = Some k
  end.

(** Words, tags and numbers are set apart from what follows. *)
Definition open_ended (x : lexeme) : bool :=
  match x with XWord _ | XTag _ | XNumber _ _ => true | _ => false end.

(** [text_of xs b]: the text [b] is the lexemes [xs], in order, with white space and
    comments before, between and after them. *)
Inductive text_of (max : nat) : list lexeme -> list N -> Prop :=
| tx_end w : layout w -> text_of max [] w
| tx_next w x xs b :
    layout w -> wellformed max x ->
    (if open_ended x then match b with d :: _ => ends_word d | [] => False end else True) ->
    text_of max xs b ->
    text_of max (x :: xs) (w ++ spelling x ++ b).
