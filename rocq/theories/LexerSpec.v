(** Specification vocabulary for the script's lexical syntax (RFC 5228
    sections 2.3, 2.4), independent of the tokenizer. *)
From Verif Require Import Base Lib Var Utf8 Lexer.

Section S.
  Variable L : rustlib.

  (** The text a string token stands for: a constant is its text, a string that
      has to be searched for variables is given by its bytes. *)
  Definition denotes (k : tok) (t : text) : Prop :=
    match k with
    | TStr c => const_text L c = t
    | TVar b => b = utf8 t
    | _ => False
    end.
End S.

(** Between two tokens, before the bytes [i]. *)
Definition at_input (l : lex) (i : list N) : Prop :=
  l_in l = i /\ l_buf l = [] /\ l_tag l = false /\ l_state l = SNone /\ l_next l = [].

(** *** Quoted strings *)

(** One element of a quoted string: a character standing for itself, or a
    backslash and the character it protects. *)
Inductive qitem := QPlain (c : ch) | QEsc (c : ch).
Definition qsrc (q : qitem) : text := match q with QPlain c => [c] | QEsc c => [92%N; c] end.
Definition qval (q : qitem) : ch := match q with QPlain c => c | QEsc c => c end.
Definition q_wf (q : qitem) : Prop :=
  match q with QPlain c => scalar c /\ c <> 34%N /\ c <> 92%N | QEsc c => scalar c end.
(** What is written between the quotes, and what RFC 5228 says it stands for. *)
Definition source (q : list qitem) : text := flat_map qsrc q.
Definition meaning (q : list qitem) : text := map qval q.

(** Writing a text: a backslash before each quote and backslash. *)
Definition protect (c : ch) : qitem := if N.eqb c 34 || N.eqb c 92 then QEsc c else QPlain c.
Definition written (t : text) : list qitem := map protect t.

Definition is_nrt (c : ch) : Prop := c = 110%N \/ c = 114%N \/ c = 116%N.
(** Literals the tokenizer understands: n, r, t are not escaped, and an escaped
    backslash is followed by an unescaped character other than n, r, t. *)
Fixpoint understood (q : list qitem) : Prop :=
  match q with
  | [] => True
  | QPlain _ :: q' => understood q'
  | QEsc c :: q' =>
      ~ is_nrt c /\ understood q' /\
      (c = 92%N -> match q' with QPlain d :: _ => ~ is_nrt d | _ => False end)
  end.

(** The texts that [written] makes understandable: each backslash is followed by
    a character other than a backslash, a quote, n, r or t. *)
Fixpoint tame (t : text) : Prop :=
  match t with
  | [] => True
  | c :: t' => tame t' /\
      (c = 92%N -> match t' with d :: _ => ~ is_nrt d /\ d <> 34%N /\ d <> 92%N | [] => False end)
  end.

(** *** Numbers *)

(** Positional decimal value. *)
Fixpoint decimal (ds : list N) : N :=
  match ds with [] => 0 | d :: r => (d - 48) * 10 ^ N.of_nat (length r) + decimal r end.
Definition quantifier (s : list N) (q : N) : Prop :=
  (s = [] /\ q = 1%N) \/ (s = lit "K" \/ s = lit "k") /\ q = (2 ^ 10)%N
  \/ (s = lit "M" \/ s = lit "m") /\ q = (2 ^ 20)%N \/ (s = lit "G" \/ s = lit "g") /\ q = (2 ^ 30)%N.
(** A byte that ends a word: white space or one of the single-byte tokens. *)
Definition ends_word (c : N) : Prop := space_byte c = true \/ punct_of c <> None.
(** The lexer after a word that was ended by [c] before [r]: the delimiter is
    the next token unless it is white space. *)
Definition after_word (l : lex) (c : N) (r : list N) : Prop :=
  l_in l = r /\ l_buf l = [] /\ l_tag l = false /\ l_state l = SNone /\
  l_next l = match punct_of c with Some p => [p] | None => [] end.

(** *** Multi-line strings *)

(** Dot-stuffing: a dot at the beginning of a line is doubled. *)
Fixpoint stuff (bol : bool) (b : list N) : list N :=
  match b with
  | [] => []
  | c :: b' => (if bol && N.eqb c 46 then [46%N; 46%N] else [c]) ++ stuff (N.eqb c 10) b'
  end.
(** Empty, or ending in a line feed. *)
Definition whole_lines (b : list N) : Prop := b = [] \/ exists b', b = b' ++ [10%N].
(** The line that ends a multi-line string. *)
Definition dot_line (d : list N) : Prop := d = [46; 10]%N \/ d = [46; 13; 10]%N.
(** "text:" in any case. *)
Definition text_colon (w : list N) : Prop := lower_text w = lit "text:".

(** *** Layout: white space and comments *)

Inductive layout : list N -> Prop :=
| ly_nil : layout []
| ly_space c r : space_byte c = true -> layout r -> layout (c :: r)
| ly_hash body r : ~ In 10%N body -> layout r -> layout (35%N :: body ++ 10%N :: r)
| ly_bracket body r :
    (forall x y, body ++ [42%N; 47%N] = x ++ [42%N; 47%N] ++ y -> y = []) -> layout r ->
    layout (47%N :: 42%N :: body ++ 42%N :: 47%N :: r).
