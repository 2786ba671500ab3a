(** Independent specification of how the text of an expression spells its
    tokens. *)
From Verif Require Import Base Lib Var Value Expr ExprTok.

Definition word_char (c : ch) : Prop := is_alnum_ascii c = true \/ c = 95%N \/ c = c_dot.
Definition blank (c : ch) : Prop := c = c_space \/ c = c_cr \/ c = c_lf.
(** Names and numbers: letters, digits, underscores and dots, not starting with
    "header." and not ending with a dot. *)
Definition plain_word (w : text) : Prop :=
  w <> [] /\ Forall word_char w /\ firstn 7 w <> lit "header." /\ forall p, w <> p ++ [c_dot].
Definition named (w : text) : Prop := exists c, In c w /\ (is_alpha_ascii c = true \/ c = 95%N).

(** Operators and punctuation. *)
Inductive symbol : token -> text -> Prop :=
| y_and : symbol (TBin BAnd) (lit "&&") | y_or : symbol (TBin BOr) (lit "||") | y_xor : symbol (TBin BXor) (lit "^")
| y_eq : symbol (TBin BEq) (lit "==") | y_ne : symbol (TBin BNe) (lit "!=")
| y_lt : symbol (TBin BLt) (lit "<") | y_le : symbol (TBin BLe) (lit "<=")
| y_gt : symbol (TBin BGt) (lit ">") | y_ge : symbol (TBin BGe) (lit ">=")
| y_add : symbol (TBin BAdd) (lit "+") | y_sub : symbol (TBin BSub) (lit "-")
| y_mul : symbol (TBin BMul) (lit "*") | y_div : symbol (TBin BDiv) (lit "/")
| y_not : symbol (TUn UNot) (lit "!") | y_minus : symbol (TUn UMinus) (lit "-")
| y_open : symbol TOpen (lit "(") | y_close : symbol TClose (lit ")")
| y_openb : symbol TOpenB (lit "[") | y_closeb : symbol TCloseB (lit "]")
| y_comma : symbol TComma (lit ",").

(** After these tokens an operand is expected. *)
Definition expects_operand (t : token) : bool :=
  match t with TOpen | TComma | TBin _ => true | _ => false end.

Section S.
  Variable L : rustlib.
  Variable tm : text -> bool -> option token.

  Inductive word : token -> text -> Prop :=
  | w_name t w : plain_word w -> named w -> w <> lit "true" -> w <> lit "false" ->
      tm w (mem_ch c_dot w) = Some t -> (exists v, t = TVar v) \/ (exists id n, t = TFun id n) -> word t w
  | w_int z w : w <> [] -> Forall (fun c => is_digit_ascii c = true) w -> parse_i64 w = Some z -> word (TNum (NInt z)) w
  | w_float f w : plain_word w -> ~ named w -> In c_dot w -> (exists c, In c w /\ is_digit_ascii c = true) ->
      f64_parse L w = Some f -> word (TNum (NFloat f)) w
  | w_true : word (TNum (NInt 1)) (lit "true")
  | w_false : word (TNum (NInt 0)) (lit "false").

  (** [spells start ts s]: the text [s] is the tokens [ts], with blanks between
      them; blanks may be left out except between two words and between [!], [<]
      or [>] and an equals sign.  A minus sign is the unary operator at the start,
      after an opening parenthesis, a comma or a binary operator ([start]),
      and the binary operator elsewhere. *)
  Inductive spells : bool -> list token -> text -> Prop :=
  | s_end start : spells start [] []
  | s_blank start c ts s : blank c -> spells start ts s -> spells start ts (c :: s)
  | s_word start t w ts s : word t w -> (forall c s', s = c :: s' -> ~ word_char c) ->
      spells false ts s -> spells start (t :: ts) (w ++ s)
  | s_string start q b ts s : q = c_dquote \/ q = 39%N -> ~ In q b -> ~ In c_bslash b ->
      spells false ts s -> spells start (TStr b :: ts) (q :: b ++ q :: s)
  | s_symbol start t w ts s : symbol t w ->
      (t = TUn UMinus -> start = true) -> (t = TBin BSub -> start = false) ->
      (t = TUn UNot \/ t = TBin BLt \/ t = TBin BGt -> forall s', s <> 61%N :: s') ->
      spells (expects_operand t) ts s -> spells start (t :: ts) (w ++ s).
End S.

(** Parentheses balance. *)
Fixpoint balance (d : nat) (ts : list token) : option nat :=
  match ts with
  | [] => Some d
  | TOpen :: ts' => balance (S d) ts'
  | TClose :: ts' => match d with 0 => None | S d' => balance d' ts' end
  | _ :: ts' => balance d ts'
  end.
