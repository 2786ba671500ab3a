(** Independent specification of expressions: syntax trees, the usual
    precedence grammar over tokens, and evaluation by recursion on the tree with
    short-circuiting && and ||. *)
From Verif Require Import Base Lib Var Value Expr.

Inductive ast :=
| EVar (v : vartype)
| EConst (c : var)
| EUn (u : unop) (e : ast)
| EBin (b : binop) (l r : ast)
| EFun (id : N) (args : list ast)
| EArr (elems : list ast)
| EIdx (e i : ast).

(** Levels: 1 ||, 2 &&, 3 ^, 4 == !=, 5 < <= > >=, 6 + -, 7 * /, 8 unary, 9
    operand.  Binary operators associate to the left. *)
Definition level (b : binop) : nat :=
  match b with
  | BOr => 1 | BAnd => 2 | BXor => 3 | BEq | BNe => 4
  | BLt | BLe | BGt | BGe => 5 | BAdd | BSub => 6 | BMul | BDiv => 7
  end.

(** A literal cannot be indexed; elements of an array literal must not start with
    a parenthesis or a unary operator (see [C20_array_elements_refuted]). *)
Definition indexable (ts : list token) : Prop :=
  exists p t, ts = p ++ [t] /\ match t with TVar _ | TClose | TCloseB => True | _ => False end.
Definition starts_with_operand (ts : list token) : Prop :=
  exists t p, ts = t :: p /\ match t with TOpen | TUn _ => False | _ => True end.
(** Identifiers of functions never clash with the two reserved for arrays. *)
Definition fun_id (id : N) : Prop := id <> id_array_access /\ id <> id_array_build.

Inductive expr : nat -> list token -> ast -> Prop :=
| x_var v : expr 9 [TVar v] (EVar v)
| x_num n : expr 9 [TNum n] (EConst (var_of_number n))
| x_str s : expr 9 [TStr s] (EConst (VStr s))
| x_paren ts e : expr 1 ts e -> expr 9 (TOpen :: ts ++ [TClose]) e
| x_call id ts es : fun_id id -> exprs false ts es ->
    expr 9 (TFun id (length es) :: TOpen :: ts ++ [TClose]) (EFun id es)
| x_array ts es : exprs true ts es -> expr 9 (TOpenB :: ts ++ [TCloseB]) (EArr es)
| x_index ts e ti i : expr 9 ts e -> indexable ts -> expr 1 ti i ->
    expr 9 (ts ++ TOpenB :: ti ++ [TCloseB]) (EIdx e i)
| x_unary u ts e : expr 8 ts e -> expr 8 (TUn u :: ts) (EUn u e)
| x_binary b tl l tr r : expr (level b) tl l -> expr (level b + 1) tr r ->
    expr (level b) (tl ++ TBin b :: tr) (EBin b l r)
| x_up p q ts e : p <= q -> expr q ts e -> expr p ts e
with exprs : bool -> list token -> list ast -> Prop :=
| xs_none arr : exprs arr [] []
| xs_some arr ts es : exprs1 arr ts es -> exprs arr ts es
with exprs1 : bool -> list token -> list ast -> Prop :=
| xs_one (arr : bool) ts e : expr 1 ts e -> (arr = true -> starts_with_operand ts) -> exprs1 arr ts [e]
| xs_more (arr : bool) ts e ts' es : expr 1 ts e -> (arr = true -> starts_with_operand ts) -> exprs1 arr ts' es ->
    exprs1 arr (ts ++ TComma :: ts') (e :: es).

(** Evaluation in which calls to the host are answered from a list: the calls
    made, the outcome, the answers left. *)
Definition step := (list call * outcome * list var)%type.
Definition andthen (m : step) (k : var -> list var -> step) : step :=
  match m with
  | (cs, OVal v, rest) => let '(cs', o, rest') := k v rest in (cs ++ cs', o, rest')
  | (cs, o, rest) => (cs, o, rest)
  end.
Definition ret (v : var) (answers : list var) : step := ([], OVal v, answers).

Section S.
  Variable L : rustlib.
  Variable fns : N -> option (list var -> var).
  Variable ctx : vctx.

  Fixpoint eval (e : ast) (answers : list var) : step :=
    match e with
    | EVar v => ret (match variable ctx v with Some x => x | None => vdefault end) answers
    | EConst c => ret c answers
    | EUn u e => andthen (eval e answers) (fun v a =>
        match un_sem L u v with Some x => ret x a | None => ([], OPanic, a) end)
    | EBin b l r => andthen (eval l answers) (fun vl a =>
        match b, to_bool vl with
        | BAnd, false | BOr, true => ret vl a
        | _, _ => andthen (eval r a) (fun vr a' => ret (bin_sem L b vl vr) a')
        end)
    | EFun id es =>
        (fix go (es : list ast) (acc : list var) (a : list var) : step :=
           match es with
           | [] => match fns id with
                   | Some g => ret (g acc) a
                   | None => match a with
                             | [] => ([((id_external - id)%N, acc)], OWait, [])
                             | v :: a' => ([((id_external - id)%N, acc)], OVal v, a')
                             end
                   end
           | e :: es' => andthen (eval e a) (fun v a' => go es' (acc ++ [v]) a')
           end) es [] answers
    | EArr es =>
        (fix go (es : list ast) (acc : list var) (a : list var) : step :=
           match es with
           | [] => ret (VArr acc) a
           | e :: es' => andthen (eval e a) (fun v a' => go es' (acc ++ [v]) a')
           end) es [] answers
    | EIdx e i => andthen (eval e answers) (fun ve a =>
        andthen (eval i a) (fun vi a' => ret (array_get ve vi) a'))
    end.
End S.

(** A host that answers every call with a function of its name and arguments,
    and the same functions linked into the runtime. *)
Fixpoint ask_host (L : rustlib) (fns : N -> option (list var -> var)) (ctx : vctx) (h : N -> list var -> var)
         (n : nat) (code : list instr) (pos : nat) (st : list var) : option var :=
  match n with
  | 0 => None
  | S n' => match eval_expression L false fns ctx code pos st with
            | EDone v => Some v
            | ECall id args pos' st' => ask_host L fns ctx h n' code pos' (h id args :: st')
            | _ => None
            end
  end.
Definition linked (fns : N -> option (list var -> var)) (h : N -> list var -> var) : N -> option (list var -> var) :=
  fun id => match fns id with Some g => Some g | None => Some (h (id_external - id)%N) end.

(** Writing a tree with only the parentheses it needs. *)
Definition wrap (b : bool) (ts : list token) : list token := if b then TOpen :: ts ++ [TClose] else ts.
Fixpoint commas (l : list (list token)) : list token :=
  match l with
  | [] => []
  | [ts] => ts
  | ts :: l' => ts ++ TComma :: commas l'
  end.
Definition const_token (c : var) : token :=
  match c with VInt n => TNum (NInt n) | VFloat f => TNum (NFloat f) | VStr s => TStr s | VArr _ => TStr [] end.
Fixpoint write (lvl : nat) (e : ast) : list token :=
  match e with
  | EVar v => [TVar v]
  | EConst c => [const_token c]
  | EUn u e => wrap (Nat.ltb 8 lvl) (TUn u :: write 8 e)
  | EBin b l r => wrap (Nat.ltb (level b) lvl) (write (level b) l ++ TBin b :: write (level b + 1) r)
  | EFun id es => TFun id (length es) :: TOpen :: commas (map (write 1) es) ++ [TClose]
  | EArr es => TOpenB :: commas (map (write 1) es) ++ [TCloseB]
  | EIdx e i => wrap (match e with EConst _ => true | _ => false end) (write 9 e) ++ TOpenB :: write 1 i ++ [TCloseB]
  end.
(** Trees that can be written: scalar constants, proper function identifiers,
    array elements that do not start with a unary operator or a parenthesis. *)
Fixpoint writable (e : ast) : Prop :=
  match e with
  | EVar _ => True
  | EConst c => match c with VArr _ => False | _ => True end
  | EUn _ e => writable e
  | EBin _ l r => writable l /\ writable r
  | EFun id es => fun_id id /\ (fix all es := match es with [] => True | e :: es' => writable e /\ all es' end) es
  | EArr es => (fix all es := match es with [] => True | e :: es' => (writable e /\ starts_with_operand (write 1 e)) /\ all es' end) es
  | EIdx e i => writable e /\ writable i
  end.
