(** Model of expressions: the parser (compiler/grammar/expr/parser.rs), which
    turns tokens into code for a stack machine, and the machine
    (runtime/expression.rs 16-105). *)
From Verif Require Import Base Lib Var Value.

(** expr/mod.rs 68-87, 97-100 *)
Inductive binop := BAdd | BSub | BMul | BDiv | BAnd | BOr | BXor | BEq | BNe | BLt | BLe | BGt | BGe.
(** expr/mod.rs 102-105 [UnaryOperator]. *)
Inductive unop := UNot | UMinus.
(** expr/mod.rs 66-91: the derived [PartialEq] of [BinaryOperator]. *)
Definition binop_eq_dec (a b : binop) : {a = b} + {a <> b}.
Proof. decide equality. Defined.

(** expr/mod.rs 108-124 [Token].  Simplification: function names, used only in
    error messages, are left out. *)
Inductive token :=
| TVar (v : vartype)
| TFun (id : N) (num_args : nat)
| TNum (n : number)
| TStr (s : text)
| TBin (b : binop)
| TUn (u : unop)
| TOpen | TClose | TOpenB | TCloseB | TComma.

(** expr/mod.rs 22-31, 41-45 [Expression], [Constant] (constants are already the
    values they evaluate to). *)
Inductive instr :=
| IVar (v : vartype)
| IConst (c : var)
| IBin (b : binop)
| IUn (u : unop)
| IJmp (val : bool) (pos : nat)
| IFun (id : N) (num_args : nat)
| IIdx
| IArr (n : nat).

(** expr/parser.rs 19-21 *)
Definition id_array_access : N := 4294967295.
(** expr/parser.rs 20 [ID_ARRAY_BUILD]. *)
Definition id_array_build : N := 4294967294.
(** expr/parser.rs 21 [ID_EXTERNAL]. *)
Definition id_external : N := 4294967293.

(** expr/parser.rs 245-257 *)
Definition prec (b : binop) : nat :=
  match b with
  | BMul | BDiv => 7
  | BAdd | BSub => 6
  | BGt | BGe | BLt | BLe => 5
  | BEq | BNe => 4
  | BXor => 3
  | BAnd => 2
  | BOr => 1
  end.

(** The operator stack holds tokens of four kinds (parser.rs 16, 54, 57, 144,
    151, 166). *)
Inductive op :=
| OBin (b : binop) (jmp : option nat)
| OUn (u : unop)
| OParen
| OBracket
| OFun (id : N) (num_args : nat).

(** parser.rs 9-17: output, operator stack (top first), argument counts
    (innermost first; simplification: i32 saturation is not modelled), and
    [last_is_var_or_fnc]. *)
Record pst := { p_out : list instr; p_ops : list op; p_cnt : list Z; p_last : bool }.
(** expr/parser.rs 36-211: one token is read, refused, or makes the parser panic. *)
Inductive pres := POk (st : pst) | PErr | PPanic.

(** parser.rs 232-242 [update_jmp_pos]; [None] is the index panic. *)
Definition patch (out : list instr) (jmp : option nat) : option (list instr) :=
  match jmp with
  | None => Some out
  | Some j => match nth_error out j with
              | None => None
              | Some (IJmp val _) => Some (upd j (IJmp val (length out - j)) out)
              | Some _ => Some out
              end
  end.
(** expr/parser.rs 67-70: emit a binary operator popped from the operator stack. *)
Definition emit_bin (b : binop) (jmp : option nat) (out : list instr) : option (list instr) :=
  match patch out jmp with Some o => Some (o ++ [IBin b]) | None => None end.

(** parser.rs 217-221: the counter of an array being built, second from the top
    (or the only one) of the operator stack. *)
Definition bump (o : op) : op :=
  match o with
  | OFun id n => if N.eqb id id_array_build then OFun id (S n) else o
  | _ => o
  end.
(** parser.rs 213-224 [inc_arg_count] *)
Definition inc_args (ops : list op) (cnt : list Z) : list op * list Z :=
  match cnt with
  | [] => (ops, cnt)
  | c :: cnt' =>
      (match ops with
       | [] => []
       | [o] => [bump o]
       | t :: o :: ops' => t :: bump o :: ops'
       end, (c + 1)%Z :: cnt')
  end.
(** parser.rs 226-230 [dec_arg_count] *)
Definition dec_args (cnt : list Z) : list Z :=
  match cnt with [] => [] | c :: cnt' => (c - 1)%Z :: cnt' end.

(** parser.rs 65-80: pop operators up to the opening parenthesis or bracket. *)
Inductive popres := PopOk (ops : list op) (out : list instr) | PopErr | PopPanic.
(** expr/parser.rs 59-80: the operators popped at a closing parenthesis or bracket. *)
Fixpoint close_loop (bracket : bool) (ops : list op) (out : list instr) : popres :=
  match ops with
  | [] => PopErr
  | OParen :: ops' => if bracket then PopErr else PopOk ops' out
  | OBracket :: ops' => if bracket then PopOk ops' out else PopErr
  | OBin b jmp :: ops' => match emit_bin b jmp out with
                          | Some out' => close_loop bracket ops' out'
                          | None => PopPanic
                          end
  | OUn u :: ops' => close_loop bracket ops' (out ++ [IUn u])
  | OFun _ _ :: _ => PopErr
  end.
(** parser.rs 112-131: before a binary operator, pop unary operators and those
    of at least its precedence. *)
Fixpoint bin_loop (b : binop) (ops : list op) (out : list instr) : popres :=
  match ops with
  | OBin tb jmp :: ops' =>
      if Nat.leb (prec b) (prec tb) then
        match emit_bin tb jmp out with
        | Some out' => bin_loop b ops' out'
        | None => PopPanic
        end
      else PopOk ops out
  | OUn u :: ops' => bin_loop b ops' (out ++ [IUn u])
  | _ => PopOk ops out
  end.
(** parser.rs 169-186: at a comma *)
Fixpoint comma_loop (ops : list op) (out : list instr) : popres :=
  match ops with
  | OBin tb jmp :: ops' =>
      match emit_bin tb jmp out with
      | Some out' => comma_loop ops' out'
      | None => PopPanic
      end
  | OUn u :: ops' => comma_loop ops' (out ++ [IUn u])
  | _ => PopOk ops out
  end.
(** parser.rs 192-201: at the end *)
Fixpoint end_loop (ops : list op) (out : list instr) : popres :=
  match ops with
  | [] => PopOk [] out
  | OBin tb jmp :: ops' =>
      match emit_bin tb jmp out with
      | Some out' => end_loop ops' out'
      | None => PopPanic
      end
  | OUn u :: ops' => end_loop ops' (out ++ [IUn u])
  | _ => PopErr
  end.

(** parser.rs 36-211 [parse]: one token *)
Definition push_operand (i : instr) (last : bool) (st : pst) : pres :=
  let '(ops, cnt) := inc_args (p_ops st) (p_cnt st) in
  POk {| p_out := p_out st ++ [i]; p_ops := ops; p_cnt := cnt; p_last := last |}.
(** parser.rs 82-105: after a closing parenthesis or bracket *)
Definition finish_call (ops : list op) (cnt : list Z) (out : list instr) : pres :=
  match ops with
  | OFun id n :: ops' =>
      match cnt with
      | [] => PPanic
      | got :: cnt' =>
          if negb (Z.eqb got (Z.of_nat n)) then PErr
          else POk {| p_out := out ++ [if N.eqb id id_array_access then IIdx
                                       else if N.eqb id id_array_build then IArr n
                                       else IFun id n];
                      p_ops := ops'; p_cnt := cnt'; p_last := true |}
      end
  | _ => POk {| p_out := out; p_ops := ops; p_cnt := cnt; p_last := true |}
  end.
(** expr/parser.rs 41-195: one token. *)
Definition ptok (t : token) (st : pst) : pres :=
  match t with
  | TVar v => push_operand (IVar v) true st
  | TNum n => push_operand (IConst (var_of_number n)) false st
  | TStr s => push_operand (IConst (VStr s)) false st
  | TUn u => POk {| p_out := p_out st; p_ops := OUn u :: p_ops st; p_cnt := p_cnt st; p_last := false |}
  | TOpen => POk {| p_out := p_out st; p_ops := OParen :: p_ops st; p_cnt := p_cnt st; p_last := false |}
  | TClose | TCloseB =>
      match close_loop (match t with TCloseB => true | _ => false end) (p_ops st) (p_out st) with
      | PopErr => PErr
      | PopPanic => PPanic
      | PopOk ops out => finish_call ops (p_cnt st) out
      end
  | TBin b =>
      match bin_loop b (p_ops st) (p_out st) with
      | PopErr => PErr
      | PopPanic => PPanic
      | PopOk ops out =>
          let '(out', jmp) := match b with
                              | BAnd => (out ++ [IJmp false 0], Some (length out))
                              | BOr => (out ++ [IJmp true 0], Some (length out))
                              | _ => (out, None)
                              end in
          POk {| p_out := out'; p_ops := OBin b jmp :: ops; p_cnt := dec_args (p_cnt st); p_last := false |}
      end
  | TFun id n =>
      let '(ops, cnt) := inc_args (p_ops st) (p_cnt st) in
      POk {| p_out := p_out st; p_ops := OFun id n :: ops; p_cnt := 0%Z :: cnt; p_last := false |}
  | TOpenB =>
      if p_last st then
        POk {| p_out := p_out st; p_ops := OBracket :: OFun id_array_access 2 :: p_ops st;
               p_cnt := 1%Z :: p_cnt st; p_last := false |}
      else
        let '(ops, cnt) := inc_args (p_ops st) (p_cnt st) in
        POk {| p_out := p_out st; p_ops := OBracket :: OFun id_array_build 0 :: ops;
               p_cnt := 0%Z :: cnt; p_last := false |}
  | TComma =>
      match comma_loop (p_ops st) (p_out st) with
      | PopErr => PErr
      | PopPanic => PPanic
      | PopOk ops out => POk {| p_out := out; p_ops := ops; p_cnt := p_cnt st; p_last := false |}
      end
  end.
(** expr/parser.rs 39-195: the loop over the tokens. *)
Fixpoint ptoks (ts : list token) (st : pst) : pres :=
  match ts with
  | [] => POk st
  | t :: ts' => match ptok t st with POk st' => ptoks ts' st' | r => r end
  end.
(** expr/parser.rs 27-34 [from_tokenizer]. *)
Definition pinit : pst := {| p_out := []; p_ops := []; p_cnt := []; p_last := false |}.
(** expr/parser.rs 36-211: the result. *)
Inductive parsed := Parsed (code : list instr) | Rejected | ParsePanic.
(** expr/parser.rs 36-211 [parse]. *)
Definition parse (ts : list token) : parsed :=
  match ptoks ts pinit with
  | PErr => Rejected
  | PPanic => ParsePanic
  | POk st => match end_loop (p_ops st) (p_out st) with
              | PopOk _ out => Parsed out
              | PopErr => Rejected
              | PopPanic => ParsePanic
              end
  end.

(** *** The machine *)

(** expression.rs 16-105. [Vec::pop().unwrap_or_default()].  The machine has a flag [strict]: [false] is
    the code; [true] is the same machine reporting an error wherever the code falls back on a default
    because the stack is empty, and at the end if values are left below the result. *)
Definition pop (strict : bool) (st : list var) : option (var * list var) :=
  match st with
  | [] => if strict then None else Some (vdefault, [])
  | v :: st' => Some (v, st')
  end.
(** expression.rs 58-62, 92-96: [n] arguments, the last one popped first *)
Fixpoint popn (strict : bool) (n : nat) (acc : list var) (st : list var) : option (list var * list var) :=
  match n with
  | 0 => Some (acc, st)
  | S n' => match pop strict st with Some (v, st') => popn strict n' (v :: acc) st' | None => None end
  end.

(** runtime/mod.rs 100-107 [to_usize].  A float saturates at i64::MAX instead of
    usize::MAX: both are beyond the end of any array. *)
Definition v_usize (v : var) : Z :=
  match v with
  | VInt n => Z.modulo n (2 ^ 64)
  | VFloat f => Z.max 0 (Z_of_f64 f)
  | VStr [] => 0
  | VStr s =>
      match parse_nat (match s with 43%N :: d => d | _ => s end) with
      | Some n => if N.ltb n (2 ^ 64) then Z.of_N n else 0
      | None => 0
      end
  | VArr _ => 0
  end%Z.
(** expression.rs 84-89 [ArrayAccess] *)
Definition array_get (array index : var) : var :=
  let l := v_array array in
  let i := v_usize index in
  if Z.ltb i (Z.of_nat (length l)) then nth (Z.to_nat i) l vdefault else vdefault.

Section M.
  Variable L : rustlib.
  Variable strict : bool.
  (** [runtime.functions.get(id)], applied to the (read only) context *)
  Variable fns : N -> option (list var -> var).
  Variable ctx : vctx.

  (** expression.rs 36-50 *)
  Definition bin_sem (b : binop) (l r : var) : var :=
    match b with
    | BAdd => op_add L l r | BSub => op_sub L l r | BMul => op_mul L l r | BDiv => op_div L l r
    | BAnd => op_and l r | BOr => op_or l r | BXor => op_xor l r
    | BEq => op_eq L l r | BNe => op_ne L l r
    | BLt => op_lt L l r | BLe => op_le L l r | BGt => op_gt L l r | BGe => op_ge L l r
    end.
  (** expression.rs 27-33; [None] is the overflow panic of [op_minus]. *)
  Definition un_sem (u : unop) (v : var) : option var :=
    match u with UNot => Some (op_not v) | UMinus => op_minus L v end.

  (** expression.rs 16-105. Outcome of [eval_expression]: a value, a call to the host (with the saved
      [expr_pos] and [expr_stack]), a panic. *)
  Inductive eres :=
  | EDone (v : var)
  | ECall (id : N) (args : list var) (pos : nat) (stack : list var)
  | EPanic
  | EStack (* only when [strict] *)
  | EFuel.

  (** expression.rs 16-105 [eval_expression].  The iterator is always at
      [expr_pos]; every step moves it forward, so [length code] + 1 is enough
      fuel. *)
  Fixpoint exec (fuel : nat) (code : list instr) (pos : nat) (st : list var) : eres :=
    match fuel with
    | 0 => EFuel
    | S f =>
        match nth_error code pos with
        | None => match pop strict st with
                  | Some (v, []) => EDone v
                  | Some (v, _) => if strict then EStack else EDone v
                  | None => EStack
                  end
        | Some i =>
            match i with
            | IVar v => exec f code (pos + 1) (match variable ctx v with Some x => x | None => vdefault end :: st)
            | IConst c => exec f code (pos + 1) (c :: st)
            | IUn u => match pop strict st with
                       | Some (v, st') => match un_sem u v with
                                          | Some x => exec f code (pos + 1) (x :: st')
                                          | None => EPanic
                                          end
                       | None => EStack
                       end
            | IBin b => match popn strict 2 [] st with
                        | Some ([l; r], st') => exec f code (pos + 1) (bin_sem b l r :: st')
                        | _ => EStack
                        end
            | IFun id n =>
                match popn strict n [] st with
                | Some (args, st') =>
                    match fns id with
                    | Some g => exec f code (pos + 1) (g args :: st')
                    | None => ECall (id_external - id)%N args (pos + 1) st'
                    end
                | None => EStack
                end
            | IJmp val k =>
                match st with
                | [] => if strict then EStack
                        else if Bool.eqb false val then exec f code (pos + 1 + k) st else exec f code (pos + 1) st
                | v :: _ => if Bool.eqb (to_bool v) val then exec f code (pos + 1 + k) st else exec f code (pos + 1) st
                end
            | IIdx => match popn strict 2 [] st with
                      | Some ([a; i], st') => exec f code (pos + 1) (array_get a i :: st')
                      | _ => EStack
                      end
            | IArr n => match popn strict n [] st with
                        | Some (args, st') => exec f code (pos + 1) (VArr args :: st')
                        | None => EStack
                        end
            end
        end
    end.
  (** expression.rs 16-105 [eval_expression]. *)
  Definition eval_expression (code : list instr) (pos : nat) (st : list var) : eres :=
    exec (S (length code - pos)) code pos st.
End M.

(** The host answers each call with a value, pushed on the stack
    (context.rs 85-87), and the instruction is run again from the saved
    position. *)
Inductive outcome := OVal (v : var) | OWait | OPanic | OStack.
(** No counterpart in the code: a call of an external function, for statements. *)
Definition call := (N * list var)%type.
(** No counterpart in the code: the expression with the answers of the host to its calls, for
    statements. *)
Fixpoint converse (L : rustlib) (strict : bool) (fns : N -> option (list var -> var)) (ctx : vctx)
         (answers : list var) (code : list instr) (pos : nat) (st : list var) : list call * outcome :=
  match eval_expression L strict fns ctx code pos st with
  | EDone v => ([], OVal v)
  | EPanic | EFuel => ([], OPanic)
  | EStack => ([], OStack)
  | ECall id args pos' st' =>
      match answers with
      | [] => ([(id, args)], OWait)
      | a :: answers' =>
          let '(cs, o) := converse L strict fns ctx answers' code pos' (a :: st') in
          ((id, args) :: cs, o)
      end
  end.
