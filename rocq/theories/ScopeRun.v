(** What the compiler makes of assignments, references and blocks, and how the runtime
    executes it: the use of the bookkeeping of Scope.v by src/compiler/grammar/actions/
    action_set.rs [parse_set], src/compiler/lexer/string.rs [tokenize_string] and
    src/compiler/grammar/instruction.rs, and src/runtime/context.rs.

    Simplification: the control structure around a block is not part of this file (see
    Compile.v and Run.v); [ds] says how often the code of each block is entered. *)
From Verif Require Import Base Lib Address Var Value SetVar Flags Comparator Message EditHeader Expr Event
  Notify Vacation Spam AddrTest Mime Sieve Run Scope ScopeSpec.

(** grammar/instruction.rs 48-109 [Instruction]: the three kinds of instruction that matter here. *)
Inductive scode :=
| SSet (v : vartype) (x : value)
| SUse (x : value)
| SBlock (b : scodes) (idx num : nat)
with scodes := SNil | SCons (c : scode) (cs : scodes).

Section Code.
  Variable L : rustlib.
  Variable umax : nat.

  (** string.rs 35-254: text and variables in turn; an unknown name leaves nothing.
      string.rs 247-254: one item is the value itself. *)
  Definition item (s : vst) (p : vpiece) : list value :=
    match p with
    | PLit t => [XText t]
    | PRef n => match parse_plain n s with Some v => [XVariable v] | None => [] end
    end.
  (** lexer/string.rs 247-254: the value of a string. *)
  Definition string_value (s : vst) (v : list vpiece) : value :=
    match flat_map (item s) v with
    | [] => XText []
    | [x] => x
    | l => XList l
    end.

  (** instruction.rs 393-401, 627-648, 943-962; action_set.rs 122-141 [parse_set]. *)
  Fixpoint code_cmd (c : vcmd) (s : vst) : option (scode * vst) :=
    match c with
    (* action_set.rs 122-141: the name is registered before the value is read *)
    | VSet n v => match register_variable L umax n false s with
                  | Some (x, s') => Some (SSet x (string_value s' v), s')
                  | None => None
                  end
    | VUse v => Some (SUse (string_value s v), s)
    | VBlock b => match code_cmds b (open_block s) with
                  | Some (code, s') =>
                      match close_block s' with
                      | Some (s'', (idx, num)) => Some (SBlock code idx num, s'')
                      | None => None
                      end
                  | None => None
                  end
    end
  with code_cmds (cs : vcmds) (s : vst) : option (scodes * vst) :=
    match cs with
    | VNil => Some (SNil, s)
    | VCons c cs' => match code_cmd c s with
                     | Some (x, s') => match code_cmds cs' s' with
                                       | Some (xs, s'') => Some (SCons x xs, s'')
                                       | None => None
                                       end
                     | None => None
                     end
    end.

  (** [max]: [max_variable_size]; [c]: the variables that are not local ones. *)
  Variable max : nat.
  Variable c : vctx.
  (** context.rs 177-195, 305-310: the local variables, how often blocks are entered, and what was read
      so far. *)
  Definition sstate := (list var * list nat * list text)%type.
  (** context.rs 125-406, the instructions of [scode]. *)
  Fixpoint srun_cmd (x : scode) (st : sstate) : sstate :=
    match x, st with
    | SSet v e, (fr, ds, out) => (c_local (fst (exec_set L max (set_local c fr) [] v e)), ds, out)
    | SUse e, (fr, ds, out) => (fr, ds, out ++ [v_text L (eval_value L (set_local c fr) e)])
    | SBlock b idx num, (fr, ds, out) =>
        match ds with
        | [] => (fr, [], out)
        | d :: ds' =>
            Nat.iter d (fun st => match srun b st with (fr, ds, out) => (clear_local idx num fr, ds, out) end)
              (fr, ds', out)
        end
    end
  with srun (xs : scodes) (st : sstate) : sstate :=
    match xs with SNil => st | SCons x xs' => srun xs' (srun_cmd x st) end.
  (** context.rs 95-103: a script starts with empty variables. *)
  Definition fresh_frame (n : nat) : list var := repeat vdefault n.
End Code.
