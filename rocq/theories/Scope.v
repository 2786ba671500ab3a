(** Model of the compiler's bookkeeping of variables: src/compiler/grammar/
    instruction.rs ([is_var_local] ... [block_end], [VariableType::map_local_vars]),
    src/compiler/grammar/actions/action_set.rs [register_variable] and the plain
    names of src/compiler/lexer/string.rs [parse_variable]. *)
From Verif Require Import Base Lib Var Value.

(** instruction.rs 111-143: the parts of [Block] and [CompilerState] about variables.
    A block's hash map [vars_local] is a list, newest entry first. *)
Definition vars := list (text * nat).
(** instruction.rs 114-143: the parts of [Block] and [CompilerState] about variables. *)
Record vst := {
  v_blk : vars;             (* block.vars_local *)
  v_stk : list vars;        (* vars_local of block_stack, innermost first *)
  v_num : nat;              (* vars_num *)
  v_max : nat;              (* vars_num_max *)
  v_loc : nat;              (* vars_local *)
  v_glob : list text        (* vars_global *)
}.

(** instruction.rs 147-169: the state at the beginning of a script. *)
Definition v_start : vst :=
  {| v_blk := []; v_stk := []; v_num := 0; v_max := 0; v_loc := 0; v_glob := [] |}.

(** instruction.rs 875-887: [vars_local.get] of one block. *)
Fixpoint find_var (n : text) (l : vars) : option nat :=
  match l with
  | [] => None
  | (m, i) :: l' => if teqb n m then Some i else find_var n l'
  end.
(** instruction.rs 875-887 [get_local_var]: of the blocks around, innermost first. *)
Fixpoint find_in (n : text) (bs : list vars) : option nat :=
  match bs with
  | [] => None
  | b :: bs' => match find_var n b with Some i => Some i | None => find_in n bs' end
  end.

(** test_envelope.rs 224-238 [lookup_envelope] *)
Definition lookup_envelope (t : text) : option envk :=
  if teqb t (lit "from") then Some EnvFrom
  else if teqb t (lit "to") then Some EnvTo
  else if teqb t (lit "bytimeabsolute") then Some EnvByTimeAbsolute
  else if teqb t (lit "bytimerelative") then Some EnvByTimeRelative
  else if teqb t (lit "bymode") then Some EnvByMode
  else if teqb t (lit "bytrace") then Some EnvByTrace
  else if teqb t (lit "notify") then Some EnvNotify
  else if teqb t (lit "orcpt") then Some EnvOrcpt
  else if teqb t (lit "ret") then Some EnvRet
  else if teqb t (lit "envid") then Some EnvEnvid
  else None.

(** action_set.rs 175, lexer/string.rs 289 (Rust core library): [str::split_once('.')] *)
Fixpoint split_dot (t : text) : option (text * text) :=
  match t with
  | [] => None
  | c :: t' => if N.eqb c c_dot then Some ([], t')
               else option_map (fun p => (c :: fst p, snd p)) (split_dot t')
  end.

Section Scope.
  Variable L : rustlib.
  (** [usize::MAX] *)
  Variable umax : nat.
  (** [max_variable_name_size] *)
  Variable max_name : nat.

  (** instruction.rs 875-887 [get_local_var]; 832-844 [is_var_local] is the same
      search. *)
  Definition get_local_var (name : text) (s : vst) : option nat :=
    find_in (lower_text name) (v_blk s :: v_stk s).
  (** instruction.rs 846-849 [is_var_global] *)
  Definition is_var_global (name : text) (s : vst) : bool :=
    existsb (teqb (lower_text name)) (v_glob s).

  (** instruction.rs 851-869: The entry in the outermost block: [block_stack.first_mut()]. *)
  Fixpoint insert_last (e : text * nat) (bs : list vars) : list vars :=
    match bs with
    | [] => []
    | [b] => [e :: b]
    | b :: bs' => b :: insert_last e bs'
    end.
  (** instruction.rs 851-869 [register_local_var] *)
  Definition register_local_var (name : text) (as_local : bool) (s : vst) : nat * vst :=
    match get_local_var name s with
    | Some i => (i, s)
    | None =>
        if negb as_local || match v_stk s with [] => true | _ => false end then
          (v_num s, {| v_blk := (name, v_num s) :: v_blk s; v_stk := v_stk s; v_num := v_num s + 1;
                       v_max := v_max s; v_loc := v_loc s; v_glob := v_glob s |})
        else
          (umax - v_loc s, {| v_blk := v_blk s; v_stk := insert_last (name, umax - v_loc s) (v_stk s);
                              v_num := v_num s; v_max := v_max s; v_loc := v_loc s + 1; v_glob := v_glob s |})
    end.
  (** instruction.rs 871-873 [register_global_var] *)
  Definition register_global_var (name : text) (s : vst) : vst :=
    {| v_blk := v_blk s; v_stk := v_stk s; v_num := v_num s; v_max := v_max s; v_loc := v_loc s;
       v_glob := lower_text name :: v_glob s |}.

  (** action_set.rs 168-190 [register_variable]: the target of an assignment; [None]
      is [InvalidNamespace]. *)
  Definition register_variable (name : text) (as_local : bool) (s : vst) : option (vartype * vst) :=
    let name := str_lower L name in
    match split_dot name with
    | Some (namespace, part) =>
        if teqb namespace (lit "global") || teqb namespace (lit "t") then Some (TGlobal part, s)
        else if teqb namespace (lit "envelope") then option_map (fun e => (TEnvelope e, s)) (lookup_envelope part)
        else None
    | None =>
        if is_var_global name s then Some (TGlobal name, s)
        else let (i, s') := register_local_var name as_local s in Some (TLocal i, s')
    end.

  (** string.rs 280-288, in [parse_variable] of a name without a namespace: the variable a
      reference denotes; [None] is an unknown name. *)
  Definition parse_plain (name : text) (s : vst) : option vartype :=
    if is_var_global name s then Some (TGlobal name)
    else option_map TLocal (get_local_var name s).

  (** instruction.rs 508-538: one name of the command [global]; [None] is an error. *)
  Definition declare_global (name : text) (s : vst) : option vst :=
    match get_local_var name s with
    | Some _ => None
    | None => if Nat.ltb (blen name) max_name then Some (register_global_var name s) else None
    end.

  (** instruction.rs 627-645: a new block. *)
  Definition open_block (s : vst) : vst :=
    {| v_blk := []; v_stk := v_blk s :: v_stk s; v_num := v_num s; v_max := v_max s; v_loc := v_loc s;
       v_glob := v_glob s |}.
  (** instruction.rs 943-962 [block_end] and 647-741: the end of a block; [None] when
      no block is open.  Also the index and the number of the variables cleared by the
      [Clear] instruction; a [Clear] of match variables only has number 0. *)
  Definition close_block (s : vst) : option (vst * (nat * nat)) :=
    match v_stk s with
    | [] => None
    | b :: bs =>
        let n := length (v_blk s) in
        if Nat.ltb 0 n then
          Some ({| v_blk := b; v_stk := bs; v_num := v_num s - n; v_max := Nat.max (v_max s) (v_num s);
                   v_loc := v_loc s; v_glob := v_glob s |}, (v_num s - n, n))
        else
          Some ({| v_blk := b; v_stk := bs; v_num := v_num s; v_max := v_max s; v_loc := v_loc s;
                   v_glob := v_glob s |}, (0, 0))
    end.

  (** instruction.rs 816-821: the highest number of variables at a time, without the
      [:local] ones, and the number of slots a script needs. *)
  Definition last_id (s : vst) : nat := Nat.max (v_max s) (v_num s).
  (** instruction.rs 816-821: the number of slots a script needs. *)
  Definition num_vars (s : vst) : nat := last_id s + v_loc s.
  (** instruction.rs 1155-1164 [VariableType::map_local_vars]; it is called only when
      there are [:local] variables, and changes nothing otherwise. *)
  Definition map_id (last i : nat) : nat := if Nat.ltb last i then umax - i + last else i.
  (** instruction.rs 1155-1162 [VariableType::map_local_vars]. *)
  Definition map_var (last : nat) (v : vartype) : vartype :=
    match v with TLocal i => TLocal (map_id last i) | _ => v end.

  (** instruction.rs 627-647 and 508-538, action_set.rs 169-190 [register_variable]: What the commands of a
      script do to the variables: a block begins, a block ends, a variable is assigned ([set], [let],
      [addflag], ...), a name is declared global. *)
  Inductive vop :=
  | OOpen
  | OClose
  | OAssign (name : text) (as_local : bool)
  | OGlobal (name : text).
  (** instruction.rs 171-806: the effect of one such command. *)
  Definition vstep (o : vop) (s : vst) : option vst :=
    match o with
    | OOpen => Some (open_block s)
    | OClose => option_map fst (close_block s)
    | OAssign n l => option_map snd (register_variable n l s)
    | OGlobal n => declare_global n s
    end.
  (** instruction.rs 171-806: of a sequence of them. *)
  Fixpoint vsteps (ops : list vop) (s : vst) : option vst :=
    match ops with
    | [] => Some s
    | o :: ops' => match vstep o s with Some s' => vsteps ops' s' | None => None end
    end.
End Scope.
