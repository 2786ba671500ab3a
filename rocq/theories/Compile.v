(** Model of the control structure of the compiler: src/compiler/grammar/
    instruction.rs [compile] and src/compiler/grammar/test.rs [parse_test].

    Simplification: a token of this model is a keyword, a bracket, or a whole
    command or test together with its arguments and, for a command, its ';'.  The
    instruction that the argument parsers build from it is part of the token, and so
    is the [Clear] instruction that [block_end] puts at the end of a block; both are
    modelled in other files.  The parsers of arguments neither read nor change the
    block structure, and the block structure does not change what they build. *)
From Verif Require Import Base Lib Value Comparator Expr Sieve.

(** instruction.rs 171-806, test.rs 134-540: the tokens [compile] and [parse_test] branch on, each with
    the result of the argument parser they call. *)
Inductive token :=
| KIf | KElsIf | KElse
| KForEvery (label : option text)         (* foreverypart, foreverypart :name "label" *)
| KWhile (e : list instr)
| KBreak (label : option text)            (* break; break :name "label"; *)
| KContinue
| KReturn
| KInclude (i : instruction)
| KRequire (caps : list capability)       (* the capabilities not declared before *)
| KAct (i : instruction)                  (* any other action *)
| KQuiet                                  (* [global]: no instruction *)
| KVacation (t : test) (v : instruction)  (* action_vacation.rs 208-220 *)
| KOpen
| KClose (clear : option instruction)
| KNot | KAnyOf | KAllOf | KTrue | KFalse
| KLeaf (i : instruction)                 (* any other test, an [eval] included *)
| KComma | KPOpen | KPClose
| KOther.                                 (* any other token, or a lexical error *)
(** A word that is no test is, in the place of a test, read as one ([ignore_test],
    [Test::Invalid]): there it is [KLeaf (IxTest (TeInvalid _))]. *)

(** lib.rs 41-61 [Compiler], the limits used here. *)
Record limits := {
  l_blocks : nat;      (* max_nested_blocks *)
  l_tests : nat;       (* max_nested_tests *)
  l_fep : nat;         (* max_nested_foreverypart *)
  l_includes : nat     (* max_includes *)
}.

(** *** Jumps *)

(** instruction.rs 656-731 (each patch of a jump). Write at a position: [&mut instructions[pos]].  The
    positions used are always inside. *)
Fixpoint update (n : nat) (f : instruction -> instruction) (l : list instruction) : list instruction :=
  match l, n with
  | [], _ => []
  | i :: l', 0 => f i :: l'
  | i :: l', S n' => i :: update n' f l'
  end.
(** instruction.rs 664-665, 691-693, 706-707, 727-728: [if let Instruction::Jmp(p) = ... { *p = cur_pos
    }], and so on. *)
Definition to_jmp (t : nat) (i : instruction) : instruction := match i with IxJmp _ => IxJmp t | _ => i end.
(** instruction.rs 682-685. *)
Definition to_jz (t : nat) (i : instruction) : instruction := match i with IxJz _ => IxJz t | _ => i end.
(** test.rs 171-176 and 543-560, where the jumps of a list are patched. *)
Definition to_cond (t : nat) (i : instruction) : instruction :=
  match i with IxJz _ => IxJz t | IxJnz _ => IxJnz t | _ => i end.
(** instruction.rs 656-659. *)
Definition to_for (t : nat) (i : instruction) : instruction :=
  match i with IxForEveryPart _ => IxForEveryPart t | _ => i end.
(** instruction.rs 719-722. *)
Definition to_while (t : nat) (i : instruction) : instruction :=
  match i with IxWhile e _ => IxWhile e t | _ => i end.
(** instruction.rs 663-669, 690-697, 705-711, 726-732: [for pos in jmps { ... }] *)
Definition patch (f : instruction -> instruction) (ps : list nat) (l : list instruction) : list instruction :=
  fold_left (fun l p => update p f l) ps l.

(** *** Tests *)

(** test.rs 600-686 [set_not] *)
Definition set_not_test (t : test) : test :=
  match t with
  | TeTrue => TeFalse
  | TeFalse => TeTrue
  | TeHeader a b c d e f g _ => TeHeader a b c d e f g true
  | TeAddress a b c d e f g _ => TeAddress a b c d e f g true
  | TeEnvelope a b c d e f _ => TeEnvelope a b c d e f true
  | TeExists a b _ => TeExists a b true
  | TeSize a b _ => TeSize a b true
  | TeBody a s b c d _ => TeBody a s b c d true
  | TeString a b c d _ => TeString a b c d true
  | TeEnvironment a b c d _ => TeEnvironment a b c d true
  | TeHasFlag a b c d _ => TeHasFlag a b c d true
  | TeDate a b c d e f g h _ => TeDate a b c d e f g h true
  | TeCurrentDate a b c d e _ => TeCurrentDate a b c d e true
  | TeDuplicate a b c d _ => TeDuplicate a b c d true
  | TeNotifyCapability a b c d e _ => TeNotifyCapability a b c d e true
  | TeValidNotify a _ => TeValidNotify a true
  | TeValidExtList a _ => TeValidExtList a true
  | TeIhave a _ => TeIhave a true
  | TeMailboxExists a _ => TeMailboxExists a true
  | TeMailboxIdExists a _ => TeMailboxIdExists a true
  | TeSpecialUse a b _ => TeSpecialUse a b true
  | TeMetadata a b c d _ => TeMetadata a b c d true
  | TeMetadataExists a b _ => TeMetadataExists a b true
  | TeSpam a b c d _ => TeSpam a b c d true
  | TeVirus a b c _ => TeVirus a b c true
  | TeConvert a b _ => TeConvert a b true
  | TeVacation _ _ _ _ | TeInvalid _ => t
  end.
(** test.rs 601-685 [Instruction::set_not]. *)
Definition set_not (i : instruction) : instruction :=
  match i with
  | IxTest t => IxTest (set_not_test t)
  | IxEval code => IxEval (code ++ [IUn UNot])
  | _ => i
  end.

(** test.rs 114-120 [Block] *)
Record tblock := {
  t_all : bool;
  t_not : bool;
  t_p : nat;          (* p_count *)
  t_jmps : list nat
}.

(** test.rs 601-685: the instructions [set_not] applies to. *)
Definition is_test (i : instruction) : bool :=
  match i with IxTest _ | IxEval _ => true | _ => false end.
(** test.rs 142-149, lexer/mod.rs 18-34 [Token]: [Token::Identifier(_) | Token::Unknown(_)]: everything that
    starts with a word. *)
Definition is_word (t : token) : bool :=
  match t with
  | KOpen | KClose _ | KComma | KPOpen | KPClose | KOther => false
  | _ => true
  end.
(** test.rs 142-149: [tokens.peek()] is a word. *)
Definition peek_word (r : list token) : bool := match r with t :: _ => is_word t | [] => false end.

(** test.rs 549-552: [while block.p_count > 0 { expect(')') }] *)
Fixpoint closings (n : nat) (r : list token) : option (list token) :=
  match n with
  | 0 => Some r
  | S n' => match r with KPClose :: r' => closings n' r' | _ => None end
  end.

(** test.rs 123: [Result<(), CompileError>], with the rest of the tokens and the code. *)
Inductive pres :=
| PErr
| PFuel
| POk (code : list instruction) (r : list token).

Section Compile.
  (** [usize::MAX], the target of a jump that is not resolved yet. *)
  Variable umax : nat.
  Variable lim : limits.

  (** test.rs 123-564 [parse_test].  [stk] is its [block_stack], innermost first. *)
  Fixpoint parse_test (fuel : nat) (r : list token) (code : list instruction) (b : tblock) (stk : list tblock)
      (is_not : bool) : pres :=
    match fuel with
    | 0 => PFuel
    | S f =>
        (* lines 549-563: after a test, negated already or by [set_not] *)
        let leaf i r not' :=
          match closings (t_p b) r with
          | None => PErr
          | Some r' =>
              let code' := code ++ [i] in
              match stk with
              | [] => POk (code' ++ [IxJz umax]) r'
              | _ => parse_test f r' code' {| t_all := t_all b; t_not := t_not b; t_p := 0; t_jmps := t_jmps b |} stk not'
              end
          end in
        match r with
        | [] => PErr
        | KComma :: r' =>
            match stk with
            | [] => PErr
            | _ =>
                if is_test (last code IxStop) && peek_word r' then
                  parse_test f r' (code ++ [if t_all b then IxJz umax else IxJnz umax])
                    {| t_all := t_all b; t_not := t_not b; t_p := t_p b; t_jmps := t_jmps b ++ [length code] |}
                    stk (t_not b)
                else PErr
            end
        | KPOpen :: r' =>
            parse_test f r' code {| t_all := t_all b; t_not := t_not b; t_p := t_p b + 1; t_jmps := t_jmps b |} stk is_not
        | KPClose :: r' =>
            match t_p b with
            | S n => parse_test f r' code {| t_all := t_all b; t_not := t_not b; t_p := n; t_jmps := t_jmps b |} stk is_not
            | 0 => match stk with
                   | [] => PErr
                   | prev :: stk' =>
                       let code' := patch (to_cond (length code)) (t_jmps b) code in
                       match stk' with
                       | [] => POk (code' ++ [IxJz umax]) r'
                       | _ => parse_test f r' code' prev stk' (t_not prev)
                       end
                   end
            end
        | KNot :: r' => if peek_word r' then parse_test f r' code b stk (negb is_not) else PErr
        | KAnyOf :: r' | KAllOf :: r' =>
            let all := match r with KAllOf :: _ => true | _ => false end in
            if Nat.ltb (length stk) (l_tests lim) then
              match r' with
              | KPOpen :: r'' =>
                  parse_test f r'' code {| t_all := xorb all is_not; t_not := is_not; t_p := 0; t_jmps := [] |}
                    (b :: stk) is_not
              | _ => PErr
              end
            else PErr
        | KTrue :: r' => leaf (IxTest (if is_not then TeFalse else TeTrue)) r' false
        | KFalse :: r' => leaf (IxTest (if is_not then TeTrue else TeFalse)) r' false
        | KLeaf i :: r' => leaf (if is_not then set_not i else i) r' is_not
        | _ => PErr
        end
    end.
  (** test.rs 124-130: the [Block] at the beginning. *)
  Definition top_tblock : tblock := {| t_all := false; t_not := false; t_p := 0; t_jmps := [] |}.

  (** *** Blocks *)

  (** instruction.rs 114-116 [btype]: The [Word] that a block was opened with; [Word::Not] for the whole
      script. *)
  Inductive btype := BNot | BIf | BElsIf | BElse | BFor | BWhile.
  (** instruction.rs 114-127 [Block], without capabilities and variables. *)
  Record blk := {
    b_type : btype;
    b_label : option text;
    b_start : nat;            (* last_block_start *)
    b_if : list nat;          (* if_jmps *)
    b_break : list nat;       (* break_jmps *)
    b_require : option nat    (* require_pos *)
  }.
  (** instruction.rs 1200-1220 [Block::new], [with_label]. *)
  Definition new_blk (t : btype) (l : option text) : blk :=
    {| b_type := t; b_label := l; b_start := 0; b_if := []; b_break := []; b_require := None |}.
  (** instruction.rs 633: [last_block_start] is assigned. *)
  Definition with_start (n : nat) (b : blk) : blk :=
    {| b_type := b_type b; b_label := b_label b; b_start := n; b_if := b_if b; b_break := b_break b; b_require := b_require b |}.
  (** instruction.rs 185, 678, 690, 705: [if_jmps] is changed. *)
  Definition with_if (l : list nat) (b : blk) : blk :=
    {| b_type := b_type b; b_label := b_label b; b_start := b_start b; b_if := l; b_break := b_break b; b_require := b_require b |}.
  (** instruction.rs 297, 328: [break_jmps] is changed. *)
  Definition with_break (l : list nat) (b : blk) : blk :=
    {| b_type := b_type b; b_label := b_label b; b_start := b_start b; b_if := b_if b; b_break := l; b_require := b_require b |}.
  (** grammar/actions/action_require.rs 75-76: [require_pos] is assigned. *)
  Definition with_require (n : nat) (b : blk) : blk :=
    {| b_type := b_type b; b_label := b_label b; b_start := b_start b; b_if := b_if b; b_break := b_break b; b_require := Some n |}.

  (** instruction.rs 129-143 [CompilerState]; [c_stack] is [block_stack], innermost
      first. *)
  Record cst := {
    c_code : list instruction;
    c_blk : blk;
    c_stack : list blk;
    c_last : btype;         (* last_block_type *)
    c_includes : nat        (* includes_num *)
  }.
  (** instruction.rs 129-143 [CompilerState]: [instructions] is replaced. *)
  Definition with_code (l : list instruction) (s : cst) : cst :=
    {| c_code := l; c_blk := c_blk s; c_stack := c_stack s; c_last := c_last s; c_includes := c_includes s |}.
  (** instruction.rs 219 etc.: [instructions.push]. *)
  Definition emit (l : list instruction) (s : cst) : cst := with_code (c_code s ++ l) s.
  (** instruction.rs 635, 740: [state.block] is replaced. *)
  Definition with_blk (b : blk) (s : cst) : cst :=
    {| c_code := c_code s; c_blk := b; c_stack := c_stack s; c_last := c_last s; c_includes := c_includes s |}.

  (** instruction.rs 237, 291, 324, 495. *)
  Definition is_for (b : blk) : bool := match b_type b with BFor => true | _ => false end.
  (** instruction.rs 309, 313. *)
  Definition is_loop (b : blk) : bool := match b_type b with BFor | BWhile => true | _ => false end.
  (** instruction.rs 252, 293. *)
  Definition label_eqb (l : option text) (n : text) : bool := match l with Some m => teqb m n | None => false end.

  (** instruction.rs 287-289, 491-493, 586-588: The block and the ones around it, innermost first. *)
  Definition blocks (s : cst) : list blk := c_blk s :: c_stack s.
  (** instruction.rs 287-289: the blocks after the change of one ([iter_mut]). *)
  Definition with_blocks (l : list blk) (s : cst) : cst :=
    match l with
    | b :: stk => {| c_code := c_code s; c_blk := b; c_stack := stk; c_last := c_last s; c_includes := c_includes s |}
    | [] => s
    end.

  (** instruction.rs 284-302: the labelled loop, and how many iterators to drop; the
      position of the jump is recorded in it. *)
  Fixpoint find_label (n : text) (pops : nat) (pos : nat) (l : list blk) : option (nat * list blk) :=
    match l with
    | [] => None
    | b :: l' =>
        if is_for b then
          if label_eqb (b_label b) n then Some (pops + 1, with_break (b_break b ++ [pos]) b :: l')
          else option_map (fun r => (fst r, b :: snd r)) (find_label n (pops + 1) pos l')
        else option_map (fun r => (fst r, b :: snd r)) (find_label n pops pos l')
    end.
  (** instruction.rs 307-328: the innermost loop. *)
  Fixpoint find_loop (pos : nat) (l : list blk) : option (bool * list blk) :=
    match l with
    | [] => None
    | b :: l' =>
        if is_loop b then
          Some (is_for b, with_break (b_break b ++ [if is_for b then pos + 1 else pos]) b :: l')
        else option_map (fun r => (fst r, b :: snd r)) (find_loop pos l')
    end.
  (** instruction.rs 271-332 *)
  Definition do_break (l : option text) (s : cst) : option cst :=
    match l with
    | Some n =>
        match find_label n 0 (length (c_code s) + 1) (blocks s) with
        | Some (pops, bs) => Some (emit [IxForEveryPartPop pops; IxJmp umax] (with_blocks bs s))
        | None => None
        end
    | None =>
        match find_loop (length (c_code s)) (blocks s) with
        | Some (for_, bs) =>
            Some (emit ((if for_ then [IxForEveryPartPop 1] else []) ++ [IxJmp umax]) (with_blocks bs s))
        | None => None
        end
    end.
  (** instruction.rs 585-602: counts [found_while]; the instruction, if one is
      pushed. *)
  Fixpoint do_continue (found : nat) (l : list blk) : nat * list instruction :=
    match l with
    | [] => (found, [])
    | b :: l' =>
        match b_type b with
        | BWhile => do_continue (found + 1) l'
        | _ => if Nat.eqb found 1 then (2, [IxJmp (b_start b)]) else do_continue found l'
        end
    end.
  (** instruction.rs 489-506 *)
  Definition do_return (s : cst) : cst :=
    let n := length (filter is_for (blocks s)) in
    emit ((match n with 0 => [] | _ => [IxForEveryPartPop n] end) ++ [IxReturn]) s.
  (** action_require.rs 73-93 *)
  Definition do_require (caps : list capability) (s : cst) : cst :=
    match caps with
    | [] => s
    | _ =>
        match b_require (c_blk s) with
        | None => emit [IxRequire caps] (with_blk (with_require (length (c_code s)) (c_blk s)) s)
        | Some p => with_code (update p (fun i => match i with
                                                  | IxRequire l => IxRequire (l ++ caps)
                                                  | _ => i
                                                  end) (c_code s)) s
        end
    end.

  (** instruction.rs 627-645: the '{' after the head of a block. *)
  Definition open (t : btype) (l : option text) (s : cst) : option cst :=
    if Nat.ltb (length (c_stack s)) (l_blocks lim) then
      Some {| c_code := c_code s; c_blk := new_blk t l;
              c_stack := with_start (length (c_code s) - 1) (c_blk s) :: c_stack s;
              c_last := c_last s; c_includes := c_includes s |}
    else None.

  (** instruction.rs 647-741: the '}' at the end of a block. *)
  Definition close (clear : option instruction) (r : list token) (s : cst) : option cst :=
    match c_stack s with
    | [] => None
    | prev :: stk =>
        let code := c_code s ++ match clear with Some i => [i] | None => [] end in
        let b := c_blk s in
        let fin code prev last :=
          Some {| c_code := code; c_blk := prev; c_stack := stk; c_last := last; c_includes := c_includes s |} in
        match b_type b with
        | BFor =>
            let code := code ++ [IxJmp (b_start prev)] in
            let cur := length code in
            fin (patch (to_jmp cur) (b_break b) (update (b_start prev) (to_for cur) code)) prev BNot
        | BWhile =>
            let code := code ++ [IxJmp (b_start prev)] in
            let cur := length code in
            fin (patch (to_jmp cur) (b_break b) (update (b_start prev) (to_while cur) code)) prev BNot
        | BIf | BElsIf =>
            match r with
            | KElsIf :: _ | KElse :: _ =>
                let prev := with_if (b_if prev ++ [length code]) prev in
                let code := code ++ [IxJmp umax] in
                fin (update (b_start prev) (to_jz (length code)) code) prev (b_type b)
            | _ =>
                let cur := length code in
                fin (patch (to_jmp cur) (b_if prev) (update (b_start prev) (to_jz cur) code)) (with_if [] prev) BNot
            end
        | BElse => fin (patch (to_jmp (length code)) (b_if prev) code) (with_if [] prev) BElse
        | BNot => fin code prev (c_last s)
        end
    end.

  (** instruction.rs 633 uses [instructions.len() - 1], so the list is not empty
      when a block is opened. *)
  Definition test_then (t : btype) (r : list token) (s : cst) : option (list token * cst) :=
    match parse_test (length r + 1) r (c_code s) top_tblock [] false with
    | POk code (KOpen :: r') => option_map (fun s => (r', s)) (open t None (with_code code s))
    | _ => None
    end.

  (** instruction.rs 175-805: One command, or the end of a block; [None] is a compile error. *)
  Definition command (t : token) (r : list token) (s : cst) : option (list token * cst) :=
    match t with
    | KIf => test_then BIf r (with_blk (with_if [] (c_blk s)) s)   (* if_jmps.clear() *)
    | KElsIf => match c_last s with BIf | BElsIf => test_then BElsIf r s | _ => None end
    | KElse =>
        match c_last s with
        | BIf | BElsIf => match r with KOpen :: r' => option_map (fun s => (r', s)) (open BElse None s) | _ => None end
        | _ => None
        end
    | KForEvery l =>
        if Nat.eqb (length (filter is_for (c_stack s))) (l_fep lim) then None
        else if match l with Some n => existsb (fun b => label_eqb (b_label b) n) (c_stack s) | None => false end then None
        else match r with
             | KOpen :: r' =>
                 option_map (fun s => (r', s)) (open BFor l (emit [IxForEveryPartPush; IxForEveryPart umax] s))
             | _ => None
             end
    | KWhile e =>
        match r with
        | KOpen :: r' => option_map (fun s => (r', s)) (open BWhile None (emit [IxWhile e umax] s))
        | _ => None
        end
    | KBreak l => option_map (fun s => (r, s)) (do_break l s)
    | KContinue => match do_continue 0 (blocks s) with
                   | (2, is) => Some (r, emit is s)
                   | _ => None
                   end
    | KReturn => Some (r, do_return s)
    | KInclude i =>
        if Nat.ltb (c_includes s) (l_includes lim) then
          Some (r, {| c_code := c_code s ++ [i]; c_blk := c_blk s; c_stack := c_stack s; c_last := c_last s;
                      c_includes := c_includes s + 1 |})
        else None
    | KRequire caps => Some (r, do_require caps s)
    | KAct i => Some (r, emit [i] s)
    | KQuiet => Some (r, s)
    | KVacation t v => Some (r, emit [IxTest t; IxJz (length (c_code s) + 3); v] s)
    | KClose clear => option_map (fun s => (r, s)) (close clear r s)
    | _ => None
    end.

  (** instruction.rs 146: [Result<Sieve, CompileError>]. *)
  Inductive cres := CErr | CFuel | COk (s : cst).
  (** instruction.rs 171-814 [compile] *)
  Fixpoint go (fuel : nat) (r : list token) (s : cst) : cres :=
    match r with
    | [] => match c_stack s with [] => COk s | _ => CErr end
    | t :: r' =>
        match fuel with
        | 0 => CFuel
        | S f => match command t r' s with
                 | None => CErr
                 | Some (r'', s') => go f r'' s'
                 end
        end
    end.
  (** instruction.rs 155-169. *)
  Definition start : cst :=
    {| c_code := []; c_blk := new_blk BNot None; c_stack := []; c_last := BNot; c_includes := 0 |}.
  (** instruction.rs 146-828 [compile]. *)
  Definition compile (r : list token) : option (list instruction) :=
    match go (length r) r start with COk s => Some (c_code s) | _ => None end.
End Compile.
