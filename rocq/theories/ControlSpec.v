(** The meaning of a script's control structure, command by command: a specification
    on the abstract syntax, without code positions, jumps or iterators. *)
From Verif Require Import Base Lib Address Var Value Flags Comparator Message MessageSpec EditHeader Expr Event
  Notify Vacation Mime Sieve Run RunSpec Compile CompileSpec.

(** States that differ in bookkeeping only: position, iterators, number of executed
    instructions, and the outcome of the last test. *)
Definition alike (s s' : rst) : Prop := w_test false (strip s) = w_test false (strip s').

(** *** Leaves *)

(** A test as it is written in a script: it is not a negated one. *)
Definition fresh_test (t : test) : bool :=
  match t with
  | TeTrue | TeFalse | TeInvalid _ => true
  | TeVacation _ _ _ _ => false
  | TeHeader _ _ _ _ _ _ _ n | TeAddress _ _ _ _ _ _ _ n | TeEnvelope _ _ _ _ _ _ n | TeExists _ _ n
  | TeSize _ _ n | TeBody _ _ _ _ _ n | TeString _ _ _ _ n | TeEnvironment _ _ _ _ n | TeHasFlag _ _ _ _ n
  | TeDate _ _ _ _ _ _ _ _ n | TeCurrentDate _ _ _ _ _ n | TeDuplicate _ _ _ _ n | TeNotifyCapability _ _ _ _ _ n
  | TeValidNotify _ n | TeValidExtList _ n | TeIhave _ n | TeMailboxExists _ n | TeMailboxIdExists _ n
  | TeSpecialUse _ _ n | TeMetadata _ _ _ _ n | TeMetadataExists _ _ n | TeSpam _ _ _ _ n | TeVirus _ _ _ n
  | TeConvert _ _ n => negb n
  end.
Definition fresh (i : instruction) : bool := match i with IxTest t => fresh_test t | _ => true end.
Fixpoint fresh_tree (t : tree) : bool :=
  match t with
  | TConst _ => true
  | TLeaf i => fresh i
  | TNot t => fresh_tree t
  | TAny ts | TAll ts => fresh_trees ts
  end
with fresh_trees (ts : trees) : bool :=
  match ts with TOne t => fresh_tree t | TMore t ts => fresh_tree t && fresh_trees ts end.
Fixpoint fresh_cmd (c : cmd) : bool :=
  match c with
  | CIf t b _ r => fresh_tree t && fresh_cmds b && fresh_rest r
  | CFor _ b _ | CWhile _ b _ => fresh_cmds b
  | _ => true
  end
with fresh_cmds (cs : cmds) : bool :=
  match cs with CNil => true | CCons c cs => fresh_cmd c && fresh_cmds cs end
with fresh_rest (r : rest) : bool :=
  match r with
  | RNone => true
  | RElse b _ => fresh_cmds b
  | RElsIf t b _ r => fresh_tree t && fresh_cmds b && fresh_rest r
  end.

(** The elementary test a leaf stands for. *)
Definition leaf_of (t : tree) : option instruction :=
  match t with
  | TConst b => Some (IxTest (if b then TeTrue else TeFalse))
  | TLeaf i => Some i
  | _ => None
  end.

(** The elementary tests that left-to-right short-circuit evaluation consults. *)
Fixpoint consulted (v : instruction -> bool) (t : tree) : list instruction :=
  match t with
  | TConst b => [IxTest (if b then TeTrue else TeFalse)]
  | TLeaf i => [i]
  | TNot t => consulted v t
  | TAny ts => consulted_any v ts
  | TAll ts => consulted_all v ts
  end
with consulted_any (v : instruction -> bool) (ts : trees) : list instruction :=
  match ts with
  | TOne t => consulted v t
  | TMore t ts => consulted v t ++ if truth v t then [] else consulted_any v ts
  end
with consulted_all (v : instruction -> bool) (ts : trees) : list instruction :=
  match ts with
  | TOne t => consulted v t
  | TMore t ts => consulted v t ++ if truth v t then consulted_all v ts else []
  end.

(** The outcomes of the elementary tests are those of [v]. *)
Definition agrees (v : instruction -> bool) (l : list (instruction * bool)) : Prop :=
  Forall (fun p => snd p = v (fst p)) l.

Section Meaning.
  Variable E : renv.
  (** The programs of the scripts that may be included. *)
  Variable Progs : sieve -> prog -> Prop.

  (** The state an instruction is executed in; [inl]: is there a foreverypart around? *)
  Definition view (inl : bool) (s x : rst) : Prop := alike s x /\ (r_iters x = [] <-> inl = false).

  (** Test [i], carried out as instruction [j] in state [x], has outcome [b].  Under a
      [not] the code asks the opposite question; the outcome is that of the test [i]. *)
  Inductive tested (x : rst) : instruction -> instruction -> bool -> rst -> Prop :=
  | tested_plain i s' : does E i x true s' -> tested x i i (r_test s') s'
  | tested_not t s1 s' : does E (IxTest t) x true s1 -> alike s1 s' ->
      tested x (IxTest t) (set_not (IxTest t)) (r_test s1) s'
  | tested_eval code s' : does E (IxEval (code ++ [IUn UNot])) x true s' ->
      tested x (IxEval code) (IxEval (code ++ [IUn UNot])) (negb (r_test s')) s'.

  (** Deciding a test: the elementary tests consulted with their outcomes, the
      instructions executed, and the outcome ([None]: the script does not get past it). *)
  Inductive decides (inl : bool) : tree -> rst -> list (instruction * bool) -> list entry -> option (bool * rst) -> Prop :=
  | de_alike t s s' l tr r : alike s s' -> decides inl t s' l tr r -> decides inl t s l tr r
  | de_leaf t i j s x b s' : leaf_of t = Some i -> view inl s x -> tested x i j b s' ->
      decides inl t s [(i, b)] [(j, x)] (Some (b, s'))
  | de_wait t i j s x s1 l tr r : leaf_of t = Some i -> j = i \/ j = set_not i -> view inl s x ->
      does E j x false s1 -> decides inl t s1 l tr r -> decides inl t s l ((j, x) :: tr) r
  | de_halt t i j s x : leaf_of t = Some i -> j = i \/ j = set_not i -> view inl s x -> halts E j x ->
      decides inl t s [] [(j, x)] None
  | de_not t s l tr r : decides inl t s l tr r ->
      decides inl (TNot t) s l tr (option_map (fun p => (negb (fst p), snd p)) r)
  | de_any1 t s l tr r : decides inl t s l tr r -> decides inl (TAny (TOne t)) s l tr r
  | de_any_next t ts s l tr s1 l' tr' r : decides inl t s l tr (Some (false, s1)) -> decides inl (TAny ts) s1 l' tr' r ->
      decides inl (TAny (TMore t ts)) s (l ++ l') (tr ++ tr') r
  | de_any_true t ts s l tr s1 : decides inl t s l tr (Some (true, s1)) ->
      decides inl (TAny (TMore t ts)) s l tr (Some (true, s1))
  | de_any_halt t ts s l tr : decides inl t s l tr None -> decides inl (TAny (TMore t ts)) s l tr None
  | de_all1 t s l tr r : decides inl t s l tr r -> decides inl (TAll (TOne t)) s l tr r
  | de_all_next t ts s l tr s1 l' tr' r : decides inl t s l tr (Some (true, s1)) -> decides inl (TAll ts) s1 l' tr' r ->
      decides inl (TAll (TMore t ts)) s (l ++ l') (tr ++ tr') r
  | de_all_false t ts s l tr s1 : decides inl t s l tr (Some (false, s1)) ->
      decides inl (TAll (TMore t ts)) s l tr (Some (false, s1))
  | de_all_halt t ts s l tr : decides inl t s l tr None -> decides inl (TAll (TMore t ts)) s l tr None.

  (** An instruction; an expression may be interrupted to ask the host. *)
  Inductive executes (inl : bool) (i : instruction) : rst -> list entry -> option rst -> Prop :=
  | ex_alike s s' tr r : alike s s' -> executes inl i s' tr r -> executes inl i s tr r
  | ex_done s x s' : view inl s x -> does E i x true s' -> executes inl i s [(i, x)] (Some s')
  | ex_wait s x s1 tr r : view inl s x -> does E i x false s1 -> executes inl i s1 tr r ->
      executes inl i s ((i, x) :: tr) r
  | ex_halt s x : view inl s x -> halts E i x -> executes inl i s [(i, x)] None.

  (** The condition of a while. *)
  Inductive condition (inl : bool) (e : list instr) : rst -> option (bool * rst) -> Prop :=
  | co_alike s s' r : alike s s' -> condition inl e s' r -> condition inl e s r
  | co_value s x v s' : view inl s x ->
      eval_expression (E_L E) false (E_fns E x) (vw E x) e (r_epos x) (r_estack x) = EDone v ->
      alike (w_estack [] (w_epos 0 x)) s' -> condition inl e s (Some (to_bool v, s'))
  | co_wait s x p s1 r : view inl s x -> does E (IxWhile e p) x false s1 -> condition inl e s1 r -> condition inl e s r
  | co_halt s x p : view inl s x -> halts E (IxWhile e p) x -> condition inl e s None.

  (** How a command ends. *)
  Inductive leaving := LNext | LBreak (l : option text) | LContinue | LReturn | LHalt.
  (** A loop over parts ends a [break] that names it or names none, a while ends a
      [break] that names none. *)
  Definition past_for (l : option text) (o : leaving) : leaving :=
    match o with
    | LBreak None => LNext
    | LBreak (Some n) => if label_eqb l n then LNext else o
    | _ => o
    end.
  Definition past_while (o : leaving) : leaving := match o with LBreak None => LNext | _ => o end.

  Inductive code :=
  | Cmds (cs : cmds)
  | Cmd (c : cmd)
  | Body (b : cmds) (k : option instruction)         (* a block and its end *)
  | Else (r : rest)                                  (* the tests before it were false *)
  | Rounds (b : cmds) (k : option instruction) (ids : list nat)   (* for each of these parts *)
  | Loop (e : list instr) (b : cmds) (k : option instruction).

  (** A script checks what it requires and runs its commands. *)
  Definition script_cmds (p : prog) : cmds :=
    match p_require p with [] => p_cmds p | caps => CCons (CAct (IxRequire caps)) (p_cmds p) end.
  (** Back from an included script, with the local and match variables as they were
      before it. *)
  Definition comes_back (s s' : rst) : Prop :=
    exists f g rest, r_stack s = f :: g :: rest /\
      alike (w_vars (set_vars (f_local f) (f_match f) (r_vars s)) (w_stack (g :: rest) s)) s'.

  Inductive runs : bool -> code -> rst -> list entry -> leaving -> rst -> Prop :=
  | rn_alike inl c s s' tr o s2 : alike s s' -> runs inl c s' tr o s2 -> runs inl c s tr o s2
  (* sequences *)
  | rn_nil inl s s' : alike s s' -> runs inl (Cmds CNil) s [] LNext s'
  | rn_next inl c cs s tr s1 tr' o s' : runs inl (Cmd c) s tr LNext s1 -> runs inl (Cmds cs) s1 tr' o s' ->
      runs inl (Cmds (CCons c cs)) s (tr ++ tr') o s'
  | rn_leave inl c cs s tr o s' : o <> LNext -> runs inl (Cmd c) s tr o s' -> runs inl (Cmds (CCons c cs)) s tr o s'
  | rn_body inl b k s tr s1 tr' o s' : runs inl (Cmds b) s tr LNext s1 ->
      runs inl (Cmds (match k with Some i => CCons (CAct i) CNil | None => CNil end)) s1 tr' o s' ->
      runs inl (Body b k) s (tr ++ tr') o s'
  | rn_body_leave inl b k s tr o s' : o <> LNext -> runs inl (Cmds b) s tr o s' -> runs inl (Body b k) s tr o s'
  (* actions *)
  | rn_act inl i s tr s' : executes inl i s tr (Some s') -> runs inl (Cmd (CAct i)) s tr LNext s'
  | rn_act_halt inl i s tr s' : executes inl i s tr None -> runs inl (Cmd (CAct i)) s tr LHalt s'
  (* an included script: its commands, up to its end or a [return], and then those after the include *)
  | rn_include inl i s x y p s1 tr s2 s' : view inl s x -> enters E i x y s1 -> Progs y p ->
      runs inl (Cmds (script_cmds p)) s1 tr LNext s2 -> comes_back s2 s' ->
      runs inl (Cmd (CAct i)) s ((i, x) :: tr) LNext s'
  | rn_include_return inl i s x y p s1 tr s2 tr' s' : view inl s x -> enters E i x y s1 -> Progs y p ->
      runs inl (Cmds (script_cmds p)) s1 tr LReturn s2 -> executes inl IxReturn s2 tr' (Some s') ->
      runs inl (Cmd (CAct i)) s ((i, x) :: tr ++ tr') LNext s'
  | rn_include_return_halt inl i s x y p s1 tr s2 tr' s' : view inl s x -> enters E i x y s1 -> Progs y p ->
      runs inl (Cmds (script_cmds p)) s1 tr LReturn s2 -> executes inl IxReturn s2 tr' None ->
      runs inl (Cmd (CAct i)) s ((i, x) :: tr ++ tr') LHalt s'
  | rn_include_halt inl i s x y p s1 tr s2 s' : view inl s x -> enters E i x y s1 -> Progs y p ->
      runs inl (Cmds (script_cmds p)) s1 tr LHalt s2 -> runs inl (Cmd (CAct i)) s ((i, x) :: tr) LHalt s'
  | rn_quiet inl s s' : alike s s' -> runs inl (Cmd CQuiet) s [] LNext s'
  | rn_vacation inl t v s tr s1 tr' o s' : executes inl (IxTest t) s tr (Some s1) -> r_test s1 = true ->
      runs inl (Cmd (CAct v)) s1 tr' o s' -> runs inl (Cmd (CVacation t v)) s (tr ++ tr') o s'
  | rn_vacation_no inl t v s tr s' : executes inl (IxTest t) s tr (Some s') -> r_test s' = false ->
      runs inl (Cmd (CVacation t v)) s tr LNext s'
  | rn_vacation_halt inl t v s tr s' : executes inl (IxTest t) s tr None -> runs inl (Cmd (CVacation t v)) s tr LHalt s'
  (* conditionals *)
  | rn_if inl t b k r s l tr s1 tr' o s' : decides inl t s l tr (Some (true, s1)) -> runs inl (Body b k) s1 tr' o s' ->
      runs inl (Cmd (CIf t b k r)) s (tr ++ tr') o s'
  | rn_if_else inl t b k r s l tr s1 tr' o s' : decides inl t s l tr (Some (false, s1)) -> runs inl (Else r) s1 tr' o s' ->
      runs inl (Cmd (CIf t b k r)) s (tr ++ tr') o s'
  | rn_if_halt inl t b k r s l tr s' : decides inl t s l tr None -> runs inl (Cmd (CIf t b k r)) s tr LHalt s'
  | rn_none inl s s' : alike s s' -> runs inl (Else RNone) s [] LNext s'
  | rn_else inl b k s tr o s' : runs inl (Body b k) s tr o s' -> runs inl (Else (RElse b k)) s tr o s'
  | rn_elsif inl t b k r s tr o s' : runs inl (Cmd (CIf t b k r)) s tr o s' -> runs inl (Else (RElsIf t b k r)) s tr o s'
  (* foreverypart: its body for each part in turn; then the part is the one before *)
  | rn_for inl l b k s ids tr o s1 s' : nested_ids (parts s) (r_part s) (negb inl) = Some ids ->
      runs true (Rounds b k ids) s tr o s1 -> o <> LContinue -> alike (w_part (r_part s) s1) s' ->
      runs inl (Cmd (CFor l b k)) s tr (past_for l o) s'
  | rn_for_panic inl l b k s s' : nested_ids (parts s) (r_part s) (negb inl) = None ->
      runs inl (Cmd (CFor l b k)) s [] LHalt s'
  | rn_last inl b k s s' : alike s s' -> runs inl (Rounds b k []) s [] LNext s'
  | rn_round inl b k id ids s tr s1 tr' o s' : runs inl (Body b k) (w_part id s) tr LNext s1 ->
      runs inl (Rounds b k ids) s1 tr' o s' -> runs inl (Rounds b k (id :: ids)) s (tr ++ tr') o s'
  | rn_round_leave inl b k id ids s tr o s' : o <> LNext -> runs inl (Body b k) (w_part id s) tr o s' ->
      runs inl (Rounds b k (id :: ids)) s tr o s'
  (* while *)
  | rn_while inl e b k s tr o s' : runs inl (Loop e b k) s tr o s' -> runs inl (Cmd (CWhile e b k)) s tr o s'
  | rn_stop inl e b k s s' : condition inl e s (Some (false, s')) -> runs inl (Loop e b k) s [] LNext s'
  | rn_again inl e b k s s1 tr o1 s2 tr' o s' : condition inl e s (Some (true, s1)) -> runs inl (Body b k) s1 tr o1 s2 ->
      o1 = LNext \/ o1 = LContinue -> runs inl (Loop e b k) s2 tr' o s' -> runs inl (Loop e b k) s (tr ++ tr') o s'
  | rn_loop_leave inl e b k s s1 tr o s2 s' : condition inl e s (Some (true, s1)) -> runs inl (Body b k) s1 tr o s2 ->
      o <> LNext -> o <> LContinue -> alike s2 s' -> runs inl (Loop e b k) s tr (past_while o) s'
  | rn_loop_halt inl e b k s s' : condition inl e s None -> runs inl (Loop e b k) s [] LHalt s'
  (* leaving *)
  | rn_break inl l s s' : alike s s' -> runs inl (Cmd (CBreak l)) s [] (LBreak l) s'
  | rn_continue inl s s' : alike s s' -> runs inl (Cmd CContinue) s [] LContinue s'
  | rn_return inl s s' : alike s s' -> runs inl (Cmd CReturn) s [] LReturn s'.

  (** A [return] ends a script. *)
  Inductive script_runs (p : prog) (s : rst) : list entry -> Prop :=
  | sr_whole tr o s' : runs false (Cmds (script_cmds p)) s tr o s' -> o = LNext \/ o = LHalt -> script_runs p s tr
  | sr_return tr s1 tr' r : runs false (Cmds (script_cmds p)) s tr LReturn s1 -> executes false IxReturn s1 tr' r ->
      script_runs p s (tr ++ tr').
  (** The body, once for each of the parts, one after the other. *)
  Inductive each (b : cmds) (k : option instruction) : list (nat * list entry) -> rst -> rst -> Prop :=
  | each_nil s s' : alike s s' -> each b k [] s s'
  | each_cons id tr l s s1 s' : runs true (Body b k) (w_part id s) tr LNext s1 -> each b k l s1 s' ->
      each b k ((id, tr) :: l) s s'.
  (** The body of a while, as often as its condition holds; each round ends at the end
      of the body or at a [continue]. *)
  Inductive again (inl : bool) (e : list instr) (b : cmds) (k : option instruction) : list (list entry) -> rst -> rst -> Prop :=
  | again_nil s s' : alike s s' -> again inl e b k [] s s'
  | again_cons s s1 tr o s2 l s' : condition inl e s (Some (true, s1)) -> runs inl (Body b k) s1 tr o s2 ->
      o = LNext \/ o = LContinue -> again inl e b k l s2 s' -> again inl e b k (tr :: l) s s'.
End Meaning.

(** Script [y] is compiled from program [q]. *)
Definition written (umax : nat) (y : sieve) (q : prog) : Prop :=
  exists lim, ok_prog lim q = true /\ fresh_cmds (p_cmds q) = true /\ compile umax lim (rprog q) = Some (s_code y).

(** Parts are numbered in the order in which they occur in the text of the message:
    a container before its parts, and everything in a part before the next part. *)
Record in_document_order (parts : list part) : Prop := {
  do_down : forall a b, child parts a b -> a < b;
  do_siblings : forall a p l1 c l2 d l3 x, nth_error parts a = Some p ->
    part_children p = l1 ++ c :: l2 ++ d :: l3 -> reaches parts c x -> x < d
}.
