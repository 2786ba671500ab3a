(** Specification of the compiler's control structure: the abstract syntax of
    scripts, how it is written down as tokens, and what it means. *)
From Verif Require Import Base Lib Address Var Value Flags Comparator Message EditHeader Expr Event
  Notify Vacation Mime Sieve Run RunSpec Compile.

(** *** Syntax *)

Inductive tree :=
| TConst (b : bool)
| TLeaf (i : instruction)
| TNot (t : tree)
| TAny (ts : trees)
| TAll (ts : trees)
with trees :=
| TOne (t : tree)
| TMore (t : tree) (ts : trees).

(** A block is a list of commands and what [block_end] puts at its end. *)
Inductive cmd :=
| CAct (i : instruction)
| CQuiet
| CVacation (t : test) (v : instruction)
| CIf (t : tree) (b : cmds) (k : option instruction) (r : rest)
| CFor (l : option text) (b : cmds) (k : option instruction)
| CWhile (e : list instr) (b : cmds) (k : option instruction)
| CBreak (l : option text)
| CContinue
| CReturn
with cmds :=
| CNil
| CCons (c : cmd) (cs : cmds)
with rest :=
| RNone
| RElse (b : cmds) (k : option instruction)
| RElsIf (t : tree) (b : cmds) (k : option instruction) (r : rest).

(** A script: what it requires, and its commands. *)
Record prog := { p_require : list capability; p_cmds : cmds }.

(** *** Tokens *)

Fixpoint rtree (t : tree) : list token :=
  match t with
  | TConst b => [if b then KTrue else KFalse]
  | TLeaf i => [KLeaf i]
  | TNot t => KNot :: rtree t
  | TAny ts => KAnyOf :: KPOpen :: rtrees ts ++ [KPClose]
  | TAll ts => KAllOf :: KPOpen :: rtrees ts ++ [KPClose]
  end
with rtrees (ts : trees) : list token :=
  match ts with
  | TOne t => rtree t
  | TMore t ts => rtree t ++ KComma :: rtrees ts
  end.

Fixpoint rcmd (c : cmd) : list token :=
  match c with
  | CAct i => [KAct i]
  | CQuiet => [KQuiet]
  | CVacation t v => [KVacation t v]
  | CIf t b k r => KIf :: rtree t ++ KOpen :: rcmds b ++ KClose k :: rrest r
  | CFor l b k => KForEvery l :: KOpen :: rcmds b ++ [KClose k]
  | CWhile e b k => KWhile e :: KOpen :: rcmds b ++ [KClose k]
  | CBreak l => [KBreak l]
  | CContinue => [KContinue]
  | CReturn => [KReturn]
  end
with rcmds (cs : cmds) : list token :=
  match cs with
  | CNil => []
  | CCons c cs => rcmd c ++ rcmds cs
  end
with rrest (r : rest) : list token :=
  match r with
  | RNone => []
  | RElse b k => KElse :: KOpen :: rcmds b ++ [KClose k]
  | RElsIf t b k r => KElsIf :: rtree t ++ KOpen :: rcmds b ++ KClose k :: rrest r
  end.
Definition rprog (p : prog) : list token := KRequire (p_require p) :: rcmds (p_cmds p).

(** *** Well-formed scripts within the limits *)

(** What a command is enclosed in, innermost first. *)
Inductive encl := EPlain | EFor (l : option text) | EWhile.
Definition encl_for (e : encl) : bool := match e with EFor _ => true | _ => false end.
Definition encl_named (n : text) (e : encl) : bool := match e with EFor (Some m) => teqb m n | _ => false end.

(** Nesting of anyof and allof. *)
Fixpoint tdepth (t : tree) : nat :=
  match t with
  | TConst _ | TLeaf _ => 0
  | TNot t => tdepth t
  | TAny ts | TAll ts => S (tdepths ts)
  end
with tdepths (ts : trees) : nat :=
  match ts with
  | TOne t => tdepth t
  | TMore t ts => Nat.max (tdepth t) (tdepths ts)
  end.
(** A test is a test. *)
Fixpoint tleaves (t : tree) : bool :=
  match t with
  | TConst _ => true
  | TLeaf i => is_test i
  | TNot t => tleaves t
  | TAny ts | TAll ts => tleaves_all ts
  end
with tleaves_all (ts : trees) : bool :=
  match ts with
  | TOne t => tleaves t
  | TMore t ts => tleaves t && tleaves_all ts
  end.

(** Instructions that move the position or the current part. *)
Definition is_control (i : instruction) : bool :=
  match i with
  | IxJmp _ | IxJz _ | IxJnz _ | IxForEveryPart _ | IxForEveryPartPush | IxForEveryPartPop _ | IxWhile _ _ => true
  | _ => false
  end.
Definition is_include (i : instruction) : bool := match i with IxInclude _ _ _ _ => true | _ => false end.
Definition is_return (i : instruction) : bool := match i with IxReturn => true | _ => false end.
Definition plain (i : instruction) : bool := negb (is_control i) && negb (is_return i).
Definition plain_opt (k : option instruction) : bool := match k with Some i => plain i | None => true end.

(** [continue] is inside a [while], no foreverypart is in between, and the [while]
    is not itself directly inside another [while]. *)
Fixpoint continue_ok (e : list encl) : bool :=
  match e with
  | EPlain :: e' => continue_ok e'
  | EWhile :: EWhile :: _ => false
  | EWhile :: _ => true
  | _ => false
  end.

(** The innermost block that a foreverypart is in counts neither for the limit on
    nested foreverypart nor for the names in use. *)
Fixpoint ok_cmd (lim : limits) (e : list encl) (c : cmd) : bool :=
  match c with
  | CAct i => plain i
  | CQuiet => true
  | CVacation t v => plain v
  | CIf t b k r =>
      tleaves t && Nat.leb (tdepth t) (l_tests lim) && Nat.ltb (length e) (l_blocks lim) &&
      ok_cmds lim (EPlain :: e) b && plain_opt k && ok_rest lim e r
  | CFor l b k =>
      Nat.ltb (length e) (l_blocks lim) && negb (Nat.eqb (length (filter encl_for (tl e))) (l_fep lim)) &&
      match l with Some n => negb (existsb (encl_named n) (tl e)) | None => true end &&
      ok_cmds lim (EFor l :: e) b && plain_opt k
  | CWhile _ b k => Nat.ltb (length e) (l_blocks lim) && ok_cmds lim (EWhile :: e) b && plain_opt k
  | CBreak (Some n) => existsb (encl_named n) e
  | CBreak None => existsb (fun x => match x with EPlain => false | _ => true end) e
  | CContinue => continue_ok e
  | CReturn => true
  end
with ok_cmds (lim : limits) (e : list encl) (cs : cmds) : bool :=
  match cs with
  | CNil => true
  | CCons c cs => ok_cmd lim e c && ok_cmds lim e cs
  end
with ok_rest (lim : limits) (e : list encl) (r : rest) : bool :=
  match r with
  | RNone => true
  | RElse b k => Nat.ltb (length e) (l_blocks lim) && ok_cmds lim (EPlain :: e) b && plain_opt k
  | RElsIf t b k r =>
      tleaves t && Nat.leb (tdepth t) (l_tests lim) && Nat.ltb (length e) (l_blocks lim) &&
      ok_cmds lim (EPlain :: e) b && plain_opt k && ok_rest lim e r
  end.
Definition ok_prog (lim : limits) (p : prog) : bool := ok_cmds lim [] (p_cmds p).

(** *** Meaning *)

(** The value of a test, given the values of its leaves. *)
Fixpoint truth (v : instruction -> bool) (t : tree) : bool :=
  match t with
  | TConst b => b
  | TLeaf i => v i
  | TNot t => negb (truth v t)
  | TAny ts => any_true v ts
  | TAll ts => all_true v ts
  end
with any_true (v : instruction -> bool) (ts : trees) : bool :=
  match ts with TOne t => truth v t | TMore t ts => truth v t || any_true v ts end
with all_true (v : instruction -> bool) (ts : trees) : bool :=
  match ts with TOne t => truth v t | TMore t ts => truth v t && all_true v ts end.

(** What is left to do. *)
Inductive task :=
| KSeq (cs : cmds)
| KDo (i : instruction)
| KRest (r : rest)                          (* the tests before it were false *)
| KFor (l : option text) (ids : list nat) (saved : nat) (b : cmds) (k : option instruction)
                                            (* parts still to visit; the part before the loop *)
| KLoop (e : list instr) (b : cmds) (k : option instruction)
| KLeave.                                   (* the end of an included script *)
Inductive kont :=
| Run_ (ts : list task)
| Test_ (neg : bool) (t : tree) (yes no : kont)  (* decide a test, or its negation *)
| Halt.

Definition do_opt (k : option instruction) : list task := match k with Some i => [KDo i] | None => [] end.
Definition block (b : cmds) (k : option instruction) (ts : list task) : list task := KSeq b :: do_opt k ++ ts.

(** Leave loops up to the one named [n]: what is left and the part to go back to. *)
Fixpoint leave_named (n : text) (ts : list task) : option (list task * nat) :=
  match ts with
  | [] => None
  | KFor l _ saved _ _ :: ts' => if label_eqb l n then Some (ts', saved) else leave_named n ts'
  | KLeave :: _ => None
  | _ :: ts' => leave_named n ts'
  end.
(** Leave the innermost loop; only a foreverypart changes the current part. *)
Fixpoint leave_loop (ts : list task) : option (list task * option nat) :=
  match ts with
  | [] => None
  | KFor _ _ saved _ _ :: ts' => Some (ts', Some saved)
  | KLoop _ _ _ :: ts' => Some (ts', None)
  | KLeave :: _ => None
  | _ :: ts' => leave_loop ts'
  end.
(** Back to the head of the innermost while. *)
Fixpoint restart (ts : list task) : option (list task) :=
  match ts with
  | [] => None
  | KLoop e b k :: ts' => Some (KLoop e b k :: ts')
  | KLeave :: _ => None
  | _ :: ts' => restart ts'
  end.
(** The part before the outermost loop of the script, if any. *)
Fixpoint first_part (ts : list task) : option nat :=
  match ts with
  | [] => None
  | KFor _ _ saved _ _ :: ts' => match first_part ts' with Some p => Some p | None => Some saved end
  | KLeave :: _ => None
  | _ :: ts' => first_part ts'
  end.
(** What is left to do after the script. *)
Fixpoint after (ts : list task) : list task :=
  match ts with
  | [] => []
  | KLeave :: ts' => ts'
  | _ :: ts' => after ts'
  end.
Definition in_for (ts : list task) : bool :=
  existsb (fun t => match t with KFor _ _ _ _ _ => true | _ => false end) ts.
Fixpoint in_loop (k : kont) : bool :=
  match k with Run_ ts => in_for ts | Test_ _ _ yes _ => in_loop yes | Halt => false end.
Definition go_part (p : option nat) (s : rst) : rst := match p with Some p => w_part p s | None => s end.

(** Two states with the same contents: they may differ in the position, in the
    bookkeeping of part iterators, and in the number of executed instructions. *)
Definition strip (s : rst) : rst := w_pos 0 (w_iter [] (w_iters [] (w_instrs 0 s))).
Definition same (s s' : rst) : Prop := strip s = strip s'.
(** The state an instruction of [k] is executed in: of the bookkeeping of part
    iterators it tells whether there are loops around it. *)
Definition sees (k : kont) (s x : rst) : Prop :=
  same s x /\ (r_iters x = [] <-> in_loop k = false).

(** What is left to do when a script begins: the check of what it requires and its
    commands. *)
Definition tasks (p : prog) : list task :=
  match p_require p with [] => [] | caps => [KDo (IxRequire caps)] end ++ [KSeq (p_cmds p)].
Definition begin (p : prog) : kont := Run_ (tasks p).

Section Meaning.
  Variable E : renv.
  (** The programs of the scripts that may be included. *)
  Variable Progs : sieve -> prog -> Prop.

  (** Scripts with more variables than the interpreter admits are dropped. *)
  Definition admitted (x : sieve) : Prop := s_match_vars x <= 63 /\ s_vars x <= 256.
  (** The host answers, with anything but a script, until no event is queued. *)
  Definition no_script (inp : input) : Prop := match inp with InScript _ x => ~ admitted x | _ => True end.
  Inductive settles : rst -> rst -> Prop :=
  | settles_now s : r_queue s = [] -> settles s s
  | settles_more s e q inp s' : r_queue s = e :: q -> no_script inp ->
      settles (feed inp (w_queue q s)) s' -> settles s s'.

  (** An expression that asks the host for the value of a function is resumed. *)
  Definition asks_function (e : event) : bool := match e with EFunction _ _ => true | _ => false end.
  (** Instruction [i], executed in [s]; [fin]: is it complete?  It does not enter another
      script. *)
  Inductive does (i : instruction) (s : rst) : bool -> rst -> Prop :=
  | does_silent s' : exec_instr E i s = SCont s' -> length (r_stack s') <= length (r_stack s) -> does i s true s'
  | does_event s1 e inp s' : exec_instr E i s = SYield s1 (OEvent e) -> no_script inp ->
      settles (feed inp s1) s' -> does i s (negb (asks_function e)) s'.
  (** It enters the script [y], which is known already or is what the host answers. *)
  Inductive enters (i : instruction) (s : rst) (y : sieve) : rst -> Prop :=
  | enters_known : is_include i = true -> exec_instr E i s = SCont (push_frame y s) -> enters i s y (push_frame y s)
  | enters_given n o s1 m s' : is_include i = true -> exec_instr E i s = SYield s1 (OEvent (EInclude n o)) -> admitted y ->
      settles (feed (InScript m y) s1) s' -> enters i s y s'.
  (** It ends the script, or fails, or waits for an answer of the host that is not
      given. *)
  Definition halts (i : instruction) (s : rst) : Prop :=
    match exec_instr E i s with SCont _ => False | _ => True end.

  (** The instruction to be executed next, if that is decided, and what is left
      after it, given the outcome of a test. *)
  Definition head (k : kont) : option (instruction * (bool -> kont)) :=
    match k with
    | Run_ (KSeq (CCons (CAct i) cs) :: ts) => Some (i, fun _ => Run_ (KSeq cs :: ts))
    | Run_ (KDo i :: ts) => Some (i, fun _ => Run_ ts)
    | Test_ n (TLeaf i) yes no =>
        Some (if n then set_not i else i, fun b => if xorb b n then yes else no)
    | Test_ n (TConst b) yes no =>
        Some (IxTest (if xorb b n then TeTrue else TeFalse), fun b => if xorb b n then yes else no)
    | _ => None
    end.

  (** One step of a script, with the instruction it executes, if any. *)
  Inductive src : kont * rst -> list entry -> kont * rst -> Prop :=
  (* instructions *)
  | src_do k i next s x s' : head k = Some (i, next) -> sees k s x ->
      does i x true s' -> src (k, s) [(i, x)] (next (r_test s'), s')
  | src_wait k i next s x s' : head k = Some (i, next) -> sees k s x ->
      does i x false s' -> src (k, s) [(i, x)] (k, s')
  | src_halt k i next s x : head k = Some (i, next) -> sees k s x ->
      halts i x -> src (k, s) [(i, x)] (Halt, x)
  (* an included script is carried out, and left at its end *)
  | src_enter k i next s x y p ts s' : head k = Some (i, next) -> sees k s x ->
      enters i x y s' -> Progs y p -> next true = Run_ ts ->
      src (k, s) [(i, x)] (Run_ (tasks p ++ KLeave :: ts), s')
  | src_leave ts s s1 s' : pop_frame s = SCont s1 -> same s1 s' -> src (Run_ (KLeave :: ts), s) [] (Run_ ts, s')
  (* sequences *)
  | src_end ts s s' : same s s' -> src (Run_ (KSeq CNil :: ts), s) [] (Run_ ts, s')
  | src_quiet cs ts s s' : same s s' -> src (Run_ (KSeq (CCons CQuiet cs) :: ts), s) [] (Run_ (KSeq cs :: ts), s')
  (* conditionals: tests from left to right, and only as many as needed *)
  | src_if t b k r cs ts s s' : same s s' ->
      src (Run_ (KSeq (CCons (CIf t b k r) cs) :: ts), s) []
          (Test_ false t (Run_ (block b k (KSeq cs :: ts))) (Run_ (KRest r :: KSeq cs :: ts)), s')
  | src_none ts s s' : same s s' -> src (Run_ (KRest RNone :: ts), s) [] (Run_ ts, s')
  | src_else b k ts s s' : same s s' -> src (Run_ (KRest (RElse b k) :: ts), s) [] (Run_ (block b k ts), s')
  | src_elsif t b k r ts s s' : same s s' ->
      src (Run_ (KRest (RElsIf t b k r) :: ts), s) []
          (Test_ false t (Run_ (block b k ts)) (Run_ (KRest r :: ts)), s')
  | src_not n t yes no s s' : same s s' -> src (Test_ n (TNot t) yes no, s) [] (Test_ (negb n) t no yes, s')
  | src_any1 n t yes no s s' : same s s' -> src (Test_ n (TAny (TOne t)) yes no, s) [] (Test_ n t yes no, s')
  | src_any n t ts yes no s s' : same s s' ->
      src (Test_ n (TAny (TMore t ts)) yes no, s) [] (Test_ n t yes (Test_ n (TAny ts) yes no), s')
  | src_all1 n t yes no s s' : same s s' -> src (Test_ n (TAll (TOne t)) yes no, s) [] (Test_ n t yes no, s')
  | src_all n t ts yes no s s' : same s s' ->
      src (Test_ n (TAll (TMore t ts)) yes no, s) [] (Test_ n t (Test_ n (TAll ts) yes no) no, s')
  (* a vacation action replies only if its test says so *)
  | src_vacation t v cs ts s s' : same s s' ->
      src (Run_ (KSeq (CCons (CVacation t v) cs) :: ts), s) []
          (Test_ false (TLeaf (IxTest t)) (Run_ (KDo v :: KSeq cs :: ts)) (Run_ (KSeq cs :: ts)), s')
  (* foreverypart: the parts below the current one, each once *)
  | src_for l b k cs ts s s' ids : same s s' ->
      nested_ids (parts s) (r_part s) (negb (in_for ts)) = Some ids ->
      src (Run_ (KSeq (CCons (CFor l b k) cs) :: ts), s) [] (Run_ (KFor l ids (r_part s) b k :: KSeq cs :: ts), s')
  | src_for_panic l b k cs ts s s' : same s s' ->
      nested_ids (parts s) (r_part s) (negb (in_for ts)) = None ->
      src (Run_ (KSeq (CCons (CFor l b k) cs) :: ts), s) [] (Halt, s')
  | src_next l id ids saved b k ts s s' : same (w_part id s) s' ->
      src (Run_ (KFor l (id :: ids) saved b k :: ts), s) [] (Run_ (block b k (KFor l ids saved b k :: ts)), s')
  | src_last l saved b k ts s s' : same (w_part saved s) s' ->
      src (Run_ (KFor l [] saved b k :: ts), s) [] (Run_ ts, s')
  (* while *)
  | src_while e b k cs ts s s' : same s s' ->
      src (Run_ (KSeq (CCons (CWhile e b k) cs) :: ts), s) [] (Run_ (KLoop e b k :: KSeq cs :: ts), s')
  | src_loop e b k ts s x v s' : sees (Run_ ts) s x ->
      eval_expression (E_L E) false (E_fns E x) (vw E x) e (r_epos x) (r_estack x) = EDone v ->
      same (w_estack [] (w_epos 0 x)) s' ->
      src (Run_ (KLoop e b k :: ts), s) []
          (Run_ (if to_bool v then block b k (KLoop e b k :: ts) else ts), s')
  | src_loop_halt e b k ts s x p : sees (Run_ ts) s x -> halts (IxWhile e p) x ->
      src (Run_ (KLoop e b k :: ts), s) [] (Halt, x)
  | src_loop_wait e b k ts s x p s' : sees (Run_ ts) s x -> does (IxWhile e p) x false s' ->
      src (Run_ (KLoop e b k :: ts), s) [] (Run_ (KLoop e b k :: ts), s')
  (* leaving loops *)
  | src_break_named n cs ts ts' p s s' : leave_named n ts = Some (ts', p) -> same (w_part p s) s' ->
      src (Run_ (KSeq (CCons (CBreak (Some n)) cs) :: ts), s) [] (Run_ ts', s')
  | src_break cs ts ts' p s s' : leave_loop ts = Some (ts', p) -> same (go_part p s) s' ->
      src (Run_ (KSeq (CCons (CBreak None) cs) :: ts), s) [] (Run_ ts', s')
  | src_continue cs ts ts' s s' : restart ts = Some ts' -> same s s' ->
      src (Run_ (KSeq (CCons CContinue cs) :: ts), s) [] (Run_ ts', s')
  (* return *)
  | src_return cs ts s s' : same (go_part (first_part ts) s) s' ->
      src (Run_ (KSeq (CCons CReturn cs) :: ts), s) [] (Run_ (KDo IxReturn :: after ts), s')
  (* nothing happens *)
  | src_idle k s s' : same s s' -> src (k, s) [] (k, s').

  Inductive srcs : kont * rst -> list entry -> kont * rst -> Prop :=
  | srcs_nil x : srcs x [] x
  | srcs_cons x y z tr tr' : src x tr y -> srcs y tr' z -> srcs x (tr ++ tr') z.

  (** A host answers with a script, one whose program is known, only when it has been
      asked for one; [last] is what the interpreter said last. *)
  Definition answers (last : option out) (inp : input) : Prop :=
    no_script inp \/
    exists n y p m o, inp = InScript n y /\ admitted y /\ Progs y p /\ last = Some (OEvent (EInclude m o)).
  Fixpoint fitting (last : option out) (inputs : list input) (s : rst) : Prop :=
    match inputs with
    | [] => True
    | inp :: inputs =>
        answers last inp /\ match run E inp s with RRet s' o => fitting o inputs s' | _ => True end
    end.
  (** Its answers once script [x] has been started. *)
  Definition host_fits (n : script_name) (x : sieve) (inputs : list input) (s : rst) : Prop :=
    match run E (InScript n x) s with RRet s' o => fitting o inputs s' | _ => True end.
  (** If a script includes another, the registered scripts have known programs. *)
  Definition scripts_known (x : sieve) : Prop :=
    (exists i, In i (s_code x) /\ is_include i = true) -> forall t y, E_scripts E t = Some y -> exists p, Progs y p.
End Meaning.

(** The commands among the executed instructions. *)
Definition visible (l : list entry) : list entry := filter (fun x => negb (is_control (fst x))) l.

(** *** Layout of the code *)

Fixpoint tsize (t : tree) : nat :=
  match t with
  | TConst _ | TLeaf _ => 1
  | TNot t => tsize t
  | TAny ts | TAll ts => tsizes ts
  end
with tsizes (ts : trees) : nat :=
  match ts with
  | TOne t => tsize t
  | TMore t ts => tsize t + 1 + tsizes ts
  end.
Definition ksize (k : option instruction) : nat := match k with Some _ => 1 | None => 0 end.
Definition kcode (k : option instruction) : list instruction := match k with Some i => [i] | None => [] end.

(** Test [t], or its negation, at position [p].  In an anyof or allof every test but
    the last is followed by a jump to the end of the group. *)
Fixpoint gtree (p : nat) (neg : bool) (t : tree) : list instruction :=
  match t with
  | TConst b => [IxTest (if xorb b neg then TeTrue else TeFalse)]
  | TLeaf i => [if neg then set_not i else i]
  | TNot t => gtree p (negb neg) t
  | TAny ts => gtrees p (p + tsizes ts) neg neg ts
  | TAll ts => gtrees p (p + tsizes ts) (negb neg) neg ts
  end
with gtrees (p q : nat) (all neg : bool) (ts : trees) : list instruction :=
  match ts with
  | TOne t => gtree p neg t
  | TMore t ts => gtree p neg t ++ [if all then IxJz q else IxJnz q] ++ gtrees (p + tsize t + 1) q all neg ts
  end.

(** An enclosing loop: where it starts and where it is left to. *)
Record loop_at := { lp_for : bool; lp_label : option text; lp_start : nat; lp_exit : nat }.
Fixpoint named_loop (n : text) (pops : nat) (env : list loop_at) : option (nat * nat) :=
  match env with
  | [] => None
  | l :: env' =>
      if lp_for l then
        if label_eqb (lp_label l) n then Some (pops + 1, lp_exit l) else named_loop n (pops + 1) env'
      else named_loop n pops env'
  end.

Fixpoint csize (fs : list bool) (c : cmd) : nat :=
  match c with
  | CAct _ => 1
  | CQuiet => 0
  | CVacation _ _ => 3
  | CIf t b k r => tsize t + 1 + ssize fs b + ksize k + rsize fs r
  | CFor _ b k => 2 + ssize (true :: fs) b + ksize k + 1
  | CWhile _ b k => 1 + ssize (false :: fs) b + ksize k + 1
  | CBreak (Some _) => 2
  | CBreak None => match fs with true :: _ => 2 | _ => 1 end
  | CContinue => 1
  | CReturn => if existsb (fun x => x) fs then 2 else 1
  end
with ssize (fs : list bool) (cs : cmds) : nat :=
  match cs with
  | CNil => 0
  | CCons c cs => csize fs c + ssize fs cs
  end
with rsize (fs : list bool) (r : rest) : nat :=
  match r with
  | RNone => 0
  | RElse b k => 1 + ssize fs b + ksize k
  | RElsIf t b k r => 1 + tsize t + 1 + ssize fs b + ksize k + rsize fs r
  end.
Definition fors (env : list loop_at) : list bool := map lp_for env.

(** Command [c] at position [p].  [y] is where the branches of a conditional meet. *)
Fixpoint gcmd (p : nat) (env : list loop_at) (c : cmd) : list instruction :=
  match c with
  | CAct i => [i]
  | CQuiet => []
  | CVacation t v => [IxTest t; IxJz (p + 3); v]
  | CIf t b k r =>
      let q := p + tsize t + 1 in
      let q2 := q + ssize (fors env) b + ksize k in
      gtree p false t ++ [IxJz (match r with RNone => q2 | _ => q2 + 1 end)] ++
      gcmds q env b ++ kcode k ++ grest q2 (q2 + rsize (fors env) r) env r
  | CFor l b k =>
      let q := p + 2 + ssize (true :: fors env) b + ksize k + 1 in
      IxForEveryPartPush :: IxForEveryPart q ::
      gcmds (p + 2) ({| lp_for := true; lp_label := l; lp_start := p + 1; lp_exit := q |} :: env) b ++
      kcode k ++ [IxJmp (p + 1)]
  | CWhile e b k =>
      let q := p + 1 + ssize (false :: fors env) b + ksize k + 1 in
      IxWhile e q ::
      gcmds (p + 1) ({| lp_for := false; lp_label := None; lp_start := p; lp_exit := q |} :: env) b ++
      kcode k ++ [IxJmp p]
  | CBreak (Some n) =>
      match named_loop n 0 env with Some (pops, q) => [IxForEveryPartPop pops; IxJmp q] | None => [] end
  | CBreak None =>
      match env with
      | l :: _ => (if lp_for l then [IxForEveryPartPop 1] else []) ++ [IxJmp (lp_exit l)]
      | [] => []
      end
  | CContinue => match env with l :: _ => [IxJmp (lp_start l)] | [] => [] end
  | CReturn =>
      (match length (filter lp_for env) with 0 => [] | n => [IxForEveryPartPop n] end) ++ [IxReturn]
  end
with gcmds (p : nat) (env : list loop_at) (cs : cmds) : list instruction :=
  match cs with
  | CNil => []
  | CCons c cs => gcmd p env c ++ gcmds (p + csize (fors env) c) env cs
  end
with grest (p y : nat) (env : list loop_at) (r : rest) : list instruction :=
  match r with
  | RNone => []
  | RElse b k => IxJmp y :: gcmds (p + 1) env b ++ kcode k
  | RElsIf t b k r =>
      let q := p + 1 + tsize t + 1 in
      let q2 := q + ssize (fors env) b + ksize k in
      IxJmp y :: gtree (p + 1) false t ++ [IxJz (match r with RNone => q2 | _ => q2 + 1 end)] ++
      gcmds q env b ++ kcode k ++ grest q2 y env r
  end.
Definition gprog (p : prog) : list instruction :=
  match p_require p with [] => [] | caps => [IxRequire caps] end ++
  gcmds (match p_require p with [] => 0 | _ => 1 end) [] (p_cmds p).

(** How the log of a script ends: with an instruction after which nothing follows,
    at the end of the script, or because the budget is used up. *)
Definition over (E : renv) (k : kont) (log : list entry) : Prop :=
  (k = Halt /\ exists l i x, log = l ++ [(i, x)] /\ halts E i x) \/
  k = Run_ [] \/
  E_cpu E <= length log.

(** *** Depth of nesting *)

(** How deep blocks nest. *)
Fixpoint bdepth (c : cmd) : nat :=
  match c with
  | CIf _ b _ r => Nat.max (S (bdepths b)) (bdepth_rest r)
  | CFor _ b _ | CWhile _ b _ => S (bdepths b)
  | _ => 0
  end
with bdepths (cs : cmds) : nat :=
  match cs with CNil => 0 | CCons c cs => Nat.max (bdepth c) (bdepths cs) end
with bdepth_rest (r : rest) : nat :=
  match r with
  | RNone => 0
  | RElse b _ => S (bdepths b)
  | RElsIf _ b _ r => Nat.max (S (bdepths b)) (bdepth_rest r)
  end.
(** How deep anyof and allof nest in the tests of a script. *)
Fixpoint test_depth (c : cmd) : nat :=
  match c with
  | CIf t b _ r => Nat.max (tdepth t) (Nat.max (test_depths b) (test_depth_rest r))
  | CFor _ b _ | CWhile _ b _ => test_depths b
  | _ => 0
  end
with test_depths (cs : cmds) : nat :=
  match cs with CNil => 0 | CCons c cs => Nat.max (test_depth c) (test_depths cs) end
with test_depth_rest (r : rest) : nat :=
  match r with
  | RNone => 0
  | RElse b _ => test_depths b
  | RElsIf t b _ r => Nat.max (tdepth t) (Nat.max (test_depths b) (test_depth_rest r))
  end.
(** How deep foreverypart loops nest. *)
Fixpoint fdepth (c : cmd) : nat :=
  match c with
  | CIf _ b _ r => Nat.max (fdepths b) (fdepth_rest r)
  | CFor _ b _ => S (fdepths b)
  | CWhile _ b _ => fdepths b
  | _ => 0
  end
with fdepths (cs : cmds) : nat :=
  match cs with CNil => 0 | CCons c cs => Nat.max (fdepth c) (fdepths cs) end
with fdepth_rest (r : rest) : nat :=
  match r with
  | RNone => 0
  | RElse b _ => fdepths b
  | RElsIf _ b _ r => Nat.max (fdepths b) (fdepth_rest r)
  end.
Definition is_include_token (t : token) : bool := match t with KInclude _ => true | _ => false end.

(** *** What the argument parsers put into a token *)

Definition harmless (i : instruction) : Prop := targets i = [] /\ is_vacation i = false.
(** Only a vacation command yields a vacation instruction, and it comes with its
    test; no argument parser makes a jump. *)
Definition token_ok (t : token) : Prop :=
  match t with
  | KAct i | KInclude i | KLeaf i | KClose (Some i) => harmless i
  | KVacation t v => is_vacation_test (IxTest t) = true /\ targets v = []
  | _ => True
  end.
(** A script that came out of the compiler. *)
Definition compiled (umax : nat) (lim : limits) (x : sieve) : Prop :=
  exists r, Forall token_ok r /\ compile umax lim r = Some (s_code x).
