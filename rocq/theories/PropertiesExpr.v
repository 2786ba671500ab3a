(** Properties of expressions (C20-C23). *)
From Verif Require Import Base Lib Var Value ValueSpec Expr ExprSpec ExprProofs ExprTok ExprTokSpec ExprTokProofs.

(** *** C20 *)

(** Every way of writing a tree according to the precedence grammar, with the
    parentheses it needs or more, is accepted, and the code produced converses
    with the host exactly as the tree does: same calls, same arguments, same
    outcome. *)
Theorem C20_precedence :
  forall p ts e, expr p ts e ->
  exists code, parse ts = Parsed code /\
  forall L fns ctx answers,
    converse L false fns ctx answers code 0 [] = let '(calls, o, _) := eval L fns ctx e answers in (calls, o).
Proof.
  exact (fun p ts e H => ex_intro _ (comp e) (conj (parse_compiles p ts e H)
    (fun L fns ctx answers => conv_comp L false fns ctx e answers))).
Qed.
Print Assumptions C20_precedence.

(** Every tree, of any depth, can be written (see [writable]). *)
Theorem C20_every_tree :
  forall e, writable e ->
  expr 1 (write 1 e) e /\
  exists code, parse (write 1 e) = Parsed code /\
  forall L fns ctx answers,
    converse L false fns ctx answers code 0 [] = let '(calls, o, _) := eval L fns ctx e answers in (calls, o).
Proof.
  exact (fun e W => let X := write_ok e W 1 (conj (le_n 1) (le_S_n _ _ (le_n_S _ _ (Nat.lt_0_succ 8)))) in
    conj X (C20_precedence 1 _ e X)).
Qed.
Print Assumptions C20_every_tree.

(** The same from the text of the expression. *)
Theorem C20_text :
  forall L tm s p ts e, spells L tm true ts s -> expr p ts e ->
  exists code, compile_text L tm s = Parsed code /\
  forall fns ctx answers,
    converse L false fns ctx answers code 0 [] = let '(calls, o, _) := eval L fns ctx e answers in (calls, o).
Proof.
  intros L tm s p ts e S X. exists (comp e). split.
  - unfold compile_text. rewrite (tokenize_spells L tm ts s p e S X). exact (parse_compiles p ts e X).
  - intros. apply conv_comp.
Qed.
Print Assumptions C20_text.

(** Two readings of the same tokens always have the same calls and outcome. *)
Theorem C20_unambiguous :
  forall p q ts e e', expr p ts e -> expr q ts e' ->
  forall L fns ctx answers, fst (eval L fns ctx e answers) = fst (eval L fns ctx e' answers).
Proof.
  intros p q ts e e' X X' L fns ctx answers.
  pose proof (parse_compiles p ts e X) as P. rewrite (parse_compiles q ts e' X') in P. injection P as P.
  pose proof (conv_comp L false fns ctx e answers) as C. rewrite <- P, (conv_comp L false fns ctx e' answers) in C.
  destruct (eval L fns ctx e answers) as [[? ?] ?], (eval L fns ctx e' answers) as [[? ?] ?]. simpl. symmetry. exact C.
Qed.
Print Assumptions C20_unambiguous.

(** [1 + 2 * 3 - a / 2 >= 4 && !(a == 1 || a == 2)] *)
Definition va : vartype := TLocal 0.
Definition sample_tm (w : text) (_ : bool) : option token :=
  if teqb w (lit "a") then Some (TVar va)
  else if teqb w (lit "f") then Some (TFun 7 2)
  else if teqb w (lit "g") then Some (TFun id_external 1)
  else if teqb w (lit "h") then Some (TFun (id_external - 1)%N 0) else None.
Definition num (z : Z) : ast := EConst (VInt z).
Definition sample_tree : ast :=
  EBin BAnd
    (EBin BGe (EBin BSub (EBin BAdd (num 1) (EBin BMul (num 2) (num 3))) (EBin BDiv (EVar va) (num 2))) (num 4))
    (EUn UNot (EBin BOr (EBin BEq (EVar va) (num 1)) (EBin BEq (EVar va) (num 2)))).
Definition sample_text := lit "1 + 2*3 - a/2 >= 4 && !(a == 1||a ==2)".
Definition code_of (p : parsed) : list instr := match p with Parsed c => c | _ => [] end.
Example C20_sample_writable : writable sample_tree. Proof. simpl. tauto. Qed.
Example C20_sample_text : tokenize ascii_lib sample_tm sample_text = Some (write 1 sample_tree).
Proof. vm_compute. reflexivity. Qed.
Lemma wi z w : w <> [] -> forallb is_digit_ascii w = true -> parse_i64 w = Some z -> word ascii_lib sample_tm (TNum (NInt z)) w.
Proof. intros A B C. apply w_int; [exact A| |exact C]. apply Forall_forall. intros c I. rewrite forallb_forall in B. exact (B c I). Qed.
Lemma wa : word ascii_lib sample_tm (TVar va) (lit "a").
Proof.
  apply w_name; try discriminate; try reflexivity.
  - repeat split; try discriminate. + constructor; [left; reflexivity|constructor].
    + intros p E. destruct p as [|x [|y p]]; discriminate E.
  - exists 97%N. split; [left; reflexivity|left; reflexivity].
  - left. exists va. reflexivity.
Qed.
(** The hypothesis of [C20_text] on a short text, [1+a*2]. *)
Example C20_spells : spells ascii_lib sample_tm true (write 1 (EBin BAdd (num 1) (EBin BMul (EVar va) (num 2)))) (lit "1+ a*2").
Proof.
  assert (NW : forall c, ~ word_char c -> forall (d : ch) s s', c :: s = d :: s' -> ~ word_char d) by (intros c W d s s' E; injection E as <- _; exact W).
  assert (W43 : ~ word_char 43%N) by (intros [H|[H|H]]; discriminate H).
  assert (W42 : ~ word_char 42%N) by (intros [H|[H|H]]; discriminate H).
  apply (s_word _ _ true (TNum (NInt 1)) (lit "1") _ (lit "+ a*2")); [apply wi; (discriminate || reflexivity)|intros c s' E; exact (NW _ W43 _ _ _ E)|].
  apply (s_symbol _ _ false (TBin BAdd) (lit "+") _ (lit " a*2")); [constructor|discriminate|discriminate|intros [H|[H|H]]; discriminate H|].
  apply s_blank; [left; reflexivity|].
  apply (s_word _ _ true (TVar va) (lit "a") _ (lit "*2")); [exact wa|intros c s' E; exact (NW _ W42 _ _ _ E)|].
  apply (s_symbol _ _ false (TBin BMul) (lit "*") _ (lit "2")); [constructor|discriminate|discriminate|intros [H|[H|H]]; discriminate H|].
  apply (s_word _ _ true (TNum (NInt 2)) (lit "2") _ []); [apply wi; (discriminate || reflexivity)|intros c s' E; discriminate E|].
  constructor.
Qed.

Definition ctx0 (a : var) : vctx :=
  {| c_local := [a]; c_match := []; c_global := []; c_env := []; c_rtenv := []; c_envelope := []; c_message := fun _ => None |}.
Definition no_fns (_ : N) : option (list var -> var) := None.
Example C20_sample_value :
  converse ascii_lib false no_fns (ctx0 (VInt 4)) [] (code_of (compile_text ascii_lib sample_tm sample_text)) 0 [] = ([], OVal (VInt 1)).
Proof. vm_compute. reflexivity. Qed.
(** Left associativity: [8-4-2] is 2, and [8-(4-2)] is 6. *)
Example C20_assoc :
  converse ascii_lib false no_fns (ctx0 (VInt 4)) [] (code_of (compile_text ascii_lib sample_tm (lit "8-4-2"))) 0 [] = ([], OVal (VInt 2)) /\
  converse ascii_lib false no_fns (ctx0 (VInt 4)) [] (code_of (compile_text ascii_lib sample_tm (lit "8-(4-2)"))) 0 [] = ([], OVal (VInt 6)).
Proof. split; vm_compute; reflexivity. Qed.

(** What the grammar leaves out is not accepted, or means something else. *)

(** An array element that starts with a parenthesis or a unary operator is not
    counted, and the array is rejected. *)
Theorem C20_array_elements_refuted :
  exists ts e, expr 1 ts e /\ parse (TOpenB :: ts ++ [TCloseB]) = Rejected.
Proof.
  exists [TOpen; TNum (NInt 1); TClose], (num 1). split; [|vm_compute; reflexivity].
  apply (x_up 1 9); [lia|]. apply (x_paren [TNum (NInt 1)]). apply (x_up 1 9); [lia|]. exact (x_num (NInt 1)).
Qed.
Print Assumptions C20_array_elements_refuted.
(** A minus sign after a bracket or after [!] is taken for the binary operator:
    [!-1] is read as a subtraction, [[-1]] is the empty array. *)
Theorem C20_unary_minus_refuted :
  tokenize ascii_lib sample_tm (lit "!-1") = Some [TUn UNot; TBin BSub; TNum (NInt 1)] /\
  converse ascii_lib false no_fns (ctx0 (VInt 4)) [] (code_of (compile_text ascii_lib sample_tm (lit "!-0"))) 0 [] = ([], OVal (VInt 1)) /\
  converse ascii_lib false no_fns (ctx0 (VInt 4)) [] (code_of (compile_text ascii_lib sample_tm (lit "[-1]"))) 0 [] = ([], OVal (VArr [])).
Proof. repeat split; vm_compute; reflexivity. Qed.
Print Assumptions C20_unary_minus_refuted.
(** A single equals sign swallows the character after it. *)
Theorem C20_single_equals_refuted :
  tokenize ascii_lib sample_tm (lit "a=12") = Some [TVar va; TBin BEq; TNum (NInt 2)].
Proof. vm_compute. reflexivity. Qed.
Print Assumptions C20_single_equals_refuted.
(** Not everything accepted is an expression: two operands in a row are. *)
Theorem C20_only_expressions_refuted :
  exists ts code, parse ts = Parsed code /\ forall p e, ~ expr p ts e.
Proof.
  exists [TNum (NInt 1); TNum (NInt 2)], [IConst (VInt 1); IConst (VInt 2)]. split; [vm_compute; reflexivity|].
  intros p e X. pose proof (parse_compiles p _ e X) as P.
  assert (Q : parse [TNum (NInt 1); TNum (NInt 2)] = Parsed [IConst (VInt 1); IConst (VInt 2)]) by (vm_compute; reflexivity).
  rewrite Q in P. injection P as P. clear Q.
  pose proof (conv_comp ascii_lib true no_fns (ctx0 (VInt 0)) e []) as S.
  pose proof (conv_comp ascii_lib false no_fns (ctx0 (VInt 0)) e []) as C. rewrite <- S in C. rewrite <- P in C. vm_compute in C. discriminate C.
Qed.
Print Assumptions C20_only_expressions_refuted.

(** *** C21 *)

(** The code of [tl && tr] first does exactly what the code of [tl] does; if that
    ends in a false value (or does not end in a value), nothing else happens; if
    it ends in a true value, the code of [tr] runs next with the answers left.
    [||] likewise. *)
Definition short (b : binop) : option bool :=
  match b with BAnd => Some false | BOr => Some true | _ => None end.
Theorem C21_short_circuit :
  forall b stop tl l tr r, short b = Some stop ->
  expr (level b) tl l -> expr (level b + 1) tr r ->
  exists cl cr c, parse tl = Parsed cl /\ parse tr = Parsed cr /\ parse (tl ++ TBin b :: tr) = Parsed c /\
  forall L fns ctx answers calls o,
    converse L false fns ctx answers cl 0 [] = (calls, o) ->
    match o with
    | OVal v =>
        if Bool.eqb (to_bool v) stop then converse L false fns ctx answers c 0 [] = (calls, OVal v)
        else forall calls' o', converse L false fns ctx (skipn (length calls) answers) cr 0 [] = (calls', o') ->
             converse L false fns ctx answers c 0 [] =
             (calls ++ calls', match o' with OVal v' => OVal (bin_sem L b v v') | _ => o' end)
    | _ => converse L false fns ctx answers c 0 [] = (calls, o)
    end.
Proof.
  intros b stop tl l tr r SB XL XR. pose proof (x_binary b tl l tr r XL XR) as X. exists (comp l), (comp r), (comp (EBin b l r)).
  repeat split; [exact (parse_compiles _ _ _ XL)|exact (parse_compiles _ _ _ XR)|exact (parse_compiles _ _ _ X)|].
  intros L fns ctx answers calls o. rewrite !conv_comp. cbn [eval].
  pose proof (eval_rest L fns ctx l answers) as ER. destruct (eval L fns ctx l answers) as [[cl o1] a1] eqn:E1.
  intro H. injection H as -> ->.
  destruct o as [v| | |]; cbn [andthen]; try reflexivity.
  specialize (ER v eq_refl). cbn [fst snd] in ER. rewrite <- ER. clear ER.
  assert (D : (if Bool.eqb (to_bool v) stop then
             (match b, to_bool v with BAnd, false | BOr, true => ret v a1 | _, _ => andthen (eval L fns ctx r a1) (fun vr a' => ret (bin_sem L b v vr) a') end) = ret v a1
           else (match b, to_bool v with BAnd, false | BOr, true => ret v a1 | _, _ => andthen (eval L fns ctx r a1) (fun vr a' => ret (bin_sem L b v vr) a') end) = andthen (eval L fns ctx r a1) (fun vr a' => ret (bin_sem L b v vr) a'))).
  { destruct b; try discriminate SB; injection SB as <-; destruct (to_bool v); reflexivity. }
  destruct (Bool.eqb (to_bool v) stop).
  - rewrite D. simpl. rewrite app_nil_r. reflexivity.
  - intros calls' o'. rewrite D. destruct (eval L fns ctx r a1) as [[cr o2] a2].
    intro H. injection H as -> ->. destruct o' as [v'| | |]; simpl; rewrite ?app_nil_r; reflexivity.
Qed.
Print Assumptions C21_short_circuit.
(** The value of a short-circuited operand is not normalised: [5 || x] is 5, but
    [0 || 5] is 1. *)
Theorem C21_boolean_result_refuted :
  converse ascii_lib false no_fns (ctx0 (VInt 0)) [] (code_of (compile_text ascii_lib sample_tm (lit "5||a"))) 0 [] = ([], OVal (VInt 5)) /\
  converse ascii_lib false no_fns (ctx0 (VInt 5)) [] (code_of (compile_text ascii_lib sample_tm (lit "0||a"))) 0 [] = ([], OVal (VInt 1)).
Proof. split; vm_compute; reflexivity. Qed.
Print Assumptions C21_boolean_result_refuted.
(** [0 && (1 || g(a)) || h()]: [g] is not called, [h] is. *)
Example C21_ex :
  converse ascii_lib false no_fns (ctx0 (VInt 5)) [VStr (lit "x")]
    (code_of (compile_text ascii_lib sample_tm (lit "0 && (1 || g(a)) || h()"))) 0 [] = ([(1%N, [])], OVal (VInt 1)) /\
  converse ascii_lib false no_fns (ctx0 (VInt 5)) [VInt 0; VStr (lit "x")]
    (code_of (compile_text ascii_lib sample_tm (lit "1 && (0 || g(a)) || h()"))) 0 [] = ([(0%N, [VInt 5]); (1%N, [])], OVal (VInt 1)).
Proof. split; vm_compute; reflexivity. Qed.

(** *** C22 *)

(** Any code, from any point: asking the host whenever a function is unknown, and
    going on with its answer, gives the result of linking the host's functions
    into the runtime and evaluating in one go. *)
Theorem C22_resume :
  forall L fns ctx h code pos st n, length code - pos < n ->
  ask_host L fns ctx h n code pos st =
  match eval_expression L false (linked fns h) ctx code pos st with EDone v => Some v | _ => None end.
Proof.
  intros L fns ctx h code pos st n H. rewrite (ask_linked L fns ctx h code (length code - pos) n pos st (le_n _) H).
  destruct (eval_expression L false (linked fns h) ctx code pos st); reflexivity.
Qed.
Print Assumptions C22_resume.
(** The sequence of calls and their arguments does not depend on how far the host
    has got: the calls made with some answers are a prefix of those made with
    more, and the outcome of a finished conversation does not change. *)
Theorem C22_calls_stable :
  forall L fns ctx answers more code pos st calls o,
  converse L false fns ctx answers code pos st = (calls, o) ->
  (o = OWait -> exists calls', fst (converse L false fns ctx (answers ++ more) code pos st) = calls ++ calls') /\
  (o <> OWait -> converse L false fns ctx (answers ++ more) code pos st = (calls, o)).
Proof.
  intros L fns ctx answers more code. induction answers as [|a answers IH]; intros pos st calls o H; simpl in H |- *.
  - split; intro D.
    + subst o. destruct (eval_expression L false fns ctx code pos st) eqn:E; try discriminate H.
      injection H as <-. destruct more as [|a more]; simpl; rewrite E.
      * exists []. reflexivity.
      * destruct (converse L false fns ctx more code pos0 (a :: stack)) as [cs o]. exists cs. reflexivity.
    + destruct more as [|a more]; simpl; destruct (eval_expression L false fns ctx code pos st) eqn:E; try exact H; injection H as <- <-; congruence.
  - destruct (eval_expression L false fns ctx code pos st) eqn:E; try (injection H as <- <-; split; [discriminate|reflexivity]).
    destruct (converse L false fns ctx answers code pos0 (a :: stack)) as [cs o'] eqn:C. injection H as <- <-.
    destruct (IH _ _ _ _ C) as [I1 I2]. split; intro D.
    + destruct (I1 D) as (c' & Q). exists c'. destruct (converse L false fns ctx (answers ++ more) code pos0 (a :: stack)). simpl in *. rewrite Q. reflexivity.
    + rewrite (I2 D). reflexivity.
Qed.
Print Assumptions C22_calls_stable.
(** For expressions: exactly the calls of evaluating the tree from left to
    right. *)
Theorem C22_calls :
  forall p ts e, expr p ts e -> exists code, parse ts = Parsed code /\
  forall L fns ctx answers,
    converse L false fns ctx answers code 0 [] = fst (eval L fns ctx e answers).
Proof.
  intros p ts e X. destruct (C20_precedence p ts e X) as (c & P & C). exists c. split; [exact P|].
  intros. rewrite C. destruct (eval L fns ctx e answers) as [[? ?] ?]. reflexivity.
Qed.
Print Assumptions C22_calls.
Example C22_ex : 
  let code := code_of (compile_text ascii_lib sample_tm (lit "g(g(1)) + g(2) * h()")) in
  let host := fun id args => match args with [VInt n] => VInt (n + 10) | _ => VInt 3 end in
  length code = 8 /\
  ask_host ascii_lib no_fns (ctx0 (VInt 0)) host 10 code 0 [] = Some (VInt 57) /\
  eval_expression ascii_lib false (linked no_fns host) (ctx0 (VInt 0)) code 0 [] = EDone (VInt 57) /\
  converse ascii_lib false no_fns (ctx0 (VInt 0)) [VInt 11; VInt 21; VInt 12; VInt 3] code 0 [] =
    ([(0, [VInt 1]); (0, [VInt 11]); (0, [VInt 2]); (1, [])]%N, OVal (VInt 57)).
Proof. repeat split; vm_compute; reflexivity. Qed.

(** *** C23 *)

(** Expressions: the machine that checks every pop does the same as the code, and
    never reports an empty stack or values left over.  Partial: for the token
    sequences of the grammar only. *)
Theorem C23_no_underflow_partial :
  forall p ts e, expr p ts e -> exists code, parse ts = Parsed code /\
  forall L fns ctx answers,
    converse L true fns ctx answers code 0 [] = converse L false fns ctx answers code 0 [] /\
    snd (converse L false fns ctx answers code 0 []) <> OStack.
Proof.
  intros p ts e X. exists (comp e). split; [exact (parse_compiles p ts e X)|].
  intros L fns ctx answers. rewrite !conv_comp. split; [reflexivity|].
  intro H. pose proof (conv_comp L false fns ctx e answers) as C. rewrite <- C in H. revert H. apply conv_not_stack.
Qed.
Print Assumptions C23_no_underflow_partial.
(** Every token sequence: the compiler does not panic, and the evaluation of what
    it accepts (of any code) comes to an end. *)
Theorem C23_total :
  (forall ts, parse ts <> ParsePanic) /\
  (forall L fns ctx code pos st, eval_expression L false fns ctx code pos st <> EFuel).
Proof.
  split; [exact parse_no_panic|]. intros L fns ctx code pos st. exact (exec_no_fuel L false fns ctx code _ pos st (le_n _)).
Qed.
Print Assumptions C23_total.
(** In general it is false: [+] alone is accepted, and pops an empty stack. *)
Theorem C23_no_underflow_refuted :
  exists ts code, parse ts = Parsed code /\
  forall L, converse L true no_fns (ctx0 (VInt 0)) [] code 0 [] = ([], OStack).
Proof. exists [TBin BAdd], [IBin BAdd]. split; [vm_compute; reflexivity|]. intro L. reflexivity. Qed.
Print Assumptions C23_no_underflow_refuted.
(** Values are left over after [1 2]. *)
Theorem C23_one_value_refuted :
  exists ts code, parse ts = Parsed code /\
  forall L, converse L true no_fns (ctx0 (VInt 0)) [] code 0 [] = ([], OStack) /\
            converse L false no_fns (ctx0 (VInt 0)) [] code 0 [] = ([], OVal (VInt 2)).
Proof. exists [TNum (NInt 1); TNum (NInt 2)], [IConst (VInt 1); IConst (VInt 2)]. split; [vm_compute; reflexivity|]. intro L. split; reflexivity. Qed.
Print Assumptions C23_one_value_refuted.
Example C23_ex : exists code, parse (write 1 sample_tree) = Parsed code /\ length code = 22.
Proof. eexists. split; vm_compute; reflexivity. Qed.
