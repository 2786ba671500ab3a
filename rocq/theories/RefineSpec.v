(** Specification of what a script says: which commands and tests its tokens are.  The
    arguments are those of ArgSpec.v. *)
From Verif Require Import Base Lib Address Var Value SetVar Flags Comparator Message EditHeader
  Expr ExprTok Event Notify AddrTest Vacation Sieve Utf8 Lexer Scope StringTok HeaderVar ParseBase Parse Compile CompileSpec GrammarSpec ArgSpec.
Import ListNotations.
Local Open Scope string_scope.
Local Open Scope list_scope.

(** *** Captured match variables *)

(** A test with the set [p] of the match variables that it captures, if it captures any *)
Definition capture_type (p : N) (m : mtype) : mtype :=
  match m with MMatches _ => MMatches p | MRegex _ => MRegex p | _ => m end.
Definition capture_test (p : N) (t : test) : test :=
  match t with
  | TeAddress a b c d e m f g => TeAddress a b c d e (capture_type p m) f g
  | TeBody a s b m c d => TeBody a s b (capture_type p m) c d
  | TeDate a b c d e f m g h => TeDate a b c d e f (capture_type p m) g h
  | TeCurrentDate a b c m d e => TeCurrentDate a b c (capture_type p m) d e
  | TeEnvelope a b c d m e f => TeEnvelope a b c d (capture_type p m) e f
  | TeHasFlag a b c m d => TeHasFlag a b c (capture_type p m) d
  | TeHeader a b c d e m f g => TeHeader a b c d e (capture_type p m) f g
  | TeMetadata a b m c d => TeMetadata a b (capture_type p m) c d
  | TeNotifyCapability a b c m d e => TeNotifyCapability a b c (capture_type p m) d e
  | TeSpam a b m c d => TeSpam a b (capture_type p m) c d
  | TeString a b m c d => TeString a b (capture_type p m) c d
  | TeEnvironment a b m c d => TeEnvironment a b (capture_type p m) c d
  | TeVirus a m b c => TeVirus a (capture_type p m) b c
  | _ => t
  end.
Definition capture (p : N) (i : instruction) : instruction :=
  match i with IxTest t => IxTest (capture_test p t) | _ => i end.

(** [:local] variables of blocks are numbered from the largest number downwards while the
    script is read.  If there are any when it ends, they get the numbers behind those of all
    other variables, the last of which is this. *)
Definition after_global (W : vst) : option nat := if Nat.ltb 0 (v_loc W) then Some (last_id W) else None.
(** An instruction with these final numbers *)
Definition moved (K : cenv) (o : option nat) (i : instruction) : instruction :=
  match o with Some n => map_instruction (map_var (C_umax K) n) i | None => i end.

(** Commands and tests that differ by [R] in the instructions they carry *)
Inductive tok_like (R : instruction -> instruction -> Prop) : token -> token -> Prop :=
| like_leaf i i' : R i i' -> tok_like R (KLeaf i) (KLeaf i')
| like_act i i' : R i i' -> tok_like R (KAct i) (KAct i')
| like_include i i' : R i i' -> tok_like R (KInclude i) (KInclude i')
| like_while e e' : R (IxWhile e 0) (IxWhile e' 0) -> tok_like R (KWhile e) (KWhile e')
| like_vacation t t' v v' : R (IxTest t) (IxTest t') -> R v v' -> tok_like R (KVacation t v) (KVacation t' v')
| like_same k : match k with KLeaf _ | KAct _ | KInclude _ | KWhile _ | KVacation _ _ => False | _ => True end -> tok_like R k k.

(** *** Reading *)

Section Reads.
  Variable K : cenv.

  (** A test with its arguments.  A word that does not name a test is an invalid
      test, with all that follows it up to the next comma, closing parenthesis or
      brace that does not belong to it.  The variables declared are [V] before the test,
      and the last argument after it. *)
  Definition ends_test (us : list tok) : Prop :=
    match us with [] | TComma :: _ | TParenClose :: _ => True | _ => False end.
  Inductive leaf_is (V : vst) : tok -> list tok -> list tok -> instruction -> vst -> Prop :=
  | leaf_test n us vs t W : test_is K V n us t W -> leaf_is V (TIdent (lit n)) us vs (IxTest t) W
  | leaf_eval us vs e : expr_is K V us e -> leaf_is V (TIdent (lit "eval")) us vs (IxEval e) V
  | leaf_word w us vs : no_test (TIdent w) -> passed 0 us -> ends_test vs -> leaf_is V (TIdent w) us vs (IxTest (TeInvalid w)) V
  | leaf_unknown w us vs : passed 0 us -> ends_test vs -> leaf_is V (TUnknown w) us vs (IxTest (TeInvalid w)) V.
  (** The tokens of a test; [W] are the variables declared after it. *)
  Inductive test_reads (W : vst) : vst -> list tok -> list token -> Prop :=
  | tr_end : test_reads W W [] []
  | tr_comma V us ks : test_reads W V us ks -> test_reads W V (TComma :: us) (KComma :: ks)
  | tr_open V us ks : test_reads W V us ks -> test_reads W V (TParenOpen :: us) (KPOpen :: ks)
  | tr_close V us ks : test_reads W V us ks -> test_reads W V (TParenClose :: us) (KPClose :: ks)
  | tr_not V us ks : test_reads W V us ks -> test_reads W V (TIdent (lit "not") :: us) (KNot :: ks)
  | tr_anyof V us ks : test_reads W V us ks -> test_reads W V (TIdent (lit "anyof") :: us) (KAnyOf :: ks)
  | tr_allof V us ks : test_reads W V us ks -> test_reads W V (TIdent (lit "allof") :: us) (KAllOf :: ks)
  | tr_true V us ks : test_reads W V us ks -> test_reads W V (TIdent (lit "true") :: us) (KTrue :: ks)
  | tr_false V us ks : test_reads W V us ks -> test_reads W V (TIdent (lit "false") :: us) (KFalse :: ks)
  | tr_leaf V V1 t us vs i ks : leaf_is V t us vs i V1 -> test_reads W V1 vs ks -> test_reads W V (t :: us ++ vs) (KLeaf i :: ks).

  (** The capabilities that are declared, of each block that is open *)
  Definition declared (D : list (list capability)) (c : capability) : bool :=
    existsb (existsb (cap_eqb c)) D || (negb (cap_eqb c (cap "ihave")) && C_nocheck K).
  Definition declare (cs : list capability) (D : list (list capability)) : list (list capability) :=
    match D with b :: D' => (rev cs ++ b) :: D' | [] => [] end.
  (** The capabilities of a require that are not declared yet *)
  Fixpoint new_caps (D : list (list capability)) (l : list capability) : list capability :=
    match l with
    | [] => []
    | c :: l' =>
        if declared D c then new_caps D l'
        else let cs := if cap_eqb c (cap "spamtestplus") && negb (declared D (cap "spamtest")) then [c; cap "spamtest"] else [c] in
             cs ++ new_caps (declare cs D) l'
    end.
  Definition require_is (D : list (list capability)) (us : list tok) (cs : list capability) : Prop :=
    exists xs, texts_are K us xs /\ cs = new_caps D (map parse_cap xs).
  Definition label_is (us : list tok) (l : option text) : Prop :=
    match l with
    | None => us = []
    | Some n => exists vs, us = TTag (lit "name") :: vs /\ text_is K vs n
    end.

  (** The declarations of "global" *)
  Fixpoint globals_are (V : vst) (xs : list text) (W : vst) : Prop :=
    match xs with
    | [] => W = V
    | x :: xs' => exists V', declare_global (C_name K) x V = Some V' /\ globals_are V' xs' W
    end.
  (** What is cleared at the end of a block: the variables declared in it, and the match
      variables [mv] *)
  Definition cleared (idx num : nat) (mv : N) : option instruction :=
    if Nat.ltb 0 num then Some (IxClear mv idx num) else if N.eqb mv 0 then None else Some (IxClear mv 0 0).

  (** The tokens of a script, where [D] are the capabilities and [V] the variables declared;
      [W] are the variables at the end of the script. *)
  Inductive script_reads (W : vst) : list (list capability) -> vst -> list tok -> list token -> Prop :=
  | sr_end D : script_reads W D W [] []
  | sr_require D V us cs vs ks : require_is D us cs -> script_reads W (declare cs D) V vs ks ->
      script_reads W D V (TIdent (lit "require") :: us ++ TSemicolon :: vs) (KRequire cs :: ks)
  | sr_if D V V1 us ts vs ks : test_reads V1 V us ts -> script_reads W ([] :: D) (open_block V1) vs ks ->
      script_reads W D V (TIdent (lit "if") :: us ++ TCurlyOpen :: vs) (KIf :: ts ++ KOpen :: ks)
  | sr_elsif D V V1 us ts vs ks : test_reads V1 V us ts -> script_reads W ([] :: D) (open_block V1) vs ks ->
      script_reads W D V (TIdent (lit "elsif") :: us ++ TCurlyOpen :: vs) (KElsIf :: ts ++ KOpen :: ks)
  | sr_else D V vs ks : script_reads W ([] :: D) (open_block V) vs ks -> script_reads W D V (TIdent (lit "else") :: TCurlyOpen :: vs) (KElse :: KOpen :: ks)
  | sr_foreverypart D V us l vs ks : label_is us l -> script_reads W ([] :: D) (open_block V) vs ks ->
      script_reads W D V (TIdent (lit "foreverypart") :: us ++ TCurlyOpen :: vs) (KForEvery l :: KOpen :: ks)
  | sr_while D V us e vs ks : expr_is K V us e -> script_reads W ([] :: D) (open_block V) vs ks ->
      script_reads W D V (TIdent (lit "while") :: us ++ TCurlyOpen :: vs) (KWhile e :: KOpen :: ks)
  | sr_break D V us l vs ks : label_is us l -> script_reads W D V vs ks ->
      script_reads W D V (TIdent (lit "break") :: us ++ TSemicolon :: vs) (KBreak l :: ks)
  | sr_continue D V vs ks : script_reads W D V vs ks -> script_reads W D V (TIdent (lit "continue") :: TSemicolon :: vs) (KContinue :: ks)
  | sr_return D V vs ks : script_reads W D V vs ks -> script_reads W D V (TIdent (lit "return") :: TSemicolon :: vs) (KReturn :: ks)
  | sr_global D V V1 us xs vs ks : texts_are K us xs -> globals_are V xs V1 -> script_reads W D V1 vs ks ->
      script_reads W D V (TIdent (lit "global") :: us ++ TSemicolon :: vs) (KQuiet :: ks)
  | sr_include D V us i vs ks : include_is K V us i -> script_reads W D V vs ks ->
      script_reads W D V (TIdent (lit "include") :: us ++ TSemicolon :: vs) (KInclude i :: ks)
  | sr_vacation D V us t i vs ks : vacation_is K V us t i -> script_reads W D V vs ks ->
      script_reads W D V (TIdent (lit "vacation") :: us ++ TSemicolon :: vs) (KVacation t i :: ks)
  | sr_action D V V1 n us i vs ks : action_is K V n us i V1 -> script_reads W D V1 vs ks ->
      script_reads W D V (TIdent (lit n) :: us ++ TSemicolon :: vs) (KAct i :: ks)
  | sr_unknown D V t w us vs ks : no_command t -> (t = TIdent w \/ t = TUnknown w) -> passed_command 0 us -> script_reads W D V vs ks ->
      script_reads W D V (t :: us ++ vs) (KAct (IxInvalid w) :: ks)
  | sr_close D V V1 idx num mv vs ks : close_block V = Some (V1, (idx, num)) -> script_reads W (tl D) V1 vs ks ->
      script_reads W D V (TCurlyClose :: vs) (KClose (cleared idx num mv) :: ks).
End Reads.

(** *** Scripts as the RFC writes them *)

(** A test has ended with this token *)
Definition ends (k : token) : bool := match k with KLeaf _ | KTrue | KFalse | KPClose => true | _ => false end.
(** A test begins with this token *)
Definition begins (k : token) : bool := match k with KLeaf _ | KTrue | KFalse | KNot | KAnyOf | KAllOf => true | _ => false end.
(** Tests are separated by commas, parentheses are those around the tests of "anyof" and
    "allof", and "elsif" and "else" follow a block. *)
Definition neat_pair (a b : token) : bool :=
  match b with
  | KComma | KPClose => ends a
  | KPOpen => match a with KAnyOf | KAllOf => true | _ => false end
  | KElsIf | KElse => match a with KClose _ => true | _ => false end
  | _ => if begins b then negb (ends a) else true
  end.
Fixpoint neat (a : token) (ks : list token) : bool :=
  match ks with [] => true | b :: ks' => neat_pair a b && neat b ks' end.
(** All that is required is required first. *)
Definition apart (k : token) : bool := match k with KRequire _ => false | _ => true end.
Fixpoint required_first (ks : list token) : bool :=
  match ks with KRequire _ :: ks' => required_first ks' | _ => forallb apart ks end.

(** The program that the commands are.  An include is an action like any other. *)
Definition acted (k : token) : token := match k with KInclude i => KAct i | _ => k end.
Definition spells (p : prog) (ks : list token) : Prop :=
  exists css, p_require p = concat css /\ map acted ks = map KRequire css ++ rcmds (p_cmds p).

(** Every [continue] stands where it goes back to a [while]. *)
Fixpoint fit_cmd (e : list encl) (c : cmd) : bool :=
  match c with
  | CContinue => continue_ok e
  | CIf _ b _ r => fit_cmds (EPlain :: e) b && fit_rest e r
  | CFor l b _ => fit_cmds (EFor l :: e) b
  | CWhile _ b _ => fit_cmds (EWhile :: e) b
  | _ => true
  end
with fit_cmds (e : list encl) (cs : cmds) : bool :=
  match cs with CNil => true | CCons c cs => fit_cmd e c && fit_cmds e cs end
with fit_rest (e : list encl) (r : rest) : bool :=
  match r with
  | RNone => true
  | RElse b _ => fit_cmds (EPlain :: e) b
  | RElsIf _ b _ r => fit_cmds (EPlain :: e) b && fit_rest e r
  end.

(** The same of the text of a script: words stand where a command or a test begins,
    commas, parentheses, elsif and else where the RFC has them; commands are known *)
Definition word_after (a : tok) (test : bool) : bool :=
  match a with
  | TSemicolon | TCurlyOpen | TCurlyClose => test
  | TParenOpen | TComma => true
  | TIdent v => among ["if"; "elsif"; "not"] v
  | _ => false
  end.
Definition opener (a : tok) : bool :=
  match a with TParenOpen | TComma => true | TIdent v => among ["if"; "elsif"; "not"; "anyof"; "allof"] v | _ => false end.
Definition may_follow (a b : tok) : bool :=
  match b with
  | TIdent w =>
      if among ["elsif"; "else"] w then match a with TCurlyClose => true | _ => false end
      else word_after a (among (block_names ++ action_names) w)
  | TUnknown _ => word_after a false
  | TComma | TParenClose => negb (opener a)
  | TParenOpen => match a with TIdent v => among ["anyof"; "allof"] v | _ => false end
  | _ => true
  end.
Fixpoint regular (a : tok) (ts : list tok) : bool :=
  match ts with [] => true | b :: ts' => may_follow a b && regular b ts' end.
(** "require" stands in front of all other commands *)
Definition front (t : tok) : bool :=
  match t with TIdent w => among ["require"] w | TUnknown _ | TCurlyOpen | TCurlyClose => false | _ => true end.
Definition no_require (t : tok) : bool := match t with TIdent w => negb (among ["require"] w) | _ => true end.
Fixpoint required_in_front (ts : list tok) : bool :=
  match ts with
  | t :: ts' => if front t then required_in_front ts' else forallb no_require ts
  | [] => true
  end.
