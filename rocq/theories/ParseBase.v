(** The state of the compiler and its elementary operations: src/compiler/grammar/
    mod.rs, src/compiler/lexer/string.rs and the parts of grammar/instruction.rs that
    keep track of match variables and capabilities.

    Simplifications: errors are not told apart and carry no line numbers; assertions
    that only exist in debug builds are left out ([debug_assert!], overflow checks). *)
From Verif Require Import Base Lib Address Var Value SetVar Flags Comparator Message EditHeader
  Expr ExprTok Event Notify AddrTest Vacation Sieve Utf8 Lexer Scope StringTok HeaderVar Compile ParseArgs.
Import ListNotations.

(** *** Capabilities *)

(** grammar/mod.rs 681-737 [lookup_capabilities], without the two that have their own
    constructor.  A known capability is its place in the table. *)
Definition known_caps : list text := map lit [
  "envelope"; "envelope-dsn"; "envelope-deliverby"; "fileinto"; "comparator-elbonia"; "comparator-i;octet";
  "comparator-i;ascii-casemap"; "comparator-i;ascii-numeric"; "body"; "convert"; "copy"; "relational";
  "date"; "index"; "duplicate"; "editheader"; "foreverypart"; "mime"; "replace"; "enclose"; "extracttext";
  "enotify"; "redirect-dsn"; "redirect-deliverby"; "environment"; "reject"; "ereject"; "extlists";
  "subaddress"; "vacation"; "vacation-seconds"; "fcc"; "mailbox"; "mailboxid"; "mboxmetadata";
  "servermetadata"; "special-use"; "imap4flags"; "ihave"; "imapsieve"; "include"; "regex"; "spamtest";
  "spamtestplus"; "virustest"; "vnd.stalwart.while"; "vnd.stalwart.expressions"]%string.
(** grammar/mod.rs 681-736 [lookup_capabilities]: the index in the table (the name of the variant). *)
Fixpoint place (n : text) (i : nat) (l : list text) : option nat :=
  match l with
  | [] => None
  | x :: l' => if teqb n x then Some i else place n (i + 1) l'
  end.
(** grammar/mod.rs 509-517 [Capability::parse].  Simplification: an unknown comparator
    is kept with its prefix. *)
Definition parse_cap (n : text) : capability :=
  if teqb n (lit "variables") then CapVariables
  else if teqb n (lit "encoded-character") then CapEncoded
  else match place n 0 known_caps with Some i => CapKnown i | None => CapOther n end.
(** grammar/mod.rs 31-81 [Capability]: the variant with this name. *)
Definition cap (s : string) : capability := parse_cap (lit s).

(** *** Settings *)

(** lib.rs 41-61 [Compiler] and the library functions it uses. *)
Record cenv := {
  C_L : rustlib;
  C_M : mailparser;
  C_dec : list N -> option text;          (* String::from_utf8 *)
  C_regex : text -> bool;                 (* whether fancy_regex::Regex::new accepts *)
  C_fns : text -> option (N * nat);       (* functions: identifier and number of arguments *)
  C_umax : nat;                           (* usize::MAX *)
  C_lim : limits;
  C_string : nat;                         (* max_string_size *)
  C_name : nat;                           (* max_variable_name_size *)
  C_hsize : nat;                          (* max_header_size *)
  C_script : nat;                         (* max_script_size *)
  C_nocheck : bool                        (* no_capability_check *)
}.

(** instruction.rs 114-127 [Block] and [CompilerState].  The fields of the blocks are
    kept in parallel lists, current block first: [p_c] (control structure), [p_v]
    (variables), [p_m] (match_test_pos, match_test_vars) and [p_caps] (capabilities).
    [p_params] holds the numbers of the tagged arguments seen ([param_check]). *)
Record pst := mkp {
  p_lex : lex;
  p_c : cst;
  p_v : vst;
  p_m : list (list nat * N);
  p_caps : list (list capability);
  p_mmax : nat;
  p_params : list nat
}.
(** instruction.rs 129-143 [CompilerState]: an assignment to [tokens]. *)
Definition w_lex l s := mkp l (p_c s) (p_v s) (p_m s) (p_caps s) (p_mmax s) (p_params s).
(** instruction.rs 129-143 [CompilerState]: an assignment to the part modelled in Compile.v. *)
Definition w_c c s := mkp (p_lex s) c (p_v s) (p_m s) (p_caps s) (p_mmax s) (p_params s).
(** instruction.rs 129-143 [CompilerState]: an assignment to the part modelled in Scope.v. *)
Definition w_v v s := mkp (p_lex s) (p_c s) v (p_m s) (p_caps s) (p_mmax s) (p_params s).
(** instruction.rs 114-127 [Block]: an assignment to [match_test_pos], [match_test_vars]. *)
Definition w_m m s := mkp (p_lex s) (p_c s) (p_v s) m (p_caps s) (p_mmax s) (p_params s).
(** instruction.rs 114-127 [Block]: an assignment to [capabilities]. *)
Definition w_caps x s := mkp (p_lex s) (p_c s) (p_v s) (p_m s) x (p_mmax s) (p_params s).
(** instruction.rs 129-143 [CompilerState]: an assignment to [vars_match_max]. *)
Definition w_mmax n s := mkp (p_lex s) (p_c s) (p_v s) (p_m s) (p_caps s) n (p_params s).
(** instruction.rs 129-143 [CompilerState]: an assignment to [param_check]. *)
Definition w_params l s := mkp (p_lex s) (p_c s) (p_v s) (p_m s) (p_caps s) (p_mmax s) l.

(** *** No counterpart: the result of a step: a value, a compile error, a panic, or too little fuel. *)
Inductive res (A : Type) := Ok (a : A) (s : pst) | Err | Panic | Fuel.
Arguments Ok {A}. Arguments Err {A}. Arguments Panic {A}. Arguments Fuel {A}.
(** No counterpart: functions on [&mut CompilerState] returning [Result]. *)
Definition P (A : Type) := pst -> res A.
(** [Ok(a)] (Rust core library). *)
Definition ret {A} (a : A) : P A := fun s => Ok a s.
(** [Err(_)] (Rust core library); which error is not modelled. *)
Definition fail {A} : P A := fun _ => Err.
(** The [?] operator (Rust core library). *)
Definition bind {A B} (m : P A) (k : A -> P B) : P B :=
  fun s => match m s with Ok a s' => k a s' | Err => Err | Panic => Panic | Fuel => Fuel end.
Notation "x <- m ;; k" := (bind m (fun x => k)) (at level 61, m at next level, right associativity).
Notation "m ;; k" := (bind m (fun _ => k)) (at level 61, right associativity).
(** No counterpart: reading a field of [CompilerState]. *)
Definition get {A} (f : pst -> A) : P A := fun s => Ok (f s) s.
(** No counterpart: assigning a field of [CompilerState]. *)
Definition modify (f : pst -> pst) : P unit := fun s => Ok tt (f s).
(** [ok_or(_)?] (Rust core library). *)
Definition lift {A} (o : option A) : P A := match o with Some a => ret a | None => fail end.

(** No counterpart: the [loop] and [while] of Rust. A loop: [step] either goes on ([inl]) or ends it
    ([inr]). *)
Fixpoint loop {A B} (fuel : nat) (step : A -> P (A + B)) (a : A) : P B :=
  match fuel with
  | 0 => fun _ => Fuel
  | S f => r <- step a ;; match r with inl a' => loop f step a' | inr b => ret b end
  end.

(** word.rs 143-276: the token is this [Word]. *)
Definition word (n : string) (w : text) : bool := teqb w (lit n).
(** word.rs 143-276: the token is one of these [Word]s. *)
Definition oneof (l : list string) (w : text) : bool := existsb (fun n => word n w) l.

Section Base.
  Variable K : cenv.
  (** A bound on the number of iterations of every loop. *)
  Variable FU : nat.
  Notation L := (C_L K).

  (** *** Tokens *)

  (** tokenizer.rs 253-263 [unwrap_next] *)
  Definition next : P tok := fun s =>
    match unwrap_next L (C_string K) (p_lex s) with
    | Lexer.POk t l => Ok t (w_lex l s)
    | Lexer.PErr => Err
    | Lexer.PPanic => Panic
    end.
  (** tokenizer.rs 331-571: [Tokenizer::next] with the errors passed on; [None] is the end of the
      script. *)
  Definition next_opt : P (option tok) := fun s =>
    match lex_next L (C_string K) (p_lex s) with
    | LEof l => Ok None (w_lex l s)
    | LTok t l => Ok (Some t) (w_lex l s)
    | LErr _ _ => Err
    | LPanic => Panic
    end.
  (** tokenizer.rs 317-325 [peek] *)
  Inductive peeked := KEof | KErr | KTok (t : tok).
  (** tokenizer.rs 317-325 [peek]. *)
  Definition peek : P peeked := fun s =>
    match lex_peek L (C_string K) (p_lex s) with
    | LEof l => Ok KEof (w_lex l s)
    | LTok t l => Ok (KTok t) (w_lex l s)
    | LErr _ l => Ok KErr (w_lex l s)
    | LPanic => Panic
    end.

  (** lexer/mod.rs 18-34: the derived [PartialEq] of [Token], on the tokens it is used with. *)
  Definition tok_eqb (a b : tok) : bool :=
    match a, b with
    | TCurlyOpen, TCurlyOpen | TSemicolon, TSemicolon | TParenOpen, TParenOpen | TParenClose, TParenClose => true
    | _, _ => false
    end.
  (** tokenizer.rs 265-272 [expect_token], of one of the tokens it is used with. *)
  Definition expect (t : tok) : P unit := x <- next ;; if tok_eqb x t then ret tt else fail.

  (** tokenizer.rs 296-307 [expect_number] *)
  Definition number (max : N) : P N :=
    x <- next ;; match x with TNumber n => if N.ltb n max then ret n else fail | _ => fail end.

  (** lexer/mod.rs 42-56 [StringConstant::to_string]. *)
  Definition ctext := const_text L.

  (** tokenizer.rs 274-294 [expect_static_string] *)
  Definition static_string : P text :=
    t <- next ;;
    match t with
    | TStr c => ret (ctext c)
    | TBracketOpen =>
        loop FU (fun o => t <- next ;;
                          match t, o with
                          | TStr c, _ => ret (inl (Some (ctext c)))
                          | TBracketClose, Some s => ret (inr s)
                          | _, _ => fail
                          end) None
    | _ => fail
    end.

  (** grammar/mod.rs 301-322 [parse_static_strings] *)
  Definition static_strings : P (list text) :=
    t <- next ;;
    match t with
    | TBracketOpen =>
        loop FU (fun l => t <- next ;;
                          match t, l with
                          | TStr c, _ => ret (inl (l ++ [ctext c]))
                          | TComma, _ => ret (inl l)
                          | TBracketClose, _ :: _ => ret (inr l)
                          | _, _ => fail
                          end) []
    | TStr c => ret [ctext c]
    | _ => fail
    end.

  (** *** Match variables *)

  (** instruction.rs 905-935: the match type of a test, with one more variable. *)
  Definition mark_type (n : nat) (m : mtype) : option (mtype * N) :=
    match m with
    | MMatches p => let p := N.lor p (N.shiftl 1 (N.of_nat n)) in Some (MMatches p, p)
    | MRegex p => let p := N.lor p (N.shiftl 1 (N.of_nat n)) in Some (MRegex p, p)
    | _ => None
    end.
  (** instruction.rs 905-933: the tests that have a match type. *)
  Definition mark_test (n : nat) (t : test) : option (test * N) :=
    let go m k := option_map (fun r => (k (fst r), snd r)) (mark_type n m) in
    match t with
    | TeAddress a b c d e m f g => go m (fun m => TeAddress a b c d e m f g)
    | TeBody a s b m c d => go m (fun m => TeBody a s b m c d)
    | TeDate a b c d e f m g h => go m (fun m => TeDate a b c d e f m g h)
    | TeCurrentDate a b c m d e => go m (fun m => TeCurrentDate a b c m d e)
    | TeEnvelope a b c d m e f => go m (fun m => TeEnvelope a b c d m e f)
    | TeHasFlag a b c m d => go m (fun m => TeHasFlag a b c m d)
    | TeHeader a b c d e m f g => go m (fun m => TeHeader a b c d e m f g)
    | TeMetadata a b m c d => go m (fun m => TeMetadata a b m c d)
    | TeNotifyCapability a b c m d e => go m (fun m => TeNotifyCapability a b c m d e)
    | TeSpam a b m c d => go m (fun m => TeSpam a b m c d)
    | TeString a b m c d => go m (fun m => TeString a b m c d)
    | TeEnvironment a b m c d => go m (fun m => TeEnvironment a b m c d)
    | TeVirus a m b c => go m (fun m => TeVirus a m b c)
    | _ => None
    end.
  (** instruction.rs 903-937: the loop over [match_test_pos]; also whether it got to
      the end, and [match_test_vars].  Simplification: the release build, where a
      failing [debug_assert!] does nothing. *)
  Fixpoint mark (n : nat) (ps : list nat) (code : list instruction) (vars : N) : bool * list instruction * N :=
    match ps with
    | [] => (true, code, vars)
    | p :: ps' =>
        match nth_error code p with
        | Some (IxTest t) =>
            match mark_test n t with
            | Some (t', v) => mark n ps' (update p (fun _ => IxTest t') code) v
            | None => (false, code, vars)
            end
        | _ => (false, code, vars)
        end
    end.
  (** instruction.rs 889-941 [register_match_var]: the innermost block with a match. *)
  Fixpoint mark_in (n : nat) (ms : list (list nat * N)) (code : list instruction)
    : bool * list instruction * list (list nat * N) :=
    match ms with
    | [] => (false, code, [])
    | (ps, v) :: ms' =>
        match ps with
        | [] => let '(ok, code', ms'') := mark_in n ms' code in (ok, code', (ps, v) :: ms'')
        | _ => let '(ok, code', v') := mark n ps code v in (ok, code', (ps, v') :: ms')
        end
    end.
  (** instruction.rs 889-941 [register_match_var]. *)
  Definition register_match (n : nat) (s : pst) : bool * pst :=
    let '(ok, code, ms) := mark_in n (p_m s) (c_code (p_c s)) in
    (ok, w_mmax (if ok then Nat.max (p_mmax s) (n + 1) else p_mmax s)
           (w_m ms (w_c (with_code code (p_c s)) s))).
  (** string.rs 256-273 [parse_match_variable], for each reference in turn. *)
  Fixpoint register_matches (ns : list nat) (s : pst) : bool * pst :=
    match ns with
    | [] => (true, s)
    | n :: ns' => let (ok, s1) := register_match n s in
                  let (ok', s2) := register_matches ns' s1 in (ok && ok', s2)
    end.

  (** *** Strings *)

  (** string.rs 256-343: what a reference in a string denotes now. *)
  Definition resolver (s : pst) (matchable : bool) : list N -> bool -> bool -> vres :=
    resolve_ref L (header_variable (C_M K)) (p_v s) matchable.
  (** string.rs 256-273: the references to match variables of a string, in order. *)
  Definition match_refs (v : value) : list nat :=
    flat_map (fun x => match x with XVariable (TMatch n) => [n] | _ => [] end) (splice v).
  (** string.rs 35-254 [tokenize_string(_, true)].  Simplification: the references to
      match variables are collected and registered first; whether that succeeds does not
      depend on the number of the variable. *)
  Definition tokenize (bs : list N) : P value := fun s =>
    match tokenize_string L (resolver s true) bs with
    | None => Err
    | Some v =>
        let (ok, s') := register_matches (match_refs v) s in
        match tokenize_string L (resolver s ok) bs with
        | None => Err
        | Some v' => Ok v' s'
        end
    end.

  (** lexer/mod.rs 58-65 [From<StringConstant> for Value]. *)
  Definition value_of (c : strconst) : value := match c with CText s => XText s | CNum n => XNumber n end.
  (** grammar/mod.rs 365-381 [parse_string_token] *)
  Definition string_tok (t : tok) : P value :=
    match t with TStr c => ret (value_of c) | TVar bs => tokenize bs | _ => fail end.
  (** grammar/mod.rs 405-429 [parse_string_list] *)
  Definition string_list (allow_empty : bool) : P (list value) :=
    loop FU (fun l => t <- next ;;
                      match t with
                      | TStr c => ret (inl (l ++ [value_of c]))
                      | TVar bs => v <- tokenize bs ;; ret (inl (l ++ [v]))
                      | TComma => ret (inl l)
                      | TBracketClose => match l with
                                         | [] => if allow_empty then ret (inr l) else fail
                                         | _ => ret (inr l)
                                         end
                      | _ => fail
                      end) [].
  (** grammar/mod.rs 324-345 [parse_string] *)
  Definition string : P value :=
    t <- next ;;
    match t with
    | TStr c => ret (value_of c)
    | TVar bs => tokenize bs
    | TBracketOpen => l <- string_list false ;; match l with [x] => ret x | _ => fail end
    | _ => fail
    end.
  (** grammar/mod.rs 383-401 [parse_strings_token] *)
  Definition strings_tok (t : tok) : P (list value) :=
    match t with
    | TStr c => ret [value_of c]
    | TVar bs => v <- tokenize bs ;; ret [v]
    | TBracketOpen => string_list false
    | _ => fail
    end.
  (** grammar/mod.rs 347-363 [parse_strings(false)] *)
  Definition strings : P (list value) := t <- next ;; strings_tok t.

  (** *** Arguments *)

  (** grammar/mod.rs 431-437 [has_capability] *)
  Definition has_cap (c : capability) (s : pst) : bool :=
    existsb (existsb (cap_eqb c)) (p_caps s) || (negb (cap_eqb c (cap "ihave")) && C_nocheck K).
  (** grammar/mod.rs 446-480 [validate_argument]; [n] is at most [MAX_PARAMS] in every
      call. *)
  Definition need (c : option capability) : P unit :=
    match c with
    | None => ret tt
    | Some c => ok <- get (has_cap c) ;; if ok then ret tt else fail
    end.
  (** grammar/mod.rs 446-480 [validate_argument]. *)
  Definition va (n : nat) (c : option capability) : P unit :=
    (if Nat.ltb 0 n then
       ps <- get p_params ;;
       if existsb (Nat.eqb n) ps then fail else modify (w_params (n :: ps))
     else ret tt) ;;
    need c.
  (** grammar/mod.rs 440-443 [reset_param_check] *)
  Definition reset : P unit := modify (w_params []).

  (** No counterpart: the shape of the [loop { match token }] of every parser,
      e.g. test_address.rs 51-145. A parser of arguments: read a token; a tag that has a handler updates the
      arguments, any other token goes to [dflt], which may end the loop. *)
  Definition handler := ((text -> bool) * (text -> args -> P args))%type.
  (** The same: the [match] arms for tags, e.g. test_address.rs 54-135. *)
  Fixpoint dispatch (hs : list handler) (w : text) : option (args -> P args) :=
    match hs with
    | [] => None
    | (f, h) :: hs' => if f w then Some (h w) else dispatch hs' w
    end.
  (** The same: one turn of the loop, e.g. test_address.rs 51-145. *)
  Definition step_args (hs : list handler) (dflt : tok -> args -> P (args + args)) (a : args) : P (args + args) :=
    t <- next ;;
    match t with
    | TTag w => match dispatch hs w with
                | Some h => a' <- h a ;; ret (inl a')
                | None => dflt t a
                end
    | _ => dflt t a
    end.
  (** The same: the whole loop, e.g. test_address.rs 51-145. *)
  Definition read_args (hs : list handler) (dflt : tok -> args -> P (args + args)) : P args :=
    loop FU (step_args hs dflt) args0.
  (** The same: an argument after which the loop goes on, e.g. test_address.rs 137-138. The usual last
      argument. *)
  Definition more {A} (m : P A) (f : A -> args) : P (args + args) := x <- m ;; ret (inl (f x)).
  (** The same: an argument that ends the loop, e.g. test_address.rs 140-141. *)
  Definition done {A} (m : P A) (f : A -> args) : P (args + args) := x <- m ;; ret (inr (f x)).

  (** grammar/mod.rs 572-582 [lookup_relational] *)
  Definition lookup_rel (t : text) : option rel :=
    if word "gt" t then Some RGt else if word "ge" t then Some RGe else if word "lt" t then Some RLt
    else if word "le" t then Some RLe else if word "eq" t then Some REq else if word "ne" t then Some RNe
    else None.
  (** grammar/mod.rs 267-278: [block.match_test_pos.push(instructions.len())] *)
  Definition push_match : P unit := modify (fun s =>
    match p_m s with
    | (ps, v) :: ms => w_m ((ps ++ [length (c_code (p_c s))], v) :: ms) s
    | [] => s
    end).
  (** grammar/mod.rs 263-290 [parse_match_type] *)
  Definition match_type (w : text) : P mtype :=
    if word "is" w then ret MIs
    else if word "contains" w then ret MContains
    else if word "matches" w then push_match ;; ret (MMatches 0)
    else if word "regex" w then push_match ;; ret (MRegex 0)
    else if word "list" w then ret MList
    else t <- next ;;
         match t with
         | TStr c => match lookup_rel (ctext c) with
                     | Some r => ret (if word "value" w then MValue r else MCount r)
                     | None => fail
                     end
         | _ => fail
         end.
  (** grammar/mod.rs 584-591 [lookup_comparator], 292-299 [parse_comparator] *)
  Definition parse_comparator : P comparator :=
    n <- static_string ;;
    ret (if word "i;octet" n then COctet else if word "i;ascii-casemap" n then CCasemap
         else if word "i;ascii-numeric" n then CNumeric else COther).
  (** The capability of a match type, e.g. test_address.rs 74-95. *)
  Definition match_cap (w : text) : option capability :=
    if oneof ["value"; "count"]%string w then Some (cap "relational")
    else if word "regex" w then Some (cap "regex")
    else if word "list" w then Some (cap "extlists")
    else None.
  (** The tags of a match type, e.g. test_address.rs 74-95; [:list] is not known to all tests. *)
  Definition match_words (lists : bool) : list String.string :=
    ["is"; "contains"; "matches"; "value"; "count"; "regex"]%string ++ (if lists then ["list"%string] else []).

  (** A match type, e.g. test_address.rs 74-95. The handlers that several parsers share. *)
  Definition h_match (n : nat) (lists : bool) : handler :=
    (oneof (match_words lists), fun w a => va n (match_cap w) ;; m <- match_type w ;; ret (s_m m a)).
  (** The tag [:comparator], e.g. test_address.rs 96-99. *)
  Definition h_comparator (n : nat) : handler :=
    (word "comparator", fun _ a => va n None ;; c <- parse_comparator ;; ret (s_c c a)).
  (** The tag [:index], e.g. test_address.rs 100-108. *)
  Definition h_index (n : nat) (c : option capability) : handler :=
    (word "index", fun _ a => va n c ;; i <- number 65535 ;; ret (s_index (Some (Z.of_N i)) a)).
  (** A tag without argument, e.g. [:last], test_address.rs 109-117. *)
  Definition h_flag (n : nat) (c : option capability) (w : String.string) (f : args -> args) : handler :=
    (word w, fun _ a => va n c ;; ret (f a)).
  (** A tag with a string, e.g. [:mailboxid], action_fileinto.rs 73-81. *)
  Definition h_string (n : nat) (c : option capability) (w : String.string) (f : option value -> args -> args) : handler :=
    (word w, fun _ a => va n c ;; v <- string ;; ret (f (Some v) a)).
  (** A tag with a list of strings, e.g. [:flags], action_fileinto.rs 64-72. *)
  Definition h_strings (n : nat) (c : option capability) (w : String.string) (f : list value -> args -> args) : handler :=
    (word w, fun _ a => va n c ;; v <- strings ;; ret (f v a)).
  (** The tag [:last], e.g. test_address.rs 109-117. *)
  Definition h_last n c := h_flag n c "last" (s_last true).
  (** The tag [:mime], e.g. test_address.rs 118-126. *)
  Definition h_mime n c := h_flag n c "mime" (s_mime true).
  (** The tag [:anychild], e.g. test_address.rs 127-135. *)
  Definition h_any n c := h_flag n c "anychild" (s_any true).

  (** grammar/mod.rs 482-505 [validate_match] *)
  Fixpoint regexes (l : list value) : option (list value) :=
    match l with
    | [] => Some []
    | XText e :: l' => if C_regex K e then option_map (cons (XRegex e)) (regexes l') else None
    | x :: l' => option_map (cons x) (regexes l')
    end.
  (** grammar/mod.rs 482-505 [validate_match]. *)
  Definition validate_match (m : mtype) (keys : list value) : P (list value) :=
    match m with
    | MRegex _ => match regexes keys with Some l => ret l | None => next ;; fail end
    | _ => ret keys
    end.
  (** [HeaderName::parse(name).is_none()], e.g. test_header.rs 139-148. *)
  Definition header_ok (v : value) : bool :=
    match v with XText n => match hn_parse (C_M K) n with Some _ => true | None => false end | _ => true end.
  (** test_address.rs 148 and others: [return Err(self.tokens.unwrap_next()?...)] *)
  Definition check (b : bool) : P unit := if b then ret tt else next ;; fail.
  (** test_address.rs 158 and others: [if index_last { index.map(|i| -i) } else { index }] *)
  Definition the_index (a : args) : option Z := if a_last a then option_map Z.opp (a_index a) else a_index a.
  (** test_address.rs 147-149 and others: [if !mime && mime_anychild { return Err }] *)
  Definition mime_ok (a : args) : bool := a_mime a || negb (a_any a).
  (** [unwrap()] of the argument that ends the loop (its absence is not possible: the loop ends only
      with it), e.g. test_address.rs 153. *)
  Definition vals (a : args) : list value := match a_vals a with Some l => l | None => [] end.

  (** *** Variables and expressions *)

  (** action_set.rs 152-166 [parse_variable_name] *)
  Definition register (n : text) (as_local : bool) : P vartype := fun s =>
    match register_variable L (C_umax K) n as_local (p_v s) with
    | Some (v, vs) => Ok v (w_v vs s)
    | None => Err
    end.
  (** action_set.rs 152-167 [parse_variable_name]. *)
  Definition variable_name (t : tok) (as_local : bool) : P vartype :=
    match t with TStr c => register (ctext c) as_local | _ => fail end.

  (** string.rs 473-493 [parse_expr_fnc_or_var] *)
  Definition token_map (s : pst) (n : text) (ns : bool) : option Expr.token :=
    match parse_variable L (header_variable (C_M K)) (p_v s) n ns with
    | RVar v => Some (Expr.TVar v)
    | _ => match C_fns K n with Some (id, k) => Some (TFun id k) | None => None end
    end.
  (** test.rs 566-591 [parse_expr].  Simplification: an expression that is not valid
      UTF-8 is rejected (the tokenizer of the code works on bytes). *)
  Definition parse_expr : P (list instr) :=
    t <- next ;;
    src <- lift (match t with TStr c => Some (ctext c) | TVar bs => utf8_strict bs | _ => None end) ;;
    fun s => match compile_text L (token_map s) src with
             | Parsed code => Ok code s
             | Rejected => Err
             | ParsePanic => Panic
             end.

  (** *** Instructions *)

  (** instruction.rs 129-143: [instructions.push]. *)
  Definition push (l : list instruction) : P unit := modify (fun s => w_c (emit l (p_c s)) s).

  (** grammar/mod.rs 205-231 [ignore_instruction] *)
  Definition ignore_instruction : P unit :=
    loop FU (fun n => t <- next ;;
                      match t, n with
                      | TSemicolon, 0 => ret (inr tt)
                      | TCurlyOpen, _ => ret (inl (n + 1))
                      | TCurlyClose, 0 => fail
                      | TCurlyClose, 1 => ret (inr tt)
                      | TCurlyClose, _ => ret (inl (n - 1))
                      | _, _ => ret (inl n)
                      end) 0.
  (** grammar/mod.rs 233-261 [ignore_test] *)
  Definition ignore_test : P unit :=
    loop FU (fun n => k <- peek ;;
                      match k with
                      | KEof => ret (inr tt)
                      | KErr => fail
                      | KTok t =>
                          match t, n with
                          | TParenOpen, _ => next ;; ret (inl (n + 1))
                          | TParenClose, 0 => ret (inr tt)
                          | TParenClose, S n' => next ;; ret (inl n')
                          | TComma, 0 => ret (inr tt)
                          | TCurlyOpen, _ => ret (inr tt)
                          | _, _ => next ;; ret (inl n)
                          end
                      end) 0.
  (** grammar/mod.rs 347-429: [StringConstant | StringVariable | BracketOpen] *)
  Definition starts_strings (k : peeked) : bool :=
    match k with KTok (TStr _) | KTok (TVar _) | KTok TBracketOpen => true | _ => false end.
End Base.
