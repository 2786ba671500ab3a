(** Specification of the scripts the compiler accepts: the tokens of a script, and the
    grammar of RFC 5228, section 8.2, on them.  The productions marked (+) are not in the
    RFC: the compiler is more lenient there. *)
From Verif Require Import Base Lib Lexer.
Import ListNotations.
Local Open Scope string_scope.
Local Open Scope list_scope.

(** The tokens from [l] to the end of the script.  A word that the script ends with is
    not a token, and what is not a token is passed over. *)
Inductive tokens_from (L : rustlib) (max : nat) : lex -> list tok -> Prop :=
| from_end l l' : lex_next L max l = LEof l' -> tokens_from L max l []
| from_token l t l' ts : lex_next L max l = LTok t l' -> tokens_from L max l' ts -> tokens_from L max l (t :: ts)
| from_error l e l' ts : lex_next L max l = LErr e l' -> tokens_from L max l' ts -> tokens_from L max l ts.

Definition is_string (t : tok) : Prop := match t with TStr _ | TVar _ => True | _ => False end.
(** argument = string-list / number / tag.  (+) The commas of a string list need not
    separate its strings. *)
Inductive argument : list tok -> Prop :=
| arg_string t : is_string t -> argument [t]
| arg_number n : argument [TNumber n]
| arg_tag w : argument [TTag w]
| arg_list l : Forall (fun t => is_string t \/ t = TComma) l -> Exists is_string l ->
    argument (TBracketOpen :: l ++ [TBracketClose]).
Definition arguments (us : list tok) : Prop := exists l, Forall argument l /\ us = concat l.

Definition named (l : list String.string) (w : text) : Prop := In w (map lit l).
Definition test_names : list String.string :=
  ["true"; "false"; "eval"; "address"; "envelope"; "header"; "size"; "exists"; "body"; "convert"; "date"; "currentdate";
   "duplicate"; "string"; "notify_method_capability"; "valid_notify_method"; "environment"; "valid_ext_list"; "ihave";
   "hasflag"; "mailboxexists"; "metadata"; "metadataexists"; "servermetadata"; "servermetadataexists"; "mailboxidexists";
   "spamtest"; "virustest"; "specialuse_exists"].
(** A word that does not name a test: it has been passed over, up to a brace, or to a
    comma or a parenthesis that does not belong to it. *)
Definition no_test (t : tok) : Prop :=
  match t with TUnknown _ => True | TIdent w => ~ named (["not"; "anyof"; "allof"] ++ test_names) w | _ => False end.
Fixpoint passed (n : nat) (us : list tok) : Prop :=
  match us with
  | [] => True
  | TParenOpen :: us' => passed (n + 1) us'
  | TParenClose :: us' => 0 < n /\ passed (n - 1) us'
  | TComma :: us' => 0 < n /\ passed n us'
  | TCurlyOpen :: _ => False
  | _ :: us' => passed n us'
  end.
(** test = identifier arguments, where the arguments of "not" are a test and those of
    "anyof" and "allof" a test-list = "(" test *("," test) ")".  (+) The commas need not
    be there. *)
Inductive a_test : list tok -> Prop :=
| test_simple w us : named test_names w -> arguments us -> a_test (TIdent w :: us)
| test_not us : a_test us -> a_test (TIdent (lit "not") :: us)
| test_list w us : named ["anyof"; "allof"] w -> some_tests us -> a_test (TIdent w :: TParenOpen :: us ++ [TParenClose])
| test_unknown t us : no_test t -> passed 0 us -> a_test (t :: us)   (* + *)
with some_tests : list tok -> Prop :=
| tests_one us : a_test us -> some_tests us
| tests_comma us vs : a_test us -> some_tests vs -> some_tests (us ++ TComma :: vs)
| tests_no_comma us vs : a_test us -> some_tests vs -> some_tests (us ++ vs).   (* + *)

Definition block_names : list String.string := ["if"; "elsif"; "else"; "foreverypart"; "while"].
Definition action_names : list String.string :=
  ["require"; "break"; "vacation"; "include"; "return"; "global"; "continue"; "keep"; "fileinto"; "redirect"; "discard";
   "stop"; "replace"; "enclose"; "extracttext"; "convert"; "addheader"; "deleteheader"; "set"; "notify"; "reject";
   "ereject"; "error"; "setflag"; "addflag"; "removeflag"; "let"; "eval"].
(** A word that does not name a command: it has been passed over, up to a semicolon
    outside of braces, or to the brace that closes the first one. *)
Definition no_command (t : tok) : Prop :=
  match t with TUnknown _ => True | TIdent w => ~ named (block_names ++ action_names) w | _ => False end.
Fixpoint passed_command (n : nat) (us : list tok) : Prop :=
  match us with
  | [] => False
  | TSemicolon :: us' => (n = 0 /\ us' = []) \/ (0 < n /\ passed_command n us')
  | TCurlyOpen :: us' => passed_command (n + 1) us'
  | TCurlyClose :: us' => (n = 1 /\ us' = []) \/ (1 < n /\ passed_command (n - 1) us')
  | _ :: us' => passed_command n us'
  end.
(** command = identifier arguments (";" / "{" commands "}"), where the arguments of "if"
    and "elsif" are a test. *)
Inductive a_command : list tok -> Prop :=
| command_action w us : named action_names w -> arguments us -> a_command (TIdent w :: us ++ [TSemicolon])
| command_if w us vs : named ["if"; "elsif"] w -> a_test us -> some_commands vs ->
    a_command (TIdent w :: us ++ TCurlyOpen :: vs ++ [TCurlyClose])
| command_block w us vs : named ["else"; "foreverypart"; "while"] w -> arguments us -> some_commands vs ->
    a_command (TIdent w :: us ++ TCurlyOpen :: vs ++ [TCurlyClose])
| command_unknown t us : no_command t -> passed_command 0 us -> a_command (t :: us)   (* + *)
with some_commands : list tok -> Prop :=
| commands_none : some_commands []
| commands_more us vs : a_command us -> some_commands vs -> some_commands (us ++ vs).

(** Parentheses are only used as in the RFC: one is opened only after "anyof" or "allof",
    and a word follows it. *)
Definition opens_list (t : tok) : Prop := match t with TIdent w => named ["anyof"; "allof"] w | _ => False end.
Definition is_word_tok (t : tok) : Prop := match t with TIdent _ | TUnknown _ => True | _ => False end.
Definition pair_ok (a b : tok) : Prop := (b = TParenOpen -> opens_list a) /\ (a = TParenOpen -> is_word_tok b).
Fixpoint parens_ok (ts : list tok) : Prop :=
  match ts with
  | a :: ts' => match ts' with b :: _ => pair_ok a b | [] => True end /\ parens_ok ts'
  | [] => True
  end.
