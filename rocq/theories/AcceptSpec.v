(** Specification of valid scripts: the grammar of RFC 5228 with the arguments that the
    RFCs give to each test and action, the capabilities they need, and the limits.
    Nothing here refers to the parsers. *)
From Verif Require Import Base Lib Address Var Value SetVar Flags Comparator Message EditHeader
  Expr ExprTok Event Notify AddrTest Vacation Sieve Utf8 Lexer Scope StringTok HeaderVar ParseBase Parse Compile CompileSpec GrammarSpec
  ArgSpec RefineSpec.
Import ListNotations.
Local Open Scope string_scope.
Local Open Scope list_scope.

(** The script has these tokens, and nothing in it is not part of a token. *)
Inductive all_tokens (L : rustlib) (max : nat) : lex -> list tok -> Prop :=
| all_end l l' : lex_next L max l = LEof l' -> all_tokens L max l []
| all_token l t l' ts : lex_next L max l = LTok t l' -> all_tokens L max l' ts -> all_tokens L max l (t :: ts).

(** *** Lists *)

(** string-list = "[" string *("," string) "]" / string *)
Inductive separated (Q : tok -> Prop) : list tok -> Prop :=
| sep_one t : Q t -> separated Q [t]
| sep_more t us : Q t -> separated Q us -> separated Q (t :: TComma :: us).
Definition list_of (Q : tok -> Prop) (us : list tok) : Prop :=
  (exists t, us = [t] /\ Q t) \/ (exists vs, us = TBracketOpen :: vs ++ [TBracketClose] /\ separated Q vs).
Definition one (Q : tok -> Prop) (us : list tok) : Prop := exists t, us = [t] /\ Q t.
Definition nothing (us : list tok) : Prop := us = [].
Definition number_below (max : N) (us : list tok) : Prop := exists n, us = [TNumber n] /\ (n < max)%N.

(** *** Tags *)

(** A tag: its name, the tags it excludes (those with the same number; with 0 a tag may
    be repeated), the capability it needs, and its argument *)
Definition rule := (String.string * nat * option String.string * (list tok -> Prop))%type.
(** A tag with its argument *)
Definition tagged := (String.string * list tok)%type.
Definition tags_text (l : list tagged) : list tok := concat (map (fun p => TTag (lit (fst p)) :: snd p) l).
Definition uses (w : String.string) (l : list tagged) : Prop := In w (map fst l).

Section Accept.
  Variable K : cenv.
  Notation L := (C_L K).

  Definition allowed (D : list (list capability)) (c : option String.string) : Prop :=
    match c with Some c => declared K D (cap c) = true | None => True end.
  Inductive tags_from (D : list (list capability)) (rules : list rule) : list nat -> list tagged -> Prop :=
  | tags_none used : tags_from D rules used []
  | tags_more used w n c (Q : list tok -> Prop) us l :
      In (w, n, c, Q) rules -> allowed D c -> Q us -> n = 0 \/ ~ In n used -> tags_from D rules (n :: used) l ->
      tags_from D rules used ((w, us) :: l).
  Definition tags_ok D rules l := tags_from D rules [] l.

  (** *** Strings *)

  (** The references to variables in a string are well formed. *)
  Definition readable (V : vst) (t : tok) : Prop :=
    match t with
    | TStr _ => True
    | TVar bs => forall m, tokenize_string L (resolve_ref L (header_variable (C_M K)) V m) bs <> None
    | _ => False
    end.
  (** A string, its value known to be [good] *)
  Definition string_ok (V : vst) (good : value -> Prop) (t : tok) : Prop :=
    readable V t /\ forall v, string_is K V t v -> good v.
  Definition any_value (v : value) : Prop := True.
  Definition is_text (Q : text -> Prop) (v : value) : Prop := match v with XText x => Q x | _ => True end.
  (** A constant string *)
  Definition const (Q : text -> Prop) (t : tok) : Prop := exists c, t = TStr c /\ Q (const_text L c).
  Definition any_text (x : text) : Prop := True.
  Definition listed {A} (l : list (String.string * A)) (x : text) : Prop := exists a, assoc x l = Some a.

  Definition text_ok V := string_ok V any_value.
  (** The name of a header *)
  Definition header_name V := string_ok V (is_text (fun x => hn_parse (C_M K) x <> None)).
  (** A key; a regular expression after ":regex" *)
  Definition key V (l : list tagged) := string_ok V (fun v => uses "regex" l -> is_text (fun e => C_regex K e = true) v).

  (** *** Common tags *)

  Definition match_rules (n : nat) (lists : bool) : list rule :=
    [("is", n, None, nothing); ("contains", n, None, nothing); ("matches", n, None, nothing);
     ("regex", n, Some "regex", nothing);
     ("value", n, Some "relational", one (const (listed relations)));
     ("count", n, Some "relational", one (const (listed relations)))] ++
    (if lists then [("list", n, Some "extlists", nothing)] else []).
  Definition comparator_rule (n : nat) : rule := ("comparator", n, None, one (const any_text)).
  Definition index_rules (n m : nat) (c : option String.string) : list rule :=
    [("index", n, c, number_below 65535); ("last", m, c, nothing)].
  Definition mime_rules (n m : nat) : list rule := [("mime", n, Some "mime", nothing); ("anychild", m, Some "mime", nothing)].
  Definition mime_first (l : list tagged) : Prop := uses "anychild" l -> uses "mime" l.
  Definition part_rules (n : nat) : list rule :=
    [("localpart", n, None, nothing); ("domain", n, None, nothing); ("all", n, None, nothing);
     ("user", n, Some "subaddress", nothing); ("detail", n, Some "subaddress", nothing)].
  Definition zone_arg (us : list tok) : Prop := exists off, zone_is us off.
  Definition envelope_part D : tok -> Prop :=
    const (fun x => exists e, assoc (lower_text x) envelopes = Some e /\
      allowed D (match e with
                 | EnvByTimeAbsolute | EnvByTimeRelative | EnvByMode | EnvByTrace => Some "envelope-deliverby"
                 | EnvNotify | EnvOrcpt | EnvRet | EnvEnvid => Some "envelope-dsn"
                 | EnvFrom | EnvTo => None
                 end)).
  Definition plain_match : list rule := match_rules 1 false ++ [comparator_rule 2].

  (** *** Tests

      The capabilities declared are [D], the variables declared [V] before the test and
      the last argument after it. *)
  Inductive valid_args (D : list (list capability)) (V : vst) : String.string -> list tok -> vst -> Prop :=
  | va_address l ns ks :
      tags_ok D (part_rules 1 ++ [("name", 1, None, nothing)] ++ match_rules 2 true ++ [comparator_rule 3] ++
                 index_rules 4 5 (Some "index") ++ mime_rules 6 7) l -> mime_first l ->
      list_of (text_ok V) ns -> list_of (key V l) ks -> valid_args D V "address" (tags_text l ++ ns ++ ks) V
  | va_envelope l ns ks :
      tags_ok D (part_rules 1 ++ match_rules 2 true ++ [comparator_rule 3; ("zone", 4, Some "envelope-deliverby", zone_arg)]) l ->
      list_of (envelope_part D) ns -> list_of (key V l) ks -> valid_args D V "envelope" (tags_text l ++ ns ++ ks) V
  | va_header l ns ks :
      tags_ok D (match_rules 1 true ++ [comparator_rule 2] ++ index_rules 3 4 (Some "index") ++ mime_rules 5 6 ++
                 [("type", 7, Some "mime", nothing); ("subtype", 7, Some "mime", nothing); ("contenttype", 7, Some "mime", nothing);
                  ("param", 7, Some "mime", list_of (text_ok V))]) l -> mime_first l ->
      (uses "type" l \/ uses "subtype" l \/ uses "contenttype" l \/ uses "param" l -> uses "mime" l) ->
      list_of (header_name V) ns -> list_of (key V l) ks -> valid_args D V "header" (tags_text l ++ ns ++ ks) V
  | va_size w n : In w ["over"; "under"] -> valid_args D V "size" [TTag (lit w); TNumber n] V
  | va_exists l ns : tags_ok D (mime_rules 1 2) l -> mime_first l -> list_of (header_name V) ns ->
      valid_args D V "exists" (tags_text l ++ ns) V
  | va_body l ks :
      tags_ok D ([("raw", 1, None, nothing); ("text", 1, None, nothing); ("content", 1, None, list_of (text_ok V)); ("subject", 4, None, nothing)] ++
                 match_rules 2 false ++ [comparator_rule 3]) l -> list_of (key V l) ks ->
      valid_args D V "body" (tags_text l ++ ks) V
  | va_convert a b us : one (text_ok V) a -> one (text_ok V) b -> list_of (text_ok V) us -> valid_args D V "convert" (a ++ b ++ us) V
  | va_date l n d ks :
      tags_ok D (match_rules 1 true ++ [comparator_rule 2] ++ index_rules 3 4 (Some "index") ++ mime_rules 5 6 ++
                 [("originalzone", 7, None, nothing); ("zone", 7, None, zone_arg)]) l -> mime_first l ->
      one (header_name V) n -> one (const (fun x => listed dateparts (lower_text x))) d -> list_of (key V l) ks ->
      valid_args D V "date" (tags_text l ++ n ++ d ++ ks) V
  | va_currentdate l d ks :
      tags_ok D (match_rules 1 true ++ [comparator_rule 2; ("zone", 3, None, zone_arg)]) l ->
      one (const (fun x => listed dateparts (lower_text x))) d -> list_of (key V l) ks ->
      valid_args D V "currentdate" (tags_text l ++ d ++ ks) V
  | va_duplicate l :
      tags_ok D [("handle", 1, None, one (text_ok V)); ("header", 2, None, one (header_name V)); ("uniqueid", 2, None, one (text_ok V));
                 ("seconds", 3, None, number_below usize_max); ("last", 4, None, nothing)] l ->
      valid_args D V "duplicate" (tags_text l) V
  | va_string l us ks :
      tags_ok D (match_rules 1 true ++ [comparator_rule 2]) l -> list_of (text_ok V) us -> list_of (key V l) ks ->
      valid_args D V "string" (tags_text l ++ us ++ ks) V
  | va_notify_capability l u c ks :
      tags_ok D plain_match l -> one (text_ok V) u -> one (text_ok V) c -> list_of (key V l) ks ->
      valid_args D V "notify_method_capability" (tags_text l ++ u ++ c ++ ks) V
  | va_strings n us : In n ["valid_notify_method"; "valid_ext_list"; "mailboxexists"; "servermetadataexists"; "mailboxidexists"] ->
      list_of (text_ok V) us -> valid_args D V n us V
  | va_environment l n ks :
      tags_ok D plain_match l -> one (const any_text) n -> list_of (key V l) ks -> valid_args D V "environment" (tags_text l ++ n ++ ks) V
  | va_ihave us : list_of (const any_text) us -> valid_args D V "ihave" us V
  | va_hasflag l ks : tags_ok D (plain_match ++ [("local", 0, None, nothing)]) l -> list_of (key V l) ks ->
      valid_args D V "hasflag" (tags_text l ++ ks) V
  | va_hasflag_in l ns names vs W ks :
      tags_ok D (plain_match ++ [("local", 0, None, nothing)]) l -> list_of (string_ok V any_value) ns ->
      (forall vals, strings_are K V ns vals -> vals = map XText names) ->
      (forall b, (b = true <-> uses "local" l) -> variables_are K b V names vs W) -> list_of (key W l) ks ->
      valid_args D V "hasflag" (tags_text l ++ ns ++ ks) W
  | va_metadata l m a ks :
      tags_ok D plain_match l -> one (text_ok V) m -> one (text_ok V) a -> list_of (key V l) ks ->
      valid_args D V "metadata" (tags_text l ++ m ++ a ++ ks) V
  | va_metadataexists m us : one (text_ok V) m -> list_of (text_ok V) us -> valid_args D V "metadataexists" (m ++ us) V
  | va_servermetadata l a ks :
      tags_ok D plain_match l -> one (text_ok V) a -> list_of (key V l) ks -> valid_args D V "servermetadata" (tags_text l ++ a ++ ks) V
  | va_spamtest l x : tags_ok D (plain_match ++ [("percent", 3, Some "spamtestplus", nothing)]) l -> one (text_ok V) x ->
      valid_args D V "spamtest" (tags_text l ++ x) V
  | va_virustest l x : tags_ok D plain_match l -> one (text_ok V) x -> valid_args D V "virustest" (tags_text l ++ x) V
  | va_specialuse us : list_of (text_ok V) us -> valid_args D V "specialuse_exists" us V
  | va_specialuse_in m us : one (text_ok V) m -> list_of (text_ok V) us -> valid_args D V "specialuse_exists" (m ++ us) V.

  (** The capability of a test *)
  Definition test_needs : list (String.string * option String.string) :=
    [("address", None); ("envelope", Some "envelope"); ("header", None); ("size", None); ("exists", None); ("body", Some "body");
     ("convert", Some "convert"); ("date", Some "date"); ("currentdate", Some "date"); ("duplicate", Some "duplicate");
     ("string", Some "variables"); ("notify_method_capability", Some "enotify"); ("valid_notify_method", Some "enotify");
     ("environment", Some "environment"); ("valid_ext_list", Some "extlists"); ("ihave", Some "ihave"); ("hasflag", Some "imap4flags");
     ("mailboxexists", Some "mailbox"); ("metadata", Some "mboxmetadata"); ("metadataexists", Some "mboxmetadata");
     ("servermetadata", Some "servermetadata"); ("servermetadataexists", Some "servermetadata"); ("mailboxidexists", Some "mailboxid");
     ("spamtest", Some "spamtest"); ("virustest", Some "virustest"); ("specialuse_exists", Some "special-use")].

  (** [d] is the number of "anyof" and "allof" around the test. *)
  Inductive valid_test (D : list (list capability)) : nat -> vst -> list tok -> vst -> Prop :=
  | vt_true d V : valid_test D d V [TIdent (lit "true")] V
  | vt_false d V : valid_test D d V [TIdent (lit "false")] V
  | vt_args d V n c us W : In (n, c) test_needs -> allowed D c -> valid_args D V n us W -> valid_test D d V (TIdent (lit n) :: us) W
  | vt_eval d V us e : allowed D (Some "vnd.stalwart.expressions") -> expr_is K V us e -> valid_test D d V (TIdent (lit "eval") :: us) V
  | vt_not d V us W : valid_test D d V us W -> valid_test D d V (TIdent (lit "not") :: us) W
  | vt_list d V w us W : In w ["anyof"; "allof"] -> d < l_tests (C_lim K) -> valid_tests D (S d) V us W ->
      valid_test D d V (TIdent (lit w) :: TParenOpen :: us ++ [TParenClose]) W
  with valid_tests (D : list (list capability)) : nat -> vst -> list tok -> vst -> Prop :=
  | vts_one d V us W : valid_test D d V us W -> valid_tests D d V us W
  | vts_more d V us V1 vs W : valid_test D d V us V1 -> valid_tests D d V1 vs W -> valid_tests D d V (us ++ TComma :: vs) W.

  (** *** Actions *)

  Definition flags_rule V (n : nat) : rule := ("flags", n, Some "imap4flags", list_of (text_ok V)).
  Definition string_rule V (w : String.string) (n : nat) (c : option String.string) : rule := (w, n, c, one (text_ok V)).
  (** Where a copy is kept is said only with ":fcc". *)
  Definition fcc_first (l : list tagged) : Prop :=
    uses "create" l \/ uses "flags" l \/ uses "specialuse" l \/ uses "mailboxid" l -> uses "fcc" l.
  Definition modifier_rules V (ws : list String.string) : list rule :=
    map (fun w => (w, 0, None, nothing)) ws ++
    [("replace", 0, None, fun us => exists a b, us = [a; b] /\ readable V a /\ readable V b); ("local", 0, None, nothing)].
  Definition seven_modifiers := ["lower"; "upper"; "lowerfirst"; "upperfirst"; "quotewildcard"; "quoteregex"; "length"].
  (** A variable to assign to: its name is one constant string. *)
  Definition assigns V (b : Prop) (t : tok) (v : vartype) (W : vst) : Prop :=
    exists c, t = TStr c /\ forall local, (local = true <-> b) -> variable_is K V (const_text L c) local v W.

  Inductive valid_action (D : list (list capability)) (V : vst) : String.string -> list tok -> vst -> Prop :=
  | ok_keep : valid_action D V "keep" [] V
  | ok_keep_flags us : allowed D (Some "imap4flags") -> list_of (text_ok V) us -> valid_action D V "keep" (TTag (lit "flags") :: us) V
  | ok_fileinto l x :
      tags_ok D [("copy", 1, Some "copy", nothing); ("create", 2, Some "mailbox", nothing); flags_rule V 3;
                 string_rule V "mailboxid" 4 (Some "mailbox"); string_rule V "specialuse" 5 (Some "special-use")] l ->
      one (text_ok V) x -> valid_action D V "fileinto" (tags_text l ++ x) V
  | ok_redirect l x :
      tags_ok D [("copy", 1, Some "copy", nothing); ("list", 2, Some "extlists", nothing); ("bytrace", 3, Some "redirect-deliverby", nothing);
                 ("bymode", 4, Some "redirect-deliverby", one (const (fun x => In (lower_text x) [lit "notify"; lit "return"])));
                 ("bytimerelative", 5, Some "redirect-deliverby", number_below usize_max);
                 string_rule V "bytimeabsolute" 5 (Some "redirect-deliverby");
                 ("ret", 6, Some "redirect-dsn", one (const (fun x => In (lower_text x) [lit "full"; lit "hdrs"])));
                 ("notify", 7, Some "redirect-dsn", one (const (fun x => exists d, dsn_is K x d)))] l ->
      one (text_ok V) x -> valid_action D V "redirect" (tags_text l ++ x) V
  | ok_bare n : In n ["discard"; "stop"] -> valid_action D V n [] V
  | ok_replace l x :
      tags_ok D [("mime", 1, None, nothing); string_rule V "subject" 2 None; string_rule V "from" 3 None] l -> one (text_ok V) x ->
      valid_action D V "replace" (tags_text l ++ x) V
  | ok_enclose l x :
      tags_ok D [string_rule V "subject" 1 None; ("headers", 2, None, list_of (text_ok V))] l -> one (text_ok V) x ->
      valid_action D V "enclose" (tags_text l ++ x) V
  | ok_extracttext l t v W :
      tags_ok D (("first", 1, None, number_below usize_max) :: modifier_rules V seven_modifiers) l ->
      assigns V (uses "local" l) t v W -> valid_action D V "extracttext" (tags_text l ++ [t]) W
  | ok_convert a b us : one (text_ok V) a -> one (text_ok V) b -> list_of (text_ok V) us -> valid_action D V "convert" (a ++ b ++ us) V
  | ok_addheader l n v :
      tags_ok D [("last", 1, None, nothing)] l -> one (header_name V) n ->
      one (string_ok V (is_text (fun x => blen x <= C_hsize K))) v -> valid_action D V "addheader" (tags_text l ++ n ++ v) V
  | ok_deleteheader l n ks :
      tags_ok D (match_rules 1 false ++ [comparator_rule 2] ++ index_rules 3 4 None ++ mime_rules 5 6) l -> mime_first l ->
      one (header_name V) n -> ks = [] \/ list_of (key V l) ks -> valid_action D V "deleteheader" (tags_text l ++ n ++ ks) V
  | ok_set l t v x W :
      tags_ok D (modifier_rules V (seven_modifiers ++ ["encodeurl"])) l -> assigns V (uses "local" l) t v W -> one (text_ok W) x ->
      valid_action D V "set" (tags_text l ++ [t] ++ x) W
  | ok_notify l x :
      tags_ok D [("from", 1, None, one (string_ok V (is_text (fun x => x <> [] /\ validate_from x false false false false 0%N = true))));
                 string_rule V "message" 2 None; string_rule V "importance" 3 None; ("options", 4, None, list_of (text_ok V));
                 ("create", 5, Some "mailbox", nothing); string_rule V "specialuse" 6 (Some "special-use");
                 string_rule V "mailboxid" 7 (Some "mailboxid"); string_rule V "fcc" 8 (Some "fcc"); flags_rule V 9] l -> fcc_first l ->
      one (fun t => readable V t /\ match t with TStr c => validate_uri (C_M K) (C_dec K) (const_text L c) <> None | _ => True end) x ->
      valid_action D V "notify" (tags_text l ++ x) V
  | ok_string n us : In n ["reject"; "ereject"; "error"] -> one (text_ok V) us -> valid_action D V n us V
  | ok_flags n us : In n ["setflag"; "addflag"; "removeflag"] -> list_of (text_ok V) us -> valid_action D V n us V
  | ok_flags_in n t v us W : In n ["setflag"; "addflag"; "removeflag"] -> assigns V False t v W -> list_of (text_ok W) us ->
      valid_action D V n (t :: us) W
  | ok_let t v us e W : assigns V False t v W -> expr_is K W us e -> valid_action D V "let" (t :: us) W
  | ok_eval us e : expr_is K V us e -> valid_action D V "eval" us V
  | ok_vacation l x :
      tags_ok D [("mime", 1, None, nothing); ("create", 2, Some "mailbox", nothing); ("days", 3, None, number_below usize_max);
                 ("seconds", 3, Some "vacation-seconds", number_below usize_max); string_rule V "subject" 4 None; string_rule V "from" 5 None;
                 string_rule V "handle" 6 None; string_rule V "specialuse" 7 (Some "special-use");
                 string_rule V "mailboxid" 8 (Some "mailboxid"); string_rule V "fcc" 9 (Some "fcc"); flags_rule V 10;
                 ("addresses", 11, None, list_of (text_ok V))] l -> fcc_first l ->
      one (text_ok V) x -> valid_action D V "vacation" (tags_text l ++ x) V
  | ok_return : valid_action D V "return" [] V
  | ok_global us xs W : allowed D (Some "variables") -> list_of (const any_text) us -> texts_are K us xs -> globals_are K V xs W ->
      valid_action D V "global" us W.

  Definition action_needs : list (String.string * option String.string) :=
    [("keep", None); ("fileinto", Some "fileinto"); ("redirect", None); ("discard", None); ("stop", None); ("replace", Some "replace");
     ("enclose", Some "enclose"); ("extracttext", Some "extracttext"); ("convert", Some "convert"); ("addheader", Some "editheader");
     ("deleteheader", Some "editheader"); ("set", Some "variables"); ("notify", Some "enotify"); ("reject", Some "reject");
     ("ereject", Some "ereject"); ("error", Some "ihave"); ("setflag", Some "imap4flags"); ("addflag", Some "imap4flags");
     ("removeflag", Some "imap4flags"); ("let", Some "vnd.stalwart.expressions"); ("eval", Some "vnd.stalwart.expressions");
     ("vacation", Some "vacation"); ("return", Some "include"); ("global", Some "include")].

  (** *** Commands

      [e] are the blocks around, innermost first; [n] is the number of scripts included
      so far; the variables declared are [V] before, and the last argument but one after. *)
  Definition label_ok (us : list tok) (l : option text) : Prop :=
    match l with
    | None => us = []
    | Some x => exists c, us = [TTag (lit "name"); TStr c] /\ x = const_text L c
    end.
  Definition include_ok D V us : Prop :=
    exists l x, tags_ok D [("once", 1, None, nothing); ("optional", 2, None, nothing); ("personal", 3, None, nothing); ("global", 3, None, nothing)] l /\
      one (text_ok V) x /\ us = tags_text l ++ x.
  Definition loops (e : list encl) : nat := length (filter encl_for e).

  Inductive valid_commands : list (list capability) -> list encl -> nat -> vst -> list tok -> nat -> vst -> Prop :=
  | vc_none D e n V : valid_commands D e n V [] n V
  | vc_require D e n V us xs vs n' W :
      list_of (const any_text) us -> texts_are K us xs -> valid_commands (declare (new_caps K D (map parse_cap xs)) D) e n V vs n' W ->
      valid_commands D e n V (TIdent (lit "require") :: us ++ TSemicolon :: vs) n' W
  | vc_action D e n V w c us V1 vs n' W :
      In (w, c) action_needs -> allowed D c -> valid_action D V w us V1 -> valid_commands D e n V1 vs n' W ->
      valid_commands D e n V (TIdent (lit w) :: us ++ TSemicolon :: vs) n' W
  | vc_include D e n V us vs n' W :
      allowed D (Some "include") -> n < l_includes (C_lim K) -> include_ok D V us -> valid_commands D e (n + 1) V vs n' W ->
      valid_commands D e n V (TIdent (lit "include") :: us ++ TSemicolon :: vs) n' W
  | vc_break D e n V us l vs n' W :
      label_ok us l -> (l <> None -> allowed D (Some "foreverypart")) ->
      match l with Some x => existsb (encl_named x) e | None => existsb (fun b => match b with EPlain => false | _ => true end) e end = true ->
      valid_commands D e n V vs n' W -> valid_commands D e n V (TIdent (lit "break") :: us ++ TSemicolon :: vs) n' W
  | vc_continue D e n V vs n' W :
      allowed D (Some "vnd.stalwart.while") -> continue_ok e = true -> valid_commands D e n V vs n' W ->
      valid_commands D e n V (TIdent (lit "continue") :: TSemicolon :: vs) n' W
  | vc_foreverypart D e n V us l bs n1 V1 vs n' W :
      allowed D (Some "foreverypart") -> label_ok us l -> loops e < l_fep (C_lim K) ->
      match l with Some x => existsb (encl_named x) e = false | None => True end ->
      valid_block D (EFor l) e n V bs n1 V1 -> valid_commands D e n1 V1 vs n' W ->
      valid_commands D e n V (TIdent (lit "foreverypart") :: us ++ bs ++ vs) n' W
  | vc_while D e n V us x bs n1 V1 vs n' W :
      allowed D (Some "vnd.stalwart.while") -> expr_is K V us x ->
      valid_block D EWhile e n V bs n1 V1 -> valid_commands D e n1 V1 vs n' W ->
      valid_commands D e n V (TIdent (lit "while") :: us ++ bs ++ vs) n' W
  | vc_if D e n V us V1 bs n2 V2 rs n3 V3 vs n' W :
      valid_test D 0 V us V1 -> valid_block D EPlain e n V1 bs n2 V2 -> valid_else D e n2 V2 rs n3 V3 -> valid_commands D e n3 V3 vs n' W ->
      valid_commands D e n V (TIdent (lit "if") :: us ++ bs ++ rs ++ vs) n' W
  (** elsif and else *)
  with valid_else : list (list capability) -> list encl -> nat -> vst -> list tok -> nat -> vst -> Prop :=
  | ve_none D e n V : valid_else D e n V [] n V
  | ve_else D e n V bs n' W : valid_block D EPlain e n V bs n' W -> valid_else D e n V (TIdent (lit "else") :: bs) n' W
  | ve_elsif D e n V us V1 bs n2 V2 rs n' W :
      valid_test D 0 V us V1 -> valid_block D EPlain e n V1 bs n2 V2 -> valid_else D e n2 V2 rs n' W ->
      valid_else D e n V (TIdent (lit "elsif") :: us ++ bs ++ rs) n' W
  (** A block, with what begins it *)
  with valid_block : list (list capability) -> encl -> list encl -> nat -> vst -> list tok -> nat -> vst -> Prop :=
  | vb_block D b e n V us n' V1 W x :
      length e < l_blocks (C_lim K) -> valid_commands ([] :: D) (b :: e) n (open_block V) us n' V1 -> close_block V1 = Some (W, x) ->
      valid_block D b e n V (TCurlyOpen :: us ++ [TCurlyClose]) n' W.

  (** A whole script *)
  Definition valid_script (ts : list tok) : Prop := exists n W, valid_commands [[]] [] 0 v_start ts n W.
End Accept.
