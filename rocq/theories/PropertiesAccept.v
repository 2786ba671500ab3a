(** Property C85: valid scripts are accepted. *)
From Coq Require Import Lia.
From Verif Require Import Base Lib Address Var Value SetVar Flags Comparator Message EditHeader
  Expr ExprTok Event Notify AddrTest Vacation Sieve Utf8 Lexer Scope StringTok HeaderVar Compile ParseArgs ParseBase Parse CompileSpec GrammarSpec
  ArgSpec RefineSpec LexTextSpec LexTextProofs AcceptSpec AcceptText AcceptCmds3 PropertiesRun PropertiesParse.
Import ListNotations.
Local Open Scope string_scope.
Local Open Scope list_scope.

(** ** C85: a script that follows the grammar, with the arguments each command takes, with
    every capability it needs declared, and within the limits, is not rejected.

    Full statement: every script that is valid by the RFCs.  Missing: [valid_script]
    asks for the capabilities that the compiler wants where they are not those of the
    RFCs (see the refutations below). *)
Theorem C85_accepted_partial : forall K script ts,
  all_tokens (C_L K) (C_string K) (lex_start script) ts -> valid_script K ts -> length script <= C_script K ->
  compile K script <> Parse.Rejected.
Proof. intros K script ts T V LE. exact (accepts_script K _ script ts T V LE). Qed.
Print Assumptions C85_accepted_partial.

(** A text that is written with the words, tags, numbers, strings and punctuation of a
    valid script is compiled. *)
Theorem C85_text_partial : forall K t xs,
  Forall scalar t -> text_of (C_string K) xs (utf8 t) -> length (utf8 t) <= C_script K ->
  (forall ts, Forall2 (is_read_as (C_L K)) xs ts -> valid_script K ts) ->
  exists x, compile K (utf8 t) = Compiled x.
Proof.
  intros K t xs S T LE V. destruct (text_all (C_L K) (C_string K) xs (utf8 t) T (lex_start (utf8 t))) as (ts & F & A).
  { left. repeat split. }
  destruct (C68_no_panic_partial K t S) as [X|X]; [exact X|]. exfalso.
  exact (C85_accepted_partial K (utf8 t) ts A (V ts F) LE X).
Qed.
Print Assumptions C85_text_partial.

(** Two kinds of scripts that are valid by the RFCs and rejected.

    RFC 9042: ":mailboxid" of fileinto needs the capability "mailboxid". *)
Theorem C85_mailboxid_refuted : forall M dec regex fns umax,
  compile (defaults ascii_lib M dec regex fns umax) (lit "require [""fileinto"", ""mailboxid""]; fileinto :mailboxid ""F1"" ""x"";") = Parse.Rejected /\
  exists x, compile (defaults ascii_lib M dec regex fns umax) (lit "require [""fileinto"", ""mailbox""]; fileinto :mailboxid ""F1"" ""x"";") = Compiled x.
Proof. intros. split; [vm_compute; reflexivity|eexists; vm_compute; reflexivity]. Qed.
Print Assumptions C85_mailboxid_refuted.
(** RFC 6131: "vacation-seconds" implies "vacation". *)
Theorem C85_vacation_seconds_refuted : forall M dec regex fns umax,
  compile (defaults ascii_lib M dec regex fns umax) (lit "require ""vacation-seconds""; vacation :seconds 60 ""x"";") = Parse.Rejected /\
  exists x, compile (defaults ascii_lib M dec regex fns umax) (lit "require [""vacation"", ""vacation-seconds""]; vacation :seconds 60 ""x"";") = Compiled x.
Proof. intros. split; [vm_compute; reflexivity|eexists; vm_compute; reflexivity]. Qed.
Print Assumptions C85_vacation_seconds_refuted.

(** A script and its tokens *)
Definition C85_script : list N := lit
  "require [""fileinto"", ""variables"", ""imap4flags"", ""foreverypart""];
   if anyof (header :contains [""Subject"", ""From""] ""x"", not size :over 10K) {
     set :lower ""a"" ""B"";
     fileinto :flags ""Seen"" ""In/${a}"";
     foreverypart :name ""p"" { break :name ""p""; }
     stop;
   } elsif true {
     keep;
   } else {
     discard;
   }".
Definition C85_tokens : list tok :=
  TIdent (lit "require") :: [TBracketOpen; TStr (CText (lit "fileinto")); TComma; TStr (CText (lit "variables")); TComma;
                             TStr (CText (lit "imap4flags")); TComma; TStr (CText (lit "foreverypart")); TBracketClose] ++ TSemicolon ::
  TIdent (lit "if") ::
    (TIdent (lit "anyof") :: TParenOpen ::
      (((TIdent (lit "header") :: [TTag (lit "contains")] ++ [TBracketOpen; TStr (CText (lit "Subject")); TComma; TStr (CText (lit "From")); TBracketClose] ++
         [TStr (CText (lit "x"))]) ++ TComma ::
       TIdent (lit "not") :: TIdent (lit "size") :: [TTag (lit "over"); TNumber 10240]) ++ [TParenClose])) ++
  (TCurlyOpen ::
    (TIdent (lit "set") :: ([TTag (lit "lower")] ++ [TStr (CText (lit "a"))] ++ [TStr (CText (lit "B"))]) ++ TSemicolon ::
     TIdent (lit "fileinto") :: ([TTag (lit "flags"); TStr (CText (lit "Seen"))] ++ [TVar (lit "In/${a}")]) ++ TSemicolon ::
     TIdent (lit "foreverypart") :: [TTag (lit "name"); TStr (CText (lit "p"))] ++
       (TCurlyOpen :: (TIdent (lit "break") :: [TTag (lit "name"); TStr (CText (lit "p"))] ++ TSemicolon :: []) ++ [TCurlyClose]) ++
     TIdent (lit "stop") :: [] ++ TSemicolon :: []) ++ [TCurlyClose]) ++
  (TIdent (lit "elsif") :: [TIdent (lit "true")] ++ (TCurlyOpen :: (TIdent (lit "keep") :: [] ++ TSemicolon :: []) ++ [TCurlyClose]) ++
   (TIdent (lit "else") :: (TCurlyOpen :: (TIdent (lit "discard") :: [] ++ TSemicolon :: []) ++ [TCurlyClose]))) ++ [].

Example C85_tokens_ex : all_tokens ascii_lib 4096 (lex_start C85_script) C85_tokens.
Proof. repeat (eapply all_token; [vm_compute; reflexivity|]). eapply all_end. vm_compute. reflexivity. Qed.

Local Ltac cstr := split; [exact Logic.I|intros; exact Logic.I].
Local Ltac named := repeat (first [left; reflexivity|right]).
Example C85_valid : valid_script K1 C85_tokens.
Proof.
  eexists _, _. unfold C85_tokens.
  eapply (vc_require K1 _ _ _ _ [TBracketOpen; _; _; _; _; _; _; _; TBracketClose] [lit "fileinto"; lit "variables"; lit "imap4flags"; lit "foreverypart"]).
  { right. eexists [_; _; _; _; _; _; _]. split; [reflexivity|]. repeat (apply sep_more; [eexists; split; [reflexivity|exact Logic.I]|]). apply sep_one. eexists. split; [reflexivity|exact Logic.I]. }
  { right. eexists [_; _; _; _; _; _; _]. split; [reflexivity|]. split; [repeat constructor|discriminate]. }
  eapply vc_if.
  - eapply (vt_list K1 _ _ _ "anyof"); [left; reflexivity|cbn; lia|]. eapply vts_more.
    + eapply (vt_args K1 _ _ _ "header"); [named|exact Logic.I|]. eapply (va_header K1 _ _ [("contains", [])]).
      * eapply tags_more; [right; left; reflexivity|exact Logic.I|reflexivity|right; easy|apply tags_none].
      * intros [X|[]]. discriminate X.
      * intros [[X|[]]|[[X|[]]|[[X|[]]|[X|[]]]]]; discriminate X.
      * right. eexists [_; _; _]. split; [reflexivity|]. apply sep_more; [|apply sep_one]; (split; [exact Logic.I|]); intros v ->; vm_compute; discriminate.
      * left. eexists. split; [reflexivity|]. split; [exact Logic.I|]. intros v _ [X|[]]. discriminate X.
    + eapply vts_one. eapply vt_not. eapply (vt_args K1 _ _ _ "size"); [named|exact Logic.I|]. apply va_size. left. reflexivity.
  - eapply vb_block; [cbn; lia| |].
    {
    eapply (vc_action K1 _ _ _ _ "set"); [named|reflexivity| |].
    { eapply (ok_set K1 _ _ [("lower", [])]).
      - eapply tags_more; [left; reflexivity|exact Logic.I|reflexivity|left; reflexivity|apply tags_none].
      - eexists. split; [reflexivity|]. intros [] X; [destruct X as [X _]; destruct (X eq_refl) as [Y|[]]; discriminate Y|]. vm_compute. reflexivity.
      - eexists. split; [reflexivity|]. cstr. }
    eapply (vc_action K1 _ _ _ _ "fileinto"); [named|reflexivity| |].
    { eapply (ok_fileinto K1 _ _ [("flags", [_])]).
      - eapply tags_more; [right; right; left; reflexivity|reflexivity|left; eexists; split; [reflexivity|cstr]|right; easy|apply tags_none].
      - eexists. split; [reflexivity|]. split; [|intros; exact Logic.I]. intros []; vm_compute; discriminate. }
    eapply (vc_foreverypart K1 _ _ _ _ _ (Some (lit "p"))); [reflexivity|eexists; split; reflexivity|cbn; lia|reflexivity| |].
    { eapply vb_block; [cbn; lia| |].
      { eapply (vc_break K1 _ _ _ _ _ (Some (lit "p"))); [eexists; split; reflexivity|reflexivity|reflexivity|apply vc_none]. }
      vm_compute. reflexivity. }
    eapply (vc_action K1 _ _ _ _ "stop"); [named|exact Logic.I|apply ok_bare; right; left; reflexivity|apply vc_none]. }
    vm_compute. reflexivity.
  - eapply ve_elsif; [apply vt_true| |].
    + eapply vb_block; [cbn; lia| |].
      { eapply (vc_action K1 _ _ _ _ "keep"); [named|exact Logic.I|apply ok_keep|apply vc_none]. }
      vm_compute. reflexivity.
    + eapply ve_else. eapply vb_block; [cbn; lia| |].
      { eapply (vc_action K1 _ _ _ _ "discard"); [named|exact Logic.I|apply ok_bare; left; reflexivity|apply vc_none]. }
      vm_compute. reflexivity.
  - apply vc_none.
Qed.
Example C85_compiled : exists x, compile K1 C85_script = Compiled x.
Proof. eexists. vm_compute. reflexivity. Qed.

(** The names of commands, tests and tags in the rules above. *)
Definition C85_names : list String.string :=
  ["if"; "elsif"; "else"; "require"; "foreverypart"; "while"; "break"; "continue"; "include"; "return"; "global";
   "not"; "anyof"; "allof"; "true"; "false"; "eval";
   "address"; "envelope"; "header"; "size"; "exists"; "body"; "convert"; "date"; "currentdate"; "duplicate"; "string";
   "notify_method_capability"; "valid_notify_method"; "environment"; "valid_ext_list"; "ihave"; "hasflag";
   "mailboxexists"; "metadata"; "metadataexists"; "servermetadata"; "servermetadataexists"; "mailboxidexists";
   "spamtest"; "virustest"; "specialuse_exists";
   "keep"; "fileinto"; "redirect"; "discard"; "stop"; "replace"; "enclose"; "extracttext"; "addheader"; "deleteheader";
   "set"; "notify"; "reject"; "ereject"; "error"; "setflag"; "addflag"; "removeflag"; "let"; "vacation";
   "is"; "contains"; "matches"; "regex"; "value"; "count"; "list"; "comparator"; "index"; "last"; "mime"; "anychild";
   "localpart"; "domain"; "all"; "user"; "detail"; "name"; "zone"; "originalzone"; "type"; "subtype"; "contenttype"; "param";
   "over"; "under"; "raw"; "text"; "content"; "subject"; "handle"; "uniqueid"; "seconds"; "local"; "percent";
   "flags"; "copy"; "create"; "mailboxid"; "specialuse"; "bytrace"; "bymode"; "bytimerelative"; "bytimeabsolute"; "ret";
   "from"; "headers"; "first"; "lower"; "upper"; "lowerfirst"; "upperfirst"; "quotewildcard"; "quoteregex"; "length"; "encodeurl";
   "message"; "importance"; "options"; "fcc"; "days"; "addresses"; "once"; "optional"; "personal"]%string.
(** Each of them is read as a name and, with a colon, as a tag, in any mix of cases. *)
Theorem C85_names_read : forall L n w, In n C85_names -> lower_text w = lit n ->
  (forall k, is_read_as L (XWord w) k -> k = TIdent (lit n)) /\ (forall k, is_read_as L (XTag w) k -> k = TTag (lit n)).
Proof.
  intros L n w I E. assert (W : Lexer.is_word (lit n) = true).
  { assert (F : forallb (fun n => Lexer.is_word (lit n)) C85_names = true) by (vm_compute; reflexivity).
    rewrite forallb_forall in F. exact (F n I). }
  split; intros k H; unfold is_read_as in H; rewrite E, W in H; exact H.
Qed.
Print Assumptions C85_names_read.
