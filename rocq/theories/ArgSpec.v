(** Specification of what the arguments of a test or an action say: how the tokens after
    its name are divided into arguments, and which test or action they describe
    (RFC 5228, section 2.6, and the extensions).  Nothing here refers to the parsers. *)
From Verif Require Import Base Lib Address Var Value SetVar Flags Comparator Message EditHeader
  Expr ExprTok Event Notify AddrTest Vacation Sieve Utf8 Lexer Scope StringTok HeaderVar ParseBase GrammarSpec.
Import ListNotations.
Local Open Scope string_scope.
Local Open Scope list_scope.

(** *** Dividing the arguments *)

(** A string, or a list of strings in brackets *)
Definition a_strings (us : list tok) : Prop :=
  (exists t, us = [t] /\ is_string t) \/
  (exists l, us = TBracketOpen :: l ++ [TBracketClose] /\ Forall (fun t => is_string t \/ t = TComma) l).
(** What may follow a tag *)
Inductive shape := SStrings | SNumber.
Definition fits (s : shape) (us : list tok) : Prop :=
  match s with SStrings => a_strings us | SNumber => exists n, us = [TNumber n] end.
Fixpoint fits_all (ss : list shape) (us : list tok) : Prop :=
  match ss with
  | [] => us = []
  | s :: ss' => exists vs ws, us = vs ++ ws /\ fits s vs /\ fits_all ss' ws
  end.
(** The tags of a command, each with what follows it *)
Definition tags := list (String.string * list shape).
(** A tagged argument, or a positional one *)
Definition piece := (option text * list tok)%type.
Definition written (p : piece) : list tok := match fst p with Some w => TTag w :: snd p | None => snd p end.
Definition legal (ts : tags) (p : piece) : Prop :=
  match fst p with
  | Some w => exists n ss, In (n, ss) ts /\ w = lit n /\ fits_all ss (snd p)
  | None => a_strings (snd p)
  end.
Definition splits (ts : tags) (us : list tok) (l : list piece) : Prop := us = concat (map written l) /\ Forall (legal ts) l.
Definition positional (l : list piece) : list (list tok) :=
  map snd (filter (fun p => match fst p with Some _ => false | None => true end) l).
Definition among (ws : list String.string) (w : text) : bool := existsb (fun n => teqb w (lit n)) ws.
(** The last argument with one of these tags *)
Fixpoint given (ws : list String.string) (l : list piece) : option (text * list tok) :=
  match l with
  | [] => None
  | (Some w, us) :: l' => match given ws l' with
                          | Some x => Some x
                          | None => if among ws w then Some (w, us) else None
                          end
  | (None, _) :: l' => given ws l'
  end.
Definition has (w : String.string) (l : list piece) : bool := match given [w] l with Some _ => true | None => false end.
(** An optional argument: its value, by [Q], or a default *)
Definition opt {A} (ws : list String.string) (Q : text -> list tok -> A -> Prop) (d : A) (l : list piece) (x : A) : Prop :=
  match given ws l with Some (w, us) => Q w us x | None => x = d end.
Fixpoint assoc {A} (x : text) (l : list (String.string * A)) : option A :=
  match l with
  | [] => None
  | (n, a) :: l' => if teqb x (lit n) then Some a else assoc x l'
  end.

(** *** Tables *)

Definition relations : list (String.string * rel) :=
  [("gt", RGt); ("ge", RGe); ("lt", RLt); ("le", RLe); ("eq", REq); ("ne", RNe)].
Definition comparators : list (String.string * comparator) :=
  [("i;octet", COctet); ("i;ascii-casemap", CCasemap); ("i;ascii-numeric", CNumeric)].
Definition parts : list (String.string * apart) :=
  [("localpart", PLocal); ("domain", PDomain); ("all", PAll); ("user", PUser); ("detail", PDetail); ("name", PName)].
Definition dateparts : list (String.string * datepart) :=
  [("year", DYear); ("month", DMonth); ("day", DDay); ("date", DDate); ("julian", DJulian); ("hour", DHour);
   ("minute", DMinute); ("second", DSecond); ("time", DTime); ("iso8601", DIso8601); ("std11", DStd11); ("zone", DZone);
   ("weekday", DWeekday)].
Definition envelopes : list (String.string * envk) :=
  [("from", EnvFrom); ("to", EnvTo); ("bytimeabsolute", EnvByTimeAbsolute); ("bytimerelative", EnvByTimeRelative);
   ("bymode", EnvByMode); ("bytrace", EnvByTrace); ("notify", EnvNotify); ("orcpt", EnvOrcpt); ("ret", EnvRet);
   ("envid", EnvEnvid)].
Definition modifiers : list (String.string * modifier) :=
  [("lower", ModLower); ("upper", ModUpper); ("lowerfirst", ModLowerFirst); ("upperfirst", ModUpperFirst);
   ("quotewildcard", ModQuoteWildcard); ("quoteregex", ModQuoteRegex); ("length", ModLength); ("encodeurl", ModEncodeUrl)].
Definition bare (ws : list String.string) : tags := map (fun w => (w, [])) ws.
Definition with_strings (ws : list String.string) : tags := map (fun w => (w, [SStrings])) ws.

Definition match_tags (lists : bool) : tags :=
  bare ["is"; "contains"; "matches"; "regex"] ++ with_strings ["value"; "count"] ++ (if lists then bare ["list"] else []) ++
  with_strings ["comparator"].
Definition index_tags : tags := [("index", [SNumber]); ("last", [])].
Definition mime_tags : tags := bare ["mime"; "anychild"].

Section Args.
  Variable K : cenv.
  (** The variables that are declared where the arguments stand *)
  Variable V : vst.
  Notation L := (C_L K).

  (** *** Strings *)

  (** A string stands for its text or number; one with variables, for what they are by
      the declarations [V].  Whether match variables are known is left open. *)
  Definition string_is (t : tok) (v : value) : Prop :=
    match t with
    | TStr (CText s) => v = XText s
    | TStr (CNum n) => v = XNumber n
    | TVar bs => exists m, tokenize_string L (resolve_ref L (header_variable (C_M K)) V m) bs = Some v
    | _ => False
    end.
  Inductive strings_in : list tok -> list value -> Prop :=
  | in_none : strings_in [] []
  | in_comma us l : strings_in us l -> strings_in (TComma :: us) l
  | in_string t v us l : string_is t v -> strings_in us l -> strings_in (t :: us) (v :: l).
  Definition strings_are (us : list tok) (l : list value) : Prop :=
    (exists t v, us = [t] /\ string_is t v /\ l = [v]) \/
    (exists vs, us = TBracketOpen :: vs ++ [TBracketClose] /\ strings_in vs l /\ l <> []).
  Definition string1 (us : list tok) (v : value) : Prop := strings_are us [v].
  (** Strings that have to be known when the script is compiled.  A list of them is
      written without commas where one is expected, and the last one counts. *)
  Definition text_is (us : list tok) (x : text) : Prop :=
    exists c, x = const_text L c /\
      (us = [TStr c] \/ exists cs, us = TBracketOpen :: map TStr (cs ++ [c]) ++ [TBracketClose]).
  Inductive texts_in : list tok -> list text -> Prop :=
  | tx_none : texts_in [] []
  | tx_comma us l : texts_in us l -> texts_in (TComma :: us) l
  | tx_string c us l : texts_in us l -> texts_in (TStr c :: us) (const_text L c :: l).
  Definition texts_are (us : list tok) (l : list text) : Prop :=
    (exists c, us = [TStr c] /\ l = [const_text L c]) \/
    (exists vs, us = TBracketOpen :: vs ++ [TBracketClose] /\ texts_in vs l /\ l <> []).

  (** *** Common arguments *)

  Definition flag (w : String.string) : list piece -> bool -> Prop := opt [w] (fun _ _ x => x = true) false.
  Definition str_opt (w : String.string) : list piece -> option value -> Prop :=
    opt [w] (fun _ us x => exists v, x = Some v /\ string1 us v) None.
  Definition strs_opt (w : String.string) : list piece -> list value -> Prop := opt [w] (fun _ us x => strings_are us x) [].
  Definition num_opt (w : String.string) : list piece -> option N -> Prop :=
    opt [w] (fun _ us x => exists n, x = Some n /\ us = [TNumber n]) None.

  Inductive match_is : text -> list tok -> mtype -> Prop :=
  | match_is_ : match_is (lit "is") [] MIs
  | match_contains : match_is (lit "contains") [] MContains
  | match_matches : match_is (lit "matches") [] (MMatches 0)
  | match_regex : match_is (lit "regex") [] (MRegex 0)
  | match_list : match_is (lit "list") [] MList
  | match_value c r : assoc (const_text L c) relations = Some r -> match_is (lit "value") [TStr c] (MValue r)
  | match_count c r : assoc (const_text L c) relations = Some r -> match_is (lit "count") [TStr c] (MCount r).
  Definition comparator_is (us : list tok) (c : comparator) : Prop :=
    exists x, text_is us x /\ c = match assoc x comparators with Some c => c | None => COther end.
  Definition match_words : list String.string := ["is"; "contains"; "matches"; "regex"; "value"; "count"; "list"].
  Definition matching (l : list piece) (m : mtype) (c : comparator) : Prop :=
    opt match_words match_is MIs l m /\ opt ["comparator"] (fun _ us c => comparator_is us c) CCasemap l c.
  (** The keys of a test; texts are regular expressions after ":regex". *)
  Definition regex_key (v : value) : value := match v with XText e => XRegex e | _ => v end.
  Definition keys_are (m : mtype) (us : list tok) (ks : list value) : Prop :=
    exists vs, strings_are us vs /\ ks = match m with MRegex _ => map regex_key vs | _ => vs end.
  (** ":index", counted from the end with ":last" *)
  Definition index_is (l : list piece) (i : option Z) : Prop :=
    opt ["index"] (fun _ us x => exists n, us = [TNumber n] /\
                     x = Some (if has "last" l then (- Z.of_N n)%Z else Z.of_N n)) None l i.
  Definition part_is (w : text) (us : list tok) (p : apart) : Prop := assoc w parts = Some p.
  (** A time zone +hhmm, in seconds *)
  Definition number_of (c : strconst) : option Z :=
    match c with CText s => parse_i64 s | CNum (NInt z) => Some z | CNum (NFloat f) => Some (Z_of_f64 f) end.
  Definition zone_is (us : list tok) (off : Z) : Prop :=
    exists c z, us = [TStr c] /\ number_of c = Some z /\ (-1200 <= z <= 1400)%Z /\
      off = (Z.sgn z * (Z.abs z / 100 * 3600 + Z.abs z mod 100 * 60))%Z.
  Definition datepart_is (us : list tok) (d : datepart) : Prop :=
    exists c, us = [TStr c] /\ assoc (lower_text (const_text L c)) dateparts = Some d.
  Definition envelopes_are (us : list tok) (l : list envk) : Prop :=
    exists xs es, texts_are us xs /\ map (fun x => assoc (lower_text x) envelopes) xs = map Some es /\
      l = fold_left (fun l e => if in_dec envk_eq_dec e l then l else l ++ [e]) es [].
  Definition mimeopt_is (w : text) (us : list tok) (o : mimev) : Prop :=
    (w = lit "type" /\ o = MvType) \/ (w = lit "subtype" /\ o = MvSubtype) \/ (w = lit "contenttype" /\ o = MvContentType) \/
    (w = lit "param" /\ exists l, strings_are us l /\ o = MvParam l).
  Definition body_is (w : text) (us : list tok) (b : bodytransform) : Prop :=
    (w = lit "raw" /\ b = BtRaw) \/ (w = lit "text" /\ b = BtText) \/
    (w = lit "content" /\ exists l, strings_are us l /\ b = BtContent l).
  Definition names_token (n : text) (ns : bool) : option Expr.token :=
    match parse_variable L (header_variable (C_M K)) V n ns with
    | RVar v => Some (Expr.TVar v)
    | _ => match C_fns K n with Some (id, k) => Some (TFun id k) | None => None end
    end.
  Definition expr_is (us : list tok) (e : list instr) : Prop :=
    exists t src, us = [t] /\
      match t with TStr c => src = const_text L c | TVar bs => utf8_strict bs = Some src | _ => False end /\
      compile_text L names_token src = Parsed e.

  (** *** Tests *)

  (** Those that declare no variable *)
  Inductive plain_test : String.string -> list tok -> test -> Prop :=
  | is_address us l n k names i any p c m ks :
      splits (bare (map fst parts) ++ match_tags true ++ index_tags ++ mime_tags) us l -> positional l = [n; k] ->
      strings_are n names -> index_is l i -> flag "anychild" l any -> opt (map fst parts) part_is PAll l p ->
      matching l m c -> keys_are m k ks ->
      plain_test "address" us (TeAddress names i any p c m ks false)
  | is_header us l n k names i any o c m ks :
      splits (match_tags true ++ index_tags ++ mime_tags ++ bare ["type"; "subtype"; "contenttype"] ++ with_strings ["param"]) us l ->
      positional l = [n; k] -> strings_are n names -> index_is l i -> flag "anychild" l any ->
      opt ["type"; "subtype"; "contenttype"; "param"] mimeopt_is MvNone l o -> matching l m c -> keys_are m k ks ->
      plain_test "header" us (TeHeader names i any o c m ks false)
  | is_body us l k b sub c m ks :
      splits (match_tags false ++ bare ["raw"; "text"; "subject"] ++ with_strings ["content"]) us l -> positional l = [k] ->
      opt ["raw"; "text"; "content"] body_is BtText l b -> flag "subject" l sub -> matching l m c -> keys_are m k ks ->
      plain_test "body" us (TeBody b sub c m ks false)
  | is_date us l n d k name i any p z c m ks :
      splits (match_tags true ++ index_tags ++ mime_tags ++ bare ["originalzone"] ++ with_strings ["zone"]) us l ->
      positional l = [n; d; k] -> string1 n name -> datepart_is d p -> index_is l i -> flag "anychild" l any ->
      opt ["originalzone"; "zone"] (fun w us z => (w = lit "originalzone" /\ z = ZOriginal) \/
                                                  (w = lit "zone" /\ exists off, zone_is us off /\ z = ZTime off)) ZLocal l z ->
      matching l m c -> keys_are m k ks ->
      plain_test "date" us (TeDate name i any p z c m ks false)
  | is_currentdate us l d k p z c m ks :
      splits (match_tags true ++ with_strings ["zone"]) us l -> positional l = [d; k] -> datepart_is d p ->
      opt ["zone"] (fun _ us z => exists off, zone_is us off /\ z = Some off) None l z -> matching l m c -> keys_are m k ks ->
      plain_test "currentdate" us (TeCurrentDate z p c m ks false)
  | is_duplicate us l d h last secs :
      splits (with_strings ["handle"; "header"; "uniqueid"] ++ [("seconds", [SNumber]); ("last", [])]) us l ->
      positional l = [] -> str_opt "handle" l h ->
      opt ["header"; "uniqueid"] (fun w us d => exists v, string1 us v /\
                                    ((w = lit "header" /\ d = DupHeader v) \/ (w = lit "uniqueid" /\ d = DupUnique v))) DupDefault l d ->
      flag "last" l last -> num_opt "seconds" l secs ->
      plain_test "duplicate" us (TeDuplicate d h last secs false)
  | is_envelope us l n k names p z c m ks :
      splits (bare ["localpart"; "domain"; "all"; "user"; "detail"] ++ match_tags true ++ with_strings ["zone"]) us l ->
      positional l = [n; k] -> envelopes_are n names -> opt (map fst parts) part_is PAll l p ->
      opt ["zone"] (fun _ us z => exists off, zone_is us off /\ z = Some off) None l z -> matching l m c -> keys_are m k ks ->
      plain_test "envelope" us (TeEnvelope names p z c m ks false)
  | is_environment us l n k c m ks :
      splits (match_tags false) us l -> positional l = [[TStr n]; k] -> matching l m c -> keys_are m k ks ->
      plain_test "environment" us (TeEnvironment [XVariable (TEnvironment (str_lower L (const_text L n)))] c m ks false)
  | is_exists us l n names any :
      splits mime_tags us l -> positional l = [n] -> strings_are n names -> flag "anychild" l any ->
      plain_test "exists" us (TeExists names any false)
  | is_hasflag us l f c m fl :
      splits (match_tags false ++ bare ["local"]) us l -> positional l = [f] -> matching l m c -> keys_are m f fl ->
      plain_test "hasflag" us (TeHasFlag [] fl c m false)
  | is_ihave us xs : texts_are us xs -> plain_test "ihave" us (TeIhave (map parse_cap xs) false)
  | is_mailboxexists us l : strings_are us l -> plain_test "mailboxexists" us (TeMailboxExists l false)
  | is_mailboxidexists us l : strings_are us l -> plain_test "mailboxidexists" us (TeMailboxIdExists l false)
  | is_valid_ext_list us l : strings_are us l -> plain_test "valid_ext_list" us (TeValidExtList l false)
  | is_valid_notify us l : strings_are us l -> plain_test "valid_notify_method" us (TeValidNotify l false)
  | is_servermetadataexists us l : strings_are us l -> plain_test "servermetadataexists" us (TeMetadataExists None l false)
  | is_metadataexists us vs m l : string1 us m -> strings_are vs l ->
      plain_test "metadataexists" (us ++ vs) (TeMetadataExists (Some m) l false)
  | is_convert us vs ws a b l : string1 us a -> string1 vs b -> strings_are ws l ->
      plain_test "convert" (us ++ vs ++ ws) (TeConvert a b false)
  | is_metadata us l x y k mb n c m ks :
      splits (match_tags false) us l -> positional l = [x; y; k] -> string1 x mb -> string1 y n -> matching l m c -> keys_are m k ks ->
      plain_test "metadata" us (TeMetadata (MvMailbox mb n) c m ks false)
  | is_servermetadata us l y k n c m ks :
      splits (match_tags false) us l -> positional l = [y; k] -> string1 y n -> matching l m c -> keys_are m k ks ->
      plain_test "servermetadata" us (TeMetadata (MvServer n) c m ks false)
  | is_notify_capability us l x y k u n c m ks :
      splits (match_tags false) us l -> positional l = [x; y; k] -> string1 x u -> string1 y n -> matching l m c -> keys_are m k ks ->
      plain_test "notify_method_capability" us (TeNotifyCapability u n c m ks false)
  | is_over n : plain_test "size" [TTag (lit "over"); TNumber n] (TeSize true (N.to_nat n) false)
  | is_under n : plain_test "size" [TTag (lit "under"); TNumber n] (TeSize false (N.to_nat n) false)
  | is_spamtest us l x v c m pc :
      splits (match_tags false ++ bare ["percent"]) us l -> positional l = [x] -> string1 x v -> matching l m c ->
      flag "percent" l pc -> plain_test "spamtest" us (TeSpam pc c m v false)
  | is_virustest us l x v c m :
      splits (match_tags false) us l -> positional l = [x] -> string1 x v -> matching l m c ->
      plain_test "virustest" us (TeVirus c m v false)
  | is_specialuse us l : strings_are us l -> plain_test "specialuse_exists" us (TeSpecialUse None l false)
  | is_specialuse_in us vs mb l : string1 us mb -> strings_are vs l ->
      plain_test "specialuse_exists" (us ++ vs) (TeSpecialUse (Some mb) l false)
  | is_stringtest us l x k src c m ks :
      splits (match_tags true) us l -> positional l = [x; k] -> strings_are x src -> matching l m c -> keys_are m k ks ->
      plain_test "string" us (TeString src c m ks false).

  (** *** Actions *)

  (** Where a copy of a generated message goes *)
  Definition fcc_tags : tags := with_strings ["fcc"; "flags"; "mailboxid"; "specialuse"] ++ bare ["create"].
  Definition fcc_is (l : list piece) (o : option fccv) : Prop :=
    match given ["fcc"] l with
    | None => o = None /\ given ["flags"; "mailboxid"; "specialuse"; "create"] l = None
    | Some (_, us) => exists f flags mb su create, o = Some (f, flags, mb, su, create) /\
        string1 us f /\ strs_opt "flags" l flags /\ str_opt "mailboxid" l mb /\ str_opt "specialuse" l su /\ flag "create" l create
    end.
  (** A comma-separated list of words, each with the white space around it removed; other
      words are passed over. *)
  Definition words_of (x : text) (ws : list text) : Prop :=
    exists first others, ws = first :: others /\ x = first ++ flat_map (fun w => 44%N :: w) others /\ Forall (fun w => ~ In 44%N w) ws.
  Definition dsn_words : list (String.string * dsn_item) := [("success", DsnSuccess); ("failure", DsnFailure); ("delay", DsnDelay)].
  Definition dsn_is (x : text) (d : dsn) : Prop :=
    (lower_text x = lit "never" /\ d = DsnNever) \/
    (lower_text x <> lit "never" /\ exists ws items, words_of x ws /\ items <> [] /\ d = DsnItems items /\
       items = flat_map (fun w => match assoc (lower_text (trim (chr_is_ws L) w)) dsn_words with Some i => [i] | None => [] end) ws).
  (** The modifiers of a value, in the order in which they are written *)
  Inductive modifier_is : piece -> modifier -> Prop :=
  | mod_plain w m : assoc w modifiers = Some m -> modifier_is (Some w, []) m
  | mod_replace t1 t2 f r : string_is t1 f -> string_is t2 r -> modifier_is (Some (lit "replace"), [t1; t2]) (ModReplace f r).
  Definition modifiers_are (l : list piece) (ms : list modifier) : Prop :=
    Forall2 modifier_is (filter (fun p => match fst p with Some w => among ("replace" :: map fst modifiers) w | None => false end) l) ms.

  (** Those that declare no variable *)
  Inductive plain_action : String.string -> list tok -> instruction -> Prop :=
  | is_keep us l flags : splits (with_strings ["flags"]) us l -> positional l = [] -> strs_opt "flags" l flags ->
      plain_action "keep" us (IxKeep flags)
  | is_fileinto us l x f flags mb su copy create :
      splits (with_strings ["flags"; "mailboxid"; "specialuse"] ++ bare ["copy"; "create"]) us l -> positional l = [x] ->
      string1 x f -> strs_opt "flags" l flags -> str_opt "mailboxid" l mb -> str_opt "specialuse" l su ->
      flag "copy" l copy -> flag "create" l create ->
      plain_action "fileinto" us (IxFileInto f flags mb su copy create)
  | is_redirect us l x a copy list_ mode rel_ abs_ trace_ r d :
      splits (bare ["copy"; "list"; "bytrace"] ++ with_strings ["bymode"; "bytimeabsolute"; "ret"; "notify"] ++
              [("bytimerelative", [SNumber])]) us l -> positional l = [x] ->
      string1 x a -> flag "copy" l copy -> flag "list" l list_ -> flag "bytrace" l trace_ ->
      opt ["bymode"] (fun _ us m => exists x, text_is us x /\
                        assoc (lower_text x) [("notify", ByNotify); ("return", ByReturn)] = Some m) ByDefault l mode ->
      num_opt "bytimerelative" l rel_ -> str_opt "bytimeabsolute" l abs_ ->
      opt ["ret"] (fun _ us r => exists x, text_is us x /\ assoc (lower_text x) [("full", RetFull); ("hdrs", RetHdrs)] = Some r)
        RetDefault l r ->
      opt ["notify"] (fun _ us d => exists x, text_is us x /\ dsn_is x d) DsnDefault l d ->
      plain_action "redirect" us
        (IxRedirect a copy list_ (d, r, match abs_, rel_ with
                                        | Some t, _ => ByAbsolute t mode trace_
                                        | None, Some n => ByRelative n mode trace_
                                        | None, None => ByNone
                                        end))
  | is_discard : plain_action "discard" [] IxDiscard
  | is_stop : plain_action "stop" [] IxStop
  | is_replace us l x subject from r mime :
      splits (bare ["mime"] ++ with_strings ["subject"; "from"]) us l -> positional l = [x] -> string1 x r ->
      str_opt "subject" l subject -> str_opt "from" l from -> flag "mime" l mime ->
      plain_action "replace" us (IxReplace subject from r mime)
  | is_enclose us l x subject headers v :
      splits (with_strings ["subject"; "headers"]) us l -> positional l = [x] -> string1 x v -> str_opt "subject" l subject ->
      strs_opt "headers" l headers -> plain_action "enclose" us (IxEnclose headers subject v)
  | is_convert_a us vs ws a b l : string1 us a -> string1 vs b -> strings_are ws l ->
      plain_action "convert" (us ++ vs ++ ws) (IxConvert a b)
  | is_addheader us l x y n v last :
      splits (bare ["last"]) us l -> positional l = [x; y] -> string1 x n -> string1 y v -> flag "last" l last ->
      plain_action "addheader" us (IxAddHeader n v last)
  | is_deleteheader us l x n i any c m :
      splits (match_tags false ++ index_tags ++ mime_tags) us l -> positional l = [x] -> string1 x n -> index_is l i ->
      flag "anychild" l any -> matching l m c -> plain_action "deleteheader" us (IxDeleteHeader n i any c m [])
  | is_deleteheader_with us l x k n i any c m ks :
      splits (match_tags false ++ index_tags ++ mime_tags) us l -> positional l = [x; k] -> string1 x n -> index_is l i ->
      flag "anychild" l any -> matching l m c -> keys_are m k ks ->
      plain_action "deleteheader" us (IxDeleteHeader n i any c m ks)
  | is_eval us e : expr_is us e -> plain_action "eval" us (IxEval e)
  | is_notify us l x method from imp options msg fcc :
      splits (fcc_tags ++ with_strings ["from"; "message"; "importance"; "options"]) us l -> positional l = [x] ->
      string1 x method -> str_opt "from" l from -> str_opt "importance" l imp -> strs_opt "options" l options ->
      str_opt "message" l msg -> fcc_is l fcc ->
      plain_action "notify" us (IxNotify method from imp options msg fcc)
  | is_reject us r : string1 us r -> plain_action "reject" us (IxReject false r)
  | is_ereject us r : string1 us r -> plain_action "ereject" us (IxReject true r)
  | is_error us m : string1 us m -> plain_action "error" us (IxError m)
  | is_editflags w a us l : In (w, a) [("setflag", FSet); ("addflag", FAdd); ("removeflag", FRemove)] -> strings_are us l ->
      plain_action w us (IxEditFlags a None l).

  Definition include_is (us : list tok) (i : instruction) : Prop :=
    exists l x n global once optional, splits (bare ["once"; "optional"; "personal"; "global"]) us l /\ positional l = [x] /\
      string1 x n /\ flag "once" l once /\ flag "optional" l optional /\
      opt ["personal"; "global"] (fun w _ g => g = teqb w (lit "global")) false l global /\
      i = IxInclude n global once optional.
  (** Vacation: a test that tells whether to answer, and the answer *)
  Definition vacation_is (us : list tok) (t : test) (i : instruction) : Prop :=
    exists l x r subject from mime addrs handle p fcc,
      splits (fcc_tags ++ with_strings ["subject"; "from"; "handle"; "addresses"] ++ bare ["mime"] ++
              [("days", [SNumber]); ("seconds", [SNumber])]) us l /\ positional l = [x] /\ string1 x r /\
      str_opt "subject" l subject /\ str_opt "from" l from /\ flag "mime" l mime /\ strs_opt "addresses" l addrs /\
      str_opt "handle" l handle /\ fcc_is l fcc /\
      opt ["days"; "seconds"] (fun w us p => exists n, us = [TNumber n] /\
         ((w = lit "days" /\ p = PDays n) \/ (w = lit "seconds" /\ p = PSeconds n))) PDefault l p /\
      t = TeVacation addrs handle r p /\ i = IxVacation subject from mime fcc r.
End Args.

(** *** Declarations *)

(** Tests and actions that assign to variables declare those that are new: the variables
    declared are [V] before the name of the variable, and [W] after it. *)
Section Declarations.
  Variable K : cenv.
  Notation L := (C_L K).

  (** A variable that is assigned to: the one that this name has, or gets *)
  Definition variable_is (V : vst) (n : text) (local : bool) (v : vartype) (W : vst) : Prop :=
    register_variable L (C_umax K) n local V = Some (v, W).
  Inductive variables_are (local : bool) : vst -> list text -> list vartype -> vst -> Prop :=
  | vars_none V : variables_are local V [] [] V
  | vars_more V n v V' ns vs W : variable_is V n local v V' -> variables_are local V' ns vs W ->
      variables_are local V (n :: ns) (v :: vs) W.

  Inductive test_is (V : vst) : String.string -> list tok -> test -> vst -> Prop :=
  | is_plain_test n us t : plain_test K V n us t -> test_is V n us t V
  | is_hasflag_in us l n f names vs c m fl W :
      splits (match_tags false ++ bare ["local"]) us (l ++ [(None, f)]) -> positional l = [n] ->
      strings_are K V n (map XText names) -> variables_are (has "local" l) V names vs W -> matching K l m c ->
      keys_are K W m f fl ->
      test_is V "hasflag" us (TeHasFlag vs fl c m false) W.

  Inductive action_is (V : vst) : String.string -> list tok -> instruction -> vst -> Prop :=
  | is_plain_action n us i : plain_action K V n us i -> action_is V n us i V
  | is_extracttext us l n v first ms W :
      splits (bare ["lower"; "upper"; "lowerfirst"; "upperfirst"; "quotewildcard"; "quoteregex"; "length"; "local"] ++
              [("replace", [SStrings; SStrings]); ("first", [SNumber])]) us (l ++ [(None, [TStr n])]) -> positional l = [] ->
      variable_is V (const_text L n) (has "local" l) v W -> num_opt "first" l first -> modifiers_are K V l ms ->
      action_is V "extracttext" us (IxExtract (parse_mods ms) (option_map N.to_nat first) v) W
  | is_set us l1 n l2 x v var ms1 ms2 W :
      splits (bare ("local" :: map fst modifiers) ++ [("replace", [SStrings; SStrings])]) us (l1 ++ (None, [TStr n]) :: l2) ->
      positional l1 = [] -> positional l2 = [x] -> variable_is V (const_text L n) (has "local" l1) var W -> string1 K W x v ->
      modifiers_are K V l1 ms1 -> modifiers_are K W l2 ms2 -> action_is V "set" us (IxSet (parse_mods (ms1 ++ ms2)) var v) W
  | is_let us n v e W : variable_is V (const_text L n) false v W -> expr_is K W us e ->
      action_is V "let" (TStr n :: us) (IxLet v e) W
  | is_editflags_in w a n v us l W : In (w, a) [("setflag", FSet); ("addflag", FAdd); ("removeflag", FRemove)] ->
      variable_is V (const_text L n) false v W -> strings_are K W us l ->
      action_is V w (TStr n :: us) (IxEditFlags a (Some v) l) W.
End Declarations.
