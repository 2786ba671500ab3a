(** The parsers of the tests and commands, and [Compiler::compile]: src/compiler/grammar/
    test.rs, instruction.rs, tests/*.rs and actions/*.rs. *)
From Verif Require Import Base Lib Address Var Value SetVar Flags Comparator Message EditHeader
  Expr ExprTok Event Notify AddrTest Vacation Sieve Utf8 Lexer Scope StringTok Compile ParseArgs ParseBase.
Import ListNotations.
Local Open Scope string_scope.

(** test_date.rs 353-370 [lookup_date_part] *)
Definition lookup_date_part (n : text) : option datepart :=
  if word "year" n then Some DYear else if word "month" n then Some DMonth else if word "day" n then Some DDay
  else if word "date" n then Some DDate else if word "julian" n then Some DJulian
  else if word "hour" n then Some DHour else if word "minute" n then Some DMinute
  else if word "second" n then Some DSecond else if word "time" n then Some DTime
  else if word "iso8601" n then Some DIso8601 else if word "std11" n then Some DStd11
  else if word "zone" n then Some DZone else if word "weekday" n then Some DWeekday else None.

(** test_date.rs 303-319 [parse_timezone], the offset in seconds *)
Definition zone_offset (z : Z) : option Z :=
  if Z.leb 0 z && Z.leb z 1400 then Some (Z.quot z 100 * 3600 + Z.rem z 100 * 60)%Z
  else if Z.leb (-1200) z && Z.leb z (-1) then Some (Z.quot z 100 * 3600 - Z.rem (- z) 100 * 60)%Z
  else None.

(** runtime/actions/action_notify.rs 289-335 [validate_from]: has_at, has_dot, in_quote,
    in_angle, last_ch *)
Fixpoint validate_from (l : text) (at_ dot quote angle : bool) (last : ch) : bool :=
  match l with
  | [] => dot && at_ && negb angle
  | c :: l' =>
      if N.eqb c 34 then validate_from l' at_ dot (if N.eqb last 92 then quote else negb quote) angle c
      else if N.eqb c 60 && negb quote then if angle then false else validate_from l' false false quote true c
      else if N.eqb c 62 && negb quote then if angle then validate_from l' at_ dot quote false c else false
      else if N.eqb c 64 && negb quote then
        if negb at_ && is_alnum_ascii last then validate_from l' true dot quote angle c else false
      else if N.eqb c 46 && negb quote && at_ then validate_from l' at_ true quote angle c
      else validate_from l' at_ dot quote angle c
  end.

(** action_redirect.rs 127-279 (Rust core library): [str::split(',')] *)
Fixpoint split_comma (l : text) : list text :=
  match l with
  | [] => [[]]
  | c :: l' => if N.eqb c 44 then [] :: split_comma l'
               else match split_comma l' with x :: r => (c :: x) :: r | [] => [[c]] end
  end.

(** *** Assigning slots to [:local] variables *)

(** instruction.rs 964-1055 and 1057-1151 [map_local_vars], as the code does it: not in the modifiers
    of set and extracttext, not in the [:content] argument of body. *)
Section MapLocal.
  Variable f : vartype -> vartype.
  (** instruction.rs 1165-1173 [MapLocalVars for Value]. *)
  Fixpoint map_value (x : value) : value :=
    match x with
    | XVariable v => XVariable (f v)
    | XList l => XList (map map_value l)
    | _ => x
    end.
  (** instruction.rs 1191-1197 [MapLocalVars for Vec]. *)
  Definition mvs := map map_value.
  (** instruction.rs 1175-1181 [MapLocalVars for Option]. *)
  Definition mov := option_map map_value.
  (** instruction.rs 1183-1189 [MapLocalVars for Expression]. *)
  Definition map_instr (i : instr) : instr := match i with IVar v => IVar (f v) | _ => i end.
  (** action_notify.rs 174-182 [MapLocalVars for FileCarbonCopy]. *)
  Definition map_fcc (x : fccv) : fccv :=
    let '(a, b, c, d, e) := x in (map_value a, mvs b, mov c, mov d, e).
  (** instruction.rs 1056-1152 [MapLocalVars for Test]. *)
  Definition map_test (t : test) : test :=
    match t with
    | TeAddress names i a p c m keys neg => TeAddress (mvs names) i a p c m (mvs keys) neg
    | TeEnvelope w p z c m keys neg => TeEnvelope w p z c m (mvs keys) neg
    | TeExists names a neg => TeExists (mvs names) a neg
    | TeHeader names i a o c m keys neg =>
        TeHeader (mvs names) i a (match o with MvParam l => MvParam (mvs l) | _ => o end) c m (mvs keys) neg
    | TeBody b s c m keys neg => TeBody b s c m (mvs keys) neg
    | TeConvert a b neg => TeConvert (map_value a) (map_value b) neg
    | TeDate n i a p z c m keys neg => TeDate (map_value n) i a p z c m (mvs keys) neg
    | TeCurrentDate z p c m keys neg => TeCurrentDate z p c m (mvs keys) neg
    | TeDuplicate d h l s neg =>
        TeDuplicate (match d with
                     | DupHeader x => DupHeader (map_value x)
                     | DupUnique x => DupUnique (map_value x)
                     | DupDefault => d
                     end) (mov h) l s neg
    | TeString src c m keys neg => TeString (mvs src) c m (mvs keys) neg
    | TeEnvironment src c m keys neg => TeEnvironment (mvs src) c m (mvs keys) neg
    | TeNotifyCapability u c0 c m keys neg => TeNotifyCapability (map_value u) (map_value c0) c m (mvs keys) neg
    | TeValidNotify l neg => TeValidNotify (mvs l) neg
    | TeValidExtList l neg => TeValidExtList (mvs l) neg
    | TeHasFlag vs fs c m neg => TeHasFlag (map f vs) (mvs fs) c m neg
    | TeMailboxExists l neg => TeMailboxExists (mvs l) neg
    | TeMetadata md c m keys neg =>
        TeMetadata (match md with
                    | MvServer a => MvServer (map_value a)
                    | MvMailbox n a => MvMailbox (map_value n) (map_value a)
                    end) c m (mvs keys) neg
    | TeMetadataExists mb l neg => TeMetadataExists (mov mb) (mvs l) neg
    | TeMailboxIdExists l neg => TeMailboxIdExists (mvs l) neg
    | TeSpam p c m k neg => TeSpam p c m (map_value k) neg
    | TeVirus c m k neg => TeVirus c m (map_value k) neg
    | TeSpecialUse mb l neg => TeSpecialUse (mov mb) (mvs l) neg
    | TeVacation addrs h r p => TeVacation (mvs addrs) (mov h) (map_value r) p
    | _ => t
    end.
  (** instruction.rs 964-1049 [map_local_vars]. *)
  Definition map_instruction (i : instruction) : instruction :=
    match i with
    | IxTest t => IxTest (map_test t)
    | IxKeep flags => IxKeep (mvs flags)
    | IxFileInto fo flags a b c d => IxFileInto (map_value fo) (mvs flags) (mov a) (mov b) c d
    | IxRedirect a c l (n, r, t) =>
        IxRedirect (map_value a) c l (n, r, match t with ByAbsolute x m tr => ByAbsolute (map_value x) m tr | _ => t end)
    | IxReplace s fr r m => IxReplace (mov s) (mov fr) (map_value r) m
    | IxEnclose h s b => IxEnclose (mvs h) (mov s) (map_value b)
    | IxExtract ms n v => IxExtract ms n (f v)
    | IxConvert a b => IxConvert (map_value a) (map_value b)
    | IxAddHeader n v l => IxAddHeader (map_value n) (map_value v) l
    | IxDeleteHeader n i a c m ps => IxDeleteHeader (map_value n) i a c m (mvs ps)
    | IxSet ms n v => IxSet ms (f n) (map_value v)
    | IxLet n e => IxLet (f n) (map map_instr e)
    | IxWhile e p => IxWhile (map map_instr e) p
    | IxEval e => IxEval (map map_instr e)
    | IxNotify m fr i o msg fcc =>
        IxNotify (map_value m) (mov fr) (mov i) (mvs o) (mov msg) (option_map map_fcc fcc)
    | IxReject e r => IxReject e (map_value r)
    | IxVacation s fr m fcc r => IxVacation (mov s) (mov fr) m (option_map map_fcc fcc) (map_value r)
    | IxError m => IxError (map_value m)
    | IxEditFlags a n l => IxEditFlags a (option_map f n) (mvs l)
    | IxInclude n a b c => IxInclude (map_value n) a b c
    | _ => i
    end.
End MapLocal.

Section Parse.
  Variable K : cenv.
  Variable FU : nat.
  Notation L := (C_L K).
  Notation umax := (C_umax K).
  Notation lim := (C_lim K).
  Notation next := (next K).
  Notation peek := (peek K).
  Notation read_args := (read_args K FU).
  Notation va := (va K).
  Notation str_tok := (string_tok K).
  Notation strs_tok := (strings_tok K FU).
  Notation str := (string K FU).
  Notation strs := (strings K FU).
  Notation ctext := (ctext K).
  Notation check := (check K).
  Notation validate_match := (validate_match K).

  (** *** Tests *)

  (** No counterpart. The common end of a test with a key list. *)
  Definition fin (a : args) (keys : list value) (b : test) : P instruction := ret (IxTest b).

  (** test_address.rs 165-177 [From<Word> for AddressPart] *)
  Definition address_part (w : text) : apart :=
    if word "localpart" w then PLocal else if word "domain" w then PDomain
    else if word "user" w then PUser else if word "detail" w then PDetail
    else if word "name" w then PName else PAll.
  (** test_address.rs 54-73, test_envelope.rs 40-197: the tags for the part of an address. *)
  Definition h_part (words : list String.string) : handler :=
    (oneof words, fun w a => va 1 (if oneof ["user"; "detail"] w then Some (cap "subaddress") else None) ;;
                             ret (s_part (address_part w) a)).
  (** test_address.rs 136-143, test_header.rs 133-160, test_string.rs 35-90 and others: The strings
      before the keys, then the keys ([nopts] holds them). *)
  Definition names_keys (ok : list value -> bool) (t : tok) (a : args) : P (args + args) :=
    match a_vals a with
    | None => more (v <- strs_tok t ;; check (ok v) ;; ret v) (fun v => s_vals (Some v) a)
    | Some _ => done (strs_tok t) (fun v => s_nopts v a)
    end.
  (** test_address.rs 136-143: no condition on the first list. *)
  Definition any_values (_ : list value) : bool := true.

  (** test_address.rs 39-162 [parse_test_address] *)
  Definition test_address : P test :=
    a <- read_args [h_part ["localpart"; "domain"; "all"; "user"; "detail"; "name"]; h_match K 2 true;
                    h_comparator K FU 3; h_index K 4 (Some (cap "index")); h_last K 5 (Some (cap "index"));
                    h_mime K 6 (Some (cap "mime")); h_any K 7 (Some (cap "mime"))]
                   (names_keys any_values) ;;
    check (mime_ok a) ;;
    keys <- validate_match (a_m a) (a_nopts a) ;;
    ret (TeAddress (vals a) (the_index a) (a_any a) (a_part a) (a_c a) (a_m a) keys false).

  (** action_mime.rs 216-224 [parse_mimeopts] *)
  Definition h_mimeopts (n : nat) : handler :=
    (oneof ["type"; "subtype"; "contenttype"; "param"],
     fun w a => va n (Some (cap "mime")) ;;
                o <- (if word "type" w then ret MvType else if word "subtype" w then ret MvSubtype
                      else if word "contenttype" w then ret MvContentType
                      else l <- strs ;; ret (MvParam l)) ;;
                ret (s_opts o a)).
  (** test_header.rs 44-173 [parse_test_header] *)
  Definition test_header : P test :=
    a <- read_args [h_match K 1 true; h_comparator K FU 2; h_index K 3 (Some (cap "index"));
                    h_last K 4 (Some (cap "index")); h_mime K 5 (Some (cap "mime"));
                    h_any K 6 (Some (cap "mime")); h_mimeopts 7]
                   (names_keys (forallb (header_ok K))) ;;
    check (a_mime a || negb (a_any a || match a_opts a with MvNone => false | _ => true end)) ;;
    keys <- validate_match (a_m a) (a_nopts a) ;;
    ret (TeHeader (vals a) (the_index a) (a_any a) (a_opts a) (a_c a) (a_m a) keys false).

  (** test_body.rs 51-119 [parse_test_body]; [a_mime] stands for [include_subject]. *)
  Definition test_body : P test :=
    a <- read_args [(word "raw", fun _ a => va 1 None ;; ret (s_body BtRaw a));
                    (word "text", fun _ a => va 1 None ;; ret (s_body BtText a));
                    (word "content", fun _ a => va 1 None ;; l <- strs ;; ret (s_body (BtContent l) a));
                    h_flag K 4 None "subject" (s_mime true); h_match K 2 false; h_comparator K FU 3]
                   (fun t a => done (strs_tok t) (fun v => s_nopts v a)) ;;
    keys <- validate_match (a_m a) (a_nopts a) ;;
    ret (TeBody (a_body a) (a_mime a) (a_c a) (a_m a) keys false).

  (** test_date.rs 303-319 [parse_timezone] *)
  Definition timezone : P Z :=
    t <- next ;;
    match t with
    | TStr c =>
        lift (zone_offset (match c with
                           | CText s => match parse_i64 s with Some z => z | None => i64_max end
                           | CNum (NInt z) => z
                           | CNum (NFloat f) => Z_of_f64 f
                           end))
    | _ => fail
    end.
  (** test_date.rs 97-301: the date part. *)
  Definition date_tok (t : tok) : P datepart :=
    match t with TStr c => lift (lookup_date_part (lower_text (ctext c))) | _ => fail end.
  (** test_date.rs 97-230 [parse_test_date] *)
  Definition test_date : P test :=
    a <- read_args [h_match K 1 true; h_comparator K FU 2; h_index K 3 (Some (cap "index"));
                    h_last K 4 (Some (cap "index")); h_mime K 5 (Some (cap "mime"));
                    h_any K 6 (Some (cap "mime")); h_flag K 7 None "originalzone" (s_zone ZOriginal);
                    (word "zone", fun _ a => va 7 None ;; z <- timezone ;; ret (s_zone (ZTime z) a))]
                   (fun t a =>
                      match a_name a, a_date a with
                      | None, _ => more (v <- str_tok t ;; check (header_ok K v) ;; ret v) (fun v => s_name (Some v) a)
                      | _, None => more (date_tok t) (fun d => s_date (Some d) a)
                      | _, _ => done (strs_tok t) (fun v => s_nopts v a)
                      end) ;;
    check (mime_ok a) ;;
    keys <- validate_match (a_m a) (a_nopts a) ;;
    n <- lift (a_name a) ;; d <- lift (a_date a) ;;
    ret (TeDate n (the_index a) (a_any a) d (a_zone a) (a_c a) (a_m a) keys false).
  (** test_date.rs 232-301 [parse_test_currentdate] *)
  Definition test_currentdate : P test :=
    a <- read_args [h_match K 1 true; h_comparator K FU 2;
                    (word "zone", fun _ a => va 3 None ;; z <- timezone ;; ret (s_tz (Some z) a))]
                   (fun t a =>
                      match a_date a with
                      | None => more (date_tok t) (fun d => s_date (Some d) a)
                      | _ => done (strs_tok t) (fun v => s_nopts v a)
                      end) ;;
    keys <- validate_match (a_m a) (a_nopts a) ;;
    d <- lift (a_date a) ;;
    ret (TeCurrentDate (a_tz a) d (a_c a) (a_m a) keys false).

  (** test_duplicate.rs 51-108 [parse_test_duplicate]: the tags are looked at before they are
      read. *)
  Definition duplicate_tags : list handler :=
    [h_string K FU 1 None "handle" s_handle;
     (word "header", fun _ a => va 2 None ;; v <- str ;; check (header_ok K v) ;; ret (s_dup (DupHeader v) a));
     (word "uniqueid", fun _ a => va 2 None ;; v <- str ;; ret (s_dup (DupUnique v) a));
     (word "seconds", fun _ a => va 3 None ;; n <- number K usize_max ;; ret (s_secs (Some n) a));
     h_flag K 4 None "last" (s_last true)].
  (** test_duplicate.rs 51-108 [parse_test_duplicate]. *)
  Definition test_duplicate : P test :=
    a <- loop FU (fun a => k <- peek ;;
                           match k with
                           | KErr => fail
                           | KTok (TTag w) =>
                               match dispatch duplicate_tags w with
                               | Some h => next ;; a' <- h a ;; ret (inl a')
                               | None => ret (inr a)
                               end
                           | _ => ret (inr a)
                           end) args0 ;;
    ret (TeDuplicate (a_dup a) (a_handle a) (a_last a) (a_secs a) false).

  (** test_envelope.rs 40-197 [parse_test_envelope] *)
  Definition envelope_cap (e : envk) : option capability :=
    match e with
    | EnvByTimeAbsolute | EnvByTimeRelative | EnvByMode | EnvByTrace => Some (cap "envelope-deliverby")
    | EnvNotify | EnvOrcpt | EnvRet | EnvEnvid => Some (cap "envelope-dsn")
    | _ => None
    end.
  (** test_envelope.rs 213-222 [TryFrom<&str> for Envelope]. *)
  Definition envelope_name (c : strconst) : P envk := lift (lookup_envelope (lower_text (ctext c))).
  (** test_envelope.rs 40-197: the list of envelope parts. *)
  Definition envelope_list (t : tok) : P (list envk) :=
    match t with
    | TStr c => e <- envelope_name c ;; ret [e]
    | TBracketOpen =>
        loop FU (fun l => t <- next ;;
                          match t, l with
                          | TStr c, _ => e <- envelope_name c ;;
                                         ret (inl (if existsb (envk_eqb e) l then l else (l ++ [e])%list))
                          | TComma, _ => ret (inl l)
                          | TBracketClose, _ :: _ => ret (inr l)
                          | _, _ => fail
                          end) []
    | _ => fail
    end.
  (** test_envelope.rs 40-197: the capabilities the parts need. *)
  Fixpoint envelope_caps (l : list envk) : P unit :=
    match l with
    | [] => ret tt
    | e :: l' => va 0 (envelope_cap e) ;; envelope_caps l'
    end.
  (** test_envelope.rs 40-197 [parse_test_envelope]. *)
  Definition test_envelope : P test :=
    a <- read_args [h_part ["localpart"; "domain"; "all"; "user"; "detail"]; h_match K 2 true; h_comparator K FU 3;
                    (word "zone", fun _ a => va 4 (Some (cap "envelope-deliverby")) ;; z <- timezone ;;
                                             ret (s_tz (Some z) a))]
                   (fun t a =>
                      match a_env a with
                      | None => more (l <- envelope_list t ;; envelope_caps l ;; ret l) (fun l => s_env (Some l) a)
                      | _ => done (strs_tok t) (fun v => s_nopts v a)
                      end) ;;
    keys <- validate_match (a_m a) (a_nopts a) ;;
    l <- lift (a_env a) ;;
    ret (TeEnvelope l (a_part a) (a_tz a) (a_c a) (a_m a) keys false).

  (** test_environment.rs 18-79 [parse_test_environment] *)
  Definition test_environment : P test :=
    a <- read_args [h_match K 1 false; h_comparator K FU 2]
                   (fun t a =>
                      match a_vals a with
                      | None => match t with
                                | TStr c => ret (inl (s_vals (Some [XVariable (TEnvironment (str_lower L (ctext c)))]) a))
                                | _ => fail
                                end
                      | Some _ => done (strs_tok t) (fun v => s_nopts v a)
                      end) ;;
    keys <- validate_match (a_m a) (a_nopts a) ;;
    ret (TeEnvironment (vals a) (a_c a) (a_m a) keys false).

  (** test_exists.rs 34-87 [parse_test_exists] *)
  Definition test_exists : P test :=
    a <- read_args [h_mime K 1 (Some (cap "mime")); h_any K 2 (Some (cap "mime"))]
                   (fun t a => done (v <- strs_tok t ;; check (forallb (header_ok K) v) ;; ret v)
                                    (fun v => s_vals (Some v) a)) ;;
    check (mime_ok a) ;;
    ret (TeExists (vals a) (a_any a) false).

  (** test_hasflag.rs 41-147 [parse_test_hasflag] *)
  Fixpoint register_all (l : list value) (as_local : bool) : P (list vartype) :=
    match l with
    | [] => ret []
    | XText n :: l' => v <- register K n as_local ;; vs <- register_all l' as_local ;; ret (v :: vs)
    | _ :: _ => next ;; fail
    end.
  (** test_hasflag.rs 41-147 [parse_test_hasflag]. *)
  Definition test_hasflag : P test :=
    a <- read_args [h_match K 1 false; h_comparator K FU 2; (word "local", fun _ a => ret (s_local true a))]
                   (fun t a => done (strs_tok t) (fun v => s_vals (Some v) a)) ;;
    k <- peek ;;
    if starts_strings k then
      check (negb (is_nil (vals a))) ;;
      vs <- register_all (vals a) (a_local a) ;;
      fl <- strs ;;
      keys <- validate_match (a_m a) fl ;;
      ret (TeHasFlag vs keys (a_c a) (a_m a) false)
    else
      keys <- validate_match (a_m a) (vals a) ;;
      ret (TeHasFlag [] keys (a_c a) (a_m a) false).

  (** test_ihave.rs 44-53 [parse_test_ihave] *)
  Definition test_ihave : P test := l <- static_strings K FU ;; ret (TeIhave (map parse_cap l) false).

  (** test_mailbox.rs 85-90 [parse_test_mailboxexists], the first of. test_mailbox.rs,
      test_mailboxid.rs, test_extlists.rs, test_notify.rs [parse_test_valid_notify_method],
      action_convert.rs *)
  Definition test_mailboxexists : P test := l <- strs ;; ret (TeMailboxExists l false).
  (** test_mailbox.rs 92-98 [parse_test_metadataexists]. *)
  Definition test_metadataexists : P test := m <- str ;; l <- strs ;; ret (TeMetadataExists (Some m) l false).
  (** test_mailbox.rs 100-106 [parse_test_servermetadataexists]. *)
  Definition test_servermetadataexists : P test := l <- strs ;; ret (TeMetadataExists None l false).
  (** test_mailboxid.rs 30-35 [parse_test_mailboxidexists]. *)
  Definition test_mailboxidexists : P test := l <- strs ;; ret (TeMailboxIdExists l false).
  (** test_extlists.rs 30-35 [parse_test_valid_ext_list]. *)
  Definition test_valid_ext_list : P test := l <- strs ;; ret (TeValidExtList l false).
  (** test_notify.rs 50-55 [parse_test_valid_notify_method]. *)
  Definition test_valid_notify_method : P test := l <- strs ;; ret (TeValidNotify l false).
  (** action_convert.rs 32-39 [parse_test_convert]. *)
  Definition test_convert : P test := a <- str ;; b <- str ;; strs ;; ret (TeConvert a b false).

  (** test_mailbox.rs 108-168, test_notify.rs 57-115: Two strings, then the keys: test_mailbox.rs
      [parse_test_metadata], test_notify.rs [parse_test_notify_method_capability] *)
  Definition two_keys (t : tok) (a : args) : P (args + args) :=
    match a_name a, a_name2 a with
    | None, _ => more (str_tok t) (fun v => s_name (Some v) a)
    | _, None => more (str_tok t) (fun v => s_name2 (Some v) a)
    | _, _ => done (strs_tok t) (fun v => s_nopts v a)
    end.
  (** test_mailbox.rs 108-168 [parse_test_metadata]. *)
  Definition test_metadata : P test :=
    a <- read_args [h_match K 1 false; h_comparator K FU 2] two_keys ;;
    keys <- validate_match (a_m a) (a_nopts a) ;;
    m <- lift (a_name a) ;; n <- lift (a_name2 a) ;;
    ret (TeMetadata (MvMailbox m n) (a_c a) (a_m a) keys false).
  (** test_notify.rs 57-115 [parse_test_notify_method_capability]. *)
  Definition test_notify_method_capability : P test :=
    a <- read_args [h_match K 1 false; h_comparator K FU 2] two_keys ;;
    keys <- validate_match (a_m a) (a_nopts a) ;;
    u <- lift (a_name a) ;; c <- lift (a_name2 a) ;;
    ret (TeNotifyCapability u c (a_c a) (a_m a) keys false).
  (** test_mailbox.rs 170-226 [parse_test_servermetadata] *)
  Definition test_servermetadata : P test :=
    a <- read_args [h_match K 1 false; h_comparator K FU 2]
                   (fun t a =>
                      match a_name a with
                      | None => more (str_tok t) (fun v => s_name (Some v) a)
                      | _ => done (strs_tok t) (fun v => s_nopts v a)
                      end) ;;
    keys <- validate_match (a_m a) (a_nopts a) ;;
    n <- lift (a_name a) ;;
    ret (TeMetadata (MvServer n) (a_c a) (a_m a) keys false).

  (** test_size.rs 33-52 [parse_test_size] *)
  Definition test_size : P test :=
    t <- next ;;
    over <- lift (match t with
                  | TTag w => if word "over" w then Some true else if word "under" w then Some false else None
                  | _ => None
                  end) ;;
    t <- next ;;
    match t with TNumber n => ret (TeSize over (N.to_nat n) false) | _ => fail end.

  (** test_spamtest.rs 56-114 [parse_test_spamtest] *)
  Definition test_spamtest : P test :=
    a <- read_args [h_match K 1 false; h_comparator K FU 2;
                    h_flag K 3 (Some (cap "spamtestplus")) "percent" (s_percent true)]
                   (fun t a => done (str_tok t) (fun v => s_name (Some v) a)) ;;
    v <- lift (a_name a) ;;
    ret (TeSpam (a_percent a) (a_c a) (a_m a) v false).
  (** test_spamtest.rs 116-163 [parse_test_virustest]. *)
  Definition test_virustest : P test :=
    a <- read_args [h_match K 1 false; h_comparator K FU 2]
                   (fun t a => done (str_tok t) (fun v => s_name (Some v) a)) ;;
    v <- lift (a_name a) ;;
    ret (TeVirus (a_c a) (a_m a) v false).

  (** test_specialuse.rs 34-55 [parse_test_specialuseexists] *)
  Definition test_specialuse : P test :=
    l <- strs ;;
    k <- peek ;;
    if starts_strings k then
      match l with
      | [m] => attrs <- strs ;; ret (TeSpecialUse (Some m) attrs false)
      | _ => next ;; fail
      end
    else ret (TeSpecialUse None l false).

  (** test_string.rs 35-90 [parse_test_string] *)
  Definition test_string : P test :=
    a <- read_args [h_match K 1 true; h_comparator K FU 2] (names_keys any_values) ;;
    keys <- validate_match (a_m a) (a_nopts a) ;;
    ret (TeString (vals a) (a_c a) (a_m a) keys false).

  (** test.rs 251-506: the test named by a word, with the capability it needs. *)
  Definition tests : list (String.string * (option capability * P test)) :=
    [("address", (None, test_address)); ("envelope", (Some (cap "envelope"), test_envelope));
     ("header", (None, test_header)); ("size", (None, test_size)); ("exists", (None, test_exists));
     ("body", (Some (cap "body"), test_body)); ("convert", (Some (cap "convert"), test_convert));
     ("date", (Some (cap "date"), test_date)); ("currentdate", (Some (cap "date"), test_currentdate));
     ("duplicate", (Some (cap "duplicate"), test_duplicate)); ("string", (Some (cap "variables"), test_string));
     ("notify_method_capability", (Some (cap "enotify"), test_notify_method_capability));
     ("valid_notify_method", (Some (cap "enotify"), test_valid_notify_method));
     ("environment", (Some (cap "environment"), test_environment));
     ("valid_ext_list", (Some (cap "extlists"), test_valid_ext_list));
     ("ihave", (Some (cap "ihave"), test_ihave)); ("hasflag", (Some (cap "imap4flags"), test_hasflag));
     ("mailboxexists", (Some (cap "mailbox"), test_mailboxexists));
     ("metadata", (Some (cap "mboxmetadata"), test_metadata));
     ("metadataexists", (Some (cap "mboxmetadata"), test_metadataexists));
     ("servermetadata", (Some (cap "servermetadata"), test_servermetadata));
     ("servermetadataexists", (Some (cap "servermetadata"), test_servermetadataexists));
     ("mailboxidexists", (Some (cap "mailboxid"), test_mailboxidexists));
     ("spamtest", (Some (cap "spamtest"), test_spamtest)); ("virustest", (Some (cap "virustest"), test_virustest));
     ("specialuse_exists", (Some (cap "special-use"), test_specialuse))].
  (** test.rs 240-540: the arm for a word. *)
  Fixpoint find_word {A} (w : text) (l : list (String.string * A)) : option A :=
    match l with
    | [] => None
    | (n, x) :: l' => if word n w then Some x else find_word w l'
    end.
  (** test.rs 240-540: a test that is not one of [not], [anyof], [allof]. *)
  Definition leaf (w : text) : P instruction :=
    if word "eval" w then va 0 (Some (cap "vnd.stalwart.expressions")) ;; e <- parse_expr K ;; ret (IxEval e)
    else match find_word w tests with
         | Some (c, m) => va 0 c ;; t <- m ;; ret (IxTest t)
         | None => ignore_test K FU ;; ret (IxTest (TeInvalid w))
         end.

  (** test.rs 142-149. *)
  Definition word_next (k : peeked) : bool :=
    match k with KTok (TIdent _) | KTok (TUnknown _) => true | _ => false end.
  (** test.rs 549-552 *)
  Fixpoint close_parens (n : nat) : P unit :=
    match n with 0 => ret tt | S n' => expect K TParenClose ;; close_parens n' end.

  (** test.rs 171-176, 555-560: [instructions\[p\]] panics if [p] is not inside. *)
  Definition inside (ps : list nat) : P unit := fun s =>
    if forallb (fun p => Nat.ltb p (length (c_code (p_c s)))) ps then Ok tt s else Panic.
  (** test.rs 133-558: one iteration of the loop of [parse_test]; the state is [block],
      [block_stack] (innermost first) and [is_not]. *)
  Definition tstate := (tblock * list tblock * bool)%type.
  (** test.rs 543-563. *)
  Definition after_test (b : tblock) (stk : list tblock) (not_ not' : bool) (i : instruction) : P (tstate + unit) :=
    close_parens (t_p b) ;;
    push [if not_ then set_not i else i] ;;
    match stk with
    | [] => ret (inr tt)
    | _ => ret (inl ({| t_all := t_all b; t_not := t_not b; t_p := 0; t_jmps := t_jmps b |}, stk, not'))
    end.
  (** test.rs 133-564: one turn of the loop. *)
  Definition test_step (st : tstate) : P (tstate + unit) :=
    let '(b, stk, is_not) := st in
    t <- next ;;
    reset ;;
    match t with
    | TComma =>
        code <- get (fun s => c_code (p_c s)) ;;
        if negb (is_nil stk) && is_test (last code IxStop) then
          k <- peek ;;
          if word_next k then
            push [if t_all b then IxJz umax else IxJnz umax] ;;
            ret (inl ({| t_all := t_all b; t_not := t_not b; t_p := t_p b; t_jmps := (t_jmps b ++ [length code])%list |},
                      stk, t_not b))
          else fail
        else fail
    | TParenOpen =>
        ret (inl ({| t_all := t_all b; t_not := t_not b; t_p := t_p b + 1; t_jmps := t_jmps b |}, stk, is_not))
    | TParenClose =>
        match t_p b, stk with
        | S n, _ => ret (inl ({| t_all := t_all b; t_not := t_not b; t_p := n; t_jmps := t_jmps b |}, stk, is_not))
        | 0, [] => fail
        | 0, prev :: stk' =>
            inside (t_jmps b) ;;
            modify (fun s => w_c (with_code (patch (to_cond (length (c_code (p_c s)))) (t_jmps b) (c_code (p_c s)))
                                            (p_c s)) s) ;;
            match stk' with
            | [] => ret (inr tt)
            | _ => ret (inl (prev, stk', t_not prev))
            end
        end
    | TIdent w =>
        if word "not" w then k <- peek ;; if word_next k then ret (inl (b, stk, negb is_not)) else fail
        else if oneof ["anyof"; "allof"] w then
          if Nat.ltb (length stk) (l_tests lim) then
            expect K TParenOpen ;;
            ret (inl ({| t_all := xorb (word "allof" w) is_not; t_not := is_not; t_p := 0; t_jmps := [] |},
                      b :: stk, is_not))
          else fail
        else if word "true" w then after_test b stk false false (IxTest (if is_not then TeFalse else TeTrue))
        else if word "false" w then after_test b stk false false (IxTest (if is_not then TeTrue else TeFalse))
        else i <- leaf w ;; after_test b stk is_not is_not i
    | TUnknown n => ignore_test K FU ;; after_test b stk is_not is_not (IxTest (TeInvalid n))
    | _ => fail
    end.
  (** test.rs 123-564 [parse_test] *)
  Definition parse_test : P unit :=
    loop FU test_step (top_tblock, [], false) ;; push [IxJz umax].

  (** *** Actions *)

  (** action_keep.rs 32-50 [parse_keep] *)
  Definition cmd_keep : P instruction :=
    k <- peek ;;
    match k with
    | KTok (TTag w) =>
        if word "flags" w then next ;; va 0 (Some (cap "imap4flags")) ;; l <- strs ;; ret (IxKeep l)
        else ret (IxKeep [])
    | _ => ret (IxKeep [])
    end.
  (** The last argument of a command, one string, e.g. action_fileinto.rs 90-95. *)
  Definition the_string (t : tok) (a : args) : P (args + args) := done (str_tok t) (fun v => s_name (Some v) a).

  (** action_fileinto.rs 35-107 [parse_fileinto] *)
  Definition cmd_fileinto : P instruction :=
    a <- read_args [h_flag K 1 (Some (cap "copy")) "copy" (s_copy true);
                    h_flag K 2 (Some (cap "mailbox")) "create" (s_create true);
                    h_strings K FU 3 (Some (cap "imap4flags")) "flags" s_flags;
                    h_string K FU 4 (Some (cap "mailbox")) "mailboxid" s_mbid;
                    h_string K FU 5 (Some (cap "special-use")) "specialuse" s_special] the_string ;;
    f <- lift (a_name a) ;;
    ret (IxFileInto f (a_flags a) (a_mbid a) (a_special a) (a_copy a) (a_create a)).

  (** action_redirect.rs 127-279 [parse_redirect]: the events of [:notify] *)
  Definition dsn_items (t : text) : list dsn_item :=
    flat_map (fun x => let x := trim (chr_is_ws L) x in
                       if teqb_ic x (lit "success") then [DsnSuccess]
                       else if teqb_ic x (lit "failure") then [DsnFailure]
                       else if teqb_ic x (lit "delay") then [DsnDelay] else []) (split_comma t).
  (** action_redirect.rs 127-279: the argument of [:notify]. *)
  Definition parse_dsn (t : text) : option dsn :=
    if teqb_ic t (lit "never") then Some DsnNever
    else match dsn_items t with [] => None | l => Some (DsnItems l) end.
  (** action_redirect.rs 127-279: the argument of [:ret]. *)
  Definition parse_ret (t : text) : option retc :=
    if teqb_ic t (lit "full") then Some RetFull else if teqb_ic t (lit "hdrs") then Some RetHdrs else None.
  (** action_redirect.rs 127-279: the argument of [:bymode]. *)
  Definition parse_bymode (t : text) : option bymode :=
    if teqb_ic t (lit "notify") then Some ByNotify else if teqb_ic t (lit "return") then Some ByReturn else None.
  (** action_redirect.rs 127-279: [Capability::RedirectDeliverBy]. *)
  Definition deliverby := Some (cap "redirect-deliverby").
  (** action_redirect.rs 127-279 [parse_redirect]. *)
  Definition cmd_redirect : P instruction :=
    a <- read_args [h_flag K 1 (Some (cap "copy")) "copy" (s_copy true);
                    h_flag K 2 (Some (cap "extlists")) "list" (s_list true);
                    h_flag K 3 deliverby "bytrace" (s_trace true);
                    (word "bymode", fun _ a => va 4 deliverby ;; t <- static_string K FU ;;
                                               m <- lift (parse_bymode t) ;; ret (s_bymode m a));
                    (word "bytimerelative", fun _ a => va 5 deliverby ;; n <- number K usize_max ;;
                                                       ret (s_rlimit (Some n) a));
                    h_string K FU 5 deliverby "bytimeabsolute" s_alimit;
                    (word "ret", fun _ a => va 6 (Some (cap "redirect-dsn")) ;; t <- static_string K FU ;;
                                            r <- lift (parse_ret t) ;; ret (s_ret r a));
                    (word "notify", fun _ a => va 7 (Some (cap "redirect-dsn")) ;; t <- static_string K FU ;;
                                               n <- lift (parse_dsn t) ;; ret (s_dsn n a))] the_string ;;
    addr <- lift (a_name a) ;;
    ret (IxRedirect addr (a_copy a) (a_list a)
           (a_dsn a, a_ret a, match a_alimit a, a_rlimit a with
                              | Some x, _ => ByAbsolute x (a_bymode a) (a_trace a)
                              | None, Some n => ByRelative n (a_bymode a) (a_trace a)
                              | None, None => ByNone
                              end)).

  (** action_mime.rs 92-127 [parse_replace] *)
  Definition cmd_replace : P instruction :=
    a <- read_args [h_mime K 1 None; h_string K FU 2 None "subject" s_subject; h_string K FU 3 None "from" s_from]
                   the_string ;;
    r <- lift (a_name a) ;;
    ret (IxReplace (a_subject a) (a_from a) r (a_mime a)).
  (** action_mime.rs 129-158 [parse_enclose]. *)
  Definition cmd_enclose : P instruction :=
    a <- read_args [h_string K FU 1 None "subject" s_subject; h_strings K FU 2 None "headers" s_headers] the_string ;;
    v <- lift (a_name a) ;;
    ret (IxEnclose (a_headers a) (a_subject a) v).
  (** action_set.rs 193-207 [From<Word> for Modifier] *)
  Definition modifier_of (w : text) : modifier :=
    if word "lower" w then ModLower else if word "upper" w then ModUpper
    else if word "lowerfirst" w then ModLowerFirst else if word "upperfirst" w then ModUpperFirst
    else if word "quotewildcard" w then ModQuoteWildcard else if word "quoteregex" w then ModQuoteRegex
    else if word "length" w then ModLength else ModEncodeUrl.
  (** action_set.rs 92-119, action_mime.rs (extracttext) *)
  Definition h_modifier (words : list String.string) : handler :=
    (oneof words, fun w a => ret (s_mods (a_mods a ++ [modifier_of w])%list a)).
  (** action_set.rs 87-141, action_mime.rs 160-214: the tag [:replace]. *)
  Definition h_replace : handler :=
    (word "replace", fun _ a => x <- next ;; y <- next ;; f <- str_tok x ;; r <- str_tok y ;;
                                ret (s_mods (a_mods a ++ [ModReplace f r])%list a)).
  (** action_set.rs 87-141, action_mime.rs 160-214: the tag [:local]. *)
  Definition h_local : handler := (word "local", fun _ a => ret (s_local true a)).
  (** action_mime.rs 160-214 [parse_extracttext]. *)
  Definition cmd_extracttext : P instruction :=
    a <- read_args [(word "first", fun _ a => va 1 None ;; n <- number K usize_max ;;
                                              ret (s_first (Some (N.to_nat n)) a));
                    h_modifier ["lower"; "upper"; "lowerfirst"; "upperfirst"; "quotewildcard"; "quoteregex"; "length"];
                    h_replace; h_local]
                   (fun t a => done (variable_name K t (a_local a)) (fun v => s_var (Some v) a)) ;;
    v <- lift (a_var a) ;;
    ret (IxExtract (parse_mods (a_mods a)) (a_first a) v).

  (** action_convert.rs 41-50 [parse_convert] *)
  Definition cmd_convert : P instruction := a <- str ;; b <- str ;; strs ;; ret (IxConvert a b).

  (** action_editheader.rs 62-109 [parse_addheader] *)
  Definition cmd_addheader : P instruction :=
    a <- read_args [h_last K 1 None]
                   (fun t a =>
                      v <- str_tok t ;;
                      match a_name a with
                      | None => check (header_ok K v) ;; ret (inl (s_name (Some v) a))
                      | Some _ =>
                          check (match v with XText x => Nat.leb (blen x) (C_hsize K) | _ => true end) ;;
                          ret (inr (s_name2 (Some v) a))
                      end) ;;
    n <- lift (a_name a) ;; v <- lift (a_name2 a) ;;
    ret (IxAddHeader n v (a_last a)).
  (** action_editheader.rs 111-212 [parse_deleteheader]. *)
  Definition cmd_deleteheader : P instruction :=
    a <- read_args [h_match K 1 false; h_comparator K FU 2; h_index K 3 None; h_last K 4 None;
                    h_mime K 5 (Some (cap "mime")); h_any K 6 (Some (cap "mime"))]
                   (fun t a => done (v <- str_tok t ;; check (header_ok K v) ;; ret v) (fun v => s_name (Some v) a)) ;;
    check (mime_ok a) ;;
    k <- peek ;;
    keys <- (if starts_strings k then l <- strs ;; validate_match (a_m a) l else ret []) ;;
    n <- lift (a_name a) ;;
    ret (IxDeleteHeader n (the_index a) (a_any a) (a_c a) (a_m a) keys).

  (** action_set.rs 87-141 [parse_set] *)
  Definition cmd_set : P instruction :=
    a <- read_args [h_modifier ["lower"; "upper"; "lowerfirst"; "upperfirst"; "quotewildcard"; "quoteregex"; "length";
                                "encodeurl"]; h_replace; h_local]
                   (fun t a =>
                      match a_var a with
                      | None => more (variable_name K t (a_local a)) (fun v => s_var (Some v) a)
                      | Some _ => the_string t a
                      end) ;;
    n <- lift (a_var a) ;; v <- lift (a_name a) ;;
    ret (IxSet (parse_mods (a_mods a)) n v).
  (** action_set.rs 143-150 [parse_let]. *)
  Definition cmd_let : P instruction :=
    t <- next ;; n <- variable_name K t false ;; e <- parse_expr K ;; ret (IxLet n e).

  (** action_notify.rs 50-172, action_vacation.rs 99-239: the tags [:create], [:flags] ... need [:fcc]. *)
  Definition fcc_ok (a : args) : bool :=
    match a_fcc a with
    | Some _ => true
    | None => negb (a_create a || negb (is_nil (a_flags a)) || match a_special a with Some _ => true | None => false end
                    || match a_mbid a with Some _ => true | None => false end)
    end.
  (** action_notify.rs 50-172, action_vacation.rs 99-239: [FileCarbonCopy]. *)
  Definition the_fcc (a : args) : option fccv :=
    option_map (fun f => (f, a_flags a, a_mbid a, a_special a, a_create a)) (a_fcc a).
  (** action_notify.rs 50-172, action_vacation.rs 99-239: a constant [:from] must be an address. *)
  Definition from_ok (v : value) : bool :=
    match v with
    | XText t => negb (is_nil t) && validate_from t false false false false 0%N
    | _ => true
    end.
  (** action_notify.rs 50-172 [parse_notify]. *)
  Definition cmd_notify : P instruction :=
    a <- read_args [(word "from", fun _ a => va 1 None ;; v <- str ;; if from_ok v then ret (s_from (Some v) a) else fail);
                    h_string K FU 2 None "message" s_msg; h_string K FU 3 None "importance" s_imp;
                    h_strings K FU 4 None "options" s_nopts;
                    h_flag K 5 (Some (cap "mailbox")) "create" (s_create true);
                    h_string K FU 6 (Some (cap "special-use")) "specialuse" s_special;
                    h_string K FU 7 (Some (cap "mailboxid")) "mailboxid" s_mbid;
                    h_string K FU 8 (Some (cap "fcc")) "fcc" s_fcc;
                    h_strings K FU 9 (Some (cap "imap4flags")) "flags" s_flags]
                   (fun t a =>
                      match t with
                      | TStr c => match validate_uri (C_M K) (C_dec K) (ctext c) with
                                  | None => fail
                                  | Some _ => the_string t a
                                  end
                      | _ => the_string t a
                      end) ;;
    check (fcc_ok a) ;;
    m <- lift (a_name a) ;;
    ret (IxNotify m (a_from a) (a_imp a) (a_nopts a) (a_msg a) (the_fcc a)).
  (** action_vacation.rs 99-239 [parse_vacation]. *)
  Definition cmd_vacation : P (test * instruction) :=
    a <- read_args [h_mime K 1 None; h_flag K 2 (Some (cap "mailbox")) "create" (s_create true);
                    (word "days", fun _ a => va 3 None ;; n <- number K usize_max ;; ret (s_period (PDays n) a));
                    (word "seconds", fun _ a => va 3 (Some (cap "vacation-seconds")) ;; n <- number K usize_max ;;
                                                ret (s_period (PSeconds n) a));
                    h_string K FU 4 None "subject" s_subject; h_string K FU 5 None "from" s_from;
                    h_string K FU 6 None "handle" s_handle;
                    h_string K FU 7 (Some (cap "special-use")) "specialuse" s_special;
                    h_string K FU 8 (Some (cap "mailboxid")) "mailboxid" s_mbid;
                    h_string K FU 9 (Some (cap "fcc")) "fcc" s_fcc;
                    h_strings K FU 10 (Some (cap "imap4flags")) "flags" s_flags;
                    h_strings K FU 11 None "addresses" s_addrs] the_string ;;
    check (fcc_ok a) ;;
    r <- lift (a_name a) ;;
    ret (TeVacation (a_addrs a) (a_handle a) r (a_period a),
         IxVacation (a_subject a) (a_from a) (a_mime a) (the_fcc a) r).

  (** action_flags.rs 46-88 [parse_flag_action] *)
  Definition cmd_flags (w : text) : P instruction :=
    let act := if word "setflag" w then FSet else if word "addflag" w then FAdd else FRemove in
    t <- next ;;
    k <- peek ;;
    match t with
    | TStr _ =>
        if starts_strings k then n <- variable_name K t false ;; l <- strs ;; ret (IxEditFlags act (Some n) l)
        else match k with KTok TSemicolon => l <- strs_tok t ;; ret (IxEditFlags act None l) | _ => fail end
    | TVar _ => match k with KTok TSemicolon => l <- strs_tok t ;; ret (IxEditFlags act None l) | _ => fail end
    | TBracketOpen => l <- strs_tok t ;; ret (IxEditFlags act None l)
    | _ => fail
    end.

  (** action_include.rs 53-92 [parse_include] *)
  Definition cmd_include : P instruction :=
    a <- read_args [h_flag K 1 None "once" (s_once true); h_flag K 2 None "optional" (s_optional true);
                    h_flag K 3 None "personal" (s_global false); h_flag K 3 None "global" (s_global true)] the_string ;;
    n <- lift (a_name a) ;;
    ret (IxInclude n (a_global a) (a_once a) (a_optional a)).

  (** action_require.rs 17-34 [add_capability]; [l] are the capabilities to declare. *)
  Definition add_cap1 (l : list capability) (c : capability) : P (list capability) :=
    ok <- get (has_cap K c) ;;
    if ok then ret l
    else modify (fun s => w_caps (match p_caps s with b :: bs => (c :: b) :: bs | [] => [] end) s) ;;
         ret (l ++ [c])%list.
  (** action_require.rs 17-34 [add_capability]: a capability and the ones it implies. *)
  Definition add_cap (l : list capability) (c : capability) : P (list capability) :=
    ok <- get (has_cap K c) ;;
    if ok then ret l
    else l' <- add_cap1 l c ;; if cap_eqb c (cap "spamtestplus") then add_cap1 l' (cap "spamtest") else ret l'.
  (** action_require.rs 36-92 [parse_require] *)
  Definition require_list : P (list capability) :=
    t <- next ;;
    match t with
    | TBracketOpen =>
        loop FU (fun l => t <- next ;;
                          match t with
                          | TStr c =>
                              l' <- add_cap l (parse_cap (ctext c)) ;;
                              t <- next ;;
                              match t with TComma => ret (inl l') | TBracketClose => ret (inr l') | _ => fail end
                          | _ => fail
                          end) []
    | TStr c => add_cap [] (parse_cap (ctext c))
    | _ => fail
    end.

  (** instruction.rs 171-806: a change of the part of the state modelled in Compile.v. *)
  Definition on_c (f : cst -> option cst) : P unit := fun s =>
    match f (p_c s) with Some c => Ok tt (w_c c s) | None => Err end.
  (** instruction.rs 171-806: a change of the part of the state modelled in Scope.v. *)
  Definition on_v (f : vst -> option vst) : P unit := fun s =>
    match f (p_v s) with Some v => Ok tt (w_v v s) | None => Err end.
  (** instruction.rs 508-538: the command global *)
  Fixpoint globals (l : list text) : P unit :=
    match l with
    | [] => ret tt
    | n :: l' => on_v (declare_global (C_name K) n) ;; globals l'
    end.

  (** instruction.rs 177, 613, 627-645: What follows a command: a block, a semicolon, or nothing (an
      unknown command is skipped with its end). *)
  Inductive follow := FBlock (t : btype) (label : option text) | FEnd | FNone.
  (** instruction.rs 203-217, 333-465: the capability of a command, its parser, its instruction. *)
  Definition simple (c : option capability) (m : P instruction) : P follow :=
    va 0 c ;; i <- m ;; push [i] ;; ret FEnd.
  (** instruction.rs 246-249, 272-282: is [:name] next? *)
  Definition tag_name : P bool :=
    k <- peek ;; ret (match k with KTok (TTag w) => word "name" w | _ => false end).

  (** instruction.rs 178-625: one command. *)
  Definition commands : list (String.string * (option capability * P instruction)) :=
    [("keep", (None, cmd_keep)); ("fileinto", (Some (cap "fileinto"), cmd_fileinto));
     ("redirect", (None, cmd_redirect)); ("discard", (None, ret IxDiscard)); ("stop", (None, ret IxStop));
     ("replace", (Some (cap "replace"), cmd_replace)); ("enclose", (Some (cap "enclose"), cmd_enclose));
     ("extracttext", (Some (cap "extracttext"), cmd_extracttext)); ("convert", (Some (cap "convert"), cmd_convert));
     ("addheader", (Some (cap "editheader"), cmd_addheader));
     ("deleteheader", (Some (cap "editheader"), cmd_deleteheader)); ("set", (Some (cap "variables"), cmd_set));
     ("notify", (Some (cap "enotify"), cmd_notify));
     ("reject", (Some (cap "reject"), r <- str ;; ret (IxReject false r)));
     ("ereject", (Some (cap "ereject"), r <- str ;; ret (IxReject true r)));
     ("error", (Some (cap "ihave"), m <- str ;; ret (IxError m)));
     ("setflag", (Some (cap "imap4flags"), cmd_flags (lit "setflag")));
     ("addflag", (Some (cap "imap4flags"), cmd_flags (lit "addflag")));
     ("removeflag", (Some (cap "imap4flags"), cmd_flags (lit "removeflag")));
     ("let", (Some (cap "vnd.stalwart.expressions"), cmd_let));
     ("eval", (Some (cap "vnd.stalwart.expressions"), e <- parse_expr K ;; ret (IxEval e)))].
  (** instruction.rs 605-624, 783-801. *)
  Definition unknown (n : text) : P unit :=
    ok <- get (has_cap K (cap "ihave")) ;;
    if ok then ignore_instruction K FU ;; push [IxInvalid n] else fail.

  (** instruction.rs 226-270. *)
  Definition cmd_foreverypart : P follow :=
    va 0 (Some (cap "foreverypart")) ;;
    stk <- get (fun s => c_stack (p_c s)) ;;
    if Nat.eqb (length (filter is_for stk)) (l_fep lim) then fail
    else
      named <- tag_name ;;
      l <- (if named then
              next ;; n <- static_string K FU ;;
              if existsb (fun b => label_eqb (b_label b) n) stk then fail else ret (Some n)
            else ret None) ;;
      push [IxForEveryPartPush; IxForEveryPart umax] ;;
      ret (FBlock BFor l).
  (** instruction.rs 271-332. *)
  Definition cmd_break : P follow :=
    named <- tag_name ;;
    l <- (if named then va 0 (Some (cap "foreverypart")) ;; next ;; n <- static_string K FU ;; ret (Some n)
          else ret None) ;;
    on_c (do_break umax l) ;; ret FEnd.
  (** instruction.rs 578-603. *)
  Definition cmd_continue : P follow :=
    va 0 (Some (cap "vnd.stalwart.while")) ;;
    on_c (fun c => match do_continue 0 (blocks c) with (2, l) => Some (emit l c) | _ => None end) ;; ret FEnd.

  (** instruction.rs 179-625: [match instruction]. *)
  Definition command (w : text) : P follow :=
    if word "require" w then l <- require_list ;; modify (fun s => w_c (do_require l (p_c s)) s) ;; ret FEnd
    else if word "if" w then
      parse_test ;; modify (fun s => w_c (with_blk (with_if [] (c_blk (p_c s))) (p_c s)) s) ;; ret (FBlock BIf None)
    else if word "elsif" w then
      l <- get (fun s => c_last (p_c s)) ;;
      match l with BIf | BElsIf => parse_test ;; ret (FBlock BElsIf None) | _ => fail end
    else if word "else" w then
      l <- get (fun s => c_last (p_c s)) ;;
      match l with BIf | BElsIf => ret (FBlock BElse None) | _ => fail end
    else if word "foreverypart" w then cmd_foreverypart
    else if word "break" w then cmd_break
    else if word "vacation" w then
      va 0 (Some (cap "vacation")) ;; p <- cmd_vacation ;;
      modify (fun s => w_c (emit [IxTest (fst p); IxJz (length (c_code (p_c s)) + 3); snd p] (p_c s)) s) ;; ret FEnd
    else if word "include" w then
      n <- get (fun s => c_includes (p_c s)) ;;
      if Nat.ltb n (l_includes lim) then
        va 0 (Some (cap "include")) ;; i <- cmd_include ;;
        modify (fun s => let c := p_c s in
                         w_c {| c_code := c_code c ++ [i]; c_blk := c_blk c; c_stack := c_stack c; c_last := c_last c;
                                c_includes := c_includes c + 1 |} s) ;; ret FEnd
      else fail
    else if word "return" w then
      va 0 (Some (cap "include")) ;; modify (fun s => w_c (do_return (p_c s)) s) ;; ret FEnd
    else if word "global" w then
      va 0 (Some (cap "include")) ;; va 0 (Some (cap "variables")) ;;
      l <- static_strings K FU ;; globals l ;; ret FEnd
    else if word "while" w then
      va 0 (Some (cap "vnd.stalwart.while")) ;; e <- parse_expr K ;; push [IxWhile e umax] ;; ret (FBlock BWhile None)
    else if word "continue" w then cmd_continue
    else match find_word w commands with
         | Some (c, m) => simple c m
         | None => unknown w ;; ret FNone
         end.

  (** instruction.rs 627-645: the beginning of a block; [instructions.len() - 1]
      underflows if there is no instruction. *)
  Definition open_all (t : btype) (l : option text) : P unit :=
    inside [0] ;;
    on_c (open lim t l) ;;
    modify (fun s => w_caps ([] :: p_caps s) (w_m (([], 0%N) :: p_m s) (w_v (open_block (p_v s)) s))).
  (** instruction.rs 943-962 [block_end] *)
  Definition clear_of (idx num : nat) (mv : N) : option instruction :=
    if Nat.ltb 0 num then Some (IxClear mv idx num) else if N.eqb mv 0 then None else Some (IxClear mv 0 0).
  (** instruction.rs 647-741: the end of a block.  For the control structure, only
      whether "elsif" or "else" follows matters.  The positions of the jumps are checked
      before the instructions that end the block are added. *)
  Definition jumps (c : cst) : list nat :=
    b_break (c_blk c) ++ match c_stack c with b :: _ => b_start b :: b_if b | [] => [] end.
  (** instruction.rs 647-741, 943-962: the end of a block. *)
  Definition close_all : P unit :=
    ps <- get (fun s => jumps (p_c s)) ;;
    inside ps ;;
    t <- get (fun s => b_type (c_blk (p_c s))) ;;
    mv <- get (fun s => snd (hd ([], 0%N) (p_m s))) ;;
    v <- get p_v ;;
    vi <- lift (close_block v) ;;
    more <- match t with
            | BIf | BElsIf => k <- peek ;; ret (match k with KTok (TIdent w) => oneof ["elsif"; "else"] w | _ => false end)
            | _ => ret false
            end ;;
    on_c (close umax (clear_of (fst (snd vi)) (snd (snd vi)) mv) (if more then [KElse] else [])) ;;
    modify (fun s => w_caps (tl (p_caps s)) (w_m (tl (p_m s)) (w_v (fst vi) s))).

  (** instruction.rs 170-814: one iteration of the loop of [compile] *)
  Definition main_step (_ : unit) : P (unit + unit) :=
    o <- next_opt K ;;
    match o with
    | None => ret (inr tt)
    | Some t =>
        reset ;;
        match t with
        | TIdent w =>
            f <- command w ;;
            match f with
            | FBlock t l => expect K TCurlyOpen ;; open_all t l ;; ret (inl tt)
            | FEnd => expect K TSemicolon ;; ret (inl tt)
            | FNone => ret (inl tt)
            end
        | TCurlyClose =>
            stk <- get (fun s => c_stack (p_c s)) ;;
            match stk with [] => fail | _ => close_all ;; ret (inl tt) end
        | TUnknown n => unknown n ;; ret (inl tt)
        | _ => fail
        end
    end.

  (** instruction.rs 147-169 *)
  Definition init (script : list N) : pst := mkp (lex_start script) start v_start [([], 0%N)] [[]] 0 [].

  (** instruction.rs 146 [Result<Sieve, CompileError>]; a panic, or the model's fuel is used up
      (excluded by the theorems). *)
  Inductive compiled := Compiled (s : sieve) | Rejected | Panicked | OutOfFuel.
  (** instruction.rs 806-827: the end of the script *)
  Definition finish (s : pst) : compiled :=
    match c_stack (p_c s) with
    | [] =>
        let v := p_v s in
        let code := c_code (p_c s) in
        Compiled {| s_code := if Nat.ltb 0 (v_loc v) then map (map_instruction (map_var umax (last_id v))) code else code;
                    s_vars := num_vars v;
                    s_match_vars := p_mmax s |}
    | _ => Rejected
    end.
  (** instruction.rs 146-828 [Compiler::compile] with [FU] iterations of each loop. *)
  Definition compile_with (script : list N) : compiled :=
    if Nat.ltb (C_script K) (length script) then Rejected
    else match loop FU main_step tt (init script) with
         | Ok _ s => finish s
         | Err => Rejected
         | Panic => Panicked
         | Fuel => OutOfFuel
         end.
End Parse.

(** instruction.rs 146-828 [Compiler::compile].  Every iteration of a loop reads a token, and a script has at
    most two tokens for each of its bytes. *)
Definition compile (K : cenv) (script : list N) : compiled := compile_with K (2 * length script + 2) script.
