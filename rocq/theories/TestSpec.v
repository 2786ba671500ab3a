(** Specification: what the tests of a running script decide, and what they ask the host. *)
From Verif Require Import Base Lib Var Value SetVar Flags Glob Comparator ComparatorSpec Message MessageSpec HeaderShowSpec
  EditHeader AddrTest AddrSpec Spam Notify Event Sieve Run MatchSpec.
Import ListNotations.
Local Open Scope list_scope.

(** The test [t] comes next, and there is an instruction left to execute it. *)
Definition at_test (E : renv) (s : rst) (t : test) : Prop :=
  r_stack s <> [] /\ next_instr s = Some (IxTest t) /\ r_instrs s < E_cpu E.
(** The same state after that instruction. *)
Definition moved_on (s : rst) : rst := w_pos (r_pos s + 1) (w_instrs (r_instrs s + 1) s).

(** A header field asked for: a string that is the name of one. *)
Definition field_asked (E : renv) (s : rst) (names : list value) (n : text) : Prop :=
  exists x, In x names /\ hn_parse (E_M E) (tx E s x) = Some n.
(** A field [h] that is selected in a part that is looked at. *)
Definition field_at (s : rst) (anychild : bool) (index : option Z) (n : text) (h : header) : Prop :=
  exists i p pos, looked_at (parts s) (r_part s) anychild i p /\ selected index n (p_headers p) pos h.
(** The options of RFC 5703 with the names of the parameters. *)
Definition options_are (E : renv) (s : rst) (o : mimev) (o' : mimeopts) : Prop :=
  match o, o' with
  | MvNone, MoNone | MvType, MoType | MvSubtype, MoSubtype | MvContentType, MoContentType => True
  | MvParam ps, MoParam ts => ts = map (tx E s) ps
  | _, _ => False
  end.
(** The value stored for an annotation: that of the first entry with its name; mailboxes are
    compared exactly, annotations without regard to case. *)
Definition same_entry (E : renv) (s : rst) (md : metadatav) (m : metadata) : Prop :=
  match md, m with
  | MvServer a, MdServer b => lower_text b = lower_text (tx E s a)
  | MvMailbox n a, MdMailbox k b => k = tx E s n /\ lower_text b = lower_text (tx E s a)
  | _, _ => False
  end.
Definition stored_value (E : renv) (s : rst) (md : metadatav) (v : text) : Prop :=
  exists before m after, E_metadata E = before ++ (m, v) :: after /\ same_entry E s md m /\
    forall m' v', In (m', v') before -> ~ same_entry E s md m'.
(** The types given to ':content', up to the first that is empty; each must be a type. *)
Inductive types_are (E : renv) (s : rst) : list value -> list ctfilter -> Prop :=
| ty_none : types_are E s [] []
| ty_empty x l : v_is_empty (ev E s x) = true -> types_are E s (x :: l) []
| ty_type x l f fs : v_is_empty (ev E s x) = false -> ctfilter_parse (tx E s x) = Some f ->
    types_are E s l fs -> types_are E s (x :: l) (f :: fs).
(** A method for notifications that the host allows, by its scheme or as a whole. *)
Definition method_allowed (E : renv) (u : text) : Prop :=
  exists scheme, validate_uri (E_M E) (E_utf8 E) u = Some scheme /\ (In scheme (E_uris E) \/ In u (E_uris E)).

(** [v] is one of the values the test compares. *)
Inductive value_of (E : renv) (s : rst) : test -> cmpv -> Prop :=
| va_header names index anychild o o' c m keys neg n h v :
    field_asked E s names n -> field_at s anychild index n h -> options_are E s o o' -> shows (E_M E) h o' v ->
    value_of E s (TeHeader names index anychild o c m keys neg) (KStr v)
| va_address names index anychild p c m keys neg n h v :
    field_asked E s names n -> field_at s anychild index n h -> address_value (E_A E) p h v ->
    value_of E s (TeAddress names index anychild p c m keys neg) (KStr v)
| va_envelope wanted p z c m keys neg name x v :
    In (name, x) (c_envelope (r_vars s)) -> In name wanted -> envelope_value (E_A E) p z name (v_text (E_L E) x) v ->
    value_of E s (TeEnvelope wanted p z c m keys neg) (KStr v)
| va_date name index anychild p z c m keys neg n h d :
    hn_parse (E_M E) (tx E s name) = Some n -> field_at s anychild index n h -> dp_parse (E_A E) h = Some d ->
    value_of E s (TeDate name index anychild p z c m keys neg) (KStr (date_part (E_A E) p (zone_eval (E_A E) z d)))
| va_now z p c m keys neg :
    value_of E s (TeCurrentDate z p c m keys neg) (KStr (date_part (E_A E) p (E_now E z)))
| va_string sources c m keys neg x :
    In x sources -> value_of E s (TeString sources c m keys neg) (KVar (ev E s x))
| va_environment sources c m keys neg x :
    In x sources -> v_is_empty (ev E s x) = false ->
    value_of E s (TeEnvironment sources c m keys neg) (KVar (ev E s x))
| va_flag vars flags c m neg n v :
    In n (match vars with [] => [default_flags] | _ => vars end) ->
    In v (flags_of_var (E_L E) (get_variable (vw E s) n)) ->
    value_of E s (TeHasFlag vars flags c m neg) (KStr v)
| va_metadata md c m keys neg v :
    stored_value E s md v -> value_of E s (TeMetadata md c m keys neg) (KStr v)
| va_spam c m key neg : value_of E s (TeSpam false c m key neg) (KVar (VInt (spam_number (E_spam E))))
| va_spam_percent c m key neg : value_of E s (TeSpam true c m key neg) (KVar (VInt (spam_percentage (E_spam E))))
| va_virus c m key neg : value_of E s (TeVirus c m key neg) (KVar (VInt (virus_number (E_virus E))))
| va_online uri cap c m keys neg :
    lower_text (tx E s cap) = lit "online" -> method_allowed E (tx E s uri) ->
    value_of E s (TeNotifyCapability uri cap c m keys neg) (KStr (lit "maybe"))
| va_body bt subject c m keys neg types path p v :
    (match bt with BtContent l => types_are E s l types | _ => types = [] end) ->
    deep_at (parts s) (r_part s) path p -> passes types p = true -> E_body E bt p = Some v ->
    value_of E s (TeBody bt subject c m keys neg) (KStr v)
| va_subject bt c m keys neg v :
    v = match (match bt with BtRaw => E_raw_subject E | _ => E_subject E end) (r_msg s) with Some t => t | None => [] end ->
    value_of E s (TeBody bt true c m keys neg) (KStr v).

(** The keys.  Only the last one of a string or environment test counts (C04). *)
Inductive key_of (E : renv) (s : rst) : test -> cmpv -> Prop :=
| ke_any t keys x :
    match t with
    | TeHeader _ _ _ _ _ _ k _ | TeAddress _ _ _ _ _ _ k _ | TeEnvelope _ _ _ _ _ k _ | TeDate _ _ _ _ _ _ _ k _
    | TeCurrentDate _ _ _ _ k _ | TeMetadata _ _ _ k _ | TeNotifyCapability _ _ _ _ k _ | TeBody _ _ _ _ k _ => k = keys
    | _ => False
    end -> In x keys -> key_of E s t (KVar (ev E s x))
| ke_last sources c m keys x neg t :
    t = TeString sources c m (keys ++ [x]) neg \/ t = TeEnvironment sources c m (keys ++ [x]) neg ->
    key_of E s t (KVar (ev E s x))
| ke_one c m key neg t :
    (exists percent, t = TeSpam percent c m key neg) \/ t = TeVirus c m key neg -> key_of E s t (KVar (ev E s key))
| ke_flag vars flags c m neg k :
    In k (flag_tokens (E_L E) (vw E s) flags) -> key_of E s (TeHasFlag vars flags c m neg) (KStr k).

(** How a key is compared: date, currentdate and hasflag take a regular expression for a
    pattern (C05); a body test and notify_method_capability capture nothing. *)
Definition compared_as (t : test) (m : mtype) : mtype :=
  match t, m with
  | (TeDate _ _ _ _ _ _ _ _ _ | TeCurrentDate _ _ _ _ _ _ | TeHasFlag _ _ _ _ _), MRegex p => MMatches p
  | (TeBody _ _ _ _ _ _ | TeNotifyCapability _ _ _ _ _ _), MRegex _ => MRegex 0
  | (TeBody _ _ _ _ _ _ | TeNotifyCapability _ _ _ _ _ _), MMatches _ => MMatches 0
  | _, m => m
  end.
(** Some value matches some key. *)
Definition finds (E : renv) (s : rst) (t : test) (c : comparator) (m : mtype) : Prop :=
  exists v k, value_of E s t v /\ key_of E s t k /\ key_matches (E_L E) (E_rx E) c (compared_as t m) v k.

(** The tests that compare nothing. *)
Definition says (E : renv) (s : rst) (t : test) : option (Prop * bool) :=
  match t with
  | TeTrue => Some (True, false)
  | TeFalse => Some (False, false)
  | TeExists names anychild neg =>
      Some (forall n, field_asked E s names n ->
              exists i p h, looked_at (parts s) (r_part s) anychild i p /\ In h (p_headers p) /\ lower_text (h_name h) = lower_text n, neg)
  | TeSize over limit neg =>
      Some (if over then limit < ms_size (r_msg s) else ms_size (r_msg s) < limit, neg)
  | TeIhave caps neg => Some (forall c, In c caps -> In c (E_caps E) /\ c <> CapVariables /\ c <> CapEncoded, neg)
  | TeValidExtList names neg => Some (forall x, In x names -> In (tx E s x) (E_lists E), neg)
  | TeValidNotify uris neg => Some (forall x, In x uris -> method_allowed E (tx E s x), neg)
  | TeMetadataExists mailbox annotations neg =>
      Some (E_metadata E <> [] /\ forall x, In x annotations -> exists m v, In (m, v) (E_metadata E) /\
              match mailbox, m with
              | None, MdServer b => lower_text b = lower_text (tx E s x)
              | Some n, MdMailbox k b => k = tx E s n /\ lower_text b = lower_text (tx E s x)
              | _, _ => False
              end, neg)
  | _ => None
  end.

(** The identifier of a message for the duplicate test: the message id, the first id of
    some header field, or a text. *)
Inductive id_is (E : renv) (s : rst) : dupmatch -> text -> Prop :=
| di_default id : E_msg_id E (r_msg s) = Some id -> id_is E s DupDefault id
| di_unique x : id_is E s (DupUnique x) (tx E s x)
| di_header x n h id found before after :
    hn_parse (E_M E) (tx E s x) = Some n ->
    find_headers (parts s) (r_part s) [n] None true = Some found ->
    map l_header found = before ++ h :: after -> (forall h', In h' before -> E_header_id E h' = None) ->
    E_header_id E h = Some id -> id_is E s (DupHeader x) id.
(** The tests that may ask about lists of the host. *)
Definition asks_lists (t : test) : Prop :=
  match t with
  | TeHeader _ _ _ _ _ _ _ _ | TeAddress _ _ _ _ _ _ _ _ | TeEnvelope _ _ _ _ _ _ _ | TeDate _ _ _ _ _ _ _ _ _
  | TeCurrentDate _ _ _ _ _ _ | TeString _ _ _ _ _ | TeEnvironment _ _ _ _ _ => True
  | _ => False
  end.
(** What a test asks the host, and its sense. *)
Inductive asks (E : renv) (s : rst) : test -> event -> bool -> Prop :=
| as_mailbox names neg :
    asks E s (TeMailboxExists names neg) (EMailboxExists (map (fun x => MbName (tx E s x)) names) []) neg
| as_mailbox_id ids neg :
    asks E s (TeMailboxIdExists ids neg) (EMailboxExists (map (fun x => MbId (tx E s x)) ids) []) neg
| as_special attributes neg :
    asks E s (TeSpecialUse None attributes neg) (EMailboxExists [] (map (tx E s) attributes)) neg
| as_special_of x attributes neg :
    asks E s (TeSpecialUse (Some x) attributes neg) (EMailboxExists [MbName (tx E s x)] (map (tx E s) attributes)) neg
| as_duplicate d handle last seconds neg id prefix expiry :
    id_is E s d id -> id <> [] ->
    prefix = match handle with Some h => tx E s h | None => [] end ->
    expiry = match seconds with Some n => n | None => E_dup_expiry E end ->
    asks E s (TeDuplicate d handle last seconds neg) (EDuplicateId (prefix ++ id) expiry last) neg
| as_list t c neg l :
    asks_lists t -> match_of t = Some (c, MList, neg) -> l <> [] -> NoDup l ->
    (forall v, In v l <-> v <> [] /\ exists x, value_of E s t x /\ k_text (E_L E) x = v) ->
    asks E s t (EListContains (keys_of E s t) l c) neg.
