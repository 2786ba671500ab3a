(** Properties C80, C81: header, body and part variables. *)
From Verif Require Import Base Lib Var Value Utf8 Glob Comparator Message Flags AddrTest EditHeader EditHeaderSpec EditHeaderProofs Mime Build BuildSpec BuildProofs2
  HeaderVar HeaderEval HeaderVarSpec HeaderVarProofs PropertiesCompare PropertiesMessage PropertiesAddrTest PropertiesBuild.
Import ListNotations.
Local Open Scope string_scope.
Local Open Scope list_scope.

(** C80: what a reference means when it is written without blanks, and with every index
    closed.  [names] are the header names as mail_parser knows them. *)
Theorem C80_syntax_partial : forall M r p names,
  reference_ok r -> part_named (rf_part r) p ->
  match rf_names r with Some l => map (hn_parse M) l = map Some names | None => names = [] end ->
  let any := match rf_names r with Some _ => false | None => true end in
  header_variable M (reference_text r) =
    Some (MvHeader {| hv_name := names; hv_part := p; hv_hdr := index_value any (rf_hdr r); hv_idx := index_value any (rf_idx r) |}).
Proof.
  intros M r p names A B C any. unfold header_variable.
  rewrite (reference_read (hn_parse M) r p names A (part_named_read _ _ B) C). reflexivity.
Qed.
Print Assumptions C80_syntax_partial.
(** The value: of the fields with these names those the first index selects, and of each of
    them what the part and the second index select. *)
Theorem C80_selection : forall L A P v st part p,
  hv_name v <> [] -> nth_error (fs_parts st) part = Some p -> hv_part v <> HpRawName ->
  exists sel ls, chosen (hv_hdr v) (fields_named (hv_name v) (fp_headers p)) sel /\
    Forall2 (fun h l => eval_part L A P v (fs_raw st) h = Some l) sel ls /\
    eval_header L A P v st part = Some (as_value v (concat ls)).
Proof. exact eval_selection. Qed.
Print Assumptions C80_selection.
(** A field with several values, and addresses. *)
Theorem C80_texts : forall L A P v raw h l, hv_part v = HpText -> value_of P h = FvTextList l ->
  exists out, eval_part L A P v raw h = Some out /\ one_of (hv_idx v) (map VStr l) out.
Proof. exact eval_texts. Qed.
Print Assumptions C80_texts.
Theorem C80_mailboxes : forall L A P v raw h l, hv_part v = HpText -> value_of P h = FvAddress l ->
  exists out, eval_part L A P v raw h = Some out /\ one_of (hv_idx v) (map shown l) out.
Proof. exact eval_shown. Qed.
Print Assumptions C80_mailboxes.
Theorem C80_addresses : forall L A P v raw h l p, hv_part v = HpAddress p -> value_of P h = FvAddress l ->
  exists out, eval_part L A P v raw h = Some out /\ one_of (hv_idx v) (map (mailbox_part (ap_part A) p) l) out.
Proof. exact eval_addresses. Qed.
Print Assumptions C80_addresses.
(** Content types. *)
Theorem C80_content_type : forall L A P v raw h ct, value_of P h = FvContentType ct ->
  (hv_part v = HpContentType CpType -> eval_part L A P v raw h = Some [VStr (ct_type ct)]) /\
  (hv_part v = HpContentType CpSubtype -> eval_part L A P v raw h = Some [text_or_empty (ct_subtype ct)]) /\
  (hv_part v = HpText -> eval_part L A P v raw h =
     Some [VStr (match ct_subtype ct with Some s => ct_type ct ++ lit "/" ++ s | None => ct_type ct end)]).
Proof. exact eval_type. Qed.
Print Assumptions C80_content_type.
Theorem C80_attribute : forall L A P v raw h ct n, hv_part v = HpContentType (CpAttribute n) -> value_of P h = FvContentType ct ->
  exists t, attribute (match ct_attrs ct with Some l => l | None => [] end) n t /\ eval_part L A P v raw h = Some [VStr t].
Proof. exact eval_attribute. Qed.
Print Assumptions C80_attribute.
(** The raw text of a field of the original message: its bytes with each run of blanks, also
    those at the start, made one space; and its name. *)
Theorem C80_raw : forall L A P v raw h b, hv_part v = HpRaw -> value_bytes raw h b ->
  exists b', squeezed b b' /\ eval_part L A P v raw h = Some [VStr (into_string b')].
Proof. exact eval_raw. Qed.
Print Assumptions C80_raw.
Theorem C80_raw_name : forall L A P v raw h n, hv_part v = HpRawName -> name_bytes raw h (utf8 n) -> Forall scalar n ->
  eval_part L A P v raw h = Some [VStr n].
Proof. exact eval_raw_name. Qed.
Print Assumptions C80_raw_name.
(** ${header.NAMES.exists}: 1 for each field selected, nothing if there is none. *)
Theorem C80_exists : forall L A P v st part p, hv_name v <> [] -> nth_error (fs_parts st) part = Some p -> hv_part v = HpExists ->
  exists sel, chosen (hv_hdr v) (fields_named (hv_name v) (fp_headers p)) sel /\
    eval_header L A P v st part = Some (as_value v (map (fun _ => VInt 1) sel)).
Proof. exact eval_exists. Qed.
Print Assumptions C80_exists.
(** Text fields: the texts of the fields selected. *)
Theorem C80_text_fields : forall L A P v st part p (text_of : fheader -> text),
  hv_name v <> [] -> nth_error (fs_parts st) part = Some p -> hv_part v = HpText -> (-1 <= hv_idx v <= 1)%Z ->
  (forall h, In h (fields_named (hv_name v) (fp_headers p)) -> value_of P h = FvText (text_of h)) ->
  exists sel, chosen (hv_hdr v) (fields_named (hv_name v) (fp_headers p)) sel /\
    eval_header L A P v st part = Some (as_value v (map (fun h => VStr (text_of h)) sel)).
Proof. exact eval_all_texts. Qed.
Print Assumptions C80_text_fields.
(** ${header.*}: all fields. *)
Theorem C80_all_fields : forall L A P v st part p (text_of : fheader -> text),
  hv_name v = [] -> nth_error (fs_parts st) part = Some p -> hv_part v = HpText ->
  (forall h, In h (fp_headers p) -> value_of P h = FvText (text_of h)) ->
  eval_header L A P v st part = Some (as_value v (map (fun h => VStr (h_name (fh_view h) ++ lit ": " ++ text_of h)) (fp_headers p))).
Proof. exact eval_any_texts. Qed.
Print Assumptions C80_all_fields.
(** What "addheader :last" has written is what ${header.NAME} gives. *)
Theorem C80_added : forall L A P M prot max name value part st st',
  fadd_header L M prot max name value true part st = Some st' ->
  st' = st \/
  exists n v, hn_parse M (filter (fun c => chr_is_alnum L c || N.eqb c 45) name) = Some n /\ cut_to max (no_crlf value) v /\
    eval_header L A P {| hv_name := [n]; hv_part := HpText; hv_hdr := -1; hv_idx := -1 |} st' part = Some (Some (VStr v)).
Proof. exact added_seen. Qed.
Print Assumptions C80_added.

(** *** A case *)
Definition plain_parser : hvparser :=
  {| hp_value := fun h => FvAddress [{| ad_name := None; ad_addr := Some (lit "a@x") |}; {| ad_name := Some (lit "B"); ad_addr := Some (lit "b@y") |}];
     hp_unstructured := fun _ => None; hp_addresses := fun _ => None; hp_date := fun _ => None; hp_id := fun _ => FvEmpty;
     hp_html := fun t => lit "<p>" ++ t; hp_plain := fun t => lit "plain" |}.
(** A field with two addresses, which mail_parser has parsed. *)
Definition addrs (n : string) (a b c : nat) : fheader :=
  {| fh_view := {| h_name := lit n; h_val := HOther; h_raw := true; h_plain := []; h_bytes := c - a |};
     fh_other := false; fh_field := a; fh_start := b; fh_end := c |}.
Definition letter : fstate :=
  {| fs_raw := line "X: a" ++ line "To: a@x, B <b@y>" ++ line "X: b" ++ line "x: c" ++ line "" ++ lit "hi";
     fs_parts := [FPart [hdr "X" "a" 0 2 6; addrs "To" 6 9 24; hdr "X" "b" 24 26 30; hdr "x" "c" 30 32 36] None (FText (lit "hi")) false 0 38 40];
     fs_changed := false; fs_size := 40 |}.
Definition shows (s : string) (st : fstate) : option (option (option var)) :=
  match header_variable no_mp (lit s) with
  | Some (MvHeader v) => Some (eval_header ascii_lib toy_ap plain_parser v st 0)
  | _ => None
  end.
Example C80_case :
  reference_text {| rf_names := Some [lit "To"; lit "Cc"]; rf_hdr := IxAt 1; rf_part := Some (lit "addr"); rf_idx := IxAt (-1) |} =
    lit "To:Cc[1].addr[-1]" /\
  shows "To:Cc[1].addr[-1]" letter = Some (Some (Some (VStr (lit "b@y")))) /\
  shows "To[*].name[*]" letter = Some (Some (Some (VArr [VStr []; VStr (lit "B")]))) /\
  shows "X" letter = Some (Some (Some (VStr (lit "c")))) /\
  shows "x[1]" letter = Some (Some (Some (VStr (lit "a")))) /\
  shows "X[-2].text" letter = Some (Some (Some (VStr (lit "b")))) /\
  shows "X[*]" letter = Some (Some (Some (VArr [VStr (lit "a"); VStr (lit "b"); VStr (lit "c")]))) /\
  shows "X[4]" letter = Some (Some None) /\
  shows "Y.exists" letter = Some (Some None) /\
  shows "To[1].raw" letter = Some (Some (Some (VStr (lit " a@x, B <b@y>")))) /\
  shows "x.raw_name" letter = Some (Some (Some (VStr (lit "x")))) /\
  shows "*.exists" letter = Some (Some (Some (VArr [VInt 1; VInt 1; VInt 1; VInt 1]))) /\
  reference_ok {| rf_names := Some [lit "To"; lit "Cc"]; rf_hdr := IxAt 1; rf_part := Some (lit "addr"); rf_idx := IxAt (-1) |} /\
  (exists st', fadd_header ascii_lib no_mp [] 100 (lit "X") (lit "d") true 0 letter = Some st' /\ st' <> letter /\
    shows "X" st' = Some (Some (Some (VStr (lit "d"))))).
Proof.
  do 12 (split; [vm_compute; reflexivity|]). split.
  - split; [|split; [cbn; lia|split; [cbn; lia|]]].
    + split; [discriminate|]. apply Forall_cons; [|apply Forall_cons; [|apply Forall_nil]]; (split; [discriminate|]);
        vm_compute; repeat (apply Forall_cons; [intuition discriminate|]); apply Forall_nil.
    + split; [discriminate|]. vm_compute. repeat (apply Forall_cons; [intuition discriminate|]); apply Forall_nil.
  - eexists. split; [vm_compute; reflexivity|]. split; [discriminate|]. vm_compute. reflexivity.
Qed.

(** Dates, message ids and the parts of a Received field, in one message. *)
Definition trace : received :=
  {| rc_from := None; rc_helo := Some (HostName (lit "helo")); rc_by := Some (HostIp (lit "::1")); rc_ip := Some (lit "1.2.3.4"); rc_iprev := Some (lit "rev");
     rc_for := Some (lit "for"); rc_with := Some (lit "with"); rc_tls := Some (lit "tls"); rc_cipher := Some (lit "cipher"); rc_id := Some (lit "id");
     rc_ident := Some (lit "ident"); rc_via := None; rc_date := Some (5%Z, lit "date") |}.
Definition parser2 : hvparser :=
  {| hp_value := fun h => if hn_eqb (h_name (fh_view h)) (lit "Date") then FvDate 7
                          else if hn_eqb (h_name (fh_view h)) (lit "Message-ID") then FvTextList [lit "1@x"; lit "2@x"] else FvReceived trace;
     hp_unstructured := fun _ => None; hp_addresses := fun _ => None; hp_date := fun _ => None; hp_id := fun _ => FvEmpty;
     hp_html := fun t => t; hp_plain := fun t => t |}.
Definition traced : fstate :=
  {| fs_raw := line "Date: now" ++ line "Message-ID: <1@x><2@x>" ++ line "Received: x" ++ line "" ++ lit "hi";
     fs_parts := [FPart [addrs "Date" 0 5 11; addrs "Message-ID" 11 22 35; addrs "Received" 35 44 48] None (FText (lit "hi")) false 0 50 52];
     fs_changed := false; fs_size := 52 |}.
Definition trace_shows (s : string) : option (option (option var)) :=
  match header_variable no_mp (lit s) with
  | Some (MvHeader v) => Some (eval_header ascii_lib toy_ap parser2 v traced 0)
  | _ => None
  end.
Example C80_trace_case :
  map trace_shows ["received.rcvd.from"; "received.rcvd.from.name"; "received.rcvd.from.ip"; "received.rcvd.by"; "received.rcvd.by.name";
                   "received.rcvd.by.ip"; "received.rcvd.ip"; "received.rcvd.iprev"; "received.rcvd.for"; "received.rcvd.with"; "received.rcvd.tls";
                   "received.rcvd.cipher"; "received.rcvd.id"; "received.rcvd.ident"; "received.rcvd.date.raw"; "date"] =
  map (fun s => Some (Some (Some (VStr (lit s))))) ["helo"; "helo"; ""; "::1"; ""; "::1"; "1.2.3.4"; "rev"; "for"; "with"; "tls"; "cipher"; "id"; "ident"; "date"; "now"] /\
  map trace_shows ["received.rcvd.date"; "date.date"; "message-id.id"] =
  map (fun v => Some (Some (Some v))) [VInt 5; VInt 7; VArr [VStr (lit "1@x"); VStr (lit "2@x")]].
Proof. split; vm_compute; reflexivity. Qed.

(** Outside of this: blanks and a second index in brackets are read as if they were not
    there, an index may stay open or be followed by ":", and the parts of an address need
    "addr." twice. *)
Theorem C80_syntax_refuted :
  header_variable no_mp (lit "na[1].te xt") = header_variable no_mp (lit "na[1].text") /\
  header_variable no_mp (lit "a[1][2][3]") = header_variable no_mp (lit "a[1].text[23]") /\
  header_variable no_mp (lit "a[1") = header_variable no_mp (lit "a[1]") /\
  header_variable no_mp (lit "a[1]:") = header_variable no_mp (lit "a[1]") /\
  header_variable no_mp (lit "a[1]") <> None /\
  header_variable no_mp (lit "from.addr.domain") = None /\
  header_variable no_mp (lit "received.rcvd.via") = None.
Proof. repeat split; try (vm_compute; reflexivity). vm_compute. discriminate. Qed.
Print Assumptions C80_syntax_refuted.
(** The index of "*" is ignored: all fields are given. *)
Theorem C80_any_index_refuted :
  shows "*[1].exists" letter = Some (Some (Some (VArr [VInt 1; VInt 1; VInt 1; VInt 1]))).
Proof. vm_compute. reflexivity. Qed.
Print Assumptions C80_any_index_refuted.
(** A header that was added has no raw text, and asking for its raw name computes 0 - 1:
    a panic where overflow is checked. *)
Theorem C80_raw_refuted :
  exists st', fadd_header ascii_lib no_mp [] 100 (lit "X") (lit "d") true 0 letter = Some st' /\
    shows "X" st' = Some (Some (Some (VStr (lit "d")))) /\
    shows "X.raw" st' = Some (Some (Some (VStr []))) /\
    shows "X[1].raw_name" st' = Some (Some (Some (VStr (lit "X")))) /\
    shows "X.raw_name" st' = Some None.
Proof. eexists. split; [vm_compute; reflexivity|]. repeat split; vm_compute; reflexivity. Qed.
Print Assumptions C80_raw_refuted.

(** *** C81 *)
(** addheader and deleteheader change no body variable. *)
Theorem C81_header_edits : forall L A P rx M prot max es st st' text_body html_body part v,
  run_fedits L rx M prot max es st = Some st' -> (forall h, v <> MvHeader h) ->
  eval_message L A P text_body html_body st' part v = eval_message L A P text_body html_body st part v.
Proof.
  intros L A P rx M prot max es st st' tb hb part v H V. apply body_unchanged.
  - exact (fedits_evolved _ _ _ _ _ _ _ _ H).
  - destruct v; try reflexivity. exfalso. exact (V h eq_refl).
Qed.
Print Assumptions C81_header_edits.
(** After replace ${part.text} is the new text, and so is ${body.text} if the message consists
    of the part alone. *)
Theorem C81_replace_partial : forall L A P E s f b mime part st st' html_body,
  freplace E s f b mime part st = Some st' ->
  eval_message L A P [part] html_body st' part MvContents = Some (Some (VStr b)) /\
  forall convert, eval_message L A P [part] html_body st' part (MvTextBody convert) = Some (Some (VStr b)).
Proof.
  intros L A P E s f b mime part st st' hb H. apply replaced_body in H. destruct H as (p & N & B).
  unfold eval_message, first_part. rewrite N, B. auto.
Qed.
Print Assumptions C81_replace_partial.
Example C81_case :
  exists st', freplace PropertiesBuild.env0 None None (lit "new") false 1 sample_state = Some st' /\
    eval_message ascii_lib toy_ap plain_parser [1] [2] st' 1 MvContents = Some (Some (VStr (lit "new"))) /\
    eval_message ascii_lib toy_ap plain_parser [1] [2] st' 1 (MvTextBody false) = Some (Some (VStr (lit "new"))) /\
    eval_message ascii_lib toy_ap plain_parser [1] [2] st' 2 MvContents = Some (Some (VStr (lit "<b>two</b>"))) /\
    eval_message ascii_lib toy_ap plain_parser [1] [2] st' 1 (MvHtmlBody false) = Some (Some (VStr (lit "<b>two</b>"))).
Proof. eexists. split; [vm_compute; reflexivity|]. repeat split; vm_compute; reflexivity. Qed.

(** Otherwise ${body.text} does not follow the message: the text part it refers to is the one of
    the message that came in.  After the whole of a multipart message has been replaced, and
    after enclose, there is no text although the new message has one. *)
Theorem C81_replace_refuted :
  exists st', freplace PropertiesBuild.env0 None None (lit "new") false 0 sample_state = Some st' /\
    eval_message ascii_lib toy_ap plain_parser [1] [2] st' 0 MvContents = Some (Some (VStr (lit "new"))) /\
    forall convert, eval_message ascii_lib toy_ap plain_parser [1] [2] st' 0 (MvTextBody convert) = Some None.
Proof. eexists. split; [vm_compute; reflexivity|]. repeat split; vm_compute; reflexivity. Qed.
Print Assumptions C81_replace_refuted.
Theorem C81_enclose_refuted :
  exists st', fenclose ascii_lib no_mp PropertiesBuild.env0 [] None (lit "look") sample_state = Some st' /\
    eval_message ascii_lib toy_ap plain_parser [] [] st' 1 MvContents = Some (Some (VStr (lit "look"))) /\
    forall convert, eval_message ascii_lib toy_ap plain_parser [] [] st' 0 (MvTextBody convert) = Some None.
Proof. eexists. split; [vm_compute; reflexivity|]. repeat split; vm_compute; reflexivity. Qed.
Print Assumptions C81_enclose_refuted.
(** ${part.raw} of a part that was replaced is the original message up to the end of the
    part that was there. *)
Theorem C81_raw_refuted :
  exists st', freplace PropertiesBuild.env0 None None (lit "new") false 1 sample_state = Some st' /\
    eval_message ascii_lib toy_ap plain_parser [1] [2] sample_state 1 MvRaw = Some (Some (VStr (lit "one"))) /\
    eval_message ascii_lib toy_ap plain_parser [1] [2] st' 1 MvRaw =
      Some (Some (VStr (line "Subject: hi" ++ line "From: a@x" ++ line "To: b@x" ++ line "Content-Type: multipart/mixed; boundary=q" ++ line "" ++
        line "--q" ++ line "Content-Type: text/plain" ++ line "X-A: 1" ++ line "" ++ lit "one"))).
Proof. eexists. split; [vm_compute; reflexivity|]. split; vm_compute; reflexivity. Qed.
Print Assumptions C81_raw_refuted.
