(** Model of the notify action: src/runtime/actions/action_notify.rs, and of the
    valid_notify_method test (src/runtime/tests/test_notify.rs 23-44). *)
From Verif Require Import Base Lib Var Value Glob Comparator Message Address Event.

(** No lines of /repo: mail_parser's decoders::quoted_printable::HEX_MAP: the value of a hexadecimal
    digit of either case, -1 (here [None]) for any other byte. *)
Definition hexv (c : N) : option N :=
  if between 48 57 c then Some (c - 48)%N
  else if between 65 70 c then Some (c - 55)%N
  else if between 97 102 c then Some (c - 87)%N
  else None.

(** action_notify.rs 470-473: The three address headers of a mailto URI ([HeaderName::To|Cc|Bcc]). *)
Inductive akind := ATo | ACc | ABcc.

(** action_notify.rs 359-369 [Mailto], [State].  Simplifications: [Mailto::Header(h)] and
    [Mailto::Other(s)] both carry the header's name, whose case-insensitive text
    decides what it is; [None] is the body. *)
Inductive mstt :=
| SAddr (k : akind) (has_at : bool)
| SName
| SValue (p : option text).

(** A header name obtained from [HeaderName::parse], or wrapped as
    [HeaderName::Other] without parsing (line 493-496). *)
Inductive mh := MParsed (n : text) | MRaw (n : text).
(** action_notify.rs 137: [header.as_str()]. *)
Definition mh_text (h : mh) : text := match h with MParsed n | MRaw n => n end.

(** action_notify.rs 372-378 [MailtoMessage] *)
Record mailto := {
  m_to : list text; m_cc : list text; m_bcc : list text;
  m_body : option text; m_headers : list (mh * text)
}.
(** action_notify.rs 53-60, 381-388: nothing read yet. *)
Definition mailto0 : mailto := {| m_to := []; m_cc := []; m_bcc := []; m_body := None; m_headers := [] |}.
(** action_notify.rs 218-222: [to], [cc] and [bcc] chained. *)
Definition m_all (p : mailto) : list text := m_to p ++ m_cc p ++ m_bcc p.

(** action_notify.rs 560-581 [insert_address] *)
Definition insert_address (p : mailto) (k : akind) (v : text) : mailto :=
  if existsb (fun a => teqb_ic a v) (m_all p) then p
  else match k with
       | ATo => {| m_to := m_to p ++ [v]; m_cc := m_cc p; m_bcc := m_bcc p; m_body := m_body p; m_headers := m_headers p |}
       | ACc => {| m_to := m_to p; m_cc := m_cc p ++ [v]; m_bcc := m_bcc p; m_body := m_body p; m_headers := m_headers p |}
       | ABcc => {| m_to := m_to p; m_cc := m_cc p; m_bcc := m_bcc p ++ [v]; m_body := m_body p; m_headers := m_headers p |}
       end.
(** action_notify.rs 502-506: [params.body = value.into()], [params.headers.push((header, value))] *)
Definition set_param (p : mailto) (n : option text) (v : text) : mailto :=
  match n with
  | None => {| m_to := m_to p; m_cc := m_cc p; m_bcc := m_bcc p; m_body := Some v; m_headers := m_headers p |}
  | Some n => {| m_to := m_to p; m_cc := m_cc p; m_bcc := m_bcc p; m_body := m_body p; m_headers := m_headers p ++ [(MParsed n, v)] |}
  end.

(** action_notify.rs 381-388: The loop state of parse_mailto: [params], [state], [buf], [has_addresses].
    *)
Record mst := { q_p : mailto; q_st : mstt; q_buf : list N; q_has : bool }.

(** Rust core: [split_once(':')]. *)
Fixpoint split_colon (s : text) : option (text * text) :=
  match s with
  | [] => None
  | c :: s' => if N.eqb c 58 then Some ([], s')
               else match split_colon s' with Some (a, b) => Some (c :: a, b) | None => None end
  end.
(** action_notify.rs 349-357 [parse_uri] on texts: [split_once(':')], rest not empty. *)
Definition parse_uri (uri : text) : option (text * text) :=
  match split_colon uri with
  | Some (s, r) => match r with [] => None | _ => Some (s, r) end
  | None => None
  end.

Section N.
  Variable M : mailparser.
  (** [String::from_utf8] *)
  Variable from_utf8 : list N -> option text.

  (** action_notify.rs 399-406, 431-436: [insert_address(&mut params, header,
      String::from_utf8(take(&mut buf)).ok()?)] *)
  Definition take_addr (q : mst) (k : akind) : option mailto :=
    match from_utf8 (q_buf q) with
    | Some v => Some (insert_address (q_p q) k v)
    | None => None
    end.
  (** action_notify.rs 440: [buf.push(ch)]. *)
  Definition push (q : mst) (c : N) : mst :=
    {| q_p := q_p q; q_st := q_st q; q_buf := q_buf q ++ [c]; q_has := q_has q |}.
  (** action_notify.rs 437, 453: the next state with an empty buffer. *)
  Definition goto (q : mst) (p : mailto) (s : mstt) (h : bool) : mst :=
    {| q_p := p; q_st := s; q_buf := []; q_has := h |}.

  (** action_notify.rs 391-429: a percent-encoded byte [c]. *)
  Definition step_pct (q : mst) (c : N) : option mst :=
    match q_st q with
    | SAddr k has_at =>
        if N.eqb c 44 then
          if has_at then
            match take_addr q k with Some p => Some (goto q p (SAddr k false) true) | None => None end
          else None
        else if N.eqb c 64 then
          if has_at then None
          else Some {| q_p := q_p q; q_st := SAddr k true; q_buf := q_buf q ++ [c]; q_has := q_has q |}
        else Some (push q c)
    | _ => Some (push q c)
    end.

  (** action_notify.rs 466-487: the end of a parameter's name. *)
  Definition param_state (name : text) : mstt :=
    match hn_parse M name with
    | Some h =>
        if hn_eqb h (lit "To") then SAddr ATo false
        else if hn_eqb h (lit "Cc") then SAddr ACc false
        else if hn_eqb h (lit "Bcc") then SAddr ABcc false
        else if hn_eqb h (lit "body") then SValue None
        else SValue (Some h)
    | None => SValue (Some [])
    end.

  (** action_notify.rs 430-526: any other byte [c]. *)
  Definition step_plain (q : mst) (c : N) : option mst :=
    if N.eqb c 44 then                                       (* , *)
      match q_st q with
      | SAddr k true =>
          match take_addr q k with Some p => Some (goto q p (SAddr k false) true) | None => None end
      | SValue _ => Some (push q c)
      | _ => None
      end
    else if N.eqb c 63 then                                  (* ? *)
      match q_st q with
      | SAddr k has_at =>
          match q_buf q with
          | [] => Some (goto q (q_p q) SName (q_has q))
          | _ => if has_at then
                   match take_addr q k with Some p => Some (goto q p SName true) | None => None end
                 else None
          end
      | SValue _ => Some (push q c)
      | SName => None
      end
    else if N.eqb c 64 then                                  (* @ *)
      match q_st q with
      | SAddr k false =>
          match q_buf q with
          | [] => None
          | _ => Some {| q_p := q_p q; q_st := SAddr k true; q_buf := q_buf q ++ [c]; q_has := q_has q |}
          end
      | SAddr _ true => None
      | _ => Some (push q c)
      end
    else if N.eqb c 61 then                                  (* = *)
      match q_st q with
      | SName =>
          match q_buf q with
          | [] => None
          | b => match from_utf8 b with
                 | Some n => Some (goto q (q_p q) (param_state n) (q_has q))
                 | None => None
                 end
          end
      | SValue _ => Some (push q c)
      | SAddr _ _ => None
      end
    else if N.eqb c 38 then                                  (* & *)
      match q_st q with
      | SAddr k true =>
          match q_buf q with
          | [] => Some (goto q (q_p q) SName (q_has q))
          | _ => match take_addr q k with Some p => Some (goto q p SName (q_has q)) | None => None end
          end
      | SValue n =>
          match q_buf q with
          | [] => Some (goto q (q_p q) SName (q_has q))
          | b => match from_utf8 b with
                 | Some v => Some (goto q (set_param (q_p q) n v) SName (q_has q))
                 | None => None
                 end
          end
      | _ => None
      end
    else
      match q_st q with
      | SName => if is_alnum_ascii c || N.eqb c 45 || N.eqb c 95 then Some (push q c) else None
      | _ => if is_ws_ascii c then Some q else Some (push q c)
      end.

  (** action_notify.rs 389-527: the loop over the bytes. *)
  Fixpoint mailto_go (s : list N) (q : mst) : option mst :=
    match s with
    | [] => Some q
    | c :: s' =>
        if N.eqb c 37 then                                   (* % *)
          match s' with
          | h1 :: h2 :: s'' =>
              match hexv h1, hexv h2 with
              | Some a, Some b =>
                  match step_pct q (a * 16 + b)%N with Some q' => mailto_go s'' q' | None => None end
              | _, _ => None
              end
          | _ => None
          end
        else match step_plain q c with Some q' => mailto_go s' q' | None => None end
    end.

  (** action_notify.rs 529-556: the end of the URI. *)
  Definition mailto_end (q : mst) : option mailto :=
    match q_buf q with
    | [] => if q_has q then Some (q_p q) else None
    | b =>
        match from_utf8 b with
        | None => None
        | Some v =>
            match q_st q with
            | SAddr k true => Some (insert_address (q_p q) k v)
            | SAddr _ false => None
            | SName =>
                if q_has q then
                  Some {| m_to := m_to (q_p q); m_cc := m_cc (q_p q); m_bcc := m_bcc (q_p q);
                          m_body := m_body (q_p q); m_headers := m_headers (q_p q) ++ [(MRaw v, [])] |}
                else None
            | SValue n => if q_has q then Some (set_param (q_p q) n v) else None
            end
        end
    end.

  (** action_notify.rs 381-388: the state before the first byte. *)
  Definition mailto_init : mst := {| q_p := mailto0; q_st := SAddr ATo false; q_buf := []; q_has := false |}.
  (** action_notify.rs 380-557 [parse_mailto]; the argument is the bytes of the URI. *)
  Definition parse_mailto (s : list N) : option mailto :=
    match mailto_go s mailto_init with Some q => mailto_end q | None => None end.

  (** action_notify.rs 337-347 [validate_uri] *)
  Definition validate_uri (uri : text) : option text :=
    match parse_uri uri with
    | None => None
    | Some (scheme, rest) =>
        if teqb_ic scheme (lit "mailto") then
          match parse_mailto (utf8 rest) with Some _ => Some scheme | None => None end
        else if existsb (teqb scheme) [lit "xmpp"; lit "tel"; lit "http"; lit "https"] then Some scheme
        else None
    end.

  (** test_notify.rs 23-44 [TestValidNotifyMethod::exec]; [uris] are the evaluated
      URIs, [allowed] is runtime.valid_notification_uris. *)
  Definition valid_notify_method (allowed uris : list text) (is_not : bool) : bool :=
    xorb (Nat.eqb (length (filter (fun u => match validate_uri u with
                                            | Some s => existsb (teqb s) allowed || existsb (teqb u) allowed
                                            | None => false
                                            end) uris))
                  (length uris)) is_not.

  (** action_notify.rs 22-32: an Auto-Submitted header whose value is not the text "no". *)
  Definition auto_submitted (h : header) : bool :=
    hn_eqb (h_name h) (lit "Auto-Submitted") &&
    match h_val h with HText v => negb (teqb_ic v (lit "no")) | _ => true end.

  (** compiler/grammar/actions/action_notify.rs 40-47 [Notify]: The arguments of the action after
      evaluation.  [n_fcc] is the folder, flags, mailbox id, special use and create flag of ':fcc'. *)
  Record nargs := {
    n_method : text;
    n_from : option text;
    n_importance : option text;
    n_options : list text;
    n_message : option text;
    n_fcc : option (text * list text * option text * option text * bool)
  }.
  (** action_notify.rs 21-286: What else the action reads. *)
  Record nenv := {
    v_headers : list header;      (* ctx.message.parts[0].headers *)
    v_subject : option text;      (* ctx.message.subject() *)
    v_addr : text; v_name : text; (* ctx.user_address, ctx.user_full_name *)
    v_date : text;                (* Date::now().to_rfc822() *)
    v_msgid : text;               (* generate_message_id_header *)
    v_max_out : nat;              (* runtime.max_out_messages *)
    v_out : nat;                  (* ctx.num_out_messages *)
    v_last : nat                  (* ctx.last_message_id *)
  }.

  (** action_notify.rs 98: the end of a header line. *)
  Definition CRLF : text := [13%N; 10%N].
  (** action_notify.rs 96-98: one header line. *)
  Definition hline (name value : text) : text := name ++ value ++ CRLF.

  (** action_notify.rs 62-74: the From field. *)
  Definition notify_from (e : nenv) (a : nargs) : text :=
    match n_from a with
    | Some f => if tcontains (lower_text f) (lower_text (v_addr e)) then f
                else user_from_field (v_name e) (v_addr e)
    | None => user_from_field (v_name e) (v_addr e)
    end.

  (** action_notify.rs 100-117: an address list header; no header for an empty list. *)
  Definition show_addr (a : text) : text :=
    if mem_ch 60%N a then a else 60%N :: a ++ [62%N].
  (** action_notify.rs 103-114: the addresses of a header, separated by commas. *)
  Fixpoint show_addrs (l : list text) : text :=
    match l with
    | [] => []
    | [a] => show_addr a
    | a :: l' => show_addr a ++ lit ", " ++ show_addrs l'
    end.
  (** action_notify.rs 100-117: an address list header; no header for an empty list. *)
  Definition addr_header (name : text) (l : list text) : text :=
    match l with [] => [] | _ => hline name (show_addrs l) end.

  (** action_notify.rs 119-143: the headers of the URI; Subject and From are skipped. *)
  Definition mh_is (h : mh) (name : text) : bool :=
    match h with MParsed n => hn_eqb n name | MRaw _ => false end.
  (** action_notify.rs 122-141: the headers of the URI that are written. *)
  Definition uri_headers (l : list (mh * text)) : text :=
    flat_map (fun hv => if mh_is (fst hv) (lit "Subject") || mh_is (fst hv) (lit "From") then []
                        else hline (mh_text (fst hv) ++ lit ": ") (snd hv)) l.
  (** action_notify.rs 124-127: The last Subject of the URI. *)
  Definition uri_subject (l : list (mh * text)) : option text :=
    fold_left (fun acc hv => if mh_is (fst hv) (lit "Subject") then Some (snd hv) else acc) l None.

  (** action_notify.rs 182-195: at most 256 characters, then an ellipsis if the iterator is
      not exhausted after the one that was too many. *)
  Definition clip_subject (s : text) : text :=
    firstn 256 s ++ (if Nat.ltb 257 (length s) then [8230%N] else []).

  (** action_notify.rs 157-165 and 250-256 *)
  Definition importance_of (i : option text) : importance :=
    match i with
    | Some t => if teqb t (lit "1") then IHigh else if teqb t (lit "3") then ILow else INormal
    | None => INormal
    end.
  (** action_notify.rs 166-172: the lines Importance and X-Priority. *)
  Definition importance_lines (i : importance) : text :=
    match i with
    | IHigh => hline (lit "Importance: ") (lit "High") ++ hline (lit "X-Priority: ") (lit "1 (High)")
    | ILow => hline (lit "Importance: ") (lit "Low") ++ hline (lit "X-Priority: ") (lit "5 (Low)")
    | INormal => hline (lit "Importance: ") (lit "Normal") ++ hline (lit "X-Priority: ") (lit "3 (Normal)")
    end.

  (** Rust core: [a.or(b)] with default *)
  Definition opt_or {A} (a b : option A) : option A := match a with Some _ => a | None => b end.
  (** Rust core: [Option::unwrap_or_default]. *)
  Definition opt_text (a : option text) : text := match a with Some t => t | None => [] end.

  (** action_notify.rs 95-209: the notification message. *)
  Definition notify_headers (e : nenv) (a : nargs) (p : mailto) : text :=
    hline (lit "From: ") (notify_from e a) ++
    addr_header (lit "To: ") (m_to p) ++ addr_header (lit "Cc: ") (m_cc p) ++
    uri_headers (m_headers p) ++
    (if existsb (fun hv => mh_is (fst hv) (lit "Date")) (m_headers p) then []
     else hline (lit "Date: ") (v_date e)) ++
    (if existsb (fun hv => mh_is (fst hv) (lit "Message-ID")) (m_headers p) then []
     else hline (lit "Message-ID: ") (v_msgid e)) ++
    importance_lines (importance_of (n_importance a)) ++
    hline (lit "Subject: ")
      (clip_subject (opt_text (opt_or (uri_subject (m_headers p)) (opt_or (n_message a) (v_subject e))))) ++
    hline (lit "Auto-Submitted: ") (lit "auto-notified") ++
    hline (lit "X-Sieve: ") (lit "yes") ++
    hline (lit "Content-type: ") (lit "text/plain; charset=utf-8").
  (** action_notify.rs 200-206: the body. *)
  Definition notify_body (e : nenv) (a : nargs) (p : mailto) : text :=
    opt_text (opt_or (m_body p) (opt_or (n_message a) (v_subject e))).
  (** action_notify.rs 95-206: the whole message. *)
  Definition notify_text (e : nenv) (a : nargs) (p : mailto) : text :=
    notify_headers e a p ++ CRLF ++ notify_body e a p.

  (** action_notify.rs 223-232: [addr.rsplit_once('<')] then [rsplit_once('>')]. *)
  Fixpoint split_last (c : ch) (s : text) : option (text * text) :=
    match s with
    | [] => None
    | x :: s' => match split_last c s' with
                 | Some (a, b) => Some (x :: a, b)
                 | None => if N.eqb x c then Some ([], s') else None
                 end
    end.
  (** action_notify.rs 223-232: the address inside the angle brackets. *)
  Definition inner_addr (a : text) : text :=
    match split_last 60%N a with
    | Some (_, r) => match split_last 62%N r with Some (x, _) => x | None => a end
    | None => a
    end.

  (** action_notify.rs 21-286 [Notify::exec]: [None] when the function returns early, else the
      queued events and the new [last_message_id] and [num_out_messages]. *)
  Definition exec_notify (e : nenv) (a : nargs) : option (list event * nat * nat) :=
    if existsb auto_submitted (v_headers e) then None
    else match parse_uri (n_method a) with
    | None => None
    | Some (scheme, rest) =>
        let is_mailto := teqb_ic scheme (lit "mailto") && Nat.ltb (v_out e) (v_max_out e) in
        let build p :=
          let id := v_last e + 1 in
          let sent := if is_mailto then [ESend (RGroup (map inner_addr (m_all p))) quiet_opts id] else [] in
          (ECreated id (notify_text e a p) :: sent, id) in
        let fcc id := match n_fcc a with
                      | Some (f, fl, mid, su, cr) => [EFileInto f fl mid su cr id]
                      | None => []
                      end in
        let note := ENotify (n_from a) (importance_of (n_importance a)) (n_options a)
                            (opt_text (opt_or (n_message a) (v_subject e))) (n_method a) in
        if is_mailto then
          match parse_mailto (utf8 rest) with
          | None => None
          | Some p => let (evs, id) := build p in Some (evs ++ fcc id, id, v_out e)
          end
        else
          let (evs, id) := match n_fcc a with Some _ => build mailto0 | None => ([], v_last e) end in
          Some (evs ++ note :: fcc id, id, v_out e + 1)
    end.
End N.
