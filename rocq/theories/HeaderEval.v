(** Model of the evaluation of header, body and part variables: src/runtime/eval.rs
    47-91, 127-191, 207-490, and src/runtime/tests/test_address.rs 266-280. *)
From Verif Require Import Base Lib Var Value Utf8 Message Flags AddrTest Mime Build.
Import ListNotations.
Local Open Scope list_scope.

(** eval.rs 403-455 (no lines of /repo define it): mail_parser's Host and Received, as far as variables
    look at them: texts are what [to_string] and [as_str] give; a date has its timestamp and its RFC 822
    form. *)
Inductive host := HostName (t : text) | HostIp (t : text).
(** eval.rs 403-424 (no lines of /repo define it): mail_parser's Received. *)
Record received := {
  rc_from : option host; rc_helo : option host; rc_by : option host;
  rc_ip : option text; rc_iprev : option text; rc_for : option text; rc_with : option text;
  rc_tls : option text; rc_cipher : option text; rc_id : option text; rc_ident : option text; rc_via : option text;
  rc_date : option (Z * text)
}.
(** eval.rs 208-395 (no lines of /repo define it): mail_parser's HeaderValue.  Simplification: groups of
    addresses are flattened (what [Address::iter] does), a date is its timestamp. *)
Inductive fvalue :=
| FvText (t : text)
| FvTextList (l : list text)
| FvAddress (l : list mailaddr)
| FvContentType (ct : ctype)
| FvDate (timestamp : Z)
| FvReceived (r : received)
| FvEmpty.
(** eval.rs 208-395 (no lines of /repo define them): mail_parser functions that stay abstract. *)
Record hvparser := {
  hp_value : fheader -> fvalue;                      (* the value of a header that is neither text nor a content type *)
  hp_unstructured : list N -> option text;           (* parse_unstructured, if it gives a text *)
  hp_addresses : list N -> option (list mailaddr);   (* parse_address *)
  hp_date : list N -> option Z;                      (* parse_date *)
  hp_id : list N -> fvalue;                          (* parse_id *)
  hp_html : text -> text; hp_plain : text -> text    (* text_to_html, html_to_text *)
}.

(** eval.rs 127-191 (Rust core library): [slice::get(a..b)] *)
Definition get_range := slice.
(** eval.rs 208-395 (Rust core library): [nth], [rev().nth]: element [i], counted from 1, or from the
    end for [i < 0]. *)
Definition pick {A} (i : Z) (l : list A) : option A :=
  if Z.ltb 0 i then nth_error l (Z.to_nat (i - 1)) else nth_error (rev l) (Z.to_nat (Z.abs i - 1)).
(** [unwrap_or_default] (Rust core library). *)
Definition or_default (v : option var) : var := match v with Some x => x | None => vdefault end.

(** eval.rs 472-490 [sanitize_raw_header] *)
Fixpoint sanitize_go (bs : list N) (space : bool) : list N :=
  match bs with
  | [] => []
  | c :: r => if N.eqb c 32 || N.eqb c 9 || N.eqb c 10 || N.eqb c 12 || N.eqb c 13 then sanitize_go r true
              else (if space then [32%N] else []) ++ c :: sanitize_go r false
  end.
(** eval.rs 472-489 [sanitize_raw_header]. *)
Definition sanitize_raw_header (bs : list N) : text := into_string (sanitize_go bs false).

(** eval.rs 430-444 [Addr::to_text] *)
Definition addr_text (a : mailaddr) : var :=
  match ad_name a, ad_addr a with
  | Some n, Some e => VStr (n ++ lit " <" ++ e ++ lit ">")
  | Some n, None => VStr n
  | None, Some e => VStr (lit "<" ++ e ++ lit ">")
  | None, None => vdefault
  end.
(** eval.rs 446-455 [ReceivedHostname::to_variable] *)
Definition host_var (p : rhost) (h : host) : option var :=
  match p, h with
  | RhName, HostName t | RhIp, HostIp t => Some (VStr t)
  | RhAny, HostName t | RhAny, HostIp t => Some (VStr t)
  | _, _ => None
  end.
(** eval.rs 403-424 [ReceivedPart::eval] *)
Definition received_var (p : rpart) (r : received) : option var :=
  let host p o := match o with Some h => host_var p h | None => None end in
  match p with
  | RpFrom h => host h (or_else (rc_from r) (rc_helo r))
  | RpFromIp => option_map VStr (rc_ip r)
  | RpFromIpRev => option_map VStr (rc_iprev r)
  | RpBy h => host h (rc_by r)
  | RpFor => option_map VStr (rc_for r)
  | RpWith => option_map VStr (rc_with r)
  | RpTlsVersion => option_map VStr (rc_tls r)
  | RpTlsCipher => option_map VStr (rc_cipher r)
  | RpId => option_map VStr (rc_id r)
  | RpIdent => option_map VStr (rc_ident r)
  | RpVia => option_map VStr (rc_via r)
  | RpDate => option_map (fun d => VInt (fst d)) (rc_date r)
  | RpDateRaw => option_map (fun d => VStr (snd d)) (rc_date r)
  end.

Section E.
  Variable L : rustlib.
  Variable A : addrparser.
  Variable P : hvparser.

  (** test_address.rs 266-280 [AddressPart::eval_strict] *)
  Definition part_eval_strict (p : apart) (a : mailaddr) : option text :=
    match p, ad_addr a with
    | PAll, e => e
    | PName, _ => ad_name a
    | (PLocal | PDomain | PUser | PDetail), Some (c :: e) => ap_part A p (c :: e)
    | _, e => e
    end.

  (** eval.rs 208-395: [header.value]. *)
  Definition value_of (h : fheader) : fvalue :=
    match h_val (fh_view h) with HText t => FvText t | HContentType c => FvContentType c | HOther => hp_value P h end.
  (** eval.rs 208-395: Whether the name is [HeaderName::MessageId] or [HeaderName::ResentMessageId]. *)
  Definition is_id (h : fheader) : bool :=
    negb (fh_other h) && (hn_eqb (h_name (fh_view h)) (lit "Message-ID") || hn_eqb (h_name (fh_view h)) (lit "Resent-Message-ID")).

  (** eval.rs 208-395: The values of a list: the one with the index, or all for index 0. *)
  Definition items {X} (i : Z) (f : X -> option var) (l : list X) : list var :=
    if Z.eqb i 0 then map (fun x => or_default (f x)) l
    else [or_default (match pick i l with Some x => f x | None => None end)].

  (** eval.rs 207-396 [HeaderVariable::eval_part]: what is added to the result; [None] is the
      subtraction overflow of line 367. *)
  Definition eval_part (v : hdrvar) (raw : list N) (h : fheader) : option (list var) :=
    let value := get_range raw (fh_start h) (fh_end h) in
    let one (x : option var) : option (list var) := Some [or_default x] in
    let bytes := match value with Some b => b | None => [] end in
    let addresses p l := items (hv_idx v) (fun a => option_map VStr (part_eval_strict p a)) l in
    let ids x := match x with
                 | FvText t => one (Some (VStr t))
                 | FvTextList l => Some (map VStr l)
                 | _ => one None
                 end in
    match hv_part v with
    | HpText =>
        match value_of h with
        | FvText t => one (if Z.leb (-1) (hv_idx v) && Z.leb (hv_idx v) 1 then Some (VStr t) else None)
        | FvTextList l => Some (items (hv_idx v) (fun t => Some (VStr t)) l)
        | FvContentType ct => one (Some (VStr (match ct_subtype ct with
                                               | Some s => ct_type ct ++ lit "/" ++ s
                                               | None => ct_type ct
                                               end)))
        | FvAddress l => Some (items (hv_idx v) (fun a => Some (addr_text a)) l)
        | FvDate _ => one (match value with
                           | Some b => option_map (fun s => VStr (trim (chr_is_ws L) s)) (utf8_strict b)
                           | None => None
                           end)
        | _ => one None
        end
    | HpAddress p =>
        match value_of h with
        | FvAddress l => Some (addresses p l)
        | FvText _ => match value with
                      | Some b => match hp_addresses P b with Some l => Some (addresses p l) | None => one None end
                      | None => one None
                      end
        | _ => one None
        end
    | HpDate =>
        one (match value_of h with
             | FvDate z => Some (VInt z)
             | _ => match value with Some b => option_map VInt (hp_date P b) | None => None end
             end)
    | HpId => if is_id h then ids (value_of h) else if fh_other h then ids (hp_id P bytes) else one None
    | HpRaw => one (option_map (fun b => VStr (sanitize_raw_header b)) value)
    | HpRawName =>
        if Nat.eqb (fh_start h) 0 then None
        else one (option_map (fun b => VStr (match utf8_strict b with Some s => s | None => [] end))
                             (get_range raw (fh_field h) (fh_start h - 1)))
    | HpExists => one (Some (VInt 1))
    | HpContentType p =>
        one (match value_of h with
             | FvContentType ct =>
                 match p with
                 | CpType => Some (VStr (ct_type ct))
                 | CpSubtype => option_map VStr (ct_subtype ct)
                 | CpAttribute n =>
                     match ct_attrs ct with
                     | Some l => option_map (fun a => VStr (snd a)) (find (fun a => teqb_ic (fst a) n) l)
                     | None => None
                     end
                 end
             | _ => None
             end)
    | HpReceived p => one (match value_of h with FvReceived r => received_var p r | _ => None end)
    end.

  (** eval.rs 127-191: Several headers in turn *)
  Fixpoint eval_parts (v : hdrvar) (raw : list N) (hs : list fheader) : option (list var) :=
    match hs with
    | [] => Some []
    | h :: hs' => match eval_part v raw h, eval_parts v raw hs' with Some a, Some b => Some (a ++ b) | _, _ => None end
    end.

  (** eval.rs 155-182: the header fields of a part, for the name "*" *)
  Fixpoint eval_any (v : hdrvar) (raw : list N) (hs : list fheader) : option (list var) :=
    match hs with
    | [] => Some []
    | h :: hs' =>
        let name := h_name (fh_view h) in
        match (match hv_part v with
               | HpRaw => Some (match get_range raw (fh_field h) (fh_end h) with
                                | Some b => [VStr (sanitize_raw_header b)]
                                | None => []
                                end)
               | HpText =>
                   Some (match value_of h with
                         | FvText t => [VStr (name ++ lit ": " ++ t)]
                         | _ => match hp_unstructured P (match get_range raw (fh_start h) (fh_end h) with Some b => b | None => [] end) with
                                | Some t => [VStr (name ++ lit ": " ++ t)]
                                | None => []
                                end
                         end)
               | _ => eval_part v raw h
               end), eval_any v raw hs' with
        | Some a, Some b => Some (a ++ b)
        | _, _ => None
        end
    end.

  (** eval.rs 127-191 [eval_header] on part [part]; [None] is a panic, [Some None] no value. *)
  Definition eval_header (v : hdrvar) (st : fstate) (part : nat) : option (option var) :=
    match nth_error (fs_parts st) part with
    | None => Some None
    | Some p =>
        let result :=
          match hv_name v with
          | [] => eval_any v (fs_raw st) (fp_headers p)
          | names =>
              let hs := filter (fun h => existsb (hn_eqb (h_name (fh_view h))) names) (fp_headers p) in
              if Z.eqb (hv_hdr v) 0 then eval_parts v (fs_raw st) hs
              else match pick (hv_hdr v) hs with
                   | Some h => eval_part v (fs_raw st) h
                   | None => Some []
                   end
          end in
        match result with
        | None => None
        | Some [] => Some None
        | Some [x] => Some (Some (if negb (Z.eqb (hv_hdr v) 0) && negb (Z.eqb (hv_idx v) 0) then x else VArr [x]))
        | Some l => Some (Some (VArr l))
        end
    end.

  (** eval.rs 47-91: the body and part variables; [text_body] and [html_body] are the lists of
      mail_parser's Message. *)
  Definition first_part (st : fstate) (ids : list nat) : option fpart :=
    match ids with [] => None | i :: _ => nth_error (fs_parts st) i end.
  (** eval.rs 47-91: the value of a header, body or part variable. *)
  Definition eval_message (text_body html_body : list nat) (st : fstate) (part : nat) (v : msgvar) : option (option var) :=
    match v with
    | MvHeader h => eval_header h st part
    | MvTextBody convert =>
        Some (match first_part st text_body with
              | Some p => match fp_body p with
                          | FText t => Some (VStr t)
                          | FHtml t => if convert then Some (VStr (hp_plain P t)) else None
                          | _ => None
                          end
              | None => None
              end)
    | MvHtmlBody convert =>
        Some (match first_part st html_body with
              | Some p => match fp_body p with
                          | FHtml t => Some (VStr t)
                          | FText t => if convert then Some (VStr (hp_html P t)) else None
                          | _ => None
                          end
              | None => None
              end)
    | MvContents =>
        Some (match nth_error (fs_parts st) part with
              | Some p => match fp_body p with FText t | FHtml t => Some (VStr t) | FBinary b => Some (VStr (utf8_lossy b)) | _ => None end
              | None => None
              end)
    | MvRaw =>
        Some (match nth_error (fs_parts st) part with
              | Some p => option_map (fun b => VStr (utf8_lossy b)) (get_range (fs_raw st) (fp_ob p) (fp_oe p))
              | None => None
              end)
    end.
End E.
