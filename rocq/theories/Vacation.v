(** Model of the vacation action: src/runtime/actions/action_vacation.rs. *)
From Verif Require Import Base Lib Address Var Value SetVar Message Flags Event Notify.

(** Rust core: [str::split(c)]: always at least one piece. *)
Fixpoint split_on (sep : ch) (s : text) : list text :=
  match s with
  | [] => [[]]
  | c :: s' => if N.eqb c sep then [] :: split_on sep s'
               else match split_on sep s' with [] => [[c]] | w :: ws => (c :: w) :: ws end
  end.

(** grammar/actions/action_vacation.rs 62-67: grammar/actions/action_vacation.rs [Period] *)
Inductive period := PDays (d : N) | PSeconds (s : N) | PDefault.
(** Rust core: [u64::MAX]. *)
Definition u64_max : N := 18446744073709551615%N.

(** grammar/actions/action_vacation.rs 29-57 [Vacation], [TestVacation]: The arguments after evaluation:
    ':addresses', ':handle' and the reason, the period; then what the reply itself needs. *)
Record vargs := {
  va_addresses : list text;
  va_handle : option text;
  va_reason : text;
  va_period : period;
  va_subject : option text;
  va_from : option text;
  va_mime : bool;
  va_fcc : option (text * list text * option text * option text * bool)
}.
(** action_vacation.rs 27-336: What the action reads. *)
Record venv := {
  ve_headers : list header;          (* ctx.message.parts[0].headers *)
  ve_envelope : list (envk * var);   (* ctx.envelope *)
  ve_user : text; ve_name : text;    (* ctx.user_address, ctx.user_full_name *)
  ve_orcpt : bool;                   (* runtime.vacation_use_orig_rcpt *)
  ve_prefix : text;                  (* runtime.vacation_subject_prefix *)
  ve_default_subject : text;         (* runtime.vacation_default_subject *)
  ve_default_expiry : N;             (* runtime.default_vacation_expiry *)
  ve_max_received : nat;             (* runtime.max_received_headers *)
  ve_max_out : nat; ve_out : nat; ve_last : nat;
  ve_date : text; ve_msgid : text    (* Date::now(), generate_message_id_header *)
}.

(** Outcome of the test: an overflowing expiry (action_vacation.rs 147-148), false, or the
    question to the host (which is answered negated: [is_not] is true). *)
Inductive vtest := VOverflow | VNo | VAsk (id : text) (expiry : N).

Section V.
  Variable L : rustlib.
  (** The addresses of a header: [find_addresses] with [AddressPart::All]
      (test_address.rs 171-237), work of the mail parser. *)
  Variable addrs : header -> list text.

  (** action_vacation.rs 35-54: the sender is the last non-empty one, in lower case. *)
  Definition env_texts (k : envk) (env : list (envk * var)) : list text :=
    flat_map (fun kv => if envk_eqb (fst kv) k && negb (v_is_empty (snd kv)) then [v_text L (snd kv)] else []) env.
  (** action_vacation.rs 35-40: the sender. *)
  Definition vac_from (e : venv) : text := lower_text (last (env_texts EnvFrom (ve_envelope e)) []).
  (** action_vacation.rs 41-65 *)
  Definition vac_addresses (e : venv) (a : vargs) : list text :=
    env_texts (if ve_orcpt e then EnvOrcpt else EnvTo) (ve_envelope e) ++
    filter (fun t => match t with [] => false | _ => true end) (va_addresses a) ++
    (match ve_user e with [] => [] | u => [u] end).
  (** action_vacation.rs 91-93: [user_addresses.iter().any(eq_ignore_ascii_case)]. *)
  Definition is_mine (mine : list text) (x : text) : bool := existsb (fun m => teqb_ic m x) mine.

  (** action_vacation.rs 82-101: the name of the header is one of these. *)
  Definition named (h : header) (names : list string) : bool :=
    existsb (fun n => hn_eqb (h_name h) (lit n)) names.
  (** action_vacation.rs 83-88. *)
  Definition rcpt_headers : list string := ["To"; "Cc"; "Bcc"; "Resent-To"; "Resent-Bcc"; "Resent-Cc"]%string.
  (** action_vacation.rs 95-101. *)
  Definition list_headers : list string :=
    ["List-Archive"; "List-Help"; "List-ID"; "List-Owner"; "List-Post"; "List-Subscribe"; "List-Unsubscribe"]%string.
  (** No lines of /repo: mail_parser's [HeaderValue::as_text]. *)
  Definition h_text (h : header) : option text := match h_val h with HText t => Some t | _ => None end.

  (** action_vacation.rs 95-133: headers that forbid an answer. *)
  Definition suppress (t : text) : bool :=
    existsb (fun v => existsb (teqb (trim (chr_is_ws L) v)) [lit "all"; lit "oof"]) (split_on 44%N (lower_text t)).
  (** action_vacation.rs 95-133: a header that forbids an answer. *)
  Definition forbids (h : header) : bool :=
    if named h ["Auto-Submitted"]%string then
      match h_text h with Some v => negb (teqb_ic v (lit "no")) | None => true end
    else if named h ["X-Auto-Response-Suppress"]%string then
      match h_text h with Some v => suppress v | None => false end
    else if named h ["Precedence"]%string then
      match h_text h with Some v => teqb_ic v (lit "bulk") | None => false end
    else false.

  (** action_vacation.rs 79-136: the loop over the headers; [None] is the early return. *)
  Fixpoint vac_headers (mine : list text) (hs : list header) (found : bool) (received : nat) : option (bool * nat) :=
    match hs with
    | [] => Some (found, received)
    | h :: hs' =>
        if named h rcpt_headers && negb found then
          vac_headers mine hs' (existsb (is_mine mine) (addrs h)) received
        else if named h list_headers then None
        else if named h ["Received"]%string then vac_headers mine hs' found (received + 1)
        else if forbids h then None
        else vac_headers mine hs' found received
    end.

  (** action_vacation.rs 140-155 *)
  Definition vac_expiry (e : venv) (p : period) : option N :=
    match p with
    | PDays d => if N.leb (d * 86400) u64_max then Some (d * 86400)%N else None
    | PSeconds s => Some s
    | PDefault => Some (ve_default_expiry e)
    end.
  (** action_vacation.rs 142-146: the id of the answer. *)
  Definition vac_id (from : text) (a : vargs) : text :=
    lit "_v" ++ from ++ match va_handle a with Some h => h | None => va_reason a end.

  (** action_vacation.rs 27-159 [TestVacation::exec] *)
  Definition vacation_test (e : venv) (a : vargs) : vtest :=
    if Nat.leb (ve_max_out e) (ve_out e) then VNo
    else
      let from := vac_from e in
      let mine := vac_addresses e a in
      if (match from with [] => true | _ => false end) || (match mine with [] => true | _ => false end)
         || starts_with from (lit "mailer-daemon") || starts_with from (lit "owner-")
         || tcontains from (lit "-request@") || is_mine mine from
      then VNo
      else match vac_headers mine (ve_headers e) false 0 with
           | None => VNo
           | Some (found, received) =>
               if found && Nat.leb received (ve_max_received e) then
                 match vac_expiry e (va_period a) with
                 | Some x => VAsk (vac_id from a) x
                 | None => VOverflow
                 end
               else VNo
           end.

  (** *** Vacation::exec *)
  (** Raw bytes of a header of the original message ([offset_start > 0]), and
      [HeaderValue::Address(a)] with [a.contains(to)]. *)
  Variable raw_value : header -> option text.
  Variable addr_contains : header -> text -> bool.

  (** action_vacation.rs 164-171: the first non-empty sender. *)
  Definition vac_to (e : venv) : text := hd [] (env_texts EnvFrom (ve_envelope e)).

  (** action_vacation.rs 186-209: the clipped subject, as in notify. *)
  (** action_vacation.rs 180-231: the loop over the headers: subject, message id, references,
      full recipient. *)
  Record vscan := { sc_subject : text; sc_id : option text; sc_refs : option text; sc_to : option text }.
  (** action_vacation.rs 184-230: one header. *)
  Definition vac_scan1 (e : venv) (to : text) (s : vscan) (h : header) : vscan :=
    if named h ["Subject"]%string then
      match sc_subject s, h_text h with
      | [], Some t => {| sc_subject := clip_subject (ve_prefix e ++ t); sc_id := sc_id s; sc_refs := sc_refs s; sc_to := sc_to s |}
      | _, _ => s
      end
    else if named h ["Message-ID"]%string then
      {| sc_subject := sc_subject s; sc_id := h_text h; sc_refs := sc_refs s; sc_to := sc_to s |}
    else if named h ["References"]%string then
      match raw_value h with
      | Some r => {| sc_subject := sc_subject s; sc_id := sc_id s; sc_refs := Some r; sc_to := sc_to s |}
      | None => s
      end
    else if named h ["From"; "Sender"]%string then
      match addr_contains h to, raw_value h with
      | true, Some r => {| sc_subject := sc_subject s; sc_id := sc_id s; sc_refs := sc_refs s; sc_to := Some r |}
      | _, _ => s
      end
    else s.
  (** action_vacation.rs 180-231: all headers. *)
  Definition vac_scan (e : venv) (a : vargs) (to : text) : vscan :=
    fold_left (vac_scan1 e to) (ve_headers e)
      {| sc_subject := opt_text (va_subject a); sc_id := None; sc_refs := None; sc_to := None |}.

  (** action_vacation.rs 234-246: the From field. *)
  Definition vac_from_field (e : venv) (a : vargs) : text :=
    match va_from a with
    | Some f => f
    | None => match ve_user e with
              | [] => match envlookup EnvTo (ve_envelope e) with Some v => v_text L v | None => [] end
              | u => user_from_field (ve_name e) u
              end
    end.
  (** action_vacation.rs 247-249: the subject of the answer. *)
  Definition vac_subject (e : venv) (s : vscan) : text :=
    match sc_subject s with [] => ve_default_subject e | t => t end.

  (** action_vacation.rs 261-300: the reply. *)
  Definition vac_message (e : venv) (a : vargs) : text :=
    let to := vac_to e in
    let s := vac_scan e a to in
    hline (lit "From: ") (vac_from_field e a) ++
    (match sc_to s with Some r => lit "To:" ++ r | None => hline (lit "To: ") to end) ++
    hline (lit "Subject: ") (vac_subject e s) ++
    (match sc_id s with
     | Some m => lit "In-Reply-To: <" ++ m ++ lit ">" ++ CRLF ++ lit "References: <" ++ m ++
                 (match sc_refs s with Some r => lit "> " ++ r | None => lit ">" ++ CRLF end)
     | None => []
     end) ++
    hline (lit "Date: ") (ve_date e) ++ hline (lit "Message-ID: ") (ve_msgid e) ++
    hline (lit "Auto-Submitted: ") (lit "auto-replied") ++
    (if va_mime a then [] else hline (lit "Content-type: ") (lit "text/plain; charset=utf-8") ++ CRLF) ++
    va_reason a.

  (** action_vacation.rs 163-336 [Vacation::exec]: events, new last id, new count. *)
  Definition exec_vacation (e : venv) (a : vargs) : list event * nat * nat :=
    let id := ve_last e + 1 in
    (ECreated id (vac_message e a) :: ESend (RAddress (vac_to e)) quiet_opts id ::
     (match va_fcc a with Some (f, fl, mid, su, cr) => [EFileInto f fl mid su cr id] | None => [] end),
     id, ve_out e + 1).
End V.
