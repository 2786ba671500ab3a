(** Specification: what the actions notify, vacation, redirect and fileinto hand to the host. *)
From Verif Require Import Base Lib Address Var Value SetVar Flags Message EditHeader Event Notify NotifySpec Vacation VacationSpec Sieve Run TestSpec.
Import ListNotations.
Local Open Scope list_scope.

(** The instruction [i] comes next, and there is an instruction left to execute it. *)
Definition at_instr (E : renv) (s : rst) (i : instruction) : Prop :=
  r_stack s <> [] /\ next_instr s = Some i /\ r_instrs s < E_cpu E.
(** One turn hands out the first of [evs], keeps the others for the next calls, and leaves the state [s']. *)
Definition hands_out (E : renv) (s : rst) (evs : list event) (s' : rst) : Prop :=
  match evs with
  | [] => step E s = SCont s'
  | e :: q => step E s = SYield (w_queue q s') (OEvent e)
  end.

(** *** Messages written by the engine: header fields, an empty line, a body *)
Definition crlf : text := [13; 10]%N.
Definition field (f : text * text) : text := fst f ++ lit ": " ++ snd f ++ crlf.
Definition section (fields : list (text * text)) : text := concat (map field fields).

(** The user as the sender. *)
Definition user_field (name addr : text) : text :=
  if Nat.eqb (length name) 0 then addr else lit """" ++ name ++ lit """ <" ++ addr ++ lit ">".
(** [small] occurs in [big], without regard to the case of ASCII letters. *)
Definition occurs_ci (small big : text) : Prop := exists p s, lower_text big = p ++ lower_text small ++ s.
(** The sender of a notification: the one given if it holds the user's address, else the user. *)
Definition notification_from (given : option text) (name addr from : text) : Prop :=
  (given = Some from /\ occurs_ci addr from) \/
  (from = user_field name addr /\ forall g, given = Some g -> ~ occurs_ci addr g).
(** An address field: the addresses separated by commas, in angle brackets unless they have some. *)
Definition bracketed (a : text) : text := if existsb (N.eqb 60) a then a else lit "<" ++ a ++ lit ">".
Fixpoint comma_list (l : list text) : text :=
  match l with
  | [] => []
  | a :: l' => bracketed a ++ (if Nat.eqb (length l') 0 then [] else lit ", " ++ comma_list l')
  end.
Definition address_fields (n : text) (l : list text) : list (text * text) :=
  if Nat.eqb (length l) 0 then [] else [(n, comma_list l)].
(** A field of the URI with a name that mail knows. *)
Definition uri_field (p : mailto) (n : text) (v : text) : Prop :=
  exists h, In (MParsed h, v) (m_headers p) /\ lower_text h = lower_text n.
(** The fields of the URI that are copied: all but Subject and From, in order. *)
Inductive copied : list (mh * text) -> list (text * text) -> Prop :=
| co_nil : copied [] []
| co_skip h v l fs : lower_text h = lit "subject" \/ lower_text h = lit "from" ->
    copied l fs -> copied ((MParsed h, v) :: l) fs
| co_known h v l fs : lower_text h <> lit "subject" -> lower_text h <> lit "from" ->
    copied l fs -> copied ((MParsed h, v) :: l) ((h, v) :: fs)
| co_other h v l fs : copied l fs -> copied ((MRaw h, v) :: l) ((h, v) :: fs).
(** A field the engine adds unless the URI has it. *)
Definition added (p : mailto) (n v : text) (fs : list (text * text)) : Prop :=
  ((exists x, uri_field p n x) /\ fs = []) \/ ((forall x, ~ uri_field p n x) /\ fs = [(n, v)]).
(** The subject: the last of the URI, else the text of the notification, else the subject of the message. *)
Definition notification_subject (p : mailto) (message subject : option text) (t : text) : Prop :=
  (exists l1 h l2, m_headers p = l1 ++ (MParsed h, t) :: l2 /\ lower_text h = lit "subject" /\
     forall h' v', In (MParsed h', v') l2 -> lower_text h' <> lit "subject") \/
  ((forall x, ~ uri_field p (lit "Subject") x) /\
   t = match message, subject with Some m, _ => m | None, Some s => s | None, None => [] end).
(** ':importance' "1" is high, "3" is low, anything else normal. *)
Definition importance_is (given : option text) (i : importance) (word priority : text) : Prop :=
  (given = Some (lit "1") /\ i = IHigh /\ word = lit "High" /\ priority = lit "1 (High)") \/
  (given = Some (lit "3") /\ i = ILow /\ word = lit "Low" /\ priority = lit "5 (Low)") \/
  (given <> Some (lit "1") /\ given <> Some (lit "3") /\ i = INormal /\ word = lit "Normal" /\ priority = lit "3 (Normal)").

(** [t] is the notification message for a URI with the parts [p]. *)
Definition notification (E : renv) (s : rst) (from importance message : option value) (p : mailto) (t : text) : Prop :=
  exists sender others date id i word priority subject,
    notification_from (option_map (tx E s) from) (E_name E) (E_user E) sender /\
    copied (m_headers p) others /\
    added p (lit "Date") (E_date E (r_instrs s + 1)) date /\ added p (lit "Message-ID") (E_new_id E (r_instrs s + 1)) id /\
    importance_is (option_map (tx E s) importance) i word priority /\
    notification_subject p (option_map (tx E s) message) (E_subject E (r_msg s)) subject /\
    t = section ([(lit "From", sender)] ++ address_fields (lit "To") (m_to p) ++ address_fields (lit "Cc") (m_cc p) ++ others ++ date ++ id ++
          [(lit "Importance", word); (lit "X-Priority", priority); (lit "Subject", shortened subject);
           (lit "Auto-Submitted", lit "auto-notified"); (lit "X-Sieve", lit "yes");
           (lit "Content-type", lit "text/plain; charset=utf-8")]) ++ crlf ++
        match m_body p with
        | Some b => b
        | None => match option_map (tx E s) message, E_subject E (r_msg s) with Some m, _ => m | None, Some x => x | None, None => [] end
        end.

(** ':fcc': a copy of the message [id] is filed. *)
Definition copy_of (E : renv) (s : rst) (fcc : option fccv) (id : nat) : list event :=
  match fcc with
  | Some (folder, flags, mid, su, create) =>
      [EFileInto (tx E s folder) (flag_tokens (E_L E) (vw E s) flags) (option_map (tx E s) mid) (option_map (tx E s) su) create id]
  | None => []
  end.

(** An automatic message: a field Auto-Submitted that is not "no". *)
Definition automatic (hs : list header) : Prop :=
  exists h, In h hs /\ lower_text (h_name h) = lit "auto-submitted" /\ forall t, h_val h = HText t -> lower_text t <> lit "no".
(** What the action notify does: the events, the last message id and the number of outgoing messages after it. *)
Inductive notifies (E : renv) (s : rst) (method : value) (from importance : option value) (options : list value)
    (message : option value) (fcc : option fccv) : list event -> nat -> nat -> Prop :=
| no_automatic root rest : parts s = root :: rest -> automatic (p_headers root) ->
    notifies E s method from importance options message fcc [] (r_last s) (r_out s)
| no_uri root rest : parts s = root :: rest -> ~ automatic (p_headers root) -> parse_uri (tx E s method) = None ->
    notifies E s method from importance options message fcc [] (r_last s) (r_out s)
| no_mailto root rest scheme u : parts s = root :: rest -> ~ automatic (p_headers root) ->
    parse_uri (tx E s method) = Some (scheme, u) -> lower_text scheme = lit "mailto" -> r_out s < E_max_out E ->
    parse_mailto (E_M E) (E_utf8 E) (utf8 u) = None ->
    notifies E s method from importance options message fcc [] (r_last s) (r_out s)
| no_mail root rest scheme u p t : parts s = root :: rest -> ~ automatic (p_headers root) ->
    parse_uri (tx E s method) = Some (scheme, u) -> lower_text scheme = lit "mailto" -> r_out s < E_max_out E ->
    parse_mailto (E_M E) (E_utf8 E) (utf8 u) = Some p -> notification E s from importance message p t ->
    notifies E s method from importance options message fcc
      ([ECreated (r_last s + 1) t; ESend (RGroup (map inner_addr (m_to p ++ m_cc p ++ m_bcc p))) (DsnNever, RetDefault, ByNone) (r_last s + 1)] ++
       copy_of E s fcc (r_last s + 1)) (r_last s + 1) (r_out s)
| no_host root rest scheme u i word priority : parts s = root :: rest -> ~ automatic (p_headers root) ->
    parse_uri (tx E s method) = Some (scheme, u) -> lower_text scheme <> lit "mailto" \/ E_max_out E <= r_out s ->
    importance_is (option_map (tx E s) importance) i word priority -> fcc = None ->
    notifies E s method from importance options message fcc
      [ENotify (option_map (tx E s) from) i (map (tx E s) options)
         (match option_map (tx E s) message, E_subject E (r_msg s) with Some m, _ => m | None, Some x => x | None, None => [] end) (tx E s method)]
      (r_last s) (r_out s + 1)
| no_host_copy root rest scheme u i word priority t : parts s = root :: rest -> ~ automatic (p_headers root) ->
    parse_uri (tx E s method) = Some (scheme, u) -> lower_text scheme <> lit "mailto" \/ E_max_out E <= r_out s ->
    importance_is (option_map (tx E s) importance) i word priority -> fcc <> None ->
    notification E s from importance message mailto0 t ->
    notifies E s method from importance options message fcc
      ([ECreated (r_last s + 1) t;
        ENotify (option_map (tx E s) from) i (map (tx E s) options)
         (match option_map (tx E s) message, E_subject E (r_msg s) with Some m, _ => m | None, Some x => x | None, None => [] end) (tx E s method)] ++
       copy_of E s fcc (r_last s + 1)) (r_last s + 1) (r_out s + 1).

(** *** The reply of vacation *)
(** The answered address: the first sender of the envelope that is not empty. *)
Definition answered (E : renv) (s : rst) (t : text) : Prop :=
  (exists l1 v l2, c_envelope (r_vars s) = l1 ++ (EnvFrom, v) :: l2 /\ v_is_empty v = false /\ t = v_text (E_L E) v /\
     forall v', In (EnvFrom, v') l1 -> v_is_empty v' = true) \/
  (t = [] /\ forall v, In (EnvFrom, v) (c_envelope (r_vars s)) -> v_is_empty v = true).
(** The last field of a name (of those that [ok]), or none. *)
Definition last_field (hs : list header) (ok : header -> Prop) (r : option header) : Prop :=
  match r with
  | Some h => exists l1 l2, hs = l1 ++ h :: l2 /\ ok h /\ forall h', In h' l2 -> ~ ok h'
  | None => forall h, In h hs -> ~ ok h
  end.
(** The sender of the reply: the one given, else the user, else the first recipient of the envelope. *)
Definition reply_from (E : renv) (s : rst) (from : option value) (t : text) : Prop :=
  match from with
  | Some f => t = tx E s f
  | None =>
      if Nat.eqb (length (E_user E)) 0 then
        (exists l1 v l2, c_envelope (r_vars s) = l1 ++ (EnvTo, v) :: l2 /\ t = v_text (E_L E) v /\ forall v', ~ In (EnvTo, v') l1) \/
        (t = [] /\ forall v, ~ In (EnvTo, v) (c_envelope (r_vars s)))
      else t = user_field (E_name E) (E_user E)
  end.
Definition reply (E : renv) (s : rst) (hs : list header) (to : text) (subject from : option value) (mime : bool) (reason : value) (t : text) : Prop :=
  exists sender to_field title answer,
    reply_from E s from sender /\
    (exists r, last_field hs (fun h => (has_name h "from" \/ has_name h "sender") /\ E_has_addr E h to = true /\ E_raw E h <> None) r /\
       match r with Some h => exists raw, E_raw E h = Some raw /\ to_field = lit "To:" ++ raw | None => to_field = field (lit "To", to) end) /\
    reply_subject (vacation_env E (moved_on s) hs) (vacation_args [] None (tx E s reason) PDefault (option_map (tx E s) subject) None mime None) title /\
    (exists r, last_field hs (fun h => has_name h "message-id") r /\
       match match r with Some h => match h_val h with HText id => Some id | _ => None end | None => None end with
       | None => answer = []
       | Some id =>
           exists q, last_field hs (fun h => has_name h "references" /\ E_raw E h <> None) q /\
             match q with
             | Some h => exists raw, E_raw E h = Some raw /\
                 answer = field (lit "In-Reply-To", lit "<" ++ id ++ lit ">") ++ lit "References: <" ++ id ++ lit "> " ++ raw
             | None => answer = section [(lit "In-Reply-To", lit "<" ++ id ++ lit ">"); (lit "References", lit "<" ++ id ++ lit ">")]
             end
       end) /\
    t = field (lit "From", sender) ++ to_field ++ field (lit "Subject", title) ++ answer ++
        section [(lit "Date", E_date E (r_instrs s + 1)); (lit "Message-ID", E_new_id E (r_instrs s + 1)); (lit "Auto-Submitted", lit "auto-replied")] ++
        (if mime then [] else field (lit "Content-type", lit "text/plain; charset=utf-8") ++ crlf) ++ tx E s reason.

(** *** Delivery: redirect, fileinto, keep, reject *)
(** What precedes a delivery: an edited message is handed out first, under a new id.  The id that is delivered. *)
Definition edited_first (E : renv) (s : rst) : list event :=
  if ms_changed (r_msg s) then [ECreated (r_last s + 1) (E_bytes E (r_msg s))] else [].
Definition delivered_id (s : rst) : nat := if ms_changed (r_msg s) then r_last s + 1 else r_main s.
(** The counters after it; nothing else of the message changes than that it counts as handed out. *)
Definition handed_out (s s' : rst) : Prop :=
  r_main s' = delivered_id s /\ r_last s' = (if ms_changed (r_msg s) then r_last s + 1 else r_last s) /\
  ms_changed (r_msg s') = false /\ parts s' = parts s /\ r_vars s' = r_vars s /\ r_pos s' = r_pos s + 1 /\ r_stack s' = r_stack s.
(** The time of delivery: a point in time is the timestamp of the evaluated text. *)
Inductive deliver_by (E : renv) (s : rst) : bytime value -> bytime Z -> Prop :=
| by_none : deliver_by E s ByNone ByNone
| by_relative l m t : deliver_by E s (ByRelative l m t) (ByRelative l m t)
| by_absolute a m t : deliver_by E s (ByAbsolute a m t) (ByAbsolute (E_timestamp E (tx E s a)) m t).
(** What forbids a redirect: no usable address, a limit, too many Received fields, the user's own address. *)
Definition redirect_forbidden (E : renv) (s : rst) (hs : list header) (address : value) (list_ : bool) : Prop :=
  E_max_redirects E <= r_redirects s \/ E_max_out E <= r_out s \/
  E_max_received E <= length (filter (fun h => teqb_ic (h_name h) (lit "received")) hs) \/
  sanitize_address (tx E s address) = None \/
  (list_ = false /\ exists a, sanitize_address (tx E s address) = Some a /\ lower_text a = lower_text (E_user E)).
Definition is_keep (e : option event) : Prop := exists fl id, e = Some (EKeep fl id).
(** The flags of a delivery: those of the action if it has the argument, else those of the flag variable. *)
Definition flags_for (E : renv) (s : rst) (flags : list value) : list text :=
  if Nat.eqb (length flags) 0 then global_flags (E_L E) (vw E s) else flag_tokens (E_L E) (vw E s) flags.
