(** Properties of notifications: C43, C53, C54, C55. *)
From Verif Require Import Base Lib Var Value Message MessageSpec Address Event Notify NotifySpec NotifyProofs.

(** Decoding of ASCII bytes, and a header name parser, for the examples. *)
Definition ascii_dec (bs : list N) : option text := if forallb (fun c => N.ltb c 128) bs then Some bs else None.
Definition any_name : mailparser :=
  {| hn_parse := fun n => match n with [] => None | _ => Some n end; parse_ct := fun _ => HOther |}.
Definition uri1 : text := lit "mailto:joe%40example.com,ann@b.org?CC=JOE@example.COM,zed@z%2Eorg&subject=Hi%20there&X-A=b&body=x%3Dy=z".
Definition env1 : nenv :=
  {| v_headers := []; v_subject := Some (lit "s"); v_addr := lit "me@my.org"; v_name := [];
     v_date := lit "D"; v_msgid := lit "I"; v_max_out := 3; v_out := 0; v_last := 4 |}.
Definition args1 (uri : text) : nargs :=
  {| n_method := uri; n_from := None; n_importance := None; n_options := []; n_message := None; n_fcc := None |}.
Lemma ascii_dec_ok : forall bs t, ascii_dec bs = Some t -> utf8 t = bs.
Proof.
  intros bs t E. unfold ascii_dec in E. destruct (forallb _ bs) eqn:F; [|discriminate]. injection E as <-.
  induction bs as [|c bs IH]; [reflexivity|]. cbn [forallb] in F. apply Bool.andb_true_iff in F. destruct F as [F1 F2].
  unfold utf8 in *. cbn [flat_map]. rewrite (IH F2). unfold utf8_char. now rewrite F1.
Qed.

(** C43: the recipients read from a mailto URI are never empty and contain no
    address twice up to letter case; each is written with exactly one '@' and
    without a comma.  ([dec] is the standard library's UTF-8 decoder.) *)
Theorem C43_mailto_recipients :
  forall M dec, (forall bs t, dec bs = Some t -> utf8 t = bs) ->
  forall uri p, parse_mailto M dec uri = Some p ->
    no_dup_addr (m_to p ++ m_cc p ++ m_bcc p) /\
    Forall (fun a => one_at (utf8 a)) (m_to p ++ m_cc p ++ m_bcc p) /\ m_to p ++ m_cc p ++ m_bcc p <> [].
Proof. exact parse_mailto_inv. Qed.
Print Assumptions C43_mailto_recipients.

(** The group of recipients of the sent notification inherits this when no
    address of the URI contains '<' ... *)
Theorem C43_sent_group_partial :
  forall M dec, (forall bs t, dec bs = Some t -> utf8 t = bs) ->
  forall e a evs last out g opts id,
    exec_notify M dec e a = Some (evs, last, out) -> In (ESend (RGroup g) opts id) evs ->
    (forall scheme rest p, parse_uri (n_method a) = Some (scheme, rest) -> parse_mailto M dec (utf8 rest) = Some p ->
       Forall (fun x => ~ In 60%N x) (m_to p ++ m_cc p ++ m_bcc p)) ->
    no_dup_addr g /\ g <> [] /\ Forall (fun x => count_occ N.eq_dec (utf8 x) 64%N = 1) g.
Proof. exact send_nodup. Qed.
Print Assumptions C43_sent_group_partial.

Example C43_case :
  exists p evs msg,
    parse_mailto any_name ascii_dec (utf8 (skipn 7 uri1)) = Some p /\
    m_to p = [lit "joe@example.com"; lit "ann@b.org"] /\ m_cc p = [lit "zed@z.org"] /\
    exec_notify any_name ascii_dec env1 (args1 uri1) = Some (evs, 5, 0) /\
    evs = [ECreated 5 msg; ESend (RGroup [lit "joe@example.com"; lit "ann@b.org"; lit "zed@z.org"]) quiet_opts 5].
Proof.
  do 3 eexists. split; [vm_compute; reflexivity|]. split; [reflexivity|]. split; [reflexivity|].
  split; [vm_compute; reflexivity|reflexivity].
Qed.

(** ... but not in general: two spellings of the same mailbox, one of them with a
    percent-encoded '<...>', are both kept and then reduced to the same address. *)
Theorem C43_sent_group_refuted :
  exists e a evs last out g opts id,
    exec_notify any_name ascii_dec e a = Some (evs, last, out) /\ In (ESend (RGroup g) opts id) evs /\
    ~ no_dup_addr g.
Proof.
  exists env1, (args1 (lit "mailto:x@y,a%3Cx@y%3E")). do 6 eexists.
  split; [vm_compute; reflexivity|]. split; [right; left; reflexivity|].
  intros ND. inversion ND as [|? ? NI _]. apply NI. left. reflexivity.
Qed.
Print Assumptions C43_sent_group_refuted.

(** C53: a mailto URI is decoded to exactly what it writes.  Addresses separated
    by commas go to To; the fields after '?' add recipients, the body and headers,
    in order; percent-encoding is undone everywhere; an address that was already
    seen is dropped. *)
Theorem C53_mailto_decodes :
  forall M dec u l v fs,
    addrs_written dec u l -> fields_written dec (hn_parse M) v fs ->
    let rcpts := drop_known [] (map (fun a => (ATo, a)) l ++ flat_map field_rcpts fs) in
    exists p, parse_mailto M dec (u ++ 63%N :: v) = Some p /\
      (m_to p = of_kind ATo rcpts /\ m_cc p = of_kind ACc rcpts /\ m_bcc p = of_kind ABcc rcpts) /\
      m_body p = last_body None fs /\
      m_headers p = map (fun nv => (MParsed (fst nv), snd nv)) (flat_map field_headers fs).
Proof. exact parse_mailto_fields. Qed.
Print Assumptions C53_mailto_decodes.
Theorem C53_mailto_decodes_addresses :
  forall M dec u l,
    addrs_written dec u l ->
    let rcpts := drop_known [] (map (fun a => (ATo, a)) l) in
    exists p, parse_mailto M dec u = Some p /\
      (m_to p = of_kind ATo rcpts /\ m_cc p = of_kind ACc rcpts /\ m_bcc p = of_kind ABcc rcpts) /\
      m_body p = None /\ m_headers p = [].
Proof. exact parse_mailto_addresses. Qed.
Print Assumptions C53_mailto_decodes_addresses.

Ltac wr := repeat first [apply wr_nil | apply wr_plain; [reflexivity|] | eapply wr_pct; [reflexivity|reflexivity|]].
Example C53_case :
  addrs_written ascii_dec (lit "a@b,c%20d%40e") [lit "a@b"; lit "c d@e"] /\
  fields_written ascii_dec (hn_parse any_name) (lit "Subject=x%26y&bcc=q@r") [FHeader (lit "Subject") (lit "x&y"); FRcpt ABcc [lit "q@r"]].
Proof.
  split.
  - apply (asw_more ascii_dec (lit "a@b") (lit "a@b") (lit "a@b") (lit "c%20d%40e")); [|reflexivity|].
    + apply (aw_at (lit "a") (lit "a") (lit "b") (lit "b")); [wr|wr|discriminate|repeat constructor; discriminate..].
    + apply (asw_one ascii_dec (lit "c%20d%40e") (lit "c d@e")); [|reflexivity].
      apply (aw_pct (lit "c%20d") (lit "c d") 52%N 48%N (lit "e") (lit "e")); [| |reflexivity|reflexivity|repeat constructor; discriminate..].
      * change (written plain_addr (99%N :: 37%N :: 50%N :: 48%N :: [100%N]) (99%N :: (2 * 16 + 0)%N :: [100%N])). wr.
      * wr.
  - apply (fsw_more ascii_dec (hn_parse any_name) (lit "Subject=x%26y") (FHeader (lit "Subject") (lit "x&y")) (lit "bcc=q@r")).
    + apply (fw_header ascii_dec (hn_parse any_name) (lit "Subject") (lit "Subject") (lit "Subject") (lit "Subject") (lit "x%26y") (lit "x&y"));
        [wr|discriminate|reflexivity|reflexivity| | |discriminate|reflexivity].
      * intros H. vm_compute in H. intuition discriminate.
      * change (written plain_value (120%N :: 37%N :: 50%N :: 54%N :: [121%N]) (120%N :: (2 * 16 + 6)%N :: [121%N])). wr.
    + apply fsw_one.
      apply (fw_rcpt ascii_dec (hn_parse any_name) (lit "bcc") (lit "bcc") (lit "bcc") (lit "bcc") ABcc (lit "q@r") [lit "q@r"]);
        [wr|discriminate|reflexivity|reflexivity|reflexivity|].
      apply (asw_one ascii_dec (lit "q@r") (lit "q@r")); [|reflexivity].
      apply (aw_at (lit "q") (lit "q") (lit "r") (lit "r")); [wr|wr|discriminate|repeat constructor; discriminate..].
Qed.

(** The initial list of addresses cannot be left out: a URI whose recipients are
    all given by fields is refused when another field follows them. *)
Theorem C53_recipients_in_fields_refuted :
  exists v fs, fields_written ascii_dec (hn_parse any_name) v fs /\
    flat_map field_rcpts fs <> [] /\ parse_mailto any_name ascii_dec (63%N :: v) = None.
Proof.
  exists (lit "to=q@r&X=y"), [FRcpt ATo [lit "q@r"]; FHeader (lit "X") (lit "y")].
  split; [|split; [discriminate|vm_compute; reflexivity]].
  apply (fsw_more ascii_dec (hn_parse any_name) (lit "to=q@r") (FRcpt ATo [lit "q@r"]) (lit "X=y")).
  - apply (fw_rcpt ascii_dec (hn_parse any_name) (lit "to") (lit "to") (lit "to") (lit "to") ATo (lit "q@r") [lit "q@r"]);
      [wr|discriminate|reflexivity|reflexivity|reflexivity|].
    apply (asw_one ascii_dec (lit "q@r") (lit "q@r")); [|reflexivity].
    apply (aw_at (lit "q") (lit "q") (lit "r") (lit "r")); [wr|wr|discriminate|repeat constructor; discriminate..].
  - apply fsw_one.
    apply (fw_header ascii_dec (hn_parse any_name) (lit "X") (lit "X") (lit "X") (lit "X") (lit "y") (lit "y"));
      [wr|discriminate|reflexivity|reflexivity| |wr|discriminate|reflexivity].
    intros H. vm_compute in H. intuition discriminate.
Qed.
Print Assumptions C53_recipients_in_fields_refuted.

(** C54: when nothing that goes into it contains a carriage return, the header
    section of a notification has only the headers the action writes and those
    named by the URI ... *)
Theorem C54_header_names_partial :
  forall e a p, clean e a p ->
    Forall (fun line => In (line_name line) (fixed_names ++ map (fun hv => mh_text (fst hv)) (m_headers p)))
           (header_lines (notify_text e a p)).
Proof. exact notify_header_names. Qed.
Print Assumptions C54_header_names_partial.
Example C54_case :
  exists p, parse_mailto any_name ascii_dec (utf8 (skipn 7 uri1)) = Some p /\ clean env1 (args1 uri1) p /\
    map line_name (header_lines (notify_text env1 (args1 uri1) p)) =
    [lit "From"; lit "To"; lit "Cc"; lit "X-A"; lit "Date"; lit "Message-ID"; lit "Importance"; lit "X-Priority";
     lit "Subject"; lit "Auto-Submitted"; lit "X-Sieve"; lit "Content-type"].
Proof.
  eexists. split; [vm_compute; reflexivity|]. split; [|vm_compute; reflexivity].
  assert (NC : forall t : text, mem_ch 13%N t = false -> no_cr t) by exact no_cr_lit.
  split; cbn [args1 env1 n_from n_message v_addr v_name v_date v_msgid v_subject m_to m_cc m_headers].
  - discriminate.
  - split; now apply NC.
  - split; now apply NC.
  - split; repeat constructor; now apply NC.
  - constructor; [|constructor; [|constructor]]; cbn [fst snd mh_text];
      (split; [now apply NC|]; split; [intros I; vm_compute in I; intuition discriminate|now apply NC]).
  - discriminate.
  - intros m E. injection E as <-. now apply NC.
Qed.

(** ... but a percent-encoded line break in a field's value adds headers of the
    URI writer's choice. *)
Theorem C54_header_injection_refuted :
  exists uri p line,
    parse_mailto any_name ascii_dec (utf8 uri) = Some p /\
    In line (header_lines (notify_text env1 (args1 (lit "mailto:" ++ uri)) p)) /\
    ~ In (line_name line) (fixed_names ++ map (fun hv => mh_text (fst hv)) (m_headers p)).
Proof.
  exists (lit "a@b?X-A=1%0D%0AResent-Bcc:%20v@w"). eexists. exists (lit "Resent-Bcc: v@w").
  split; [vm_compute; reflexivity|]. split.
  - vm_compute. tauto.
  - intros H. vm_compute in H. intuition discriminate.
Qed.
Print Assumptions C54_header_injection_refuted.

(** C55: nothing is ever sent about an automatically submitted message ... *)
Theorem C55_automatic_mail_is_silent :
  forall M dec e a h,
    In h (v_headers e) -> lower_text (h_name h) = lit "auto-submitted" ->
    (forall t, h_val h = HText t -> lower_text t <> lit "no") ->
    exec_notify M dec e a = None.
Proof. exact auto_silent. Qed.
Print Assumptions C55_automatic_mail_is_silent.
(** ... and a URI that passes 'valid_notify_method' always produces a
    notification for any other message: sent mail for mailto while the limit of
    outgoing messages is not reached, a request to the host otherwise. *)
Theorem C55_valid_method_notifies :
  forall M dec allowed uris e a,
    valid_notify_method M dec allowed uris false = true -> In (n_method a) uris ->
    (forall h, In h (v_headers e) -> lower_text (h_name h) = lit "auto-submitted" ->
       exists t, h_val h = HText t /\ lower_text t = lit "no") ->
    exists scheme rest evs last out, parse_uri (n_method a) = Some (scheme, rest) /\
      (In scheme allowed \/ In (n_method a) allowed) /\
      exec_notify M dec e a = Some (evs, last, out) /\
      ((exists g opts, In (ESend (RGroup g) opts last) evs /\ teqb_ic scheme (lit "mailto") = true /\ v_out e < v_max_out e) \/
       (exists from i os m, In (ENotify from i os m (n_method a)) evs /\
          (teqb_ic scheme (lit "mailto") = false \/ v_max_out e <= v_out e))).
Proof. exact valid_method_notifies. Qed.
Print Assumptions C55_valid_method_notifies.
Example C55_case :
  valid_notify_method any_name ascii_dec [lit "mailto"; lit "tel"] [uri1; lit "tel:123"] false = true /\
  valid_notify_method any_name ascii_dec [lit "mailto"] [uri1; lit "tel:123"] false = false /\
  exec_notify any_name ascii_dec
    {| v_headers := [{| h_name := lit "AUTO-submitted"; h_raw := true; h_val := HText (lit "auto-replied"); h_plain := []; h_bytes := 9 |}];
       v_subject := None; v_addr := []; v_name := []; v_date := []; v_msgid := []; v_max_out := 3; v_out := 0; v_last := 0 |}
    (args1 uri1) = None.
Proof. split; [vm_compute; reflexivity|]. split; vm_compute; reflexivity. Qed.

(** The 'valid_notify_method' test: true exactly when every URI is a valid URI whose
    scheme (or the URI itself) is enabled; 'not' inverts it. *)
Theorem C55_valid_method_exact :
  forall M dec allowed uris n,
    valid_notify_method M dec allowed uris n = negb n <->
    Forall (fun u => exists scheme, validate_uri M dec u = Some scheme /\ (In scheme allowed \/ In u allowed)) uris.
Proof. exact valid_method_exact. Qed.
Print Assumptions C55_valid_method_exact.
