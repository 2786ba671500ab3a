(** Properties of the vacation action: C44. *)
From Verif Require Import Base Lib Var Value SetVar Message Flags Event Notify NotifySpec NotifyProofs Vacation VacationSpec VacationProofs VacationProofs2.

(** C44: a reply is considered (the host is asked whether one was sent recently)
    exactly for the messages that may be answered, and the question names the
    sender, the handle (or the reason) and the period. *)
Theorem C44_reply_considered_iff :
  forall L addrs e a from,
    may_reply L addrs e a from <->
    vacation_test L addrs e a =
      (match va_period a with
       | PDays d => if N.leb (d * 86400) u64_max
                    then VAsk (lit "_v" ++ lower_text from ++ match va_handle a with Some h => h | None => va_reason a end) (d * 86400)%N
                    else VOverflow
       | PSeconds s => VAsk (lit "_v" ++ lower_text from ++ match va_handle a with Some h => h | None => va_reason a end) s
       | PDefault => VAsk (lit "_v" ++ lower_text from ++ match va_handle a with Some h => h | None => va_reason a end) (ve_default_expiry e)
       end) /\
    sender L (ve_envelope e) from.
Proof.
  intros L addrs e a from. rewrite test_iff. unfold vac_result, vac_expiry, vac_id.
  destruct (va_period a) as [d|s|]; [destruct (N.leb _ _)|..]; reflexivity.
Qed.
Print Assumptions C44_reply_considered_iff.
Theorem C44_no_reply_otherwise :
  forall L addrs e a, vacation_test L addrs e a = VNo <-> forall from, ~ may_reply L addrs e a from.
Proof. exact test_no. Qed.
Print Assumptions C44_no_reply_otherwise.

(** A vacation action sends exactly one message, newly created, and counts it. *)
Theorem C44_one_reply :
  forall L raw cont e a,
    exists msg rest, exec_vacation L raw cont e a =
      (ECreated (ve_last e + 1) msg :: ESend (RAddress (vac_to L e)) quiet_opts (ve_last e + 1) :: rest, ve_last e + 1, ve_out e + 1) /\
    (forall r o i, ~ In (ESend r o i) rest) /\ (forall i m, ~ In (ECreated i m) rest).
Proof.
  intros L raw cont e a. do 2 eexists. split; [reflexivity|].
  destruct (va_fcc a) as [[[[[f fl] mid] su] cr]|]; split; cbn; intros; intuition discriminate.
Qed.
Print Assumptions C44_one_reply.

(** When the envelope has one sender, it is the one the reply goes to. *)
Theorem C44_reply_goes_to_the_sender :
  forall L addrs e a from,
    may_reply L addrs e a from ->
    (forall v1 v2, In (EnvFrom, v1) (ve_envelope e) -> In (EnvFrom, v2) (ve_envelope e) ->
       v_is_empty v1 = false -> v_is_empty v2 = false -> v_text L v1 = v_text L v2) ->
    vac_to L e = from.
Proof. intros L addrs e a from H. apply one_sender, (mr_sender _ _ _ _ _ H). Qed.
Print Assumptions C44_reply_goes_to_the_sender.

(** The questions of one action about different senders are different. *)
Theorem C44_question_names_the_sender :
  forall L addrs e1 e2 a f1 f2 id1 id2 x1 x2,
    may_reply L addrs e1 a f1 -> may_reply L addrs e2 a f2 ->
    vacation_test L addrs e1 a = VAsk id1 x1 -> vacation_test L addrs e2 a = VAsk id2 x2 ->
    (id1 = id2 <-> lower_text f1 = lower_text f2).
Proof.
  intros L addrs e1 e2 a f1 f2 id1 id2 x1 x2 H1 H2 E1 E2.
  rewrite (reply_asks _ _ _ _ _ H1) in E1. rewrite (reply_asks _ _ _ _ _ H2) in E2. unfold vac_result in *.
  destruct (vac_expiry e1 _); [|discriminate]. destruct (vac_expiry e2 _); [|discriminate].
  injection E1 as <- _. injection E2 as <- _. split; [apply id_injective|now intros ->].
Qed.
Print Assumptions C44_question_names_the_sender.

(** Example: a message that may be answered. *)
Definition vhd (n v : string) : header :=
  {| h_name := lit n; h_raw := true; h_val := HText (lit v); h_plain := lit v; h_bytes := 9 |}.
Definition vaddrs (h : header) : list text := match h_val h with HText t => [t] | _ => [] end.
Definition venv1 (from : list (envk * var)) (hs : list header) : venv :=
  {| ve_headers := hs; ve_envelope := from ++ [(EnvTo, VStr (lit "me@my.org"))]; ve_user := []; ve_name := [];
     ve_orcpt := false; ve_prefix := lit "Auto: "; ve_default_subject := lit "Reply"; ve_default_expiry := 100%N;
     ve_max_received := 10; ve_max_out := 3; ve_out := 0; ve_last := 0; ve_date := lit "D"; ve_msgid := lit "I" |}.
Definition vargs1 (p : period) : vargs :=
  {| va_addresses := [lit "ME@other.org"]; va_handle := None; va_reason := lit "away"; va_period := p;
     va_subject := None; va_from := None; va_mime := false; va_fcc := None |}.
Definition hs1 : list header :=
  [vhd "Received" "x"; vhd "Subject" "Hello"; vhd "CC" "me@OTHER.org"; vhd "auto-submitted" "No"; vhd "Precedence" "first-class";
   vhd "X-Auto-Response-Suppress" "DR, AutoReply"].
Example C44_case :
  vacation_test ascii_lib vaddrs (venv1 [(EnvFrom, VStr (lit "Ann@b.org"))] hs1) (vargs1 (PDays 7)) = VAsk (lit "_vann@b.orgaway") 604800 /\
  (exists from, may_reply ascii_lib vaddrs (venv1 [(EnvFrom, VStr (lit "Ann@b.org"))] hs1) (vargs1 (PDays 7)) from) /\
  vacation_test ascii_lib vaddrs (venv1 [(EnvFrom, VStr (lit "Ann@b.org"))] (hs1 ++ [vhd "X-Auto-Response-Suppress" "dr, OOF"])) (vargs1 PDefault) = VNo /\
  vacation_test ascii_lib vaddrs (venv1 [(EnvFrom, VStr (lit "Ann@b.org"))] (hs1 ++ [vhd "list-id" "x"])) (vargs1 PDefault) = VNo /\
  vacation_test ascii_lib vaddrs (venv1 [(EnvFrom, VStr (lit "me@other.ORG"))] hs1) (vargs1 PDefault) = VNo.
Proof.
  split; [vm_compute; reflexivity|]. split; [apply asks_reply; vm_compute; discriminate|].
  split; [vm_compute; reflexivity|]. split; vm_compute; reflexivity.
Qed.

(** With several senders in the envelope the checks look at the last and the reply
    goes to the first: the user's own address can be answered. *)
Theorem C44_own_address_refuted :
  exists e a from, may_reply ascii_lib vaddrs e a from /\ own_address ascii_lib e a (vac_to ascii_lib e).
Proof.
  exists (venv1 [(EnvFrom, VStr (lit "ME@other.org")); (EnvFrom, VStr (lit "ann@b.org"))] hs1), (vargs1 PDefault).
  assert (H : exists from, may_reply ascii_lib vaddrs
    (venv1 [(EnvFrom, VStr (lit "ME@other.org")); (EnvFrom, VStr (lit "ann@b.org"))] hs1) (vargs1 PDefault) from).
  { apply asks_reply. vm_compute. discriminate. }
  destruct H as [f H]. exists f. split; [exact H|]. right. left. split; [left; reflexivity|discriminate].
Qed.
Print Assumptions C44_own_address_refuted.

(** Questions of different actions about different senders can coincide: the
    sender and the handle are not separated. *)
Theorem C44_question_across_actions_refuted :
  exists e1 e2 a1 a2 f1 f2 id x,
    may_reply ascii_lib vaddrs e1 a1 f1 /\ may_reply ascii_lib vaddrs e2 a2 f2 /\ f1 <> f2 /\
    vacation_test ascii_lib vaddrs e1 a1 = VAsk id x /\ vacation_test ascii_lib vaddrs e2 a2 = VAsk id x.
Proof.
  set (a2 := {| va_addresses := [lit "me@other.org"]; va_handle := Some (lit "mway"); va_reason := lit "r"; va_period := PDefault;
                va_subject := None; va_from := None; va_mime := false; va_fcc := None |}).
  set (a1 := {| va_addresses := [lit "me@other.org"]; va_handle := Some (lit "way"); va_reason := lit "r"; va_period := PDefault;
                va_subject := None; va_from := None; va_mime := false; va_fcc := None |}).
  exists (venv1 [(EnvFrom, VStr (lit "ann@b.com"))] hs1), (venv1 [(EnvFrom, VStr (lit "ann@b.co"))] hs1), a1, a2.
  assert (H1 : exists from, may_reply ascii_lib vaddrs (venv1 [(EnvFrom, VStr (lit "ann@b.com"))] hs1) a1 from)
    by (apply asks_reply; vm_compute; discriminate).
  assert (H2 : exists from, may_reply ascii_lib vaddrs (venv1 [(EnvFrom, VStr (lit "ann@b.co"))] hs1) a2 from)
    by (apply asks_reply; vm_compute; discriminate).
  destruct H1 as [f1 H1]. destruct H2 as [f2 H2]. exists f1, f2, (lit "_vann@b.comway"), 100%N.
  split; [exact H1|]. split; [exact H2|]. split; [|split; vm_compute; reflexivity].
  assert (S1 := sender_last _ _ _ (mr_sender _ _ _ _ _ H1)). assert (S2 := sender_last _ _ _ (mr_sender _ _ _ _ _ H2)).
  vm_compute in S1, S2. congruence.
Qed.
Print Assumptions C44_question_across_actions_refuted.

(** A period of too many days overflows when it is converted to seconds. *)
Theorem C44_period_overflow_refuted :
  exists e a from, may_reply ascii_lib vaddrs e a from /\ vacation_test ascii_lib vaddrs e a = VOverflow.
Proof.
  exists (venv1 [(EnvFrom, VStr (lit "ann@b.org"))] hs1), (vargs1 (PDays 213503982334602)).
  assert (H : exists from, may_reply ascii_lib vaddrs (venv1 [(EnvFrom, VStr (lit "ann@b.org"))] hs1) (vargs1 (PDays 213503982334602)) from)
    by (apply asks_reply; vm_compute; discriminate).
  destruct H as [f H]. exists f. split; [exact H|vm_compute; reflexivity].
Qed.
Print Assumptions C44_period_overflow_refuted.

(** *** C61: the header of the reply *)
(** When nothing that goes into it contains a carriage return, the header of the
    reply consists of the fields below, in this order: it is addressed to the
    sender, carries the subject the action asks for and is marked as an automatic
    reply. *)
Theorem C61_reply_header_partial :
  forall L raw cont e a, clean_reply L raw e a ->
    exists to subj more,
      header_lines (vac_message L raw cont e a) =
        [lit "From: " ++ vac_from_field L e a; lit "To:" ++ to; lit "Subject: " ++ subj] ++ more ++
        [lit "Date: " ++ ve_date e; lit "Message-ID: " ++ ve_msgid e; lit "Auto-Submitted: auto-replied"] ++
        (if va_mime a then header_lines (va_reason a) else [lit "Content-type: text/plain; charset=utf-8"]) /\
      reply_subject e a subj /\
      (to = 32%N :: vac_to L e \/
       exists h, In h (ve_headers e) /\ (has_name h "from" \/ has_name h "sender") /\ cont h (vac_to L e) = true /\
                 raw h = Some (to ++ [13%N; 10%N])) /\
      Forall (fun l => In (line_name l) [lit "In-Reply-To"; lit "References"]) more.
Proof. exact reply_lines. Qed.
Print Assumptions C61_reply_header_partial.
Example C61_case :
  let e := venv1 [(EnvFrom, VStr (lit "Ann@b.org"))] (hs1 ++ [vhd "Message-ID" "x@y"]) in
  clean_reply ascii_lib (fun _ => None) e (vargs1 PDefault) /\
  header_lines (vac_message ascii_lib (fun _ => None) (fun _ _ => false) e (vargs1 PDefault)) =
    [lit "From: me@my.org"; lit "To: Ann@b.org"; lit "Subject: Auto: Hello"; lit "In-Reply-To: <x@y>"; lit "References: <x@y>";
     lit "Date: D"; lit "Message-ID: I"; lit "Auto-Submitted: auto-replied"; lit "Content-type: text/plain; charset=utf-8"].
Proof.
  split; [|vm_compute; reflexivity].
  assert (NC : forall t : text, mem_ch 13%N t = false -> no_cr t) by exact no_cr_lit.
  split; try discriminate.
  - split; now apply NC.
  - intros k v [E | [E | []]]; injection E as <- <-; now apply NC.
  - repeat split; now apply NC.
  - intros h t I V. cbn in I. repeat (destruct I as [<- | I]; [injection V as <-; now apply NC|]). destruct I.
Qed.

(** Without the hypothesis it fails: a line break in the [:subject] argument (for
    instance from a variable) adds a header field. *)
Theorem C61_reply_header_refuted :
  let a := {| va_addresses := [lit "me@other.org"]; va_handle := None; va_reason := lit "away"; va_period := PDefault;
              va_subject := Some (lit "x" ++ [13%N; 10%N] ++ lit "Bcc: v@w"); va_from := None; va_mime := false; va_fcc := None |} in
  In (lit "Bcc: v@w")
     (header_lines (vac_message ascii_lib (fun _ => None) (fun _ _ => false) (venv1 [(EnvFrom, VStr (lit "ann@b.org"))] hs1) a)).
Proof. vm_compute. tauto. Qed.
Print Assumptions C61_reply_header_refuted.
