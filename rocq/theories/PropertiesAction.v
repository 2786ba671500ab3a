(** Property C93: actions in a running script hand out what their arguments say. *)
From Coq Require Import Lia.
From Verif Require Import Base Lib Address Var Value SetVar Flags Message EditHeader Event Notify Vacation Sieve Run TestSpec ActionSpec ActionProofs
  PropertiesNotify PropertiesVacation PropertiesRun PropertiesTest.
Import ListNotations.
Local Open Scope string_scope.
Local Open Scope list_scope.

(** notify: nothing for an automatic message or a method that is no URI; a message to everybody in the
    mailto URI with the fields, subject and body the URI, the arguments and the message ask for; else an
    event for the host; with ':fcc' a copy is filed. *)
Theorem C93_notify :
  forall E s method from importance options message fcc,
    at_instr E s (IxNotify method from importance options message fcc) -> r_queue s = [] -> parts s <> [] ->
    exists evs last out, notifies E s method from importance options message fcc evs last out /\
      hands_out E s evs (w_last last (w_out out (moved_on s))).
Proof. exact notify_step. Qed.
Print Assumptions C93_notify.

(** vacation: the reply is made of the arguments and of the fields of the answered message, goes to the sender in
    the envelope without delivery reports, and with ':fcc' a copy is filed. *)
Theorem C93_reply :
  forall E s subject from mime fcc reason root rest,
    at_instr E s (IxVacation subject from mime fcc reason) -> r_queue s = [] -> parts s = root :: rest ->
    exists to t, answered E s to /\ reply E s (p_headers root) to subject from mime reason t /\
      hands_out E s (ECreated (r_last s + 1) t :: ESend (RAddress to) (DsnNever, RetDefault, ByNone) (r_last s + 1) :: copy_of E s fcc (r_last s + 1))
        (w_last (r_last s + 1) (w_out (r_out s + 1) (moved_on s))).
Proof. exact vacation_step. Qed.
Print Assumptions C93_reply.

(** redirect: unless something forbids it, the message (first handed out if it was edited) is sent to the address
    with the delivery options of the script, and the implicit keep is cancelled unless ':copy'. *)
Theorem C93_redirect :
  forall E s address copy list_ n r b root rest,
    at_instr E s (IxRedirect address copy list_ (n, r, b)) -> r_queue s = [] -> parts s = root :: rest ->
    (redirect_forbidden E s (p_headers root) address list_ -> hands_out E s [] (moved_on s)) /\
    (~ redirect_forbidden E s (p_headers root) address list_ -> exists a b' s',
       sanitize_address (tx E s address) = Some a /\ deliver_by E s b b' /\
       hands_out E s (edited_first E s ++ [ESend (if list_ then RList a else RAddress a) (n, r, b') (delivered_id s)]) s' /\
       handed_out s s' /\ r_redirects s' = r_redirects s + 1 /\ r_out s' = r_out s + 1 /\
       (copy = false -> is_keep (r_final s) -> r_final s' = None) /\ (copy = true \/ ~ is_keep (r_final s) -> r_final s' = r_final s)).
Proof. exact redirect_step. Qed.
Print Assumptions C93_redirect.

(** fileinto: always carried out; the pending keep is cancelled unless ':copy', or unless it has flags. *)
Theorem C93_fileinto :
  forall E s folder flags mid su copy create,
    at_instr E s (IxFileInto folder flags mid su copy create) -> r_queue s = [] ->
    exists s', hands_out E s (edited_first E s ++
        [EFileInto (tx E s folder) (flags_for E s flags) (option_map (tx E s) mid) (option_map (tx E s) su) create (delivered_id s)]) s' /\
      handed_out s s' /\ r_redirects s' = r_redirects s /\ r_out s' = r_out s /\
      r_final s' = if copy then r_final s else match r_final s with Some (EKeep (_ :: _) _) => r_final s | _ => None end.
Proof. exact fileinto_step. Qed.
Print Assumptions C93_fileinto.

(** keep: the message is kept at the end, with the flags and the id it has now. *)
Theorem C93_keep :
  forall E s flags, at_instr E s (IxKeep flags) -> r_queue s = [] ->
    exists s', hands_out E s (edited_first E s) s' /\ handed_out s s' /\ r_redirects s' = r_redirects s /\ r_out s' = r_out s /\
      r_final s' = Some (EKeep (flags_for E s flags) (delivered_id s)).
Proof. exact keep_step. Qed.
Print Assumptions C93_keep.

(** reject and ereject: the evaluated reason; nothing is kept. *)
Theorem C93_reject :
  forall E s extended reason, at_instr E s (IxReject extended reason) -> r_queue s = [] ->
    hands_out E s [EReject extended (tx E s reason)] (w_final None (moved_on s)).
Proof. exact reject_step. Qed.
Print Assumptions C93_reject.

(** The hypotheses are met by a run that has just started; and what is handed out there. *)
Definition note_to (m : string) : instruction :=
  IxNotify (str m) None (Some (str "1")) [] (Some (str "New mail")) None.
Example C93_at : at_instr E1 (started [note_to "mailto:a@b.org"]) (note_to "mailto:a@b.org") /\
  r_queue (started [note_to "mailto:a@b.org"]) = [] /\ parts (started [note_to "mailto:a@b.org"]) <> [].
Proof. split; [split; [discriminate|split; [reflexivity|change (0 < 100); lia]]|split; [reflexivity|discriminate]]. Qed.
Definition first_event (l : list instruction) : option event :=
  match step E1 (started l) with SYield _ (OEvent e) => Some e | _ => None end.
Definition nl : text := [13; 10]%N.
Example C93_mail : first_event [note_to "mailto:a@b.org?subject=Hi&body=Look"] = Some (ECreated 1
  (lit "From: me@my.org" ++ nl ++ lit "To: <a@b.org>" ++ nl ++ lit "Date: D" ++ nl ++ lit "Message-ID: I" ++ nl ++
   lit "Importance: High" ++ nl ++ lit "X-Priority: 1 (High)" ++ nl ++ lit "Subject: Hi" ++ nl ++ lit "Auto-Submitted: auto-notified" ++ nl ++
   lit "X-Sieve: yes" ++ nl ++ lit "Content-type: text/plain; charset=utf-8" ++ nl ++ nl ++ lit "Look")).
Proof. vm_compute. reflexivity. Qed.
Example C93_host : first_event [note_to "tel:+123"] = Some (ENotify None IHigh [] (lit "New mail") (lit "tel:+123")).
Proof. vm_compute. reflexivity. Qed.
Example C93_no_uri : first_event [note_to "nothing"] = None.
Proof. vm_compute. reflexivity. Qed.
Example C93_away : first_event [IxVacation None None false None (str "Away")] = Some (ECreated 1
  (lit "From: me@my.org" ++ nl ++ lit "To: ann@b.org" ++ nl ++ lit "Subject: Auto: hi" ++ nl ++ lit "Date: D" ++ nl ++ lit "Message-ID: I" ++ nl ++
   lit "Auto-Submitted: auto-replied" ++ nl ++ lit "Content-type: text/plain; charset=utf-8" ++ nl ++ nl ++ lit "Away")).
Proof. vm_compute. reflexivity. Qed.
Example C93_send : first_event [IxRedirect (str "x@y.org") false false (DsnNever, RetDefault, ByNone)] =
  Some (ESend (RAddress (lit "x@y.org")) (DsnNever, RetDefault, ByNone) 0).
Proof. vm_compute. reflexivity. Qed.
Example C93_send_allowed : ~ redirect_forbidden E1 (started []) (concat (map p_headers (parts (started [])))) (str "x@y.org") false /\
  redirect_forbidden E1 (started []) (concat (map p_headers (parts (started [])))) (str "Me@my.org") false.
Proof.
  split.
  - intros [X|[X|[X|[X|(_ & a & X & Y)]]]]; vm_compute in X; try (exfalso; lia); try discriminate. injection X as <-. vm_compute in Y. discriminate.
  - right; right; right; right. split; [reflexivity|]. eexists. split; [vm_compute; reflexivity|vm_compute; reflexivity].
Qed.
Example C93_file : first_event [IxFileInto (str "Box") [] None None false true] = Some (EFileInto (lit "Box") [] None None true 0).
Proof. vm_compute. reflexivity. Qed.
Example C93_refuse : first_event [IxReject true (str "No")] = Some (EReject true (lit "No")).
Proof. vm_compute. reflexivity. Qed.
