(** Properties of whole runs, continued: which scripts cannot make a run panic
    (C60), and envelope changes that are always reported (C59). *)
From Coq Require Import Lia.
From Verif Require Import Base Lib Glob GlobSpec Address Var Value SetVar Flags Comparator Message MessageSpec
  EditHeader EditHeaderSpec Expr Event Notify Vacation Spam AddrTest Mime Sieve Run RunSpec CalmSpec CalmProofs3 ReportSpec ReportProofs
  PropertiesCompare PropertiesMessage PropertiesRun.

(** *** C60 *)

(** No conversation with the host panics, whatever the message, the environment
    and the answers of the host, if the scripts meet the conditions of
    CalmSpec.v: no [replace] and no [convert]; not both [enclose] and
    [foreverypart]; no change of sign in an expression; match variables set only
    from literal keys with at most 63 wildcards; vacation periods that fit in 64
    bits when counted in seconds.  The message is a well-formed tree whose header
    fields are within its size.
    Missing for the full statement: it is false without each of these conditions
    (theorems below). *)
Theorem C60_no_panic_partial :
  forall E loops, (forall c, chr_lower (E_L E) c <> []) ->
  (forall n x, E_scripts E n = Some x -> calm loops x) ->
  forall m size c, wf_deep m -> m <> [] -> headers_size m <= size ->
  forall inputs, (forall n x, In (InScript n x) inputs -> calm loops x) ->
  exists outs s', converse_run E inputs (initial m size c) = Some (outs, s').
Proof. exact calm_runs. Qed.
Print Assumptions C60_no_panic_partial.

(** A script with most kinds of instructions, run on a nested message, and what
    the host is given. *)
Definition calm_script : list instruction :=
  [ IxTest (TeHeader [str "subject"] None true MvNone CCasemap (MMatches 7) [str "*h?*"] false);
    IxJz 4;
    IxAddHeader (str "X-A") (str "1") false;
    IxSet [] (TEnvelope EnvFrom) (str "a@b.org");
    IxForEveryPartPush; IxForEveryPart 8;
    IxDeleteHeader (str "x-b") None true CCasemap MIs [];
    IxJmp 5;
    IxLet (TLocal 0) [IConst (VInt 7); IConst (VInt 2); IBin BDiv];
    fileinto "A" true ].
Example C60_no_panic_case :
  calm true (script calm_script) /\ wf_deep sample /\ headers_size sample <= 1000 /\
  option_map fst (converse_run E1 (main calm_script :: repeat InTrue 5) (initial sample 1000 vars0)) =
    Some [ev (ESetEnvelope EnvFrom (lit "a@b.org")); ev (ECreated 1 (lit "M"));
          ev (EFileInto (lit "A") [] None None false 1); ev (EKeep [] 0); None; None].
Proof.
  split; [|split; [exact sample_deep|split; [vm_compute; lia|vm_compute; reflexivity]]].
  unfold calm, script, calm_script. cbn [s_code].
  apply Forall_cons. { right. apply Forall_cons; [|apply Forall_nil]. eexists. split; [reflexivity|]. vm_compute. lia. }
  repeat (apply Forall_cons; [try exact Logic.I; try reflexivity|]); try apply Forall_nil.
  cbn. unfold calm_code. cbn. intuition discriminate.
Qed.

(** Each condition is needed: leaving it out, a run panics. *)
Definition stars (n : nat) : text := repeat 42%N n.
Definition E2 (psize : nat) : renv :=
  {| E_L := ascii_lib; E_rx := no_rx; E_M := E_M E1; E_A := E_A E1; E_utf8 := E_utf8 E1;
     E_caps := E_caps E1; E_uris := []; E_lists := []; E_protected := []; E_metadata := []; E_scripts := no_scripts;
     E_fns := fun _ _ => None; E_max_includes := 3; E_cpu := 100; E_max_var := 1000; E_max_redirects := 1;
     E_timestamp := fun _ => 0%Z; E_max_received := 10; E_max_header := 100; E_max_out := 5; E_vac_expiry := 100%N;
     E_dup_expiry := 50%N; E_vac_orcpt := false; E_vac_subject := []; E_vac_prefix := []; E_user := lit "me@my.org"; E_name := [];
     E_spam := SpUnknown; E_virus := ViUnknown; E_msgvar := fun _ _ _ => None;
     E_bytes := fun m => lit "M"; E_body := fun _ _ => None; E_h2t := fun t => t; E_t2h := fun t => t;
     E_psize := fun _ => psize; E_subject := fun _ => None; E_raw_subject := fun _ => None; E_msg_id := fun _ => None; E_header_id := fun _ => None;
     E_addrs := E_addrs E1; E_raw := fun _ => None; E_has_addr := fun _ _ => false;
     E_now := E_now E1; E_date := fun _ => lit "D"; E_new_id := fun _ => lit "I"; E_boundary := fun _ => lit "B" |}.

(** A run of more than 63 wildcards in a key whose matches are kept as match variables. *)
Theorem C60_wildcards_refuted :
  run E1 (main [IxTest (TeString [XText (stars 64)] COctet (MMatches 1) [XText (stars 64)] false)]) s0 = RPanic /\
  run E1 (main [IxTest (TeString [XText (stars 63)] COctet (MMatches 1) [XText (stars 63)] false)]) s0 <> RPanic.
Proof. split; [vm_compute; reflexivity|]. vm_compute. discriminate. Qed.
Print Assumptions C60_wildcards_refuted.
(** Changing the sign of the least 64-bit integer. *)
Theorem C60_sign_refuted :
  run E1 (main [IxEval [IConst (VInt (- 2 ^ 63)); IUn UMinus]]) s0 = RPanic /\
  run E1 (main [IxEval [IConst (VInt (1 - 2 ^ 63)); IUn UMinus]]) s0 <> RPanic.
Proof. split; [vm_compute; reflexivity|]. vm_compute. discriminate. Qed.
Print Assumptions C60_sign_refuted.
(** A vacation period of 2^48 days. *)
Theorem C60_vacation_days_refuted :
  run E1 (main [IxTest (TeVacation [] None (str "away") (PDays (2 ^ 48)))]) s0 = RPanic /\
  run E1 (main [IxTest (TeVacation [] None (str "away") (PDays (2 ^ 47)))]) s0 <> RPanic.
Proof. split; [vm_compute; reflexivity|]. vm_compute. discriminate. Qed.
Print Assumptions C60_vacation_days_refuted.
(** [enclose] while going through the parts of the message: the parts still to come
    are gone. *)
Theorem C60_enclose_in_loop_refuted :
  let add := IxAddHeader (str "X-A") (str "1") false in
  run E1 (main [IxForEveryPartPush; IxForEveryPart 5; add; IxEnclose [] None (str "x"); IxJmp 1])
    (initial sample 1000 vars0) = RPanic /\
  run E1 (main [IxForEveryPartPush; IxForEveryPart 4; add; IxJmp 1; IxEnclose [] None (str "x")])
    (initial sample 1000 vars0) <> RPanic.
Proof. split; [vm_compute; reflexivity|]. vm_compute. discriminate. Qed.
Print Assumptions C60_enclose_in_loop_refuted.
(** [deleteheader] and then [replace] with a short text: the size of the original
    message, header field included, is subtracted from what is left.  The message
    has one part, of 100 bytes. *)
Theorem C60_delete_then_replace_refuted :
  let delete := IxDeleteHeader (str "subject") None false CCasemap MIs [] in
  run (E2 100) (main [delete; IxReplace None None (str "x") false]) (initial msg0 100 vars0) = RPanic /\
  run (E2 100) (main [IxReplace None None (str "x") false]) (initial msg0 100 vars0) <> RPanic.
Proof. split; [vm_compute; reflexivity|]. vm_compute. discriminate. Qed.
Print Assumptions C60_delete_then_replace_refuted.
(** The same with [convert], when the deleted header field is long enough. *)
Theorem C60_delete_then_convert_refuted :
  let delete := IxDeleteHeader (str "x-long") None false CCasemap MIs [] in
  let convert := IxConvert (str "text/plain") (str "text/html") in
  let m := [Part [new_header (lit "X-Long") (repeat 97%N 60)] None (BText (lit "hello"))] in
  run (E2 80) (main [delete; convert]) (initial m 80 vars0) = RPanic /\
  run (E2 80) (main [convert]) (initial m 80 vars0) <> RPanic.
Proof. split; [vm_compute; reflexivity|]. vm_compute. discriminate. Qed.
Print Assumptions C60_delete_then_convert_refuted.

(** *** C59 *)

(** Envelope changes made with [set] (and [extracttext]): the reports the host is
    given are exactly the changes the executed instructions made, in order, and the
    envelope the script sees is at any time the original one changed by them.
    Missing for the full statement: changes made with [let] or with the flag
    actions ([C59_envelope_reports_refuted]). *)
Theorem C59_set_reported_partial :
  forall E, (forall n x, E_scripts E n = Some x -> all_at_once x) ->
  forall m size c inputs outs s', (forall n x, In (InScript n x) inputs -> all_at_once x) ->
  converse_run E inputs (initial m size c) = Some (outs, s') ->
  reports (events_of outs) = flat_map (changed_item E) (g_log (log_of E inputs (initial m size c))) /\
  forall k, envlookup k (c_envelope (r_vars s')) =
    match latest k (reports (events_of outs)) with Some t => Some (VStr t) | None => envlookup k (c_envelope c) end.
Proof. exact set_reported. Qed.
Print Assumptions C59_set_reported_partial.
Definition report_script : list instruction :=
  [ IxSet [] (TEnvelope EnvFrom) (str "a@b.org"); IxSet [] (TEnvelope EnvTo) (str "c@d.org"); fileinto "A" true;
    IxSet [] (TEnvelope EnvFrom) (str "e@f.org") ].
Example C59_set_reported_case :
  all_at_once (script report_script) /\
  talk E1 report_script (repeat InTrue 5) =
    Some [ev (ESetEnvelope EnvFrom (lit "a@b.org")); ev (ESetEnvelope EnvTo (lit "c@d.org"));
          ev (EFileInto (lit "A") [] None None false 0); ev (ESetEnvelope EnvFrom (lit "e@f.org")); ev (EKeep [] 0); None] /\
  flat_map (changed_item E1) (g_log (log_of E1 (main report_script :: repeat InTrue 5) s0)) =
    [(EnvFrom, lit "a@b.org"); (EnvTo, lit "c@d.org"); (EnvFrom, lit "e@f.org")].
Proof.
  split; [repeat (apply Forall_cons; [exact Logic.I|]); apply Forall_nil|]. split; vm_compute; reflexivity.
Qed.
