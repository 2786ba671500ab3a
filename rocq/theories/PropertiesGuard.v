(** Properties of the scripts the compiler makes: where their jumps lead, what running
    them does (C17, C26, C30, C31), and the enforcement of 'require' (C71, C72). *)
From Coq Require Import Lia.
From Verif Require Import Base Lib Address Var Value SetVar Flags Comparator Message EditHeader
  Expr ExprTok Event Notify AddrTest Vacation Spam Mime Sieve Utf8 Lexer Scope StringTok Compile ParseArgs ParseBase Parse
  ParseSafe ParseSpec ParseMax Run RunSpec GuardSpec ParseGuard5 ParseGuard6 ParseGuard7 PropertiesCompare PropertiesMessage PropertiesNotify PropertiesRun PropertiesParse.
Import ListNotations.
Local Open Scope string_scope.
Local Open Scope list_scope.

(** *** C26, C30, C31, C17 for the whole compiler *)

(** Every jump of a compiled script leads into the script or to its end; a vacation is
    reached only through its test. *)
Theorem C26_script_jumps : forall K script x, compile K script = Compiled x -> jumps_inside x /\ guarded x.
Proof. intros K script x H. destruct (compile_guard K script x H) as (R & I & _). exact (inv_jumps x I). Qed.
Print Assumptions C26_script_jumps.
Lemma written_jumps x : written x -> jumps_inside x /\ guarded x.
Proof. intros (K & script & H). exact (C26_script_jumps K script x H). Qed.

(** A compiled script never asks for more match variables than the runtime has.  The
    number of local variables is another matter ([C30_refuted]). *)
Theorem C30_match_variables_partial : forall K script x, compile K script = Compiled x -> s_match_vars x <= 63.
Proof. exact compile_max. Qed.
Print Assumptions C30_match_variables_partial.

(** C31 for scripts given as text: the actions of a completed run are those of the
    executed instructions and one disposition.  The hypothesis on the number of variables
    excludes the scripts of [C30_refuted]. *)
Theorem C31_script :
  forall E m size c n x rest outs s',
    s_vars x <= 256 ->
    (forall t y, E_scripts E t = Some y -> written y) ->
    (forall i y, In i (InScript n x :: rest) -> In y (input_script i) -> written y) ->
    polite true (InScript n x :: rest) outs ->
    converse_run E (InScript n x :: rest) (initial m size c) = Some (outs, s') -> In None outs ->
    let log := g_log (log_of E (InScript n x :: rest) (initial m size c)) in
    (exists se, actions (events_of outs) = flat_map (actions_of E) log ++ deliver E (pending E log) se) /\
    match pending E log with
    | None => dispositions (events_of outs) = []
    | Some _ => exists l e, actions (events_of outs) = l ++ [e] /\ is_disposition e = true /\ dispositions l = []
    end /\
    (Forall (leaves_keep E) log -> exists l flags id, actions (events_of outs) = l ++ [EKeep flags id]).
Proof.
  intros E m size c n x rest outs s' V Sc J P H No log.
  assert (Sc' : forall t y, E_scripts E t = Some y -> jumps_inside y) by (intros t y Y; apply written_jumps, (Sc t y Y)).
  assert (J' : forall i y, In i (InScript n x :: rest) -> In y (input_script i) -> jumps_inside y)
    by (intros i y Y Z; apply written_jumps, (J i y Y Z)).
  assert (M : s_match_vars x <= 63).
  { destruct (J (InScript n x) x) as (K & script & Q); [now left|now left|]. exact (compile_max K script x Q). }
  split; [|split].
  - destruct (C31_completed E m size c n x rest outs s' M V Sc' J' P H No) as (se & _ & A). exists se. exact A.
  - exact (C31_one_disposition E m size c n x rest outs s' M V Sc' J' P H No).
  - exact (C31_implicit_keep E m size c n x rest outs s' M V Sc' J' P H No).
Qed.
Print Assumptions C31_script.

Theorem C17_script_partial :
  forall E m size c inputs outs s',
    (forall t y, E_scripts E t = Some y -> written y) ->
    (forall i y, In i inputs -> In y (input_script i) -> written y) ->
    polite true inputs outs -> converse_run E inputs (initial m size c) = Some (outs, s') ->
    let log := g_log (log_of E inputs (initial m size c)) in
    length (mailed E log) <= E_max_out E /\
    length (filter is_send (events_of outs)) <= E_max_out E +
      length (filter (fun x => match fst x with IxNotify _ _ _ _ _ _ => true | _ => false end) log).
Proof.
  intros E m size c inputs outs s' Sc J. apply C17_out_messages_partial.
  - intros t y Y. apply written_jumps, (Sc t y Y).
  - intros i y Y Z. apply written_jumps, (J i y Y Z).
Qed.
Print Assumptions C17_script_partial.

Definition script4 : String.string :=
  "require [""vacation"", ""variables""]; set ""a"" ""b""; if size :under 10K { vacation ""away""; redirect ""x@y.org""; redirect ""z@y.org""; } else { discard; }".
Example C31_script_case :
  match comp script4 with
  | Compiled x => let inputs := InScript (SPersonal []) x :: InFalse :: repeat InTrue 6 in
      s_vars x = 1 /\
      match converse_run E3 inputs s0 with
      | Some (outs, _) => polite true inputs outs /\ In None outs /\ length (filter is_send (events_of outs)) = 3
      | None => False
      end
  | _ => False
  end.
Proof. vm_compute. repeat split; auto 10. Qed.

(** *** C71 *)

(** With the checks on, an instruction of the compiled script belongs only to extensions
    that a 'require' before it asks for.  Partial: as if the argument ':mailboxid' of
    fileinto belonged to the extension "mailbox". *)
Theorem C71_required_partial :
  forall K script x p i c, C_nocheck K = false -> compile K script = Compiled x ->
    nth_error (s_code x) p = Some i -> In c (extensions_with "mailbox" i) -> required_before (s_code x) p c.
Proof.
  intros K script x p i c N H I C. destruct (compile_guard K script x H) as (R & _ & G). rewrite N in G.
  exact (rg_required R _ p i c G I C).
Qed.
Print Assumptions C71_required_partial.

(** It belongs to "mailboxid", which need not be required. *)
Theorem C71_mailboxid_refuted :
  exists x p i, comp "require [""fileinto"", ""mailbox""]; fileinto :mailboxid ""m1"" ""A"";" = Compiled x /\
    nth_error (s_code x) p = Some i /\ In "mailboxid" (extensions i) /\ ~ required_before (s_code x) p "mailboxid".
Proof.
  eexists _, 1, _. split; [vm_compute; reflexivity|]. split; [reflexivity|]. split; [vm_compute; auto 10|].
  intros (q & l & L & N & C). destruct q as [|q]; [|lia]. cbn in N. injection N as <-. vm_compute in C. destruct C as [C|[C|[]]]; discriminate.
Qed.
Print Assumptions C71_mailboxid_refuted.

(** The strings of a script are not covered either: references and encoded characters
    are replaced without "variables" and "encoded-character". *)
Theorem C71_strings_refuted :
  go "require ""fileinto""; fileinto ""${envelope.from}-${hex:41}"";" [InTrue] =
    go "require [""fileinto"", ""variables"", ""encoded-character""]; fileinto ""${envelope.from}-${hex:41}"";" [InTrue] /\
  go "require ""fileinto""; fileinto ""${envelope.from}-${hex:41}"";" [InTrue] =
    Some [ev (EFileInto (lit "ann@b.org-A") [] None None false 0); None].
Proof. vm_compute. split; reflexivity. Qed.
Print Assumptions C71_strings_refuted.

Definition script5 : String.string :=
  "require [""fileinto"", ""ihave""]; if ihave ""reject"" { require [""reject"", ""copy""]; fileinto :copy ""A""; reject ""no""; } else { keep; }".
Example C71_case :
  (exists x, comp script5 = Compiled x /\ length (s_code x) = 8 /\
     nth_error (s_code x) 5 = Some (IxReject false (str "no")) /\ extensions_with "mailbox" (IxReject false (str "no")) = ["reject"]) /\
  comp "require ""ihave""; if ihave ""fileinto"" { fileinto ""A""; }" = Parse.Rejected /\
  comp "require ""fileinto""; if true { require ""copy""; } fileinto :copy ""A"";" = Parse.Rejected.
Proof. vm_compute. split; [|split; reflexivity]. eexists. repeat split. Qed.

(** *** C72 *)

(** Whatever the host answers, an instruction is executed only if the runtime allows the
    extensions it belongs to, in every script of the run, provided the scripts were
    compiled with the checks on.  Partial: ':mailboxid' as in C71. *)
Theorem C72_executed_partial :
  forall E m size c inputs,
    (forall t y, E_scripts E t = Some y -> checked y) ->
    (forall i y, In i inputs -> In y (input_script i) -> checked y) ->
    forall i s x, In (i, s) (g_log (log_of E inputs (initial m size c))) -> In x (extensions_with "mailbox" i) -> allows E x.
Proof.
  intros E m size c inputs Sc J i s x I X.
  assert (G : forall y, checked y -> ParseGuard6.good y).
  { intros y (K & script & N & H). destruct (compile_guard K script y H) as (R & _ & G). rewrite N in G. now exists R. }
  assert (F : Forall (fine E) (g_log (log_of E inputs (initial m size c)))).
  { apply conversation_granted; [intros t y Y; exact (G y (Sc t y Y))| |intros k y Y Z; exact (G y (J k y Y Z))].
    constructor; cbn; auto. intros n y []. }
  exact (proj1 (Forall_forall _ _) F (i, s) I x X).
Qed.
Print Assumptions C72_executed_partial.
(** So for the events the host sees: there is, for example, no event that rejects the
    message or files it unless the runtime allows it. *)
Theorem C72_events_partial :
  forall E m size c inputs outs s',
    (forall t y, E_scripts E t = Some y -> checked y) ->
    (forall i y, In i inputs -> In y (input_script i) -> checked y) ->
    polite true inputs outs -> converse_run E inputs (initial m size c) = Some (outs, s') ->
    forall e l, In e (events_of outs) -> In l (event_needs e) -> exists x, In x l /\ allows E x.
Proof.
  intros E m size c inputs outs s' Sc J P H e l Ie Il.
  assert (F : Forall (fun x => fine_for E (fst x)) (g_log (log_of E inputs (initial m size c)))).
  { apply Forall_forall. intros [i s] I x X. exact (C72_executed_partial E m size c inputs Sc J i s x I X). }
  exact (proj1 (Forall_forall _ _) (events_meet E m size c inputs outs s' P H F e Ie) l Il).
Qed.
Print Assumptions C72_events_partial.

(** The runtime E3 without the extension "reject". *)
Definition without (c : String.string) (E : renv) : renv :=
  {| E_L := E_L E; E_rx := E_rx E; E_M := E_M E; E_A := E_A E; E_utf8 := E_utf8 E;
     E_caps := filter (fun d => negb (cap_eqb (cap c) d)) (E_caps E);
     E_uris := E_uris E; E_lists := E_lists E; E_protected := E_protected E;
     E_metadata := E_metadata E; E_scripts := E_scripts E; E_fns := E_fns E;
     E_max_includes := E_max_includes E; E_cpu := E_cpu E; E_max_var := E_max_var E; E_max_redirects := E_max_redirects E;
     E_timestamp := E_timestamp E; E_max_received := E_max_received E; E_max_header := E_max_header E; E_max_out := E_max_out E;
     E_vac_expiry := E_vac_expiry E; E_dup_expiry := E_dup_expiry E;
     E_vac_orcpt := E_vac_orcpt E; E_vac_subject := E_vac_subject E; E_vac_prefix := E_vac_prefix E; E_user := E_user E; E_name := E_name E;
     E_spam := E_spam E; E_virus := E_virus E; E_msgvar := E_msgvar E;
     E_bytes := E_bytes E; E_body := E_body E; E_h2t := E_h2t E; E_t2h := E_t2h E;
     E_psize := E_psize E; E_subject := E_subject E; E_raw_subject := E_raw_subject E; E_msg_id := E_msg_id E; E_header_id := E_header_id E;
     E_addrs := E_addrs E; E_raw := E_raw E; E_has_addr := E_has_addr E;
     E_now := E_now E; E_date := E_date E; E_new_id := E_new_id E; E_boundary := E_boundary E |}.
Definition go_in (E : renv) (s : String.string) (answers : list input) : option (list (option out)) :=
  match comp s with
  | Compiled x => option_map fst (converse_run E (InScript (SPersonal []) x :: answers) s0)
  | _ => None
  end.
Example C72_case :
  go_in E3 script5 [InTrue; InTrue; InTrue] =
    Some [ev (EFileInto (lit "A") [] None None false 0); ev (EReject false (lit "no")); None; None] /\
  go_in (without "reject" E3) script5 [InTrue; InTrue; InTrue] = Some [ev (EKeep [] 0); None; None; None] /\
  go_in (without "copy" E3) script5 [InTrue; InTrue; InTrue] =
    Some [Some (OError (ErNotAllowed (cap "copy"))); ev (EKeep [] 0); None; None] /\
  event_needs (EReject false (lit "no")) = [["reject"]].
Proof. vm_compute. repeat split; reflexivity. Qed.
(** Scripts that were compiled without the checks are not held back. *)
Definition K2 : cenv := {| C_L := C_L K1; C_M := C_M K1; C_dec := C_dec K1; C_regex := C_regex K1; C_fns := C_fns K1;
  C_umax := C_umax K1; C_lim := C_lim K1; C_string := C_string K1; C_name := C_name K1;
  C_hsize := C_hsize K1; C_script := C_script K1; C_nocheck := true |}.
Example C72_checks_needed :
  match compile K2 (lit "reject ""no"";") with
  | Compiled x => option_map fst (converse_run (without "reject" E3) [InScript (SPersonal []) x] s0) = Some [ev (EReject false (lit "no"))]
  | _ => False
  end.
Proof. vm_compute. reflexivity. Qed.
