(** Properties of whole runs: C16, C17, C18, C31-C38. *)
From Coq Require Import Lia.
From Verif Require Import Base Lib Address Var Value SetVar Flags Comparator Message EditHeader Expr Event
  Notify Vacation Spam AddrTest Mime Sieve Run RunSpec RunProofs RunProofs2 RunProofs3 RunProofs4 RunProofs5
  RunProofs6 RunProofs7 RunProofs8 RunProofs9 PropertiesCompare PropertiesMessage PropertiesNotify PropertiesVacation
  PropertiesAddrTest.

(** *** A concrete runtime for the examples *)
Definition env0 (includes cpu redirects out : nat) (scripts : text -> option sieve) : renv :=
  {| E_L := ascii_lib; E_rx := no_rx; E_M := any_name; E_A := toy_ap; E_utf8 := ascii_dec;
     E_caps := [CapKnown 1; CapKnown 2; CapVariables]; E_uris := [lit "mailto"]; E_lists := []; E_protected := [lit "Received"];
     E_metadata := []; E_scripts := scripts; E_fns := fun _ _ => None;
     E_max_includes := includes; E_cpu := cpu; E_max_var := 1000; E_max_redirects := redirects;
     E_timestamp := fun _ => 0%Z; E_max_received := 10; E_max_header := 100; E_max_out := out; E_vac_expiry := 100%N; E_dup_expiry := 50%N;
     E_vac_orcpt := false; E_vac_subject := lit "Away"; E_vac_prefix := lit "Auto: "; E_user := lit "me@my.org"; E_name := [];
     E_spam := SpUnknown; E_virus := ViUnknown; E_msgvar := fun _ _ _ => None;
     E_bytes := fun m => lit "M"; E_body := fun _ _ => None; E_h2t := fun t => t; E_t2h := fun t => t;
     E_psize := fun _ => 0; E_subject := fun _ => None; E_raw_subject := fun _ => None; E_msg_id := fun _ => Some (lit "id1"); E_header_id := fun _ => None;
     E_addrs := vaddrs; E_raw := fun _ => None; E_has_addr := fun _ _ => false;
     E_now := fun _ => toy_dt; E_date := fun _ => lit "D"; E_new_id := fun _ => lit "I"; E_boundary := fun _ => lit "B" |}.
Definition no_scripts (_ : text) : option sieve := None.
Definition E1 := env0 3 100 2 5 no_scripts.
Definition vars0 : vctx :=
  {| c_local := []; c_match := []; c_global := []; c_env := []; c_rtenv := []; c_envelope := [(EnvFrom, VStr (lit "ann@b.org")); (EnvTo, VStr (lit "me@my.org"))];
     c_message := fun _ => None |}.
Definition msg0 : list part := [Part [hd "Received" "a"; hd "To" "me@my.org"; hd "Subject" "hi"] None (BText (lit "hello"))].
Definition script (l : list instruction) : sieve := {| s_code := l; s_vars := 0; s_match_vars := 0 |}.
Definition main (l : list instruction) : input := InScript (SPersonal []) (script l).
Definition s0 : rst := initial msg0 100 vars0.
Definition talk (E : renv) (l : list instruction) (answers : list input) : option (list (option out)) :=
  option_map fst (converse_run E (main l :: answers) s0).
Definition str (t : string) : value := XText (lit t).
Definition fileinto (t : string) (copy : bool) : instruction := IxFileInto (str t) [] None None copy false.
Definition redirect (t : string) (copy : bool) : instruction := IxRedirect (str t) copy false (DsnDefault, RetDefault, ByNone).
Definition ev (e : event) : option out := Some (OEvent e).

(** *** C31 *)

(** At every moment of a run the actions the host has been given, together with
    those waiting to be handed out, are exactly the actions of the executed
    instructions in order, followed by the pending disposition once the script has
    ended (normally, by [stop] or by an error). *)
Theorem C31_accounting :
  forall E m size c inputs outs s',
    polite true inputs outs ->
    converse_run E inputs (initial m size c) = Some (outs, s') ->
    let g := log_of E inputs (initial m size c) in
    (g_end g = [] /\ actions (events_of outs ++ r_queue s') = flat_map (actions_of E) (g_log g)) \/
    (exists se, g_end g = [se] /\ actions (events_of outs ++ r_queue s') =
       flat_map (actions_of E) (g_log g) ++ deliver E (pending E (g_log g)) se).
Proof. exact accounting. Qed.
Print Assumptions C31_accounting.

(** A run driven until it reports completion: what the host was given is the
    actions of the executed instructions followed by the pending disposition. *)
Theorem C31_completed :
  forall E m size c n x rest outs s',
    s_match_vars x <= 63 -> s_vars x <= 256 ->
    (forall t y, E_scripts E t = Some y -> jumps_inside y) ->
    (forall i y, In i (InScript n x :: rest) -> In y (input_script i) -> jumps_inside y) ->
    polite true (InScript n x :: rest) outs ->
    converse_run E (InScript n x :: rest) (initial m size c) = Some (outs, s') -> In None outs ->
    let g := log_of E (InScript n x :: rest) (initial m size c) in
    exists se, g_end g = [se] /\
      actions (events_of outs) = flat_map (actions_of E) (g_log g) ++ deliver E (pending E (g_log g)) se.
Proof. exact completed. Qed.
Print Assumptions C31_completed.

(** Exactly one keep or discard, and it is the last action, unless the disposition
    was cancelled, and then there is none. *)
Theorem C31_one_disposition :
  forall E m size c n x rest outs s',
    s_match_vars x <= 63 -> s_vars x <= 256 ->
    (forall t y, E_scripts E t = Some y -> jumps_inside y) ->
    (forall i y, In i (InScript n x :: rest) -> In y (input_script i) -> jumps_inside y) ->
    polite true (InScript n x :: rest) outs ->
    converse_run E (InScript n x :: rest) (initial m size c) = Some (outs, s') -> In None outs ->
    match pending E (g_log (log_of E (InScript n x :: rest) (initial m size c))) with
    | None => dispositions (events_of outs) = []
    | Some _ => exists l e, actions (events_of outs) = l ++ [e] /\ is_disposition e = true /\ dispositions l = []
    end.
Proof.
  intros E m size c n x rest outs s' M V Sc J P H No.
  destruct (completed E m size c n x rest outs s' M V Sc J P H No) as (se & _ & A).
  pose proof (one_disposition E (g_log (log_of E (InScript n x :: rest) (initial m size c))) se) as O. cbv zeta in O.
  rewrite <- A in O. destruct (pending _ _); [exact O|]. now rewrite dispositions_actions in O.
Qed.
Print Assumptions C31_one_disposition.

(** The implicit keep is delivered if no executed instruction was a keep, a discard,
    a reject, a fileinto without ':copy', or a redirect without ':copy' that sent
    its message. *)
Theorem C31_implicit_keep :
  forall E m size c n x rest outs s',
    s_match_vars x <= 63 -> s_vars x <= 256 ->
    (forall t y, E_scripts E t = Some y -> jumps_inside y) ->
    (forall i y, In i (InScript n x :: rest) -> In y (input_script i) -> jumps_inside y) ->
    polite true (InScript n x :: rest) outs ->
    converse_run E (InScript n x :: rest) (initial m size c) = Some (outs, s') -> In None outs ->
    Forall (leaves_keep E) (g_log (log_of E (InScript n x :: rest) (initial m size c))) ->
    exists l flags id, actions (events_of outs) = l ++ [EKeep flags id].
Proof.
  intros E m size c n x rest outs s' M V Sc J P H No K.
  destruct (completed E m size c n x rest outs s' M V Sc J P H No) as (se & _ & A).
  unfold pending in A. rewrite (implicit E _ implicit_keep I K) in A. rewrite A. cbn [implicit_keep deliver].
  destruct (ms_changed _); [rewrite app_assoc|]; eexists _, _, _; reflexivity.
Qed.
Print Assumptions C31_implicit_keep.

(** After a runtime error the pending disposition is still delivered: it has been
    handed out or is waiting in the queue. *)
Theorem C31_after_errors :
  forall E m size c inputs outs s' e,
    polite true inputs outs ->
    converse_run E inputs (initial m size c) = Some (outs, s') -> In (Some (OError e)) outs ->
    let g := log_of E inputs (initial m size c) in
    exists se, actions (events_of outs ++ r_queue s') =
       flat_map (actions_of E) (g_log g) ++ deliver E (pending E (g_log g)) se.
Proof.
  intros E m size c inputs outs s' e P H I g.
  pose proof (conversation_error E _ _ _ _ e H I) as N. fold g in N.
  destruct (accounting E m size c inputs outs s' P H) as [[A _] | (se & _ & A)]; [contradiction|]. exists se. exact A.
Qed.
Print Assumptions C31_after_errors.

Example C31_cases :
  talk E1 [fileinto "A" true; redirect "x@y.org" true] [InTrue; InTrue; InTrue; InTrue] =
    Some [ev (EFileInto (lit "A") [] None None false 0); ev (ESend (RAddress (lit "x@y.org")) (DsnDefault, RetDefault, ByNone) 0); ev (EKeep [] 0); None; None] /\
  talk E1 [fileinto "A" false; redirect "bad" false] [InTrue; InTrue] =
    Some [ev (EFileInto (lit "A") [] None None false 0); None; None] /\
  talk E1 [IxDiscard; IxError (str "oops"); IxKeep []] [InTrue; InTrue] =
    Some [Some (OError (ErScript (lit "oops"))); ev EDiscard; None] /\
  talk E1 [IxAddHeader (str "X-A") (str "1") false; fileinto "A" true; IxStop; IxDiscard] [InTrue; InTrue; InTrue; InTrue] =
    Some [ev (ECreated 1 (lit "M")); ev (EFileInto (lit "A") [] None None false 1); ev (EKeep [] 0); None; None].
Proof. vm_compute. repeat split. Qed.
(** The hypotheses of the theorems hold of these runs. *)
Example C31_case_hypotheses :
  let l := [IxAddHeader (str "X-A") (str "1") false; fileinto "A" true; IxJmp 4; IxDiscard] in
  let inputs := [main l; InTrue; InTrue; InTrue; InTrue] in
  (forall i y, In i inputs -> In y (input_script i) -> jumps_inside y) /\
  exists outs s', converse_run E1 inputs s0 = Some (outs, s') /\ polite true inputs outs /\ In None outs /\
    Forall (leaves_keep E1) (g_log (log_of E1 inputs s0)) /\ length (g_log (log_of E1 inputs s0)) = 3.
Proof.
  intros l inputs. split.
  - intros i y [<-|[<-|[<-|[<-|[<-|[]]]]]]; cbn; try tauto. intros [<-|[]] k p Hk Hp. cbn in Hk |- *.
    repeat (destruct Hk as [<-|Hk]; [cbn in Hp; try tauto; destruct Hp as [<-|[]]; lia|]). destruct Hk.
  - eexists _, _. split; [vm_compute; reflexivity|]. split; [cbn; tauto|]. split; [cbn; tauto|].
    assert (Lk : forallb (fun x => match fst x with IxAddHeader _ _ _ | IxFileInto _ _ _ _ true _ | IxJmp _ => true | _ => false end)
                  (g_log (log_of E1 inputs s0)) = true) by (vm_compute; reflexivity).
    split; [|vm_compute; reflexivity]. rewrite forallb_forall in Lk. apply Forall_forall. intros [i s] Hi. specialize (Lk _ Hi).
    cbn in Lk |- *. destruct i; auto; try discriminate. now destruct copy.
Qed.

(** A script the runtime refuses (too many variables: the compiler accepts such
    scripts, see C30) leaves the host without a disposition: the first call already
    reports completion. *)
Theorem C31_oversized_refuted :
  exists x, jumps_inside x /\ s_code x = [IxKeep []] /\
    forall E m size c, converse_run E [InScript (SPersonal []) x] (initial m size c) = Some ([None], initial m size c).
Proof.
  exists {| s_code := [IxKeep []]; s_vars := 257; s_match_vars := 0 |}. split; [intros i p [<-|[]] []|].
  split; [reflexivity|]. intros E m size c. reflexivity.
Qed.
Print Assumptions C31_oversized_refuted.

(** *** C32 *)

(** A run executes at most [cpu_limit] instructions however the host answers, and a
    call always returns (the turns computed by [enough] suffice, so [RFuel] never
    happens). *)
Theorem C32_budget :
  forall E m size c inputs, length (g_log (log_of E inputs (initial m size c))) <= E_cpu E.
Proof. intros. pose proof (log_budget E inputs (initial m size c)) as H. cbn [initial r_instrs] in H. lia. Qed.
Print Assumptions C32_budget.
Theorem C32_every_call_returns : forall E inp s, run E inp s <> RFuel.
Proof. exact run_fuel. Qed.
Print Assumptions C32_every_call_returns.
(** Exceeding the limit gives an error (and then, by [C31_after_errors], the pending
    disposition). *)
Theorem C32_over_budget :
  forall E inp s i, (forall n x, inp <> InScript n x) -> r_queue s = [] -> next_instr s = Some i ->
    E_cpu E <= r_instrs s -> exists s', run E inp s = RRet s' (Some (OError ErCpu)).
Proof. exact over_budget. Qed.
Print Assumptions C32_over_budget.
Example C32_case :
  talk E1 [IxJmp 0] [InTrue; InFalse] = Some [Some (OError ErCpu); ev (EKeep [] 0); None] /\
  length (g_log (log_of E1 [main [IxJmp 0]; InTrue] s0)) = 100.
Proof. vm_compute. split; reflexivity. Qed.

(** *** C33 *)
Theorem C33_message_ids :
  forall E m size c inputs outs s', converse_run E inputs (initial m size c) = Some (outs, s') ->
    ids_ok 0 (events_of outs ++ r_queue s').
Proof.
  intros E m size c inputs outs s' H.
  refine (conversation_ids E inputs (initial m size c) outs s' 0 _ I eq_refl H). cbn. repeat split; auto.
Qed.
Print Assumptions C33_message_ids.
Example C33_case :
  talk E1 [IxAddHeader (str "X-A") (str "1") false; fileinto "A" true; redirect "x@y.org" true;
           IxAddHeader (str "X-A") (str "2") false; IxKeep []]
    [InTrue; InTrue; InTrue; InTrue; InTrue] =
    Some [ev (ECreated 1 (lit "M")); ev (EFileInto (lit "A") [] None None false 1); ev (ESend (RAddress (lit "x@y.org")) (DsnDefault, RetDefault, ByNone) 1);
          ev (ECreated 2 (lit "M")); ev (EKeep [] 2); None].
Proof. vm_compute. reflexivity. Qed.

(** *** C16 *)
(** At most [max_redirects] redirects are carried out, each with fewer than
    [max_out_messages] messages sent and fewer than [max_received_headers] Received
    headers; and a run without vacation and notify sends at most [max_redirects]
    messages. *)
Theorem C16_redirects :
  forall E m size c inputs outs s', converse_run E inputs (initial m size c) = Some (outs, s') ->
    length (redirects_in E (g_log (log_of E inputs (initial m size c)))) <= E_max_redirects E.
Proof.
  intros E m size c inputs outs s' H. destruct (conversation_redirects E _ _ _ _ H) as [A B].
  cbn [initial r_redirects] in *. unfold rcount in *. lia.
Qed.
Print Assumptions C16_redirects.
Theorem C16_messages :
  forall E m size c inputs outs s', polite true inputs outs ->
    converse_run E inputs (initial m size c) = Some (outs, s') ->
    let log := g_log (log_of E inputs (initial m size c)) in
    length (filter is_send (events_of outs)) <=
    E_max_redirects E +
    length (filter (fun x => match fst x with IxVacation _ _ _ _ _ | IxNotify _ _ _ _ _ _ => true | _ => false end) log).
Proof.
  intros E m size c inputs outs s' P H log.
  pose proof (conversation_sends E inputs (initial m size c) true outs s' I eq_refl) as S. cbn [initial r_redirects] in S.
  specialize (S (Nat.le_0_l _) P H). unfold sends, mails in S. fold log in S. lia.
Qed.
Print Assumptions C16_messages.
Theorem C16_only_within_limits :
  forall E a copy l o s r opts id,
    In (ESend r opts id) (actions_of E (IxRedirect a copy l o, s)) ->
    r_redirects s < E_max_redirects E /\ r_out s < E_max_out E /\
    (exists root rest, parts s = root :: rest /\
       length (filter (fun h => hn_eqb (h_name h) (lit "Received")) (p_headers root)) < E_max_received E) /\
    (exists t, sanitize_address (tx E s a) = Some t /\ (l = true \/ teqb_ic t (E_user E) = false) /\
               r = if l then RList t else RAddress t).
Proof.
  intros E a copy l o s r opts id. cbn [actions_of]. destruct (redirect_target E s a l) as [t|] eqn:T; [|intros []].
  intros I. apply in_app_or in I. destruct I as [I|[I|[]]].
  { unfold announce in I. destruct (ms_changed _); [destruct I as [I|[]]; discriminate | destruct I]. }
  injection I as <- _ _. unfold redirect_target in T.
  destruct (sanitize_address (tx E s a)) as [t0|]; [|discriminate]. destruct (parts s) as [|root rest]; [discriminate|].
  destruct (Nat.ltb (r_redirects s) (E_max_redirects E)) eqn:L1; [|discriminate].
  destruct (Nat.ltb (r_out s) (E_max_out E)) eqn:L2; [|discriminate].
  destruct (Nat.ltb (received_count root) (E_max_received E)) eqn:L3; [|discriminate].
  destruct (l || negb (teqb_ic t0 (E_user E))) eqn:L4; [|discriminate]. cbn in T. injection T as ->.
  apply Nat.ltb_lt in L1, L2, L3. repeat split; auto. { exists root, rest. auto. }
  exists t. repeat split. apply orb_prop in L4 as [L4|L4]; [now left | right; now apply negb_true_iff in L4].
Qed.
Print Assumptions C16_only_within_limits.
Example C16_case :
  talk E1 [redirect "x@y.org" false; redirect "ME@my.org" false; redirect "z@y.org" false; redirect "w@y.org" false] [InTrue; InTrue; InTrue] =
    Some [ev (ESend (RAddress (lit "x@y.org")) (DsnDefault, RetDefault, ByNone) 0); ev (ESend (RAddress (lit "z@y.org")) (DsnDefault, RetDefault, ByNone) 0); None; None].
Proof. vm_compute. reflexivity. Qed.

(** *** C18 *)
(** A redirect without ':copy' cancels a pending keep if and only if its message is
    sent; a refused one changes neither the disposition nor the counters nor the
    message. *)
Theorem C18_redirect_keep :
  forall E a copy l o s s', forallb (fun e => match e with ESetEnvelope _ _ => true | _ => false end) (r_queue s) = true ->
    state_of (exec_instr E (IxRedirect a copy l o) s) = Some s' ->
    let sent := existsb is_send (shown (exec_instr E (IxRedirect a copy l o) s)) in
    (sent = true <-> redirect_target E s a l <> None) /\
    r_final s' = (if sent && negb copy then match r_final s with Some (EKeep _ _) => None | d => d end else r_final s) /\
    (sent = false -> r_msg s' = r_msg s /\ r_out s' = r_out s /\ r_redirects s' = r_redirects s).
Proof. exact redirect_effect. Qed.
Print Assumptions C18_redirect_keep.
Example C18_case :
  let r a := exec_instr E1 (IxRedirect (str a) false false (DsnDefault, RetDefault, ByNone)) s0 in
  option_map r_final (state_of (r "x@y.org"%string)) = Some None /\ existsb is_send (shown (r "x@y.org"%string)) = true /\
  option_map r_final (state_of (r "me@my.org"%string)) = Some (Some (EKeep [] 0)) /\ existsb is_send (shown (r "me@my.org"%string)) = false.
Proof. vm_compute. repeat split. Qed.

(** *** C17 *)
(** Redirects and vacation replies together stay within [max_out_messages], and so
    do all messages of a run that executes no notify.  The scripts have the shape
    the compiler gives to vacation (test, jump, action). *)
Theorem C17_out_messages_partial :
  forall E m size c inputs outs s',
    (forall t x, E_scripts E t = Some x -> guarded x) ->
    (forall i x, In i inputs -> In x (input_script i) -> guarded x) ->
    polite true inputs outs -> converse_run E inputs (initial m size c) = Some (outs, s') ->
    let log := g_log (log_of E inputs (initial m size c)) in
    length (mailed E log) <= E_max_out E /\
    length (filter is_send (events_of outs)) <= E_max_out E +
      length (filter (fun x => match fst x with IxNotify _ _ _ _ _ _ => true | _ => false end) log).
Proof. exact mailed_bound. Qed.
Print Assumptions C17_out_messages_partial.
Definition vacation : list instruction := 
  [IxTest (TeVacation [] None (str "away") PDefault); IxJz 3; IxVacation None None false None (str "away")].
Definition E2 := env0 3 100 10 1 no_scripts.
Example C17_case :
  guarded (script vacation) /\
  option_map (fun o => length (filter is_send (events_of o)))
    (talk E2 (vacation ++ [redirect "x@y.org" false]) [InFalse; InTrue; InTrue; InTrue; InTrue]) = Some 1 /\
  option_map (fun o => length (filter is_send (events_of o)))
    (talk E2 [redirect "x@y.org" false; redirect "z@y.org" false] [InFalse; InTrue; InTrue; InTrue; InTrue]) = Some 1.
Proof.
  split; [|vm_compute; split; reflexivity]. intros p i N V.
  destruct p as [|[|[|[|p]]]]; cbn in N; try discriminate; injection N as <-; try discriminate V.
  exists 0. eexists. repeat split; try reflexivity; cbn in H;
    repeat (destruct H as [<-|H]; [cbn in H0; try tauto; destruct H0 as [<-|[]]; discriminate|]); destruct H.
Qed.
(** Notifications by mail are not counted, so they are not bounded. *)
Definition note := IxNotify (str "mailto:a@b.org") None None [] None None.
Theorem C17_out_messages_refuted :
  let inputs := main [note; note; note] :: repeat InTrue 8 in
  exists outs s', converse_run E2 inputs s0 = Some (outs, s') /\ polite true inputs outs /\
    E_max_out E2 = 1 /\ length (filter is_send (events_of outs)) = 3.
Proof. eexists _, _. split; [vm_compute; reflexivity|]. split; [cbn; tauto|]. split; reflexivity. Qed.
Print Assumptions C17_out_messages_refuted.

(** *** C34 *)
(** Never more than [max_nested_includes] scripts are active (a limit of 0 counts
    as 1: the main script is active). *)
Theorem C34_include_depth :
  forall E m size c inputs outs s', polite true inputs outs ->
    converse_run E inputs (initial m size c) = Some (outs, s') ->
    Forall (fun x => length (r_stack (snd x)) <= Nat.max 1 (E_max_includes E)) (g_log (log_of E inputs (initial m size c))) /\
    length (r_stack s') <= Nat.max 1 (E_max_includes E).
Proof.
  intros E m size c inputs outs s' P H.
  apply (conversation_depth E inputs (initial m size c) true outs s'); auto; cbn [initial r_stack length]; unfold limit; try lia; exact I.
Qed.
Print Assumptions C34_include_depth.
(** A script that includes itself, from the cache: the error of the third level. *)
Example C34_case :
  option_map fst (converse_run E1 [InScript (SPersonal (lit "a")) (script [fileinto "A" true; IxInclude (str "a") false false false]);
                                   InTrue; InTrue; InTrue; InTrue; InTrue; InTrue; InTrue] s0) =
    Some [ev (EFileInto (lit "A") [] None None false 0); ev (EFileInto (lit "A") [] None None false 0); ev (EFileInto (lit "A") [] None None false 0);
          Some (OError ErIncludes); ev (EKeep [] 0); None; None; None].
Proof. vm_compute. reflexivity. Qed.

(** *** C35 *)
(** From the moment a script is entered to the moment it is left, whatever it does
    and however the host answers, the caller's frame is untouched; when it is left
    the caller continues where it was, with its local and match variables. *)
Theorem C35_caller_undisturbed :
  forall E x s0 s1 s2 s3, 
    s1 = push_frame x s0 -> deeper E (length (r_stack s0)) s1 s2 -> next E s2 s3 -> length (r_stack s3) = length (r_stack s0) ->
    r_stack s3 = r_stack s0 /\ r_pos s3 = r_pos s0 /\
    c_local (r_vars s3) = c_local (r_vars s0) /\ c_match (r_vars s3) = c_match (r_vars s0).
Proof.
  intros E x a s1 s2 s3 -> D N L. exact (included E a (push_frame x a) s2 s3 _ (push_stack x a) D N L).
Qed.
Print Assumptions C35_caller_undisturbed.
Definition set0 (t : string) : instruction := IxSet [] (TLocal 0) (str t).
Definition lib1 (l : list instruction) (t : text) : option sieve :=
  if teqb t (lit "a") then Some {| s_code := l; s_vars := 2; s_match_vars := 1 |} else None.
Example C35_case :
  (* the included script assigns its own variable of the same slot *)
  let E := env0 3 100 2 5 (lib1 [set0 "inner"; IxFileInto (XVariable (TLocal 0)) [] None None true false]) in
  let x := {| s_code := [set0 "outer"; IxInclude (str "a") false false false; IxFileInto (XVariable (TLocal 0)) [] None None true false];
              s_vars := 1; s_match_vars := 0 |} in
  option_map fst (converse_run E [InScript (SPersonal []) x; InTrue; InTrue; InTrue] s0) =
  Some [ev (EFileInto (lit "inner") [] None None false 0); ev (EFileInto (lit "outer") [] None None false 0); ev (EKeep [] 0); None].
Proof. vm_compute. reflexivity. Qed.
Example C35_case_hypotheses :
  exists a s1 s2 s3, r_stack a <> [] /\ s1 = push_frame (script [IxDiscard]) a /\
    deeper E1 (length (r_stack a)) s1 s2 /\ s1 <> s2 /\ next E1 s2 s3 /\ length (r_stack s3) = length (r_stack a).
Proof.
  set (a := feed (main [IxKeep []]) s0). set (s1 := push_frame (script [IxDiscard]) a).
  assert (St : exists s2, step E1 s1 = SCont s2) by (eexists; vm_compute; reflexivity). destruct St as [s2 St].
  assert (Po : exists s3, step E1 s2 = SCont s3).
  { assert (s2 = match step E1 s1 with SCont s => s | _ => s1 end) as -> by now rewrite St. eexists. vm_compute. reflexivity. }
  destruct Po as [s3 Po]. exists a, s1, s2, s3. split; [discriminate|]. split; [reflexivity|].
  assert (E2 : s2 = match step E1 s1 with SCont s => s | _ => s1 end) by now rewrite St.
  assert (E3 : s3 = match step E1 s2 with SCont s => s | _ => s1 end) by now rewrite Po.
  split; [|split; [|split]].
  - eapply deeper_next; [apply deeper_refl | apply next_step; exact St | rewrite E2; vm_compute; constructor].
  - rewrite E2. intros X. apply (f_equal r_pos) in X. vm_compute in X. discriminate.
  - apply next_step. exact Po.
  - rewrite E3, E2. vm_compute. reflexivity.
Qed.

(** *** C36 *)
(** An 'include :once' of a script the host has supplied earlier in this run (the
    main script included) does nothing. *)
Theorem C36_include_once_partial :
  forall E n x rest s name global opt s1,
    match r_final s with None | Some (EKeep _ _) | Some EDiscard => True | _ => False end ->
    s_match_vars x <= 63 -> s_vars x <= 256 ->
    In (IxInclude name global true opt, s1) (g_log (log_of E (InScript n x :: rest) s)) ->
    n = (if global then SGlobal (tx E s1 name) else SPersonal (tx E s1 name)) ->
    exec_instr E (IxInclude name global true opt) s1 = SCont s1.
Proof. exact supplied_once. Qed.
Print Assumptions C36_include_once_partial.
Example C36_case :
  talk E1 [IxInclude (str "a") false true false; IxInclude (str "a") false true false; fileinto "M" true]
    [InScript (SPersonal (lit "a")) (script [fileinto "A" true]); InTrue; InTrue; InTrue] =
  Some [ev (EInclude (SPersonal (lit "a")) false); ev (EFileInto (lit "A") [] None None false 0);
        ev (EFileInto (lit "M") [] None None false 0); ev (EKeep [] 0); None].
Proof. vm_compute. reflexivity. Qed.
(** Scripts registered with the runtime are run again each time. *)
Theorem C36_include_once_refuted :
  talk (env0 3 100 2 5 (lib1 [fileinto "A" true]))
    [IxInclude (str "a") false true false; IxInclude (str "a") false true false] [InTrue; InTrue; InTrue] =
  Some [ev (EFileInto (lit "A") [] None None false 0); ev (EFileInto (lit "A") [] None None false 0); ev (EKeep [] 0); None].
Proof. vm_compute. reflexivity. Qed.
Print Assumptions C36_include_once_refuted.

(** *** C37 *)
(** 'require' goes on only if every capability is allowed; otherwise the error names
    the first one that is not. *)
Theorem C37_require :
  forall E caps s,
    match exec_instr E (IxRequire caps) s with
    | SCont s' => s' = s /\ forall c, In c caps -> existsb (cap_eqb c) (E_caps E) = true
    | SYield _ (OError e) => exists before c after, caps = before ++ c :: after /\
        (forall b, In b before -> existsb (cap_eqb b) (E_caps E) = true) /\ existsb (cap_eqb c) (E_caps E) = false /\
        e = match c with CapOther n => ErNotSupported n | c => ErNotAllowed c end
    | _ => False
    end.
Proof. exact require_error. Qed.
Print Assumptions C37_require.
(** Nothing is executed after a refused 'require', in this or any other script of
    the run. *)
Theorem C37_nothing_after_refused_require :
  forall E m size c inputs outs s' l1 caps s1 l2 cap,
    polite true inputs outs -> converse_run E inputs (initial m size c) = Some (outs, s') ->
    g_log (log_of E inputs (initial m size c)) = l1 ++ (IxRequire caps, s1) :: l2 ->
    In cap caps -> existsb (cap_eqb cap) (E_caps E) = false -> l2 = [].
Proof.
  intros E m size c inputs outs s' l1 caps s1 l2 cap P H G I A.
  exact (error_last E inputs (initial m size c) true outs s' l1 _ l2 Logic.I P H G (require_errs E caps s1 cap I A)).
Qed.
Print Assumptions C37_nothing_after_refused_require.
Example C37_case :
  talk E1 [IxRequire [CapKnown 1; CapKnown 7]; fileinto "A" true] [InTrue; InTrue] =
    Some [Some (OError (ErNotAllowed (CapKnown 7))); ev (EKeep [] 0); None] /\
  talk E1 [IxRequire [CapKnown 1; CapOther (lit "x")]; fileinto "A" true] [InTrue] =
    Some [Some (OError (ErNotSupported (lit "x"))); ev (EKeep [] 0)] /\
  talk E1 [IxRequire [CapKnown 1; CapVariables]; fileinto "A" true] [] = Some [ev (EFileInto (lit "A") [] None None false 0)].
Proof. vm_compute. repeat split. Qed.

(** *** C38 *)
(** A test that asks the host: whatever the answer, the test result is that answer,
    negated exactly if the test is negated, and the script goes on behind it.
    Partial: see [C38_host_answers_refuted] when an envelope change is waiting. *)
Theorem C38_host_answers_partial :
  forall E t s s1 e b, r_queue s = [] -> exec_instr E (IxTest t) s = SYield s1 (OEvent e) ->
    r_test (feed (answer b) s1) = xorb b (negated t) /\ r_queue s1 = [] /\ r_pos s1 = r_pos s /\ r_stack s1 = r_stack s.
Proof.
  intros E t s s1 e b Q H. destruct (answered E t s s1 e b H) as (A & B & C & D). rewrite Q in B. auto.
Qed.
Print Assumptions C38_host_answers_partial.
(** The questions are: does a list contain a value, was an id seen, do mailboxes
    exist. *)
Theorem C38_questions :
  forall E s t e neg, exec_test E s t = XAsk e neg ->
    neg = negated t /\ match e with EListContains _ _ _ | EDuplicateId _ _ _ | EMailboxExists _ _ => True | _ => False end.
Proof. exact exec_test_question. Qed.
Print Assumptions C38_questions.
Definition ask (neg : bool) := IxTest (TeMailboxExists [str "A"] neg).
Example C38_case :
  let outcome neg b := talk E1 [ask neg; IxJz 3; fileinto "yes" true] [answer b; InTrue] in
  let asked := ev (EMailboxExists [MbName (lit "A")] []) in
  let yes := ev (EFileInto (lit "yes") [] None None false 0) in
  outcome false true = Some [asked; yes; ev (EKeep [] 0)] /\
  outcome false false = Some [asked; ev (EKeep [] 0); None] /\
  outcome true true = Some [asked; ev (EKeep [] 0); None] /\
  outcome true false = Some [asked; yes; ev (EKeep [] 0)].
Proof. vm_compute. repeat split. Qed.
(** An assignment to an envelope variable is reported to the host after the next
    question; the host's acknowledgement of the report turns the answer around:
    the mailbox does not exist, and the script takes the other branch. *)
Theorem C38_host_answers_refuted :
  let l := [IxLet (TEnvelope EnvFrom) [IConst (VStr (lit "x@y.org"))]; ask false; IxJz 4; fileinto "yes" true] in
  talk E1 l [InFalse; InTrue] =
  Some [ev (EMailboxExists [MbName (lit "A")] []); ev (ESetEnvelope EnvFrom (lit "x@y.org"));
        ev (EFileInto (lit "yes") [] None None false 0)].
Proof. vm_compute. reflexivity. Qed.
Print Assumptions C38_host_answers_refuted.

(** *** C57, C58, C59, C60 *)
(** An explicit keep is cancelled by a later fileinto or redirect: in both runs the
    message is not kept. *)
Theorem C57_explicit_keep_refuted :
  talk E1 [IxKeep []; fileinto "A" false] [InTrue; InTrue] = Some [ev (EFileInto (lit "A") [] None None false 0); None; None] /\
  talk E1 [IxKeep []; redirect "x@y.org" false] [InTrue; InTrue] = Some [ev (ESend (RAddress (lit "x@y.org")) (DsnDefault, RetDefault, ByNone) 0); None; None].
Proof. vm_compute. split; reflexivity. Qed.
Print Assumptions C57_explicit_keep_refuted.
(** What does survive: after an explicit keep as last disposition action the message
    is kept, and a keep with flags survives any later fileinto. *)
Theorem C57_explicit_keep_partial :
  forall E log1 flags s log2,
    Forall (fun x => leaves_keep E x \/
              (local_or_global_flags (E_L E) (vw E s) flags <> [] /\ exists a b c d e f, fst x = IxFileInto a b c d e f)) log2 ->
    pending E (log1 ++ (IxKeep flags, s) :: log2) =
    Some (EKeep (local_or_global_flags (E_L E) (vw E s) flags) (current_id s)).
Proof.
  intros E log1 flags s log2 H. unfold pending. rewrite fold_left_app. cbn [fold_left pending_after].
  generalize (current_id s). intros id. induction H as [|[i t] log2 K _ IH]; [reflexivity|]. cbn [fold_left].
  replace (pending_after E _ (i, t)) with (Some (EKeep (local_or_global_flags (E_L E) (vw E s) flags) id)); [exact IH|].
  destruct K as [K | [Ne (a & b & c & d & e & f & K)]].
  - destruct i; try reflexivity; cbn in K |- *; try contradiction.
    + now rewrite K.
    + destruct K as [-> | ->]; [|reflexivity]. destruct (redirect_target _ _ _ _); reflexivity.
  - cbn in K. subst i. cbn. destruct e; [reflexivity|]. now destruct (local_or_global_flags _ _ _).
Qed.
Print Assumptions C57_explicit_keep_partial.

(** The implicit keep delivers the message without the edits if the edited message
    was used by another action before: id 0 is the original message. *)
Theorem C58_keep_edited_refuted :
  talk E1 [IxAddHeader (str "X-A") (str "1") false; fileinto "A" true] [InTrue; InTrue; InTrue] =
  Some [ev (ECreated 1 (lit "M")); ev (EFileInto (lit "A") [] None None false 1); ev (EKeep [] 0); None].
Proof. vm_compute. reflexivity. Qed.
Print Assumptions C58_keep_edited_refuted.
(** What holds: with edits not yet announced when the script ends, the keep delivers
    a new message with the present content; and fileinto and redirect always act on
    the present content. *)
Theorem C58_keep_edited_partial :
  forall E d s, ms_changed (r_msg s) = true ->
    match d with Some (EKeep _ _) => True | _ => False end ->
    exists flags, deliver E d s = [ECreated (r_last s + 1) (E_bytes E (r_msg s)); EKeep flags (r_last s + 1)].
Proof.
  intros E d s C F. destruct d as [[]|]; try contradiction. cbn [deliver]. unfold announce. rewrite C. eexists. reflexivity.
Qed.
Print Assumptions C58_keep_edited_partial.

(** Of two envelope changes only the last is reported. *)
Theorem C59_envelope_reports_refuted :
  let assign_from t := IxLet (TEnvelope EnvFrom) [IConst (VStr (lit t))] in
  let assign_to t := IxLet (TEnvelope EnvTo) [IConst (VStr (lit t))] in
  talk E1 [assign_from "a@b.org"%string; assign_to "c@d.org"%string] [InTrue; InTrue; InTrue] =
    Some [ev (EKeep [] 0); ev (ESetEnvelope EnvTo (lit "c@d.org")); None; None] /\
  talk E1 [assign_from "a@b.org"%string; fileinto "A" false] [InTrue; InTrue; InTrue] =
    Some [ev (EFileInto (lit "A") [] None None false 0); None; None; None].
Proof. vm_compute. split; reflexivity. Qed.
Print Assumptions C59_envelope_reports_refuted.

(** [foreverypart { replace "gone"; }] on a message with several parts: the first
    round deletes every part but the first, the second round indexes a part that is
    gone.  The first round alone is fine. *)
Theorem C60_no_panic_refuted :
  run E1 (main [IxForEveryPartPush; IxForEveryPart 4; IxReplace None None (str "gone") false; IxJmp 1])
    (initial sample 1000 vars0) = RPanic /\
  run E1 (main [IxForEveryPartPush; IxForEveryPart 4; IxReplace None None (str "gone") false; IxStop])
    (initial sample 1000 vars0) <> RPanic.
Proof. split; [vm_compute; reflexivity|]. vm_compute. discriminate. Qed.
Print Assumptions C60_no_panic_refuted.
