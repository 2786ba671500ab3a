(** Specification of whole runs, stated on what the host sees (the outputs of a
    sequence of calls) and on the instructions that were executed. *)
From Verif Require Import Base Lib Address Var Value Flags Comparator Message EditHeader Expr Event
  Notify Vacation Mime Sieve Run.

(** An executed instruction together with the state it was executed in. *)
Definition entry := (instruction * rst)%type.

Section Spec.
  Variable E : renv.

  (** *** The instructions executed in a conversation *)

  (** The instruction the next turn executes, if it is within the budget. *)
  Definition executed (s : rst) : list entry :=
    match next_instr s with
    | Some i => if Nat.leb (r_instrs s + 1) (E_cpu E)
                then [(i, w_pos (r_pos s + 1) (w_instrs (r_instrs s + 1) s))] else []
    | None => []
    end.
  (** A turn after which no script is left: the end of the outermost script, [stop],
      or an error. *)
  Definition ends (s : rst) : option rst :=
    match step E s with
    | SEnd s' => Some s'
    | SYield _ (OError _) => Some s
    | _ => None
    end.
  Record logged := {
    g_log : list entry;           (* what was executed *)
    g_end : list rst              (* states in which the script ended *)
  }.
  Definition join (a b : logged) : logged :=
    {| g_log := g_log a ++ g_log b; g_end := g_end a ++ g_end b |}.
  Definition nothing : logged := {| g_log := []; g_end := [] |}.
  Definition turn (s : rst) : logged :=
    {| g_log := executed s; g_end := match ends s with Some s' => [s'] | None => [] end |}.

  (** The log of one call and of a whole conversation: the turns of the same
      interpreter. *)
  Fixpoint loop_log (fuel : nat) (s : rst) : logged :=
    match fuel with
    | 0 => nothing
    | S f => match step E s with
             | SCont s' => join (turn s) (loop_log f s')
             | _ => turn s
             end
    end.
  Definition run_log (inp : input) (s : rst) : logged :=
    let s := feed inp s in
    match r_queue s, r_stack s with
    | [], _ :: _ => loop_log (enough E s) s
    | _, _ => nothing
    end.
  Fixpoint log_of (inputs : list input) (s : rst) : logged :=
    match inputs with
    | [] => nothing
    | i :: rest => match run E i s with
                   | RRet s' _ => join (run_log i s) (log_of rest s')
                   | _ => run_log i s
                   end
    end.

  (** *** What the host sees *)

  (** The events of a list of outputs. *)
  Definition events_of (outs : list (option out)) : list event :=
    flat_map (fun o => match o with Some (OEvent e) => [e] | _ => [] end) outs.
  (** Events that act on a message, as opposed to questions to the host and reports
      of envelope changes. *)
  Definition is_action (e : event) : bool :=
    match e with
    | EKeep _ _ | EDiscard | EReject _ _ | EFileInto _ _ _ _ _ _ | ESend _ _ _
    | ENotify _ _ _ _ _ | ECreated _ _ => true
    | _ => false
    end.
  Definition actions (l : list event) : list event := filter is_action l.
  Definition is_disposition (e : event) : bool :=
    match e with EKeep _ _ | EDiscard => true | _ => false end.
  Definition dispositions (l : list event) : list event := filter is_disposition l.

  (** The host supplies scripts to begin with, and afterwards only when asked. *)
  Fixpoint polite (asked : bool) (inputs : list input) (outs : list (option out)) : Prop :=
    match inputs, outs with
    | [], _ => True
    | i :: inputs', o :: outs' =>
        (match i with InScript _ _ => asked = true | _ => True end) /\
        polite (match o with Some (OEvent (EInclude _ _)) => true | _ => false end) inputs' outs'
    | _ :: _, [] => True
    end.

  (** *** Jumps stay inside the script *)
  Definition targets (i : instruction) : list nat :=
    match i with
    | IxJmp p | IxJz p | IxJnz p | IxForEveryPart p | IxWhile _ p => [p]
    | _ => []
    end.
  Definition jumps_inside (x : sieve) : Prop :=
    forall i p, In i (s_code x) -> In p (targets i) -> p <= length (s_code x).
  Definition input_script (i : input) : list sieve := match i with InScript _ x => [x] | _ => [] end.

  (** *** What each action does, and what it does to the pending disposition *)

  (** The message id that stands for the message as it is now, and its announcement
      if the message was changed since the last one. *)
  Definition announce (s : rst) : list event :=
    if ms_changed (r_msg s) then [ECreated (r_last s + 1) (E_bytes E (r_msg s))] else [].
  Definition current_id (s : rst) : nat :=
    if ms_changed (r_msg s) then r_last s + 1 else r_main s.

  (** When a redirect is carried out: a usable address, within the limits, and not
      the user's own address. *)
  Definition redirect_target (s : rst) (address : value) (list_ : bool) : option text :=
    match sanitize_address (tx E s address), parts s with
    | Some a, root :: _ =>
        if Nat.ltb (r_redirects s) (E_max_redirects E) && Nat.ltb (r_out s) (E_max_out E)
           && Nat.ltb (received_count root) (E_max_received E)
           && (list_ || negb (teqb_ic a (E_user E)))
        then Some a else None
    | _, _ => None
    end.

  Definition notify_result (s : rst) method from importance options message fcc :=
    exec_notify (E_M E) (E_utf8 E)
      {| v_headers := match parts s with root :: _ => p_headers root | [] => [] end;
         v_subject := E_subject E (r_msg s); v_addr := E_user E; v_name := E_name E;
         v_date := E_date E (r_instrs s); v_msgid := E_new_id E (r_instrs s);
         v_max_out := E_max_out E; v_out := r_out s; v_last := r_last s |}
      {| n_method := tx E s method; n_from := otx E s from; n_importance := otx E s importance;
         n_options := txs E s options; n_message := otx E s message;
         n_fcc := option_map (fcc_of E s) fcc |}.
  Definition vacation_result (s : rst) subject from mime fcc reason :=
    exec_vacation (E_L E) (E_raw E) (E_has_addr E)
      (vacation_env E s (match parts s with root :: _ => p_headers root | [] => [] end))
      (vacation_args [] None (tx E s reason) PDefault (otx E s subject) (otx E s from) mime
         (option_map (fcc_of E s) fcc)).

  (** The actions of one instruction. *)
  Definition actions_of (x : entry) : list event :=
    let '(i, s) := x in
    match i with
    | IxKeep _ => announce s
    | IxFileInto folder flags mid su _ create =>
        announce s ++ [EFileInto (tx E s folder) (local_or_global_flags (E_L E) (vw E s) flags)
                         (otx E s mid) (otx E s su) create (current_id s)]
    | IxRedirect address _ list_ opts =>
        match redirect_target s address list_ with
        | Some a => announce s ++ [ESend (if list_ then RList a else RAddress a) (delivery E s opts) (current_id s)]
        | None => []
        end
    | IxReject extended reason => [EReject extended (tx E s reason)]
    | IxNotify method from importance options message fcc =>
        match notify_result s method from importance options message fcc with
        | Some (events, _, _) => events
        | None => []
        end
    | IxVacation subject from mime fcc reason => fst (fst (vacation_result s subject from mime fcc reason))
    | _ => []
    end.

  (** The pending disposition after an instruction: [Some] event is delivered at the
      end, [None] means that nothing is. *)
  Definition pending_after (d : option event) (x : entry) : option event :=
    let '(i, s) := x in
    match i with
    | IxKeep flags => Some (EKeep (local_or_global_flags (E_L E) (vw E s) flags) (current_id s))
    | IxDiscard => Some EDiscard
    | IxReject _ _ => None
    | IxFileInto _ _ _ _ copy _ =>
        if copy then d else match d with Some (EKeep (_ :: _) _) => d | _ => None end
    | IxRedirect address copy list_ _ =>
        match redirect_target s address list_, d with
        | Some _, Some (EKeep _ _) => if copy then d else None
        | _, _ => d
        end
    | _ => d
    end.
  Definition implicit_keep : option event := Some (EKeep [] 0).
  Definition pending (log : list entry) : option event := fold_left pending_after log implicit_keep.

  (** What the end of the script delivers. *)
  Definition deliver (d : option event) (s : rst) : list event :=
    match d with
    | Some (EKeep flags id) =>
        let flags' := match flags with [] => global_flags (E_L E) (vw E s) | _ => flags end in
        if ms_changed (r_msg s) then announce s ++ [EKeep flags' (r_last s + 1)] else [EKeep flags' id]
    | Some e => [e]
    | None => []
    end.

  (** Instructions that leave a pending keep alone. *)
  Definition leaves_keep (x : entry) : Prop :=
    match x with
    | (IxKeep _, _) | (IxDiscard, _) | (IxReject _ _, _) => False
    | (IxFileInto _ _ _ _ copy _, _) => copy = true
    | (IxRedirect a copy l _, s) => copy = true \/ redirect_target s a l = None
    | _ => True
    end.

  (** *** Message ids: announced in order from 1, and before they are used *)
  Definition used_id (e : event) : option nat :=
    match e with
    | EKeep _ id | EFileInto _ _ _ _ _ id | ESend _ _ id => Some id
    | _ => None
    end.
  Fixpoint ids_ok (known : nat) (l : list event) : Prop :=
    match l with
    | [] => True
    | ECreated id _ :: l' => id = known + 1 /\ ids_ok id l'
    | e :: l' => (match used_id e with Some id => id <= known | None => True end) /\ ids_ok known l'
    end.

  (** *** Outgoing messages *)
  Definition is_send (e : event) : bool := match e with ESend _ _ _ => true | _ => false end.
  Definition redirects_in (log : list entry) : list entry :=
    filter (fun x => match x with
                     | (IxRedirect a _ l _, s) => match redirect_target s a l with Some _ => true | None => false end
                     | _ => false
                     end) log.
End Spec.

(** *** Executions as the host drives them *)
Section Exec.
  Variable E : renv.
  (** One step of the interpreter; after an event the host answers with any input;
      queued events are handed out first. *)
  Inductive next : rst -> rst -> Prop :=
  | next_step s s' : step E s = SCont s' -> next s s'
  | next_answer s s1 e inp : step E s = SYield s1 (OEvent e) -> next s (feed inp s1)
  | next_queued s e q inp : r_queue s = e :: q -> next s (feed inp (w_queue q s)).
  (** Several steps, with more than [n] scripts active after each. *)
  Inductive deeper (n : nat) : rst -> rst -> Prop :=
  | deeper_refl s : deeper n s s
  | deeper_next s s1 s2 : deeper n s s1 -> next s1 s2 -> n < length (r_stack s2) -> deeper n s s2.
End Exec.

(** Is the test negated by the script?  For the tests that ask the host.  Vacation
    asks whether a reply was sent before, and replies if not. *)
Definition negated (t : test) : bool :=
  match t with
  | TeHeader _ _ _ _ _ _ _ neg | TeAddress _ _ _ _ _ _ _ neg | TeEnvelope _ _ _ _ _ _ neg
  | TeExists _ _ neg | TeSize _ _ neg | TeBody _ _ _ _ _ neg | TeString _ _ _ _ neg | TeEnvironment _ _ _ _ neg
  | TeHasFlag _ _ _ _ neg | TeDate _ _ _ _ _ _ _ _ neg | TeCurrentDate _ _ _ _ _ neg
  | TeDuplicate _ _ _ _ neg | TeNotifyCapability _ _ _ _ _ neg | TeValidNotify _ neg | TeValidExtList _ neg
  | TeIhave _ neg | TeMailboxExists _ neg | TeMailboxIdExists _ neg | TeSpecialUse _ _ neg | TeMetadata _ _ _ _ neg
  | TeMetadataExists _ _ neg | TeSpam _ _ _ _ neg | TeVirus _ _ _ neg | TeConvert _ _ neg => neg
  | TeVacation _ _ _ _ => true
  | TeTrue | TeFalse | TeInvalid _ => false
  end.
Definition answer (b : bool) : input := if b then InTrue else InFalse.

(** *** Vacation
    The compiler emits a vacation action only behind its own check (grammar/
    actions/action_vacation.rs 208-220): test, conditional jump over the action,
    action; and nothing else jumps in between. *)
Definition is_vacation (i : instruction) : bool := match i with IxVacation _ _ _ _ _ => true | _ => false end.
Definition is_vacation_test (i : instruction) : bool :=
  match i with IxTest (TeVacation _ _ _ _) => true | _ => false end.
Definition guarded (x : sieve) : Prop := forall p i, nth_error (s_code x) p = Some i -> is_vacation i = true ->
  exists q j, p = q + 2 /\ nth_error (s_code x) q = Some j /\ is_vacation_test j = true /\
    nth_error (s_code x) (q + 1) = Some (IxJz (q + 3)) /\
    (forall k t, In k (s_code x) -> In t (targets k) -> t <> q + 1 /\ t <> q + 2).
(** Redirects carried out and vacation replies among the executed instructions. *)
Definition mailed (E : renv) (log : list entry) : list entry :=
  filter (fun x => match x with
                   | (IxRedirect a _ l _, s) => match redirect_target E s a l with Some _ => true | None => false end
                   | (i, _) => is_vacation i
                   end) log.
