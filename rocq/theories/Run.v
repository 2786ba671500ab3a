(** Model of the interpreter: src/runtime/context.rs and the actions of
    src/runtime/actions, run over the tests modelled in the other files. *)
From Coq Require Import Floats.SpecFloat.
From Verif Require Import Base Lib Address Var Value SetVar Flags Comparator Message EditHeader
  Expr Event Notify Vacation Spam AddrTest Mime Sieve.

(** context.rs 25-30 [ScriptStack]: a running script and what its caller had. *)
Record frame := {
  f_script : sieve;
  f_pos : nat;
  f_local : list var;
  f_match : list var
}.

(** lib.rs 97-138 [Context], the part a run changes.  Simplifications: [usize] is
    [nat]; the initial position [usize::MAX] of a context without scripts, which
    is never read, is 0; [vars_local], [vars_match], [vars_global], [vars_env] and
    [envelope] are in [r_vars]; [message], [has_changes] and [message_size] are in
    [r_msg]. *)
Record rst := {
  r_vars : vctx;
  r_msg : mstate;
  r_part : nat;  (* ctx.part *)
  r_iter : list nat;  (* part_iter, what is left of it *)
  r_iters : list (nat * list nat);  (* part_iter_stack *)
  r_pos : nat;
  r_test : bool;  (* test_result *)
  r_cache : list (script_name * sieve);  (* script_cache *)
  r_stack : list frame;  (* script_stack, innermost first *)
  r_estack : list var;  (* expr_stack *)
  r_epos : nat;  (* expr_pos *)
  r_queue : list event;  (* queued_events *)
  r_final : option event;  (* final_event *)
  r_last : nat;  (* last_message_id *)
  r_main : nat;  (* main_message_id *)
  r_redirects : nat;  (* num_redirects *)
  r_instrs : nat;  (* num_instructions *)
  r_out : nat  (* num_out_messages *)
}.

(** lib.rs 97-138 [Context]: an assignment to [vars_local,vars_match]. One setter per field. *)
Definition w_vars (x : vctx) (s : rst) : rst :=
  {| r_vars := x; r_msg := r_msg s; r_part := r_part s; r_iter := r_iter s; r_iters := r_iters s; r_pos := r_pos s;
     r_test := r_test s; r_cache := r_cache s; r_stack := r_stack s; r_estack := r_estack s; r_epos := r_epos s; r_queue := r_queue s;
     r_final := r_final s; r_last := r_last s; r_main := r_main s; r_redirects := r_redirects s; r_instrs := r_instrs s; r_out := r_out s |}.
(** lib.rs 97-138 [Context]: an assignment to [message]. *)
Definition w_msg (x : mstate) (s : rst) : rst :=
  {| r_vars := r_vars s; r_msg := x; r_part := r_part s; r_iter := r_iter s; r_iters := r_iters s; r_pos := r_pos s;
     r_test := r_test s; r_cache := r_cache s; r_stack := r_stack s; r_estack := r_estack s; r_epos := r_epos s; r_queue := r_queue s;
     r_final := r_final s; r_last := r_last s; r_main := r_main s; r_redirects := r_redirects s; r_instrs := r_instrs s; r_out := r_out s |}.
(** lib.rs 97-138 [Context]: an assignment to [part]. *)
Definition w_part (x : nat) (s : rst) : rst :=
  {| r_vars := r_vars s; r_msg := r_msg s; r_part := x; r_iter := r_iter s; r_iters := r_iters s; r_pos := r_pos s;
     r_test := r_test s; r_cache := r_cache s; r_stack := r_stack s; r_estack := r_estack s; r_epos := r_epos s; r_queue := r_queue s;
     r_final := r_final s; r_last := r_last s; r_main := r_main s; r_redirects := r_redirects s; r_instrs := r_instrs s; r_out := r_out s |}.
(** lib.rs 97-138 [Context]: an assignment to [part_iter]. *)
Definition w_iter (x : list nat) (s : rst) : rst :=
  {| r_vars := r_vars s; r_msg := r_msg s; r_part := r_part s; r_iter := x; r_iters := r_iters s; r_pos := r_pos s;
     r_test := r_test s; r_cache := r_cache s; r_stack := r_stack s; r_estack := r_estack s; r_epos := r_epos s; r_queue := r_queue s;
     r_final := r_final s; r_last := r_last s; r_main := r_main s; r_redirects := r_redirects s; r_instrs := r_instrs s; r_out := r_out s |}.
(** lib.rs 97-138 [Context]: an assignment to [part_iter_stack]. *)
Definition w_iters (x : list (nat * list nat)) (s : rst) : rst :=
  {| r_vars := r_vars s; r_msg := r_msg s; r_part := r_part s; r_iter := r_iter s; r_iters := x; r_pos := r_pos s;
     r_test := r_test s; r_cache := r_cache s; r_stack := r_stack s; r_estack := r_estack s; r_epos := r_epos s; r_queue := r_queue s;
     r_final := r_final s; r_last := r_last s; r_main := r_main s; r_redirects := r_redirects s; r_instrs := r_instrs s; r_out := r_out s |}.
(** lib.rs 97-138 [Context]: an assignment to [pos]. *)
Definition w_pos (x : nat) (s : rst) : rst :=
  {| r_vars := r_vars s; r_msg := r_msg s; r_part := r_part s; r_iter := r_iter s; r_iters := r_iters s; r_pos := x;
     r_test := r_test s; r_cache := r_cache s; r_stack := r_stack s; r_estack := r_estack s; r_epos := r_epos s; r_queue := r_queue s;
     r_final := r_final s; r_last := r_last s; r_main := r_main s; r_redirects := r_redirects s; r_instrs := r_instrs s; r_out := r_out s |}.
(** lib.rs 97-138 [Context]: an assignment to [test_result]. *)
Definition w_test (x : bool) (s : rst) : rst :=
  {| r_vars := r_vars s; r_msg := r_msg s; r_part := r_part s; r_iter := r_iter s; r_iters := r_iters s; r_pos := r_pos s;
     r_test := x; r_cache := r_cache s; r_stack := r_stack s; r_estack := r_estack s; r_epos := r_epos s; r_queue := r_queue s;
     r_final := r_final s; r_last := r_last s; r_main := r_main s; r_redirects := r_redirects s; r_instrs := r_instrs s; r_out := r_out s |}.
(** lib.rs 97-138 [Context]: an assignment to [script_cache]. *)
Definition w_cache (x : list (script_name * sieve)) (s : rst) : rst :=
  {| r_vars := r_vars s; r_msg := r_msg s; r_part := r_part s; r_iter := r_iter s; r_iters := r_iters s; r_pos := r_pos s;
     r_test := r_test s; r_cache := x; r_stack := r_stack s; r_estack := r_estack s; r_epos := r_epos s; r_queue := r_queue s;
     r_final := r_final s; r_last := r_last s; r_main := r_main s; r_redirects := r_redirects s; r_instrs := r_instrs s; r_out := r_out s |}.
(** lib.rs 97-138 [Context]: an assignment to [script_stack]. *)
Definition w_stack (x : list frame) (s : rst) : rst :=
  {| r_vars := r_vars s; r_msg := r_msg s; r_part := r_part s; r_iter := r_iter s; r_iters := r_iters s; r_pos := r_pos s;
     r_test := r_test s; r_cache := r_cache s; r_stack := x; r_estack := r_estack s; r_epos := r_epos s; r_queue := r_queue s;
     r_final := r_final s; r_last := r_last s; r_main := r_main s; r_redirects := r_redirects s; r_instrs := r_instrs s; r_out := r_out s |}.
(** lib.rs 97-138 [Context]: an assignment to [expr_stack]. *)
Definition w_estack (x : list var) (s : rst) : rst :=
  {| r_vars := r_vars s; r_msg := r_msg s; r_part := r_part s; r_iter := r_iter s; r_iters := r_iters s; r_pos := r_pos s;
     r_test := r_test s; r_cache := r_cache s; r_stack := r_stack s; r_estack := x; r_epos := r_epos s; r_queue := r_queue s;
     r_final := r_final s; r_last := r_last s; r_main := r_main s; r_redirects := r_redirects s; r_instrs := r_instrs s; r_out := r_out s |}.
(** lib.rs 97-138 [Context]: an assignment to [expr_pos]. *)
Definition w_epos (x : nat) (s : rst) : rst :=
  {| r_vars := r_vars s; r_msg := r_msg s; r_part := r_part s; r_iter := r_iter s; r_iters := r_iters s; r_pos := r_pos s;
     r_test := r_test s; r_cache := r_cache s; r_stack := r_stack s; r_estack := r_estack s; r_epos := x; r_queue := r_queue s;
     r_final := r_final s; r_last := r_last s; r_main := r_main s; r_redirects := r_redirects s; r_instrs := r_instrs s; r_out := r_out s |}.
(** lib.rs 97-138 [Context]: an assignment to [queued_events]. *)
Definition w_queue (x : list event) (s : rst) : rst :=
  {| r_vars := r_vars s; r_msg := r_msg s; r_part := r_part s; r_iter := r_iter s; r_iters := r_iters s; r_pos := r_pos s;
     r_test := r_test s; r_cache := r_cache s; r_stack := r_stack s; r_estack := r_estack s; r_epos := r_epos s; r_queue := x;
     r_final := r_final s; r_last := r_last s; r_main := r_main s; r_redirects := r_redirects s; r_instrs := r_instrs s; r_out := r_out s |}.
(** lib.rs 97-138 [Context]: an assignment to [final_event]. *)
Definition w_final (x : option event) (s : rst) : rst :=
  {| r_vars := r_vars s; r_msg := r_msg s; r_part := r_part s; r_iter := r_iter s; r_iters := r_iters s; r_pos := r_pos s;
     r_test := r_test s; r_cache := r_cache s; r_stack := r_stack s; r_estack := r_estack s; r_epos := r_epos s; r_queue := r_queue s;
     r_final := x; r_last := r_last s; r_main := r_main s; r_redirects := r_redirects s; r_instrs := r_instrs s; r_out := r_out s |}.
(** lib.rs 97-138 [Context]: an assignment to [last_message_id]. *)
Definition w_last (x : nat) (s : rst) : rst :=
  {| r_vars := r_vars s; r_msg := r_msg s; r_part := r_part s; r_iter := r_iter s; r_iters := r_iters s; r_pos := r_pos s;
     r_test := r_test s; r_cache := r_cache s; r_stack := r_stack s; r_estack := r_estack s; r_epos := r_epos s; r_queue := r_queue s;
     r_final := r_final s; r_last := x; r_main := r_main s; r_redirects := r_redirects s; r_instrs := r_instrs s; r_out := r_out s |}.
(** lib.rs 97-138 [Context]: an assignment to [main_message_id]. *)
Definition w_main (x : nat) (s : rst) : rst :=
  {| r_vars := r_vars s; r_msg := r_msg s; r_part := r_part s; r_iter := r_iter s; r_iters := r_iters s; r_pos := r_pos s;
     r_test := r_test s; r_cache := r_cache s; r_stack := r_stack s; r_estack := r_estack s; r_epos := r_epos s; r_queue := r_queue s;
     r_final := r_final s; r_last := r_last s; r_main := x; r_redirects := r_redirects s; r_instrs := r_instrs s; r_out := r_out s |}.
(** lib.rs 97-138 [Context]: an assignment to [num_redirects]. *)
Definition w_redirects (x : nat) (s : rst) : rst :=
  {| r_vars := r_vars s; r_msg := r_msg s; r_part := r_part s; r_iter := r_iter s; r_iters := r_iters s; r_pos := r_pos s;
     r_test := r_test s; r_cache := r_cache s; r_stack := r_stack s; r_estack := r_estack s; r_epos := r_epos s; r_queue := r_queue s;
     r_final := r_final s; r_last := r_last s; r_main := r_main s; r_redirects := x; r_instrs := r_instrs s; r_out := r_out s |}.
(** lib.rs 97-138 [Context]: an assignment to [num_instructions]. *)
Definition w_instrs (x : nat) (s : rst) : rst :=
  {| r_vars := r_vars s; r_msg := r_msg s; r_part := r_part s; r_iter := r_iter s; r_iters := r_iters s; r_pos := r_pos s;
     r_test := r_test s; r_cache := r_cache s; r_stack := r_stack s; r_estack := r_estack s; r_epos := r_epos s; r_queue := r_queue s;
     r_final := r_final s; r_last := r_last s; r_main := r_main s; r_redirects := r_redirects s; r_instrs := x; r_out := r_out s |}.
(** lib.rs 97-138 [Context]: an assignment to [num_out_messages]. *)
Definition w_out (x : nat) (s : rst) : rst :=
  {| r_vars := r_vars s; r_msg := r_msg s; r_part := r_part s; r_iter := r_iter s; r_iters := r_iters s; r_pos := r_pos s;
     r_test := r_test s; r_cache := r_cache s; r_stack := r_stack s; r_estack := r_estack s; r_epos := r_epos s; r_queue := r_queue s;
     r_final := r_final s; r_last := r_last s; r_main := r_main s; r_redirects := r_redirects s; r_instrs := r_instrs s; r_out := x |}.

(** runtime/mod.rs 46-53 [RuntimeError] *)
Inductive rerror := ErIncludes | ErInvalid (name : text) | ErScript (msg : text)
                  | ErNotAllowed (c : capability) | ErNotSupported (c : text) | ErCpu.
(** context.rs 81 [Option<Result<Event, RuntimeError>>]: What [run] returns inside [Some]. *)
Inductive out := OEvent (e : event) | OError (e : rerror).

(** Everything a run reads and does not change: the [Runtime] (lib.rs 69-94), the
    settings of the context, and the functions of other crates (mail_parser, the
    regex engine, the clock), which are arbitrary. *)
Record renv := {
  E_L : rustlib;
  E_rx : text -> text -> option (list (option text));
  E_M : mailparser;
  E_A : addrparser;
  E_utf8 : list N -> option text;                       (* String::from_utf8 *)
  E_caps : list capability;                             (* allowed_capabilities *)
  E_uris : list text;                                   (* valid_notification_uris *)
  E_lists : list text;                                  (* valid_ext_lists *)
  E_protected : list text;
  E_metadata : list (metadata * text);                  (* ctx.metadata then runtime.metadata *)
  E_scripts : text -> option sieve;                     (* include_scripts *)
  E_fns : rst -> N -> option (list var -> var);         (* functions *)
  E_max_includes : nat; E_cpu : nat; E_max_var : nat; E_max_redirects : nat;
  E_max_received : nat; E_max_header : nat; E_max_out : nat;
  E_vac_expiry : N; E_dup_expiry : N;
  E_vac_orcpt : bool; E_vac_subject : text; E_vac_prefix : text;
  E_user : text; E_name : text;                         (* user_address, user_full_name *)
  E_spam : spam_status; E_virus : virus_status;
  (* mail_parser *)
  E_msgvar : list part -> nat -> msgvar -> option var;     (* header and part variables, see HeaderVar.v *)
  E_bytes : mstate -> text;                             (* build_message *)
  E_body : bodytransform -> part -> option text;        (* text of a part under a transform *)
  E_h2t : text -> text; E_t2h : text -> text;           (* html_to_text, text_to_html *)
  E_psize : part -> nat;                                (* old size of a part *)
  E_subject : mstate -> option text;                    (* message.subject() *)
  E_raw_subject : mstate -> option text;                (* message.header_raw("Subject") *)
  E_msg_id : mstate -> option text;                     (* message.message_id() *)
  E_header_id : header -> option text;                  (* non-empty id of a header *)
  E_addrs : header -> list text;                        (* addresses of a header *)
  E_raw : header -> option text;                        (* raw bytes of an original header *)
  E_has_addr : header -> text -> bool;                  (* Address::contains *)
  (* clock and random generators, by the number of instructions executed *)
  E_timestamp : text -> Z;                              (* DateTime::parse_rfc3339, to_timestamp; 0 if invalid *)
  E_now : option Z -> datetime;
  E_date : nat -> text; E_new_id : nat -> text; E_boundary : nat -> text
}.

Section Run.
  Variable E : renv.
  Let L := E_L E.
  Let rx := E_rx E.
  Let M := E_M E.
  Let A := E_A E.

  (** eval.rs 26-93 [variable], 127-191 [eval_header]: The variables as the script sees them: header
      variables are computed from the message. *)
  Definition vw (s : rst) : vctx :=
    let c := r_vars s in
    {| c_local := c_local c; c_match := c_match c; c_global := c_global c; c_env := c_env c;
       c_rtenv := c_rtenv c; c_envelope := c_envelope c;
       c_message := E_msgvar E (ms_parts (r_msg s)) (r_part s) |}.
  (** context.rs 101-108, 328-335, 397-398: the variables of a script are replaced. *)
  Definition set_vars (local mtch : list var) (c : vctx) : vctx :=
    {| c_local := local; c_match := mtch; c_global := c_global c; c_env := c_env c;
       c_rtenv := c_rtenv c; c_envelope := c_envelope c; c_message := c_message c |}.

  (** eval.rs 95-125 [eval_value]: [ctx.eval_value(v).to_string()] and the like *)
  Definition ev (s : rst) (x : value) : var := eval_value L (vw s) x.
  (** eval.rs 95-125 [eval_value], then runtime/mod.rs 62-69 [to_string]. *)
  Definition tx (s : rst) (x : value) : text := v_text L (ev s x).
  (** The same for an optional value ([as_ref().map], e.g. action_fileinto.rs 25-35). *)
  Definition otx (s : rst) (x : option value) : option text := option_map (tx s) x.
  (** eval.rs 194-196 [eval_values]. *)
  Definition evs (s : rst) (xs : list value) : list var := map (ev s) xs.
  (** eval.rs 199-204 [eval_values_owned]. *)
  Definition txs (s : rst) (xs : list value) : list text := map (tx s) xs.

  (** lib.rs 97-138 [Context]: [message.parts]. *)
  Definition parts (s : rst) : list part := ms_parts (r_msg s).

  (** action_mime.rs 383-396: action_mime.rs [build_message_id] *)
  Definition build_message_id (s : rst) : rst * option event :=
    if ms_changed (r_msg s) then
      let id := r_last s + 1 in
      (w_msg {| ms_parts := ms_parts (r_msg s); ms_changed := false; ms_size := ms_size (r_msg s) |}
         (w_main id (w_last id s)),
       Some (ECreated id (E_bytes E (r_msg s))))
    else (s, None).
  (** [Option::into_iter] (Rust core library): none or one. *)
  Definition opt_list {X} (o : option X) : list X := match o with Some x => [x] | None => [] end.

  (** context.rs 420-423, 451-454: an empty flag list becomes the global one. *)
  Definition keep_flags (s : rst) (flags : list text) : list text :=
    match flags with [] => global_flags L (vw s) | _ => flags end.

  (** context.rs 401-440: what happens when the outermost script is over. *)
  Definition finale (s : rst) : rst * option out :=
    match r_final s with
    | None => (s, None)
    | Some (EKeep flags id) =>
        let s1 := w_final None s in
        match build_message_id s1 with
        | (s2, Some created) => (w_queue [EKeep (keep_flags s2 flags) (r_main s2)] s2, Some (OEvent created))
        | (s2, None) => (s2, Some (OEvent (EKeep (keep_flags s2 flags) id)))
        end
    | Some e => (w_final None s, Some (OEvent e))
    end.

  (** context.rs 443-476 [finish_loop] *)
  Definition finish_loop (s : rst) : rst :=
    let s := w_stack [] s in
    match r_final s with
    | None => s
    | Some (EKeep flags id) =>
        let s1 := w_final None s in
        match build_message_id s1 with
        | (s2, Some created) => w_queue [created; EKeep (keep_flags s2 flags) (r_main s2)] s2
        | (s2, None) => w_queue [EKeep (keep_flags s2 flags) id] s2
        end
    | Some e => w_queue [e] (w_final None s)
    end.

  (** *** Tests: tests/mod.rs 38-121 [Test::exec] *)
  Inductive xres := XPanic | XBool (b : bool) (s : rst) | XAsk (e : event) (neg : bool) | XError (e : rerror).

  (** runtime/tests/mod.rs 32-36 [TestResult], with the captured values stored as variables.rs 12-20
      does; an event is returned with [is_not]. *)
  Definition of_tres (s : rst) (neg : bool) (t : option tres) : xres :=
    match t with
    | None | Some TPanic => XPanic
    | Some (TBool b set) =>
        XBool b (w_vars (set_vars (c_local (r_vars s)) (set_match_variables set (c_match (r_vars s))) (r_vars s)) s)
    | Some (TListContains lists values c) => XAsk (EListContains lists values c) neg
    end.
  (** runtime/tests/mod.rs 32-36 [TestResult::Bool]. *)
  Definition of_bool (s : rst) (b : option bool) : xres :=
    match b with Some b => XBool b s | None => XPanic end.

  (** test_header.rs 24-30 (evaluating [MimeOpts<Value>] to [MimeOpts<String>]). *)
  Definition mimeopts_of (s : rst) (o : mimev) : mimeopts :=
    match o with
    | MvNone => MoNone | MvType => MoType | MvSubtype => MoSubtype | MvContentType => MoContentType
    | MvParam ps => MoParam (txs s ps)
    end.
  (** test_header.rs 203-212 [parse_header_name] *)
  Definition header_name (s : rst) (x : value) : option text := hn_parse M (tx s x).

  (** test_body.rs 58-76: the filter of ':content'; [None] if one is malformed,
      cut at the first empty one. *)
  Fixpoint ct_filters (s : rst) (l : list value) : option (list ctfilter) :=
    match l with
    | [] => Some []
    | x :: l' =>
        if v_is_empty (ev s x) then Some []
        else match ctfilter_parse (tx s x), ct_filters s l' with
             | Some f, Some fs => Some (f :: fs)
             | _, _ => None
             end
    end.

  (** test_body.rs 24-60: the subject of the message, compared before the parts. *)
  Definition subject_keys (s : rst) (bt : bodytransform) (c : comparator) (m : mtype) (keys : list value) : cres :=
    let subject := match (match bt with BtRaw => E_raw_subject E | _ => E_subject E end) (r_msg s) with
                   | Some t => t
                   | None => []
                   end in
    match m with
    | MCount _ | MList => CRes false []
    | _ => first_key L rx c (match m with MMatches _ => MMatches 0 | MRegex _ => MRegex 0 | m => m end)
             (KStr subject) (evs s keys) []
    end.

  (** test_duplicate.rs 17-70 [TestDuplicate::exec]: the id. *)
  Definition duplicate_id (s : rst) (d : dupmatch) : option text :=
    match d with
    | DupHeader n =>
        match header_name s n with
        | None => Some []
        | Some h => option_map (fun found =>
                      hd [] (flat_map (fun l => opt_list (E_header_id E (l_header l))) found))
                    (find_headers (parts s) (r_part s) [h] None true)
        end
    | DupUnique x => Some (tx s x)
    | DupDefault => Some (match E_msg_id E (r_msg s) with Some t => t | None => [] end)
    end.

  (** test_notify.rs 24-47: is this a notification method that is allowed? *)
  Definition uri_allowed (uri : text) : bool :=
    match validate_uri M (E_utf8 E) uri with
    | Some scheme => existsb (teqb scheme) (E_uris E) || existsb (teqb uri) (E_uris E)
    | None => false
    end.
  (** context.rs 360, runtime/tests/mod.rs 59-60: [allowed_capabilities.contains]. *)
  Definition allowed (c : capability) : bool := existsb (cap_eqb c) (E_caps E).
  (** test_metadata.rs 21-104: the evaluated [Metadata]. *)
  Definition metadata_of (s : rst) (m : metadatav) : metadata :=
    match m with
    | MvServer a => MdServer (tx s a)
    | MvMailbox n a => MdMailbox (tx s n) (tx s a)
    end.
  (** action_vacation.rs 319-333, action_notify.rs 268-283: the evaluated [FileCarbonCopy]. *)
  Definition fcc_of (s : rst) (f : fccv) : text * list text * option text * option text * bool :=
    let '(folder, flags, mid, su, create) := f in
    (tx s folder, flag_tokens L (vw s) flags, otx s mid, otx s su, create).
  (** lib.rs 97-138 [Context], 69-95 [Runtime]: the fields [Replace] and [Enclose] read. *)
  Definition mime_env (s : rst) : mimeenv :=
    {| me_psize := E_psize E; me_max_header := E_max_header E; me_protected := E_protected E;
       me_from := user_from_field (E_name E) (E_user E); me_date := E_date E (r_instrs s);
       me_msgid := E_new_id E (r_instrs s); me_boundary := E_boundary E (r_instrs s);
       me_subject := E_subject E; me_h2t := E_h2t E; me_t2h := E_t2h E |}.
  (** lib.rs 97-138 [Context], 69-95 [Runtime]: the fields [Vacation] reads. *)
  Definition vacation_env (s : rst) (headers : list header) : venv :=
    {| ve_headers := headers; ve_envelope := c_envelope (r_vars s);
       ve_user := E_user E; ve_name := E_name E; ve_orcpt := E_vac_orcpt E;
       ve_prefix := E_vac_prefix E; ve_default_subject := E_vac_subject E;
       ve_default_expiry := E_vac_expiry E; ve_max_received := E_max_received E;
       ve_max_out := E_max_out E; ve_out := r_out s; ve_last := r_last s;
       ve_date := E_date E (r_instrs s); ve_msgid := E_new_id E (r_instrs s) |}.
  (** grammar/actions/action_vacation.rs 29-57: the fields as one record. *)
  Definition vacation_args addresses handle reason p subject from mime fcc : vargs :=
    {| va_addresses := addresses; va_handle := handle; va_reason := reason; va_period := p;
       va_subject := subject; va_from := from; va_mime := mime; va_fcc := fcc |}.

  (** runtime/tests/mod.rs 39-120 [Test::exec]. *)
  Definition exec_test (s : rst) (t : test) : xres :=
    match t with
    | TeTrue => XBool true s
    | TeFalse => XBool false s
    | TeHeader names index anychild o c m keys neg =>
        of_tres s neg (header_test L rx M (parts s) (r_part s) (parse_header_names L M (vw s) names)
                         index anychild (mimeopts_of s o) c m neg (evs s keys))
    | TeAddress names index anychild p c m keys neg =>
        of_tres s neg (address_test L rx A (parts s) (r_part s) (parse_header_names L M (vw s) names)
                         index anychild p c m neg (evs s keys))
    | TeEnvelope wanted p z c m keys neg =>
        of_tres s neg (Some (envelope_test L rx A (c_envelope (r_vars s)) wanted p z c m neg (evs s keys)))
    | TeExists names anychild neg =>
        of_bool s (exists_test (parts s) (r_part s) (parse_header_names L M (vw s) names) anychild neg)
    | TeSize over limit neg => XBool (size_test (ms_size (r_msg s)) over limit neg) s
    | TeBody bt subject c m keys neg =>
        match (if subject then subject_keys s bt c m keys else CRes false []) with
        | CPanic => XPanic
        | CRes true _ => XBool (xorb true neg) s
        | CRes false _ =>
            match bt with
            | BtContent types =>
                match ct_filters s types with
                | None => XBool (xorb false neg) s
                | Some f => of_tres s neg (body_test L rx (parts s) (r_part s) f (E_body E bt) c m neg (evs s keys))
                end
            | _ => of_tres s neg (body_test L rx (parts s) (r_part s) [] (E_body E bt) c m neg (evs s keys))
            end
        end
    | TeString sources c m keys neg =>
        of_tres s neg (Some (string_test L rx false c m neg (evs s sources) (evs s keys)))
    | TeEnvironment sources c m keys neg =>
        of_tres s neg (Some (string_test L rx true c m neg (evs s sources) (evs s keys)))
    | TeHasFlag vars flags c m neg => of_tres s neg (Some (hasflag L (vw s) vars flags c m neg))
    | TeDate name index anychild p z c m keys neg =>
        of_tres s neg (date_test L rx A (parts s) (r_part s) (header_name s name) index anychild p z c m neg (evs s keys))
    | TeCurrentDate z p c m keys neg =>
        of_tres s neg (Some (currentdate_test L rx A (E_now E z) p c m neg (evs s keys)))
    | TeDuplicate d handle last seconds neg =>
        match duplicate_id s d with
        | None => XPanic
        | Some [] => XBool (xorb false neg) s
        | Some id => XAsk (EDuplicateId (match handle with Some h => tx s h ++ id | None => id end)
                             (match seconds with Some n => n | None => E_dup_expiry E end) last) neg
        end
    | TeNotifyCapability uri cap c m keys neg =>
        if teqb_ic (tx s cap) (lit "online") && uri_allowed (tx s uri) then
          match m with
          | MCount r =>
              XBool (xorb (existsb (fun k => rel_number r (NFloat (f64_of_Z 1)) (v_number L k)) (evs s keys)) neg) s
          | _ =>
              match first_key L rx c (match m with MMatches _ => MMatches 0 | MRegex _ => MRegex 0 | m => m end)
                      (KStr (lit "maybe")) (evs s keys) [] with
              | CPanic => XPanic
              | CRes b _ => XBool (xorb b neg) s
              end
          end
        else XBool (xorb false neg) s
    | TeValidNotify uris neg => XBool (valid_notify_method M (E_utf8 E) (E_uris E) (txs s uris) neg) s
    | TeValidExtList names neg =>
        XBool (xorb (Nat.eqb (length (filter (fun n => existsb (teqb n) (E_lists E)) (txs s names)))
                             (length names)) neg) s
    | TeIhave caps neg =>
        XBool (xorb (forallb (fun c => negb (cap_eqb c CapVariables) && negb (cap_eqb c CapEncoded) && allowed c)
                             caps) neg) s
    | TeMailboxExists names neg => XAsk (EMailboxExists (map MbName (txs s names)) []) neg
    | TeMailboxIdExists ids neg => XAsk (EMailboxExists (map MbId (txs s ids)) []) neg
    | TeSpecialUse mailbox attributes neg =>
        XAsk (EMailboxExists (map MbName (opt_list (otx s mailbox))) (txs s attributes)) neg
    | TeMetadata md c m keys neg =>
        of_tres s neg (Some (metadata_test L rx (E_metadata E) (metadata_of s md) c m neg (evs s keys)))
    | TeMetadataExists mailbox annotations neg =>
        XBool (metadata_exists_test (E_metadata E) (otx s mailbox) (txs s annotations) neg) s
    | TeSpam percent c m key neg => of_tres s neg (Some (spam_test L rx percent (E_spam E) c m neg (ev s key)))
    | TeVirus c m key neg => of_tres s neg (Some (virus_test L rx (E_virus E) c m neg (ev s key)))
    | TeConvert from to neg =>
        match convert (mime_env s) (tx s from) (tx s to) (r_msg s) with
        | None => XPanic
        | Some (b, m) => XBool (xorb b neg) (w_msg m s)
        end
    | TeVacation addresses handle reason p =>
        match parts s with
        | [] => XPanic
        | root :: _ =>
            match vacation_test L (E_addrs E) (vacation_env s (p_headers root))
                    (vacation_args (txs s addresses) (otx s handle) (tx s reason) p None None false None) with
            | VOverflow => XPanic
            | VNo => XBool false s
            | VAsk id expiry => XAsk (EDuplicateId id expiry false) true
            end
        end
    | TeInvalid name => XError (ErInvalid name)
    end.

  (** *** Instructions *)

  (** Outcome of one turn of the loop of context.rs 125-406. *)
  Inductive sres :=
  | SCont (s : rst)                 (* goes on *)
  | SYield (s : rst) (o : out)      (* [run] returns [Some(o)] *)
  | SEnd (s : rst)                  (* no script left: lines 401-440 *)
  | SNone (s : rst)                 (* [run] returns [None]: position out of range *)
  | SPanic.

  (** context.rs 128-129, 345-346, 361-368, 373-376, 379-380: [finish_loop], then the error is returned.
      *)
  Definition fail (s : rst) (e : rerror) : sres := SYield (finish_loop s) (OError e).
  (** context.rs 117-119, 209-211, 215-217, 299-301, 307-309, 313-315, 319-321: [if let Some(event) =
      self.queued_events.next() { return Some(Ok(event)) }] *)
  Definition take_queue (s : rst) : sres :=
    match r_queue s with
    | e :: q => SYield (w_queue q s) (OEvent e)
    | [] => SCont s
    end.
  (** action_set.rs 29-75 [set_variable], [add_set_envelope_event]: assigning an envelope variable replaces the queued
      events. *)
  Definition assign (r : vctx * option (envk * text)) (s : rst) : rst :=
    let s := w_vars (fst r) s in
    match snd r with
    | Some (e, v) => w_queue [ESetEnvelope e v] s
    | None => s
    end.

  (** context.rs 98-110 and 326-337: enter a script. *)
  Definition push_frame (script : sieve) (s : rst) : rst :=
    let c := r_vars s in
    w_pos 0 (w_vars (set_vars (repeat vdefault (s_vars script)) (repeat vdefault (s_match_vars script)) c)
      (w_stack ({| f_script := script; f_pos := r_pos s; f_local := c_local c; f_match := c_match c |} :: r_stack s) s)).
  (** context.rs 395-406: leave it. *)
  Definition pop_frame (s : rst) : sres :=
    match r_stack s with
    | [] => SEnd s
    | f :: rest =>
        let s' := w_pos (f_pos f) (w_vars (set_vars (f_local f) (f_match f) (r_vars s)) (w_stack rest s)) in
        match rest with [] => SEnd s' | _ => SCont s' end
    end.

  (** action_include.rs 32: [script_cache.get] ([AHashMap]). *)
  Fixpoint cache_get (n : script_name) (l : list (script_name * sieve)) : option sieve :=
    match l with
    | [] => None
    | (k, x) :: l' => if script_name_eqb n k then Some x else cache_get n l'
    end.

  (** expression.rs 16-105, with the saved position and stack; [k] is what the
      instruction does with the value. *)
  Definition with_value (code : list instr) (s : rst) (k : var -> rst -> sres) : sres :=
    match eval_expression L false (E_fns E s) (vw s) code (r_epos s) (r_estack s) with
    | EDone v => k v (w_estack [] (w_epos 0 s))
    | ECall id args pos st => SYield (w_pos (r_pos s - 1) (w_estack st (w_epos pos s))) (OEvent (EFunction id args))
    | _ => SPanic
    end.

  (** context.rs 177-195: clear local variables (only a valid range) and match
      variables. *)
  Definition clear_local (idx num : nat) (l : list var) : list var :=
    if Nat.ltb 0 num && Nat.leb (idx + num) (length l) then
      firstn idx l ++ map (fun v => if v_is_empty v then v else vdefault) (firstn num (skipn idx l)) ++
      skipn (idx + num) l
    else l.

  (** context.rs 257-272 *)
  Fixpoint pop_parts (n : nat) (s : rst) : rst :=
    match n with
    | 0 => s
    | S n' => match r_iters s with
              | [] => s
              | (p, it) :: rest => pop_parts n' (w_part p (w_iter it (w_iters rest s)))
              end
    end.

  (** context.rs 295-296, 303-304: an action that edits the message in place. *)
  Definition edit_msg (m : option mstate) (s : rst) : sres :=
    match m with Some m => SCont (w_msg m s) | None => SPanic end.

  (** action_fileinto.rs 10-39 [FileInto::exec] *)
  Definition exec_fileinto folder flags mailbox_id special_use (copy create : bool) (s : rst) : sres :=
    let f := tx s folder in
    let '(s1, created) := build_message_id s in
    let s2 := if copy then s1
              else match r_final s1 with
                   | Some (EKeep (_ :: _) _) => s1
                   | _ => w_final None s1
                   end in
    take_queue (w_queue (opt_list created ++
      [EFileInto f (local_or_global_flags L (vw s2) flags) (otx s2 mailbox_id) (otx s2 special_use) create (r_main s2)]) s2).

  (** action_redirect.rs 15-86 [Redirect::exec] *)
  Definition received_count (root : part) : nat :=
    length (filter (fun h => hn_eqb (h_name h) (lit "Received")) (p_headers root)).
  (** action_redirect.rs 50-79: the time of delivery, evaluated. *)
  Definition delivery (s : rst) (o : sendopts value) : sendopts Z :=
    let '(n, r, b) := o in
    (n, r, match b with
           | ByNone => ByNone
           | ByRelative l m t => ByRelative l m t
           | ByAbsolute a m t => ByAbsolute (E_timestamp E (tx s a)) m t
           end).
  (** action_redirect.rs 15-86 [Redirect::exec]. *)
  Definition exec_redirect address (copy list_ : bool) opts (s : rst) : sres :=
    match sanitize_address (tx s address) with
    | None => take_queue s
    | Some a =>
        if Nat.ltb (r_redirects s) (E_max_redirects E) && Nat.ltb (r_out s) (E_max_out E) then
          match parts s with
          | [] => SPanic
          | root :: _ =>
              if Nat.ltb (received_count root) (E_max_received E) then
                if negb list_ && teqb_ic a (E_user E) then take_queue s
                else
                  let s1 := if copy then s
                            else match r_final s with Some (EKeep _ _) => w_final None s | _ => s end in
                  let '(s2, created) := build_message_id s1 in
                  let s3 := w_out (r_out s2 + 1) (w_redirects (r_redirects s2 + 1) s2) in
                  take_queue (w_queue (opt_list created ++
                    [ESend (if list_ then RList a else RAddress a) (delivery s opts) (r_main s3)]) s3)
              else take_queue s
          end
        else take_queue s
    end.

  (** action_include.rs 23-52 [Include::exec] and context.rs 324-351 *)
  Definition exec_include name (global once optional : bool) (s : rst) : sres :=
    let v := ev s name in
    if v_is_empty v then SCont s
    else
      let t := v_text L v in
      let n := if global then SGlobal t else SPersonal t in
      let cached := cache_get n (r_cache s) in
      if negb once || (match cached with None => true | Some _ => false end) then
        if Nat.ltb (length (r_stack s)) (E_max_includes E) then
          match opt_or cached (E_scripts E t) with
          | Some script => SCont (push_frame script s)
          | None => SYield s (OEvent (EInclude n optional))
          end
        else fail s ErIncludes
      else SCont s.

  (** context.rs 133-391: [match instruction]. *)
  Definition exec_instr (i : instruction) (s : rst) : sres :=
    match i with
    | IxJmp p => SCont (w_pos p s)
    | IxJz p => SCont (if r_test s then s else w_pos p s)
    | IxJnz p => SCont (if r_test s then w_pos p s else s)
    | IxTest t =>
        match exec_test s t with
        | XPanic => SPanic
        | XBool b s' => SCont (w_test b s')
        | XAsk e neg => SYield (w_test neg s) (OEvent e)
        | XError e => fail s e
        end
    | IxEval code => with_value code s (fun v s => SCont (w_test (to_bool v) s))
    | IxClear match_vars idx num =>
        let c := r_vars s in
        SCont (w_vars (set_vars (clear_local idx num (c_local c))
                 (if N.eqb match_vars 0 then c_match c else clear_match_variables match_vars (c_match c)) c) s)
    | IxKeep flags =>
        let '(s1, created) := build_message_id s in
        let s2 := w_final (Some (EKeep (local_or_global_flags L (vw s1) flags) (r_main s1))) s1 in
        match created with Some e => SYield s2 (OEvent e) | None => SCont s2 end
    | IxFileInto folder flags mid su copy create => exec_fileinto folder flags mid su copy create s
    | IxRedirect address copy list_ opts => exec_redirect address copy list_ opts s
    | IxDiscard => SCont (w_final (Some EDiscard) s)
    | IxStop => SEnd (w_stack [] s)
    | IxReject extended reason => SYield (w_final None s) (OEvent (EReject extended (tx s reason)))
    | IxForEveryPart jz =>
        match r_iter s, r_iters s with
        | p :: it, _ => SCont (w_part p (w_iter it s))
        | [], (p, it) :: rest => SCont (w_pos jz (w_part p (w_iter it (w_iters rest s))))
        | [], [] => SCont (w_part 0 s)
        end
    | IxForEveryPartPush =>
        match nested_ids (parts s) (r_part s) (match r_iters s with [] => true | _ => false end) with
        | None => SPanic
        | Some ids => SCont (w_iter ids (w_iters ((r_part s, r_iter s) :: r_iters s) s))
        end
    | IxForEveryPartPop n => SCont (pop_parts n s)
    | IxWhile code jz => with_value code s (fun v s => SCont (if to_bool v then s else w_pos jz s))
    | IxLet name code =>
        with_value code s (fun v s => SCont (assign (set_variable L (E_max_var E) (r_vars s) name v) s))
    | IxReplace subject from body mime =>
        edit_msg (replace (mime_env s) (otx s subject) (otx s from) (tx s body) mime (r_part s) (r_msg s)) s
    | IxEnclose headers subject body =>
        edit_msg (enclose L M (mime_env s) (txs s headers) (otx s subject) (tx s body) (r_msg s)) (w_part 0 s)
    | IxExtract mods first name =>
        let t := VStr (extract_text L (mime_env s) (match r_iters s with [] => false | _ => true end) first
                         (E_max_var E) (vw s) mods (r_part s) (r_msg s)) in
        (* stored without the size limit of [set_variable] *)
        take_queue (assign (set_variable L (v_len t) (r_vars s) name t) s)
    | IxConvert from to =>
        match convert (mime_env s) (tx s from) (tx s to) (r_msg s) with
        | None => SPanic
        | Some (_, m) => SCont (w_msg m s)
        end
    | IxAddHeader name v last =>
        edit_msg (add_header L M (E_protected E) (E_max_header E) (tx s name) (tx s v) last (r_part s) (r_msg s)) s
    | IxDeleteHeader name index anychild c m patterns =>
        edit_msg (delete_header L rx M (E_protected E) (tx s name) index anychild c m (evs s patterns) (r_part s) (r_msg s)) s
    | IxSet mods name v =>
        take_queue (assign (exec_set L (E_max_var E) (vw s) mods name v) s)
    | IxNotify method from importance options message fcc =>
        match parts s with
        | [] => SPanic
        | root :: _ =>
            match exec_notify M (E_utf8 E)
                    {| v_headers := p_headers root; v_subject := E_subject E (r_msg s);
                       v_addr := E_user E; v_name := E_name E;
                       v_date := E_date E (r_instrs s); v_msgid := E_new_id E (r_instrs s);
                       v_max_out := E_max_out E; v_out := r_out s; v_last := r_last s |}
                    {| n_method := tx s method; n_from := otx s from; n_importance := otx s importance;
                       n_options := txs s options; n_message := otx s message;
                       n_fcc := option_map (fcc_of s) fcc |} with
            | None => take_queue s
            | Some (events, last, out) => take_queue (w_queue events (w_last last (w_out out s)))
            end
        end
    | IxVacation subject from mime fcc reason =>
        match parts s with
        | [] => SPanic
        | root :: _ =>
            let '(events, last, out) :=
              exec_vacation L (E_raw E) (E_has_addr E) (vacation_env s (p_headers root))
                (vacation_args [] None (tx s reason) PDefault (otx s subject) (otx s from) mime
                   (option_map (fcc_of s) fcc)) in
            take_queue (w_queue events (w_last last (w_out out s)))
        end
    | IxEditFlags a name flags => SCont (assign (exec_flags L (E_max_var E) (vw s) a name flags) s)
    | IxInclude name global once optional => exec_include name global once optional s
    | IxReturn => pop_frame s
    | IxRequire caps =>
        match find (fun c => negb (allowed c)) caps with
        | None => SCont s
        | Some (CapOther n) => fail s (ErNotSupported n)
        | Some c => fail s (ErNotAllowed c)
        end
    | IxError message => let s' := finish_loop s in SYield s' (OError (ErScript (tx s' message)))
    | IxInvalid name => fail s (ErInvalid name)
    end.

  (** context.rs 122, 125, 403 [iter.next()]: The instruction that comes next, if any. *)
  Definition next_instr (s : rst) : option instruction :=
    match r_stack s with
    | f :: _ => nth_error (s_code (f_script f)) (r_pos s)
    | [] => None
    end.

  (** One turn of the loops of context.rs 125-406. *)
  Definition step (s : rst) : sres :=
    match r_stack s with
    | [] => SEnd s
    | f :: _ =>
        if Nat.ltb (length (s_code (f_script f))) (r_pos s) then SNone s
        else match next_instr s with
             | None => pop_frame s
             | Some i =>
                 let s1 := w_instrs (r_instrs s + 1) s in
                 if Nat.ltb (E_cpu E) (r_instrs s1) then fail s1 ErCpu
                 else exec_instr i (w_pos (r_pos s1 + 1) s1)
             end
    end.

  (** context.rs 116-441: until something is returned. *)
  Inductive rres := RRet (s : rst) (o : option out) | RPanic | RFuel.
  (** context.rs 124-441. *)
  Fixpoint loop (fuel : nat) (s : rst) : rres :=
    match fuel with
    | 0 => RFuel
    | S f =>
        match step s with
        | SCont s' => loop f s'
        | SYield s' o => RRet s' (Some o)
        | SEnd s' => let '(s'', o) := finale s' in RRet s'' o
        | SNone s' => RRet s' None
        | SPanic => RPanic
        end
    end.
  (** No counterpart: fuel. Enough turns: each executes an instruction or leaves a script. *)
  Definition enough (s : rst) : nat := 2 * (E_cpu E + 1 - r_instrs s) + length (r_stack s) + 1.

  (** lib.rs 290-295 [Input] *)
  Inductive input := InTrue | InFalse | InResult (v : var) | InScript (n : script_name) (s : sieve).
  (** context.rs 97: [script_cache.insert] ([AHashMap]). *)
  Fixpoint cache_insert (n : script_name) (x : sieve) (l : list (script_name * sieve)) : list (script_name * sieve) :=
    match l with
    | [] => [(n, x)]
    | (k, y) :: l' => if script_name_eqb n k then (n, x) :: l' else (k, y) :: cache_insert n x l'
    end.
  (** context.rs 82-114; MAX_MATCH_VARIABLES is 63, MAX_LOCAL_VARIABLES is 256. *)
  Definition feed (inp : input) (s : rst) : rst :=
    match inp with
    | InTrue => w_test (xorb (r_test s) true) s
    | InFalse => w_test (xorb (r_test s) false) s
    | InResult v => w_estack (v :: r_estack s) s
    | InScript n x =>
        if Nat.leb (s_match_vars x) 63 && Nat.leb (s_vars x) 256 then
          w_test false (push_frame x (w_cache (cache_insert n x (r_cache s)) s))
        else s
    end.
  (** context.rs 81-441 [Context::run] *)
  Definition run (inp : input) (s : rst) : rres :=
    let s := feed inp s in
    match r_queue s with
    | e :: q => RRet (w_queue q s) (Some (OEvent e))
    | [] => match r_stack s with
            | [] => RRet s None
            | _ => loop (enough s) s
            end
    end.

  (** context.rs 34-78 [Context::new]: the state before the first call; the
      message, its size and the variables of the host are given. *)
  Definition initial (m : list part) (size : nat) (c : vctx) : rst :=
    {| r_vars := set_vars [] [] c;
       r_msg := {| ms_parts := m; ms_changed := false; ms_size := size |};
       r_part := 0; r_iter := []; r_iters := []; r_pos := 0; r_test := false; r_cache := [];
       r_stack := []; r_estack := []; r_epos := 0; r_queue := [];
       r_final := Some (EKeep [] 0); r_last := 0; r_main := 0; r_redirects := 0; r_instrs := 0; r_out := 0 |}.

  (** No counterpart: the loop of the host around [run] (see the README). A whole conversation: the host
      answers with the inputs in turn. *)
  Fixpoint converse_run (inputs : list input) (s : rst) : option (list (option out) * rst) :=
    match inputs with
    | [] => Some ([], s)
    | i :: rest =>
        match run i s with
        | RRet s' o => option_map (fun r => (o :: fst r, snd r)) (converse_run rest s')
        | _ => None
        end
    end.
End Run.
