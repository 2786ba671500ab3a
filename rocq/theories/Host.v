(** What the host sets up before a run: the functions it offers (runtime/mod.rs
    610-666, compiler/mod.rs 425-428), the extensions it allows and the variables of
    the environment (runtime/mod.rs 337-372, 456-521, runtime/context.rs 495-575).
    The other settings are single fields that are overwritten. *)
From Verif Require Import Base Lib Var Value Expr Sieve Compile ParseBase.

(** *** Functions *)

(** lib.rs 60 [Function]: the function may read the context. *)
Definition hostfun := vctx -> list var -> var.
(** lib.rs 62-66 [FunctionMap].  The hash map is a list of pairs, newest first; only the first
    entry of a name counts. *)
Record fmap := { fm_map : list (text * (N * nat)); fm_fns : list hostfun }.
(** runtime/mod.rs 621-626 [FunctionMap::new]. *)
Definition fm_new : fmap := {| fm_map := []; fm_fns := [] |}.
(** runtime/mod.rs 636-646 [with_function_args]: the length is taken as a [u32]. *)
Definition with_function_args (name : text) (f : hostfun) (n : nat) (m : fmap) : fmap :=
  {| fm_map := (name, (N.modulo (N.of_nat (length (fm_fns m))) (2 ^ 32), n)) :: fm_map m; fm_fns := fm_fns m ++ [f] |}.
(** runtime/mod.rs 628-630 [with_function]. *)
Definition with_function (name : text) (f : hostfun) : fmap -> fmap := with_function_args name f 1.
(** runtime/mod.rs 632-634 [with_function_no_args]. *)
Definition with_function_no_args (name : text) (f : hostfun) : fmap -> fmap := with_function_args name f 0.
(** runtime/mod.rs 648-666 [with_external_function], [set_external_function]; [None] is the overflow of
    the subtraction. *)
Definition set_external_function (name : text) (id : N) (n : nat) (m : fmap) : option fmap :=
  if N.leb id id_external
  then Some {| fm_map := (name, ((id_external - id)%N, n)) :: fm_map m; fm_fns := fm_fns m |}
  else None.

(** Rust core: [HashMap::get]. *)
Fixpoint fm_get (name : text) (l : list (text * (N * nat))) : option (N * nat) :=
  match l with
  | [] => None
  | (k, x) :: l' => if teqb name k then Some x else fm_get name l'
  end.
(** compiler/mod.rs 425-428 [register_functions], string.rs 485-491 [functions.get]: what the compiler
    knows of a name. *)
Definition known (m : fmap) (name : text) : option (N * nat) := fm_get name (fm_map m).
(** runtime/mod.rs 610-617 [with_functions], expression.rs 54-56 [functions.get]: the function of the
    runtime with this identifier. *)
Definition linked_in (m : fmap) (ctx : vctx) (id : N) : option (list var -> var) :=
  option_map (fun f => f ctx) (nth_error (fm_fns m) (N.to_nat id)).

(** *** Extensions and variables *)

(** grammar/mod.rs 519-568 [Capability::all]. *)
Definition all_capabilities : list capability := map cap [
  "envelope"; "envelope-dsn"; "envelope-deliverby"; "fileinto"; "encoded-character"; "comparator-elbonia";
  "comparator-i;ascii-casemap"; "comparator-i;ascii-numeric"; "comparator-i;octet"; "body"; "convert"; "copy";
  "relational"; "date"; "index"; "duplicate"; "variables"; "editheader"; "foreverypart"; "mime"; "replace";
  "enclose"; "extracttext"; "enotify"; "redirect-dsn"; "redirect-deliverby"; "environment"; "reject"; "ereject";
  "extlists"; "subaddress"; "vacation"; "vacation-seconds"; "fcc"; "mailbox"; "mailboxid"; "mboxmetadata";
  "servermetadata"; "special-use"; "imap4flags"; "ihave"; "imapsieve"; "include"; "regex"; "spamtest";
  "spamtestplus"; "virustest"]%string.
(** lib.rs 68-96 [Runtime], the two fields concerned. *)
Record rtset := { rt_caps : list capability; rt_env : list (text * var) }.
(** runtime/mod.rs 337-372 [Runtime::new]; the version of the package is given. *)
Definition rt_new (version : text) : rtset :=
  {| rt_caps := all_capabilities;
     rt_env := [(lit "name", VStr (lit "Stalwart Sieve")); (lit "version", VStr version)] |}.
(** runtime/mod.rs 456-463 [set_capability], [with_capability]. *)
Definition set_capability (c : capability) (r : rtset) : rtset :=
  {| rt_caps := c :: rt_caps r; rt_env := rt_env r |}.
(** runtime/mod.rs 465-472 [unset_capability], [without_capability]. *)
Definition unset_capability (c : capability) (r : rtset) : rtset :=
  {| rt_caps := filter (fun d => negb (cap_eqb c d)) (rt_caps r); rt_env := rt_env r |}.
(** runtime/mod.rs 474-482 [without_capabilities]. *)
Definition without_capabilities (l : list capability) (r : rtset) : rtset := fold_left (fun r c => unset_capability c r) l r.
(** runtime/mod.rs 506-521 [set_env_variable], [with_env_variable]. *)
Definition rt_set_env (n : text) (v : var) (r : rtset) : rtset :=
  {| rt_caps := rt_caps r; rt_env := ainsert n v (rt_env r) |}.

(** context.rs 34-78 [Context::new]: the variables of a context of a runtime. *)
Definition ctx_new (r : rtset) (msg : msgvar -> option var) : vctx :=
  {| c_local := []; c_match := []; c_global := []; c_env := []; c_rtenv := rt_env r; c_envelope := []; c_message := msg |}.
(** context.rs 543-558 [set_env_variable], [with_env_variable]. *)
Definition ctx_set_env (n : text) (v : var) (c : vctx) : vctx :=
  {| c_local := c_local c; c_match := c_match c; c_global := c_global c; c_env := ainsert n v (c_env c);
     c_rtenv := c_rtenv c; c_envelope := c_envelope c; c_message := c_message c |}.
(** context.rs 560-575 [set_global_variable], [with_global_variable]. *)
Definition ctx_set_global (n : text) (v : var) (c : vctx) : vctx :=
  {| c_local := c_local c; c_match := c_match c; c_global := ainsert n v (c_global c); c_env := c_env c;
     c_rtenv := c_rtenv c; c_envelope := c_envelope c; c_message := c_message c |}.
(** context.rs 495-498 [with_vars_env]. *)
Definition ctx_with_env (l : list (text * var)) (c : vctx) : vctx :=
  {| c_local := c_local c; c_match := c_match c; c_global := c_global c; c_env := l;
     c_rtenv := c_rtenv c; c_envelope := c_envelope c; c_message := c_message c |}.
(** context.rs 632-634 [global_variable]. *)
Definition ctx_global (c : vctx) (n : text) : option var := alookup n (c_global c).
