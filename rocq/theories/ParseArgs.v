(** The arguments of a command or a test read so far: the local variables of the
    parsers of src/compiler/grammar/actions and tests (one record for all of them; each
    parser uses the few it declares).  [args0] is their initial values. *)
From Verif Require Import Base Lib Address Var Value SetVar Flags Comparator Message EditHeader
  Expr Event AddrTest Vacation Sieve.

(** The local variables of the parsers [parse_test_*] and [parse_*] of grammar/tests and
    grammar/actions, e.g. test_address.rs 40-49, test_header.rs 45-54. *)
Record args := mkargs {
  a_part : apart;
  a_m : mtype;
  a_c : comparator;
  a_index : option Z;
  a_last : bool;
  a_mime : bool;
  a_any : bool;
  a_opts : mimev;
  a_vals : option (list value);
  a_name : option value;
  a_name2 : option value;
  a_date : option datepart;
  a_zone : zone;
  a_tz : option Z;
  a_env : option (list envk);
  a_body : bodytransform;
  a_local : bool;
  a_percent : bool;
  a_handle : option value;
  a_dup : dupmatch;
  a_secs : option N;
  a_copy : bool;
  a_create : bool;
  a_flags : list value;
  a_mbid : option value;
  a_special : option value;
  a_list : bool;
  a_trace : bool;
  a_bymode : bymode;
  a_rlimit : option N;
  a_alimit : option value;
  a_ret : retc;
  a_dsn : dsn;
  a_subject : option value;
  a_from : option value;
  a_headers : list value;
  a_mods : list modifier;
  a_first : option nat;
  a_var : option vartype;
  a_msg : option value;
  a_imp : option value;
  a_nopts : list value;
  a_fcc : option value;
  a_period : period;
  a_addrs : list value;
  a_once : bool;
  a_optional : bool;
  a_global : bool }.
(** The initial values of those variables, e.g. test_address.rs 40-49 (the [let mut] at the head of each
    parser). *)
Definition args0 : args := mkargs PAll MIs CCasemap None false false false MvNone None None None None ZLocal
    None None BtText false false None DupDefault None false false [] None None false false ByDefault None None
    RetDefault DsnDefault None None [] [] None None None None [] None PDefault [] false false false.
(** An assignment to the local variable that [a_part] stands for (no lines of /repo of its own). *)
Definition s_part (x : apart) (a : args) : args := mkargs x (a_m a) (a_c a) (a_index a) (a_last a) (a_mime a)
    (a_any a) (a_opts a) (a_vals a) (a_name a) (a_name2 a) (a_date a) (a_zone a) (a_tz a) (a_env a) (a_body a)
    (a_local a) (a_percent a) (a_handle a) (a_dup a) (a_secs a) (a_copy a) (a_create a) (a_flags a) (a_mbid a)
    (a_special a) (a_list a) (a_trace a) (a_bymode a) (a_rlimit a) (a_alimit a) (a_ret a) (a_dsn a)
    (a_subject a) (a_from a) (a_headers a) (a_mods a) (a_first a) (a_var a) (a_msg a) (a_imp a) (a_nopts a)
    (a_fcc a) (a_period a) (a_addrs a) (a_once a) (a_optional a) (a_global a).
(** An assignment to the local variable that [a_m] stands for (no lines of /repo of its own). *)
Definition s_m (x : mtype) (a : args) : args := mkargs (a_part a) x (a_c a) (a_index a) (a_last a) (a_mime a)
    (a_any a) (a_opts a) (a_vals a) (a_name a) (a_name2 a) (a_date a) (a_zone a) (a_tz a) (a_env a) (a_body a)
    (a_local a) (a_percent a) (a_handle a) (a_dup a) (a_secs a) (a_copy a) (a_create a) (a_flags a) (a_mbid a)
    (a_special a) (a_list a) (a_trace a) (a_bymode a) (a_rlimit a) (a_alimit a) (a_ret a) (a_dsn a)
    (a_subject a) (a_from a) (a_headers a) (a_mods a) (a_first a) (a_var a) (a_msg a) (a_imp a) (a_nopts a)
    (a_fcc a) (a_period a) (a_addrs a) (a_once a) (a_optional a) (a_global a).
(** An assignment to the local variable that [a_c] stands for (no lines of /repo of its own). *)
Definition s_c (x : comparator) (a : args) : args := mkargs (a_part a) (a_m a) x (a_index a) (a_last a)
    (a_mime a) (a_any a) (a_opts a) (a_vals a) (a_name a) (a_name2 a) (a_date a) (a_zone a) (a_tz a) (a_env a)
    (a_body a) (a_local a) (a_percent a) (a_handle a) (a_dup a) (a_secs a) (a_copy a) (a_create a) (a_flags a)
    (a_mbid a) (a_special a) (a_list a) (a_trace a) (a_bymode a) (a_rlimit a) (a_alimit a) (a_ret a) (a_dsn a)
    (a_subject a) (a_from a) (a_headers a) (a_mods a) (a_first a) (a_var a) (a_msg a) (a_imp a) (a_nopts a)
    (a_fcc a) (a_period a) (a_addrs a) (a_once a) (a_optional a) (a_global a).
(** An assignment to the local variable that [a_index] stands for (no lines of /repo of its own). *)
Definition s_index (x : option Z) (a : args) : args := mkargs (a_part a) (a_m a) (a_c a) x (a_last a)
    (a_mime a) (a_any a) (a_opts a) (a_vals a) (a_name a) (a_name2 a) (a_date a) (a_zone a) (a_tz a) (a_env a)
    (a_body a) (a_local a) (a_percent a) (a_handle a) (a_dup a) (a_secs a) (a_copy a) (a_create a) (a_flags a)
    (a_mbid a) (a_special a) (a_list a) (a_trace a) (a_bymode a) (a_rlimit a) (a_alimit a) (a_ret a) (a_dsn a)
    (a_subject a) (a_from a) (a_headers a) (a_mods a) (a_first a) (a_var a) (a_msg a) (a_imp a) (a_nopts a)
    (a_fcc a) (a_period a) (a_addrs a) (a_once a) (a_optional a) (a_global a).
(** An assignment to the local variable that [a_last] stands for (no lines of /repo of its own). *)
Definition s_last (x : bool) (a : args) : args := mkargs (a_part a) (a_m a) (a_c a) (a_index a) x (a_mime a)
    (a_any a) (a_opts a) (a_vals a) (a_name a) (a_name2 a) (a_date a) (a_zone a) (a_tz a) (a_env a) (a_body a)
    (a_local a) (a_percent a) (a_handle a) (a_dup a) (a_secs a) (a_copy a) (a_create a) (a_flags a) (a_mbid a)
    (a_special a) (a_list a) (a_trace a) (a_bymode a) (a_rlimit a) (a_alimit a) (a_ret a) (a_dsn a)
    (a_subject a) (a_from a) (a_headers a) (a_mods a) (a_first a) (a_var a) (a_msg a) (a_imp a) (a_nopts a)
    (a_fcc a) (a_period a) (a_addrs a) (a_once a) (a_optional a) (a_global a).
(** An assignment to the local variable that [a_mime] stands for (no lines of /repo of its own). *)
Definition s_mime (x : bool) (a : args) : args := mkargs (a_part a) (a_m a) (a_c a) (a_index a) (a_last a) x
    (a_any a) (a_opts a) (a_vals a) (a_name a) (a_name2 a) (a_date a) (a_zone a) (a_tz a) (a_env a) (a_body a)
    (a_local a) (a_percent a) (a_handle a) (a_dup a) (a_secs a) (a_copy a) (a_create a) (a_flags a) (a_mbid a)
    (a_special a) (a_list a) (a_trace a) (a_bymode a) (a_rlimit a) (a_alimit a) (a_ret a) (a_dsn a)
    (a_subject a) (a_from a) (a_headers a) (a_mods a) (a_first a) (a_var a) (a_msg a) (a_imp a) (a_nopts a)
    (a_fcc a) (a_period a) (a_addrs a) (a_once a) (a_optional a) (a_global a).
(** An assignment to the local variable that [a_any] stands for (no lines of /repo of its own). *)
Definition s_any (x : bool) (a : args) : args := mkargs (a_part a) (a_m a) (a_c a) (a_index a) (a_last a)
    (a_mime a) x (a_opts a) (a_vals a) (a_name a) (a_name2 a) (a_date a) (a_zone a) (a_tz a) (a_env a)
    (a_body a) (a_local a) (a_percent a) (a_handle a) (a_dup a) (a_secs a) (a_copy a) (a_create a) (a_flags a)
    (a_mbid a) (a_special a) (a_list a) (a_trace a) (a_bymode a) (a_rlimit a) (a_alimit a) (a_ret a) (a_dsn a)
    (a_subject a) (a_from a) (a_headers a) (a_mods a) (a_first a) (a_var a) (a_msg a) (a_imp a) (a_nopts a)
    (a_fcc a) (a_period a) (a_addrs a) (a_once a) (a_optional a) (a_global a).
(** An assignment to the local variable that [a_opts] stands for (no lines of /repo of its own). *)
Definition s_opts (x : mimev) (a : args) : args := mkargs (a_part a) (a_m a) (a_c a) (a_index a) (a_last a)
    (a_mime a) (a_any a) x (a_vals a) (a_name a) (a_name2 a) (a_date a) (a_zone a) (a_tz a) (a_env a)
    (a_body a) (a_local a) (a_percent a) (a_handle a) (a_dup a) (a_secs a) (a_copy a) (a_create a) (a_flags a)
    (a_mbid a) (a_special a) (a_list a) (a_trace a) (a_bymode a) (a_rlimit a) (a_alimit a) (a_ret a) (a_dsn a)
    (a_subject a) (a_from a) (a_headers a) (a_mods a) (a_first a) (a_var a) (a_msg a) (a_imp a) (a_nopts a)
    (a_fcc a) (a_period a) (a_addrs a) (a_once a) (a_optional a) (a_global a).
(** An assignment to the local variable that [a_vals] stands for (no lines of /repo of its own). *)
Definition s_vals (x : option (list value)) (a : args) : args := mkargs (a_part a) (a_m a) (a_c a) (a_index a)
    (a_last a) (a_mime a) (a_any a) (a_opts a) x (a_name a) (a_name2 a) (a_date a) (a_zone a) (a_tz a)
    (a_env a) (a_body a) (a_local a) (a_percent a) (a_handle a) (a_dup a) (a_secs a) (a_copy a) (a_create a)
    (a_flags a) (a_mbid a) (a_special a) (a_list a) (a_trace a) (a_bymode a) (a_rlimit a) (a_alimit a)
    (a_ret a) (a_dsn a) (a_subject a) (a_from a) (a_headers a) (a_mods a) (a_first a) (a_var a) (a_msg a)
    (a_imp a) (a_nopts a) (a_fcc a) (a_period a) (a_addrs a) (a_once a) (a_optional a) (a_global a).
(** An assignment to the local variable that [a_name] stands for (no lines of /repo of its own). *)
Definition s_name (x : option value) (a : args) : args := mkargs (a_part a) (a_m a) (a_c a) (a_index a)
    (a_last a) (a_mime a) (a_any a) (a_opts a) (a_vals a) x (a_name2 a) (a_date a) (a_zone a) (a_tz a)
    (a_env a) (a_body a) (a_local a) (a_percent a) (a_handle a) (a_dup a) (a_secs a) (a_copy a) (a_create a)
    (a_flags a) (a_mbid a) (a_special a) (a_list a) (a_trace a) (a_bymode a) (a_rlimit a) (a_alimit a)
    (a_ret a) (a_dsn a) (a_subject a) (a_from a) (a_headers a) (a_mods a) (a_first a) (a_var a) (a_msg a)
    (a_imp a) (a_nopts a) (a_fcc a) (a_period a) (a_addrs a) (a_once a) (a_optional a) (a_global a).
(** An assignment to the local variable that [a_name2] stands for (no lines of /repo of its own). *)
Definition s_name2 (x : option value) (a : args) : args := mkargs (a_part a) (a_m a) (a_c a) (a_index a)
    (a_last a) (a_mime a) (a_any a) (a_opts a) (a_vals a) (a_name a) x (a_date a) (a_zone a) (a_tz a)
    (a_env a) (a_body a) (a_local a) (a_percent a) (a_handle a) (a_dup a) (a_secs a) (a_copy a) (a_create a)
    (a_flags a) (a_mbid a) (a_special a) (a_list a) (a_trace a) (a_bymode a) (a_rlimit a) (a_alimit a)
    (a_ret a) (a_dsn a) (a_subject a) (a_from a) (a_headers a) (a_mods a) (a_first a) (a_var a) (a_msg a)
    (a_imp a) (a_nopts a) (a_fcc a) (a_period a) (a_addrs a) (a_once a) (a_optional a) (a_global a).
(** An assignment to the local variable that [a_date] stands for (no lines of /repo of its own). *)
Definition s_date (x : option datepart) (a : args) : args := mkargs (a_part a) (a_m a) (a_c a) (a_index a)
    (a_last a) (a_mime a) (a_any a) (a_opts a) (a_vals a) (a_name a) (a_name2 a) x (a_zone a) (a_tz a)
    (a_env a) (a_body a) (a_local a) (a_percent a) (a_handle a) (a_dup a) (a_secs a) (a_copy a) (a_create a)
    (a_flags a) (a_mbid a) (a_special a) (a_list a) (a_trace a) (a_bymode a) (a_rlimit a) (a_alimit a)
    (a_ret a) (a_dsn a) (a_subject a) (a_from a) (a_headers a) (a_mods a) (a_first a) (a_var a) (a_msg a)
    (a_imp a) (a_nopts a) (a_fcc a) (a_period a) (a_addrs a) (a_once a) (a_optional a) (a_global a).
(** An assignment to the local variable that [a_zone] stands for (no lines of /repo of its own). *)
Definition s_zone (x : zone) (a : args) : args := mkargs (a_part a) (a_m a) (a_c a) (a_index a) (a_last a)
    (a_mime a) (a_any a) (a_opts a) (a_vals a) (a_name a) (a_name2 a) (a_date a) x (a_tz a) (a_env a)
    (a_body a) (a_local a) (a_percent a) (a_handle a) (a_dup a) (a_secs a) (a_copy a) (a_create a) (a_flags a)
    (a_mbid a) (a_special a) (a_list a) (a_trace a) (a_bymode a) (a_rlimit a) (a_alimit a) (a_ret a) (a_dsn a)
    (a_subject a) (a_from a) (a_headers a) (a_mods a) (a_first a) (a_var a) (a_msg a) (a_imp a) (a_nopts a)
    (a_fcc a) (a_period a) (a_addrs a) (a_once a) (a_optional a) (a_global a).
(** An assignment to the local variable that [a_tz] stands for (no lines of /repo of its own). *)
Definition s_tz (x : option Z) (a : args) : args := mkargs (a_part a) (a_m a) (a_c a) (a_index a) (a_last a)
    (a_mime a) (a_any a) (a_opts a) (a_vals a) (a_name a) (a_name2 a) (a_date a) (a_zone a) x (a_env a)
    (a_body a) (a_local a) (a_percent a) (a_handle a) (a_dup a) (a_secs a) (a_copy a) (a_create a) (a_flags a)
    (a_mbid a) (a_special a) (a_list a) (a_trace a) (a_bymode a) (a_rlimit a) (a_alimit a) (a_ret a) (a_dsn a)
    (a_subject a) (a_from a) (a_headers a) (a_mods a) (a_first a) (a_var a) (a_msg a) (a_imp a) (a_nopts a)
    (a_fcc a) (a_period a) (a_addrs a) (a_once a) (a_optional a) (a_global a).
(** An assignment to the local variable that [a_env] stands for (no lines of /repo of its own). *)
Definition s_env (x : option (list envk)) (a : args) : args := mkargs (a_part a) (a_m a) (a_c a) (a_index a)
    (a_last a) (a_mime a) (a_any a) (a_opts a) (a_vals a) (a_name a) (a_name2 a) (a_date a) (a_zone a)
    (a_tz a) x (a_body a) (a_local a) (a_percent a) (a_handle a) (a_dup a) (a_secs a) (a_copy a) (a_create a)
    (a_flags a) (a_mbid a) (a_special a) (a_list a) (a_trace a) (a_bymode a) (a_rlimit a) (a_alimit a)
    (a_ret a) (a_dsn a) (a_subject a) (a_from a) (a_headers a) (a_mods a) (a_first a) (a_var a) (a_msg a)
    (a_imp a) (a_nopts a) (a_fcc a) (a_period a) (a_addrs a) (a_once a) (a_optional a) (a_global a).
(** An assignment to the local variable that [a_body] stands for (no lines of /repo of its own). *)
Definition s_body (x : bodytransform) (a : args) : args := mkargs (a_part a) (a_m a) (a_c a) (a_index a)
    (a_last a) (a_mime a) (a_any a) (a_opts a) (a_vals a) (a_name a) (a_name2 a) (a_date a) (a_zone a)
    (a_tz a) (a_env a) x (a_local a) (a_percent a) (a_handle a) (a_dup a) (a_secs a) (a_copy a) (a_create a)
    (a_flags a) (a_mbid a) (a_special a) (a_list a) (a_trace a) (a_bymode a) (a_rlimit a) (a_alimit a)
    (a_ret a) (a_dsn a) (a_subject a) (a_from a) (a_headers a) (a_mods a) (a_first a) (a_var a) (a_msg a)
    (a_imp a) (a_nopts a) (a_fcc a) (a_period a) (a_addrs a) (a_once a) (a_optional a) (a_global a).
(** An assignment to the local variable that [a_local] stands for (no lines of /repo of its own). *)
Definition s_local (x : bool) (a : args) : args := mkargs (a_part a) (a_m a) (a_c a) (a_index a) (a_last a)
    (a_mime a) (a_any a) (a_opts a) (a_vals a) (a_name a) (a_name2 a) (a_date a) (a_zone a) (a_tz a) (a_env a)
    (a_body a) x (a_percent a) (a_handle a) (a_dup a) (a_secs a) (a_copy a) (a_create a) (a_flags a)
    (a_mbid a) (a_special a) (a_list a) (a_trace a) (a_bymode a) (a_rlimit a) (a_alimit a) (a_ret a) (a_dsn a)
    (a_subject a) (a_from a) (a_headers a) (a_mods a) (a_first a) (a_var a) (a_msg a) (a_imp a) (a_nopts a)
    (a_fcc a) (a_period a) (a_addrs a) (a_once a) (a_optional a) (a_global a).
(** An assignment to the local variable that [a_percent] stands for (no lines of /repo of its own). *)
Definition s_percent (x : bool) (a : args) : args := mkargs (a_part a) (a_m a) (a_c a) (a_index a) (a_last a)
    (a_mime a) (a_any a) (a_opts a) (a_vals a) (a_name a) (a_name2 a) (a_date a) (a_zone a) (a_tz a) (a_env a)
    (a_body a) (a_local a) x (a_handle a) (a_dup a) (a_secs a) (a_copy a) (a_create a) (a_flags a) (a_mbid a)
    (a_special a) (a_list a) (a_trace a) (a_bymode a) (a_rlimit a) (a_alimit a) (a_ret a) (a_dsn a)
    (a_subject a) (a_from a) (a_headers a) (a_mods a) (a_first a) (a_var a) (a_msg a) (a_imp a) (a_nopts a)
    (a_fcc a) (a_period a) (a_addrs a) (a_once a) (a_optional a) (a_global a).
(** An assignment to the local variable that [a_handle] stands for (no lines of /repo of its own). *)
Definition s_handle (x : option value) (a : args) : args := mkargs (a_part a) (a_m a) (a_c a) (a_index a)
    (a_last a) (a_mime a) (a_any a) (a_opts a) (a_vals a) (a_name a) (a_name2 a) (a_date a) (a_zone a)
    (a_tz a) (a_env a) (a_body a) (a_local a) (a_percent a) x (a_dup a) (a_secs a) (a_copy a) (a_create a)
    (a_flags a) (a_mbid a) (a_special a) (a_list a) (a_trace a) (a_bymode a) (a_rlimit a) (a_alimit a)
    (a_ret a) (a_dsn a) (a_subject a) (a_from a) (a_headers a) (a_mods a) (a_first a) (a_var a) (a_msg a)
    (a_imp a) (a_nopts a) (a_fcc a) (a_period a) (a_addrs a) (a_once a) (a_optional a) (a_global a).
(** An assignment to the local variable that [a_dup] stands for (no lines of /repo of its own). *)
Definition s_dup (x : dupmatch) (a : args) : args := mkargs (a_part a) (a_m a) (a_c a) (a_index a) (a_last a)
    (a_mime a) (a_any a) (a_opts a) (a_vals a) (a_name a) (a_name2 a) (a_date a) (a_zone a) (a_tz a) (a_env a)
    (a_body a) (a_local a) (a_percent a) (a_handle a) x (a_secs a) (a_copy a) (a_create a) (a_flags a)
    (a_mbid a) (a_special a) (a_list a) (a_trace a) (a_bymode a) (a_rlimit a) (a_alimit a) (a_ret a) (a_dsn a)
    (a_subject a) (a_from a) (a_headers a) (a_mods a) (a_first a) (a_var a) (a_msg a) (a_imp a) (a_nopts a)
    (a_fcc a) (a_period a) (a_addrs a) (a_once a) (a_optional a) (a_global a).
(** An assignment to the local variable that [a_secs] stands for (no lines of /repo of its own). *)
Definition s_secs (x : option N) (a : args) : args := mkargs (a_part a) (a_m a) (a_c a) (a_index a) (a_last a)
    (a_mime a) (a_any a) (a_opts a) (a_vals a) (a_name a) (a_name2 a) (a_date a) (a_zone a) (a_tz a) (a_env a)
    (a_body a) (a_local a) (a_percent a) (a_handle a) (a_dup a) x (a_copy a) (a_create a) (a_flags a)
    (a_mbid a) (a_special a) (a_list a) (a_trace a) (a_bymode a) (a_rlimit a) (a_alimit a) (a_ret a) (a_dsn a)
    (a_subject a) (a_from a) (a_headers a) (a_mods a) (a_first a) (a_var a) (a_msg a) (a_imp a) (a_nopts a)
    (a_fcc a) (a_period a) (a_addrs a) (a_once a) (a_optional a) (a_global a).
(** An assignment to the local variable that [a_copy] stands for (no lines of /repo of its own). *)
Definition s_copy (x : bool) (a : args) : args := mkargs (a_part a) (a_m a) (a_c a) (a_index a) (a_last a)
    (a_mime a) (a_any a) (a_opts a) (a_vals a) (a_name a) (a_name2 a) (a_date a) (a_zone a) (a_tz a) (a_env a)
    (a_body a) (a_local a) (a_percent a) (a_handle a) (a_dup a) (a_secs a) x (a_create a) (a_flags a)
    (a_mbid a) (a_special a) (a_list a) (a_trace a) (a_bymode a) (a_rlimit a) (a_alimit a) (a_ret a) (a_dsn a)
    (a_subject a) (a_from a) (a_headers a) (a_mods a) (a_first a) (a_var a) (a_msg a) (a_imp a) (a_nopts a)
    (a_fcc a) (a_period a) (a_addrs a) (a_once a) (a_optional a) (a_global a).
(** An assignment to the local variable that [a_create] stands for (no lines of /repo of its own). *)
Definition s_create (x : bool) (a : args) : args := mkargs (a_part a) (a_m a) (a_c a) (a_index a) (a_last a)
    (a_mime a) (a_any a) (a_opts a) (a_vals a) (a_name a) (a_name2 a) (a_date a) (a_zone a) (a_tz a) (a_env a)
    (a_body a) (a_local a) (a_percent a) (a_handle a) (a_dup a) (a_secs a) (a_copy a) x (a_flags a) (a_mbid a)
    (a_special a) (a_list a) (a_trace a) (a_bymode a) (a_rlimit a) (a_alimit a) (a_ret a) (a_dsn a)
    (a_subject a) (a_from a) (a_headers a) (a_mods a) (a_first a) (a_var a) (a_msg a) (a_imp a) (a_nopts a)
    (a_fcc a) (a_period a) (a_addrs a) (a_once a) (a_optional a) (a_global a).
(** An assignment to the local variable that [a_flags] stands for (no lines of /repo of its own). *)
Definition s_flags (x : list value) (a : args) : args := mkargs (a_part a) (a_m a) (a_c a) (a_index a)
    (a_last a) (a_mime a) (a_any a) (a_opts a) (a_vals a) (a_name a) (a_name2 a) (a_date a) (a_zone a)
    (a_tz a) (a_env a) (a_body a) (a_local a) (a_percent a) (a_handle a) (a_dup a) (a_secs a) (a_copy a)
    (a_create a) x (a_mbid a) (a_special a) (a_list a) (a_trace a) (a_bymode a) (a_rlimit a) (a_alimit a)
    (a_ret a) (a_dsn a) (a_subject a) (a_from a) (a_headers a) (a_mods a) (a_first a) (a_var a) (a_msg a)
    (a_imp a) (a_nopts a) (a_fcc a) (a_period a) (a_addrs a) (a_once a) (a_optional a) (a_global a).
(** An assignment to the local variable that [a_mbid] stands for (no lines of /repo of its own). *)
Definition s_mbid (x : option value) (a : args) : args := mkargs (a_part a) (a_m a) (a_c a) (a_index a)
    (a_last a) (a_mime a) (a_any a) (a_opts a) (a_vals a) (a_name a) (a_name2 a) (a_date a) (a_zone a)
    (a_tz a) (a_env a) (a_body a) (a_local a) (a_percent a) (a_handle a) (a_dup a) (a_secs a) (a_copy a)
    (a_create a) (a_flags a) x (a_special a) (a_list a) (a_trace a) (a_bymode a) (a_rlimit a) (a_alimit a)
    (a_ret a) (a_dsn a) (a_subject a) (a_from a) (a_headers a) (a_mods a) (a_first a) (a_var a) (a_msg a)
    (a_imp a) (a_nopts a) (a_fcc a) (a_period a) (a_addrs a) (a_once a) (a_optional a) (a_global a).
(** An assignment to the local variable that [a_special] stands for (no lines of /repo of its own). *)
Definition s_special (x : option value) (a : args) : args := mkargs (a_part a) (a_m a) (a_c a) (a_index a)
    (a_last a) (a_mime a) (a_any a) (a_opts a) (a_vals a) (a_name a) (a_name2 a) (a_date a) (a_zone a)
    (a_tz a) (a_env a) (a_body a) (a_local a) (a_percent a) (a_handle a) (a_dup a) (a_secs a) (a_copy a)
    (a_create a) (a_flags a) (a_mbid a) x (a_list a) (a_trace a) (a_bymode a) (a_rlimit a) (a_alimit a)
    (a_ret a) (a_dsn a) (a_subject a) (a_from a) (a_headers a) (a_mods a) (a_first a) (a_var a) (a_msg a)
    (a_imp a) (a_nopts a) (a_fcc a) (a_period a) (a_addrs a) (a_once a) (a_optional a) (a_global a).
(** An assignment to the local variable that [a_list] stands for (no lines of /repo of its own). *)
Definition s_list (x : bool) (a : args) : args := mkargs (a_part a) (a_m a) (a_c a) (a_index a) (a_last a)
    (a_mime a) (a_any a) (a_opts a) (a_vals a) (a_name a) (a_name2 a) (a_date a) (a_zone a) (a_tz a) (a_env a)
    (a_body a) (a_local a) (a_percent a) (a_handle a) (a_dup a) (a_secs a) (a_copy a) (a_create a) (a_flags a)
    (a_mbid a) (a_special a) x (a_trace a) (a_bymode a) (a_rlimit a) (a_alimit a) (a_ret a) (a_dsn a)
    (a_subject a) (a_from a) (a_headers a) (a_mods a) (a_first a) (a_var a) (a_msg a) (a_imp a) (a_nopts a)
    (a_fcc a) (a_period a) (a_addrs a) (a_once a) (a_optional a) (a_global a).
(** An assignment to the local variable that [a_trace] stands for (no lines of /repo of its own). *)
Definition s_trace (x : bool) (a : args) : args := mkargs (a_part a) (a_m a) (a_c a) (a_index a) (a_last a)
    (a_mime a) (a_any a) (a_opts a) (a_vals a) (a_name a) (a_name2 a) (a_date a) (a_zone a) (a_tz a) (a_env a)
    (a_body a) (a_local a) (a_percent a) (a_handle a) (a_dup a) (a_secs a) (a_copy a) (a_create a) (a_flags a)
    (a_mbid a) (a_special a) (a_list a) x (a_bymode a) (a_rlimit a) (a_alimit a) (a_ret a) (a_dsn a)
    (a_subject a) (a_from a) (a_headers a) (a_mods a) (a_first a) (a_var a) (a_msg a) (a_imp a) (a_nopts a)
    (a_fcc a) (a_period a) (a_addrs a) (a_once a) (a_optional a) (a_global a).
(** An assignment to the local variable that [a_bymode] stands for (no lines of /repo of its own). *)
Definition s_bymode (x : bymode) (a : args) : args := mkargs (a_part a) (a_m a) (a_c a) (a_index a) (a_last a)
    (a_mime a) (a_any a) (a_opts a) (a_vals a) (a_name a) (a_name2 a) (a_date a) (a_zone a) (a_tz a) (a_env a)
    (a_body a) (a_local a) (a_percent a) (a_handle a) (a_dup a) (a_secs a) (a_copy a) (a_create a) (a_flags a)
    (a_mbid a) (a_special a) (a_list a) (a_trace a) x (a_rlimit a) (a_alimit a) (a_ret a) (a_dsn a)
    (a_subject a) (a_from a) (a_headers a) (a_mods a) (a_first a) (a_var a) (a_msg a) (a_imp a) (a_nopts a)
    (a_fcc a) (a_period a) (a_addrs a) (a_once a) (a_optional a) (a_global a).
(** An assignment to the local variable that [a_rlimit] stands for (no lines of /repo of its own). *)
Definition s_rlimit (x : option N) (a : args) : args := mkargs (a_part a) (a_m a) (a_c a) (a_index a)
    (a_last a) (a_mime a) (a_any a) (a_opts a) (a_vals a) (a_name a) (a_name2 a) (a_date a) (a_zone a)
    (a_tz a) (a_env a) (a_body a) (a_local a) (a_percent a) (a_handle a) (a_dup a) (a_secs a) (a_copy a)
    (a_create a) (a_flags a) (a_mbid a) (a_special a) (a_list a) (a_trace a) (a_bymode a) x (a_alimit a)
    (a_ret a) (a_dsn a) (a_subject a) (a_from a) (a_headers a) (a_mods a) (a_first a) (a_var a) (a_msg a)
    (a_imp a) (a_nopts a) (a_fcc a) (a_period a) (a_addrs a) (a_once a) (a_optional a) (a_global a).
(** An assignment to the local variable that [a_alimit] stands for (no lines of /repo of its own). *)
Definition s_alimit (x : option value) (a : args) : args := mkargs (a_part a) (a_m a) (a_c a) (a_index a)
    (a_last a) (a_mime a) (a_any a) (a_opts a) (a_vals a) (a_name a) (a_name2 a) (a_date a) (a_zone a)
    (a_tz a) (a_env a) (a_body a) (a_local a) (a_percent a) (a_handle a) (a_dup a) (a_secs a) (a_copy a)
    (a_create a) (a_flags a) (a_mbid a) (a_special a) (a_list a) (a_trace a) (a_bymode a) (a_rlimit a) x
    (a_ret a) (a_dsn a) (a_subject a) (a_from a) (a_headers a) (a_mods a) (a_first a) (a_var a) (a_msg a)
    (a_imp a) (a_nopts a) (a_fcc a) (a_period a) (a_addrs a) (a_once a) (a_optional a) (a_global a).
(** An assignment to the local variable that [a_ret] stands for (no lines of /repo of its own). *)
Definition s_ret (x : retc) (a : args) : args := mkargs (a_part a) (a_m a) (a_c a) (a_index a) (a_last a)
    (a_mime a) (a_any a) (a_opts a) (a_vals a) (a_name a) (a_name2 a) (a_date a) (a_zone a) (a_tz a) (a_env a)
    (a_body a) (a_local a) (a_percent a) (a_handle a) (a_dup a) (a_secs a) (a_copy a) (a_create a) (a_flags a)
    (a_mbid a) (a_special a) (a_list a) (a_trace a) (a_bymode a) (a_rlimit a) (a_alimit a) x (a_dsn a)
    (a_subject a) (a_from a) (a_headers a) (a_mods a) (a_first a) (a_var a) (a_msg a) (a_imp a) (a_nopts a)
    (a_fcc a) (a_period a) (a_addrs a) (a_once a) (a_optional a) (a_global a).
(** An assignment to the local variable that [a_dsn] stands for (no lines of /repo of its own). *)
Definition s_dsn (x : dsn) (a : args) : args := mkargs (a_part a) (a_m a) (a_c a) (a_index a) (a_last a)
    (a_mime a) (a_any a) (a_opts a) (a_vals a) (a_name a) (a_name2 a) (a_date a) (a_zone a) (a_tz a) (a_env a)
    (a_body a) (a_local a) (a_percent a) (a_handle a) (a_dup a) (a_secs a) (a_copy a) (a_create a) (a_flags a)
    (a_mbid a) (a_special a) (a_list a) (a_trace a) (a_bymode a) (a_rlimit a) (a_alimit a) (a_ret a) x
    (a_subject a) (a_from a) (a_headers a) (a_mods a) (a_first a) (a_var a) (a_msg a) (a_imp a) (a_nopts a)
    (a_fcc a) (a_period a) (a_addrs a) (a_once a) (a_optional a) (a_global a).
(** An assignment to the local variable that [a_subject] stands for (no lines of /repo of its own). *)
Definition s_subject (x : option value) (a : args) : args := mkargs (a_part a) (a_m a) (a_c a) (a_index a)
    (a_last a) (a_mime a) (a_any a) (a_opts a) (a_vals a) (a_name a) (a_name2 a) (a_date a) (a_zone a)
    (a_tz a) (a_env a) (a_body a) (a_local a) (a_percent a) (a_handle a) (a_dup a) (a_secs a) (a_copy a)
    (a_create a) (a_flags a) (a_mbid a) (a_special a) (a_list a) (a_trace a) (a_bymode a) (a_rlimit a)
    (a_alimit a) (a_ret a) (a_dsn a) x (a_from a) (a_headers a) (a_mods a) (a_first a) (a_var a) (a_msg a)
    (a_imp a) (a_nopts a) (a_fcc a) (a_period a) (a_addrs a) (a_once a) (a_optional a) (a_global a).
(** An assignment to the local variable that [a_from] stands for (no lines of /repo of its own). *)
Definition s_from (x : option value) (a : args) : args := mkargs (a_part a) (a_m a) (a_c a) (a_index a)
    (a_last a) (a_mime a) (a_any a) (a_opts a) (a_vals a) (a_name a) (a_name2 a) (a_date a) (a_zone a)
    (a_tz a) (a_env a) (a_body a) (a_local a) (a_percent a) (a_handle a) (a_dup a) (a_secs a) (a_copy a)
    (a_create a) (a_flags a) (a_mbid a) (a_special a) (a_list a) (a_trace a) (a_bymode a) (a_rlimit a)
    (a_alimit a) (a_ret a) (a_dsn a) (a_subject a) x (a_headers a) (a_mods a) (a_first a) (a_var a) (a_msg a)
    (a_imp a) (a_nopts a) (a_fcc a) (a_period a) (a_addrs a) (a_once a) (a_optional a) (a_global a).
(** An assignment to the local variable that [a_headers] stands for (no lines of /repo of its own). *)
Definition s_headers (x : list value) (a : args) : args := mkargs (a_part a) (a_m a) (a_c a) (a_index a)
    (a_last a) (a_mime a) (a_any a) (a_opts a) (a_vals a) (a_name a) (a_name2 a) (a_date a) (a_zone a)
    (a_tz a) (a_env a) (a_body a) (a_local a) (a_percent a) (a_handle a) (a_dup a) (a_secs a) (a_copy a)
    (a_create a) (a_flags a) (a_mbid a) (a_special a) (a_list a) (a_trace a) (a_bymode a) (a_rlimit a)
    (a_alimit a) (a_ret a) (a_dsn a) (a_subject a) (a_from a) x (a_mods a) (a_first a) (a_var a) (a_msg a)
    (a_imp a) (a_nopts a) (a_fcc a) (a_period a) (a_addrs a) (a_once a) (a_optional a) (a_global a).
(** An assignment to the local variable that [a_mods] stands for (no lines of /repo of its own). *)
Definition s_mods (x : list modifier) (a : args) : args := mkargs (a_part a) (a_m a) (a_c a) (a_index a)
    (a_last a) (a_mime a) (a_any a) (a_opts a) (a_vals a) (a_name a) (a_name2 a) (a_date a) (a_zone a)
    (a_tz a) (a_env a) (a_body a) (a_local a) (a_percent a) (a_handle a) (a_dup a) (a_secs a) (a_copy a)
    (a_create a) (a_flags a) (a_mbid a) (a_special a) (a_list a) (a_trace a) (a_bymode a) (a_rlimit a)
    (a_alimit a) (a_ret a) (a_dsn a) (a_subject a) (a_from a) (a_headers a) x (a_first a) (a_var a) (a_msg a)
    (a_imp a) (a_nopts a) (a_fcc a) (a_period a) (a_addrs a) (a_once a) (a_optional a) (a_global a).
(** An assignment to the local variable that [a_first] stands for (no lines of /repo of its own). *)
Definition s_first (x : option nat) (a : args) : args := mkargs (a_part a) (a_m a) (a_c a) (a_index a)
    (a_last a) (a_mime a) (a_any a) (a_opts a) (a_vals a) (a_name a) (a_name2 a) (a_date a) (a_zone a)
    (a_tz a) (a_env a) (a_body a) (a_local a) (a_percent a) (a_handle a) (a_dup a) (a_secs a) (a_copy a)
    (a_create a) (a_flags a) (a_mbid a) (a_special a) (a_list a) (a_trace a) (a_bymode a) (a_rlimit a)
    (a_alimit a) (a_ret a) (a_dsn a) (a_subject a) (a_from a) (a_headers a) (a_mods a) x (a_var a) (a_msg a)
    (a_imp a) (a_nopts a) (a_fcc a) (a_period a) (a_addrs a) (a_once a) (a_optional a) (a_global a).
(** An assignment to the local variable that [a_var] stands for (no lines of /repo of its own). *)
Definition s_var (x : option vartype) (a : args) : args := mkargs (a_part a) (a_m a) (a_c a) (a_index a)
    (a_last a) (a_mime a) (a_any a) (a_opts a) (a_vals a) (a_name a) (a_name2 a) (a_date a) (a_zone a)
    (a_tz a) (a_env a) (a_body a) (a_local a) (a_percent a) (a_handle a) (a_dup a) (a_secs a) (a_copy a)
    (a_create a) (a_flags a) (a_mbid a) (a_special a) (a_list a) (a_trace a) (a_bymode a) (a_rlimit a)
    (a_alimit a) (a_ret a) (a_dsn a) (a_subject a) (a_from a) (a_headers a) (a_mods a) (a_first a) x (a_msg a)
    (a_imp a) (a_nopts a) (a_fcc a) (a_period a) (a_addrs a) (a_once a) (a_optional a) (a_global a).
(** An assignment to the local variable that [a_msg] stands for (no lines of /repo of its own). *)
Definition s_msg (x : option value) (a : args) : args := mkargs (a_part a) (a_m a) (a_c a) (a_index a)
    (a_last a) (a_mime a) (a_any a) (a_opts a) (a_vals a) (a_name a) (a_name2 a) (a_date a) (a_zone a)
    (a_tz a) (a_env a) (a_body a) (a_local a) (a_percent a) (a_handle a) (a_dup a) (a_secs a) (a_copy a)
    (a_create a) (a_flags a) (a_mbid a) (a_special a) (a_list a) (a_trace a) (a_bymode a) (a_rlimit a)
    (a_alimit a) (a_ret a) (a_dsn a) (a_subject a) (a_from a) (a_headers a) (a_mods a) (a_first a) (a_var a) x
    (a_imp a) (a_nopts a) (a_fcc a) (a_period a) (a_addrs a) (a_once a) (a_optional a) (a_global a).
(** An assignment to the local variable that [a_imp] stands for (no lines of /repo of its own). *)
Definition s_imp (x : option value) (a : args) : args := mkargs (a_part a) (a_m a) (a_c a) (a_index a)
    (a_last a) (a_mime a) (a_any a) (a_opts a) (a_vals a) (a_name a) (a_name2 a) (a_date a) (a_zone a)
    (a_tz a) (a_env a) (a_body a) (a_local a) (a_percent a) (a_handle a) (a_dup a) (a_secs a) (a_copy a)
    (a_create a) (a_flags a) (a_mbid a) (a_special a) (a_list a) (a_trace a) (a_bymode a) (a_rlimit a)
    (a_alimit a) (a_ret a) (a_dsn a) (a_subject a) (a_from a) (a_headers a) (a_mods a) (a_first a) (a_var a)
    (a_msg a) x (a_nopts a) (a_fcc a) (a_period a) (a_addrs a) (a_once a) (a_optional a) (a_global a).
(** An assignment to the local variable that [a_nopts] stands for (no lines of /repo of its own). *)
Definition s_nopts (x : list value) (a : args) : args := mkargs (a_part a) (a_m a) (a_c a) (a_index a)
    (a_last a) (a_mime a) (a_any a) (a_opts a) (a_vals a) (a_name a) (a_name2 a) (a_date a) (a_zone a)
    (a_tz a) (a_env a) (a_body a) (a_local a) (a_percent a) (a_handle a) (a_dup a) (a_secs a) (a_copy a)
    (a_create a) (a_flags a) (a_mbid a) (a_special a) (a_list a) (a_trace a) (a_bymode a) (a_rlimit a)
    (a_alimit a) (a_ret a) (a_dsn a) (a_subject a) (a_from a) (a_headers a) (a_mods a) (a_first a) (a_var a)
    (a_msg a) (a_imp a) x (a_fcc a) (a_period a) (a_addrs a) (a_once a) (a_optional a) (a_global a).
(** An assignment to the local variable that [a_fcc] stands for (no lines of /repo of its own). *)
Definition s_fcc (x : option value) (a : args) : args := mkargs (a_part a) (a_m a) (a_c a) (a_index a)
    (a_last a) (a_mime a) (a_any a) (a_opts a) (a_vals a) (a_name a) (a_name2 a) (a_date a) (a_zone a)
    (a_tz a) (a_env a) (a_body a) (a_local a) (a_percent a) (a_handle a) (a_dup a) (a_secs a) (a_copy a)
    (a_create a) (a_flags a) (a_mbid a) (a_special a) (a_list a) (a_trace a) (a_bymode a) (a_rlimit a)
    (a_alimit a) (a_ret a) (a_dsn a) (a_subject a) (a_from a) (a_headers a) (a_mods a) (a_first a) (a_var a)
    (a_msg a) (a_imp a) (a_nopts a) x (a_period a) (a_addrs a) (a_once a) (a_optional a) (a_global a).
(** An assignment to the local variable that [a_period] stands for (no lines of /repo of its own). *)
Definition s_period (x : period) (a : args) : args := mkargs (a_part a) (a_m a) (a_c a) (a_index a) (a_last a)
    (a_mime a) (a_any a) (a_opts a) (a_vals a) (a_name a) (a_name2 a) (a_date a) (a_zone a) (a_tz a) (a_env a)
    (a_body a) (a_local a) (a_percent a) (a_handle a) (a_dup a) (a_secs a) (a_copy a) (a_create a) (a_flags a)
    (a_mbid a) (a_special a) (a_list a) (a_trace a) (a_bymode a) (a_rlimit a) (a_alimit a) (a_ret a) (a_dsn a)
    (a_subject a) (a_from a) (a_headers a) (a_mods a) (a_first a) (a_var a) (a_msg a) (a_imp a) (a_nopts a)
    (a_fcc a) x (a_addrs a) (a_once a) (a_optional a) (a_global a).
(** An assignment to the local variable that [a_addrs] stands for (no lines of /repo of its own). *)
Definition s_addrs (x : list value) (a : args) : args := mkargs (a_part a) (a_m a) (a_c a) (a_index a)
    (a_last a) (a_mime a) (a_any a) (a_opts a) (a_vals a) (a_name a) (a_name2 a) (a_date a) (a_zone a)
    (a_tz a) (a_env a) (a_body a) (a_local a) (a_percent a) (a_handle a) (a_dup a) (a_secs a) (a_copy a)
    (a_create a) (a_flags a) (a_mbid a) (a_special a) (a_list a) (a_trace a) (a_bymode a) (a_rlimit a)
    (a_alimit a) (a_ret a) (a_dsn a) (a_subject a) (a_from a) (a_headers a) (a_mods a) (a_first a) (a_var a)
    (a_msg a) (a_imp a) (a_nopts a) (a_fcc a) (a_period a) x (a_once a) (a_optional a) (a_global a).
(** An assignment to the local variable that [a_once] stands for (no lines of /repo of its own). *)
Definition s_once (x : bool) (a : args) : args := mkargs (a_part a) (a_m a) (a_c a) (a_index a) (a_last a)
    (a_mime a) (a_any a) (a_opts a) (a_vals a) (a_name a) (a_name2 a) (a_date a) (a_zone a) (a_tz a) (a_env a)
    (a_body a) (a_local a) (a_percent a) (a_handle a) (a_dup a) (a_secs a) (a_copy a) (a_create a) (a_flags a)
    (a_mbid a) (a_special a) (a_list a) (a_trace a) (a_bymode a) (a_rlimit a) (a_alimit a) (a_ret a) (a_dsn a)
    (a_subject a) (a_from a) (a_headers a) (a_mods a) (a_first a) (a_var a) (a_msg a) (a_imp a) (a_nopts a)
    (a_fcc a) (a_period a) (a_addrs a) x (a_optional a) (a_global a).
(** An assignment to the local variable that [a_optional] stands for (no lines of /repo of its own). *)
Definition s_optional (x : bool) (a : args) : args := mkargs (a_part a) (a_m a) (a_c a) (a_index a) (a_last a)
    (a_mime a) (a_any a) (a_opts a) (a_vals a) (a_name a) (a_name2 a) (a_date a) (a_zone a) (a_tz a) (a_env a)
    (a_body a) (a_local a) (a_percent a) (a_handle a) (a_dup a) (a_secs a) (a_copy a) (a_create a) (a_flags a)
    (a_mbid a) (a_special a) (a_list a) (a_trace a) (a_bymode a) (a_rlimit a) (a_alimit a) (a_ret a) (a_dsn a)
    (a_subject a) (a_from a) (a_headers a) (a_mods a) (a_first a) (a_var a) (a_msg a) (a_imp a) (a_nopts a)
    (a_fcc a) (a_period a) (a_addrs a) (a_once a) x (a_global a).
(** An assignment to the local variable that [a_global] stands for (no lines of /repo of its own). *)
Definition s_global (x : bool) (a : args) : args := mkargs (a_part a) (a_m a) (a_c a) (a_index a) (a_last a)
    (a_mime a) (a_any a) (a_opts a) (a_vals a) (a_name a) (a_name2 a) (a_date a) (a_zone a) (a_tz a) (a_env a)
    (a_body a) (a_local a) (a_percent a) (a_handle a) (a_dup a) (a_secs a) (a_copy a) (a_create a) (a_flags a)
    (a_mbid a) (a_special a) (a_list a) (a_trace a) (a_bymode a) (a_rlimit a) (a_alimit a) (a_ret a) (a_dsn a)
    (a_subject a) (a_from a) (a_headers a) (a_mods a) (a_first a) (a_var a) (a_msg a) (a_imp a) (a_nopts a)
    (a_fcc a) (a_period a) (a_addrs a) (a_once a) (a_optional a) x.
