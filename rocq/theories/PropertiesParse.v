(** Properties of the compiler as a whole, from the bytes of a script to the compiled
    script: C68, C69, and the scripts that refute C30 and C63. *)
From Verif Require Import Base Lib Address Var Value SetVar Flags Comparator Message EditHeader
  Expr ExprTok Event Notify AddrTest Vacation Spam Mime Sieve Utf8 Lexer Scope StringTok Compile ParseArgs ParseBase Parse
  ParseSafe Run RunSpec PropertiesCompare PropertiesMessage PropertiesNotify PropertiesRun.
Import ListNotations.

(** The settings of [Compiler::new] (lib.rs); the library functions are arbitrary. *)
Definition defaults (L : rustlib) (M : mailparser) (dec : list N -> option text) (regex : text -> bool)
  (fns : text -> option (N * nat)) (umax : nat) : cenv := {|
  C_L := L; C_M := M; C_dec := dec; C_regex := regex; C_fns := fns;
  C_umax := umax; C_lim := {| l_blocks := 15; l_tests := 15; l_fep := 3; l_includes := 6 |};
  C_string := 4096; C_name := 32; C_hsize := 1024; C_script := 1024 * 1024; C_nocheck := false |}.
(** A concrete library, and the runtime of PropertiesRun.v with every known capability. *)
Definition K1 : cenv :=
  defaults ascii_lib any_name ascii_dec (fun _ => true) (fun _ => None) 5000.
Definition comp (s : String.string) : compiled := compile K1 (lit s).
Definition E3 : renv :=
  {| E_L := ascii_lib; E_rx := no_rx; E_M := any_name; E_A := E_A E1; E_utf8 := ascii_dec;
     E_caps := CapVariables :: CapEncoded :: map CapKnown (seq 0 (length known_caps));
     E_uris := [lit "mailto"]; E_lists := []; E_protected := [lit "Received"];
     E_metadata := []; E_scripts := no_scripts; E_fns := fun _ _ => None;
     E_max_includes := 3; E_cpu := 1000; E_max_var := 1000; E_max_redirects := 5;
     E_timestamp := fun _ => 0%Z; E_max_received := 10; E_max_header := 100; E_max_out := 5; E_vac_expiry := 100%N; E_dup_expiry := 50%N;
     E_vac_orcpt := false; E_vac_subject := lit "Away"; E_vac_prefix := lit "Auto: "; E_user := lit "me@my.org"; E_name := [];
     E_spam := SpUnknown; E_virus := ViUnknown; E_msgvar := fun _ _ _ => None;
     E_bytes := fun m => lit "M"; E_body := fun _ _ => None; E_h2t := fun t => t; E_t2h := fun t => t;
     E_psize := fun _ => 0; E_subject := fun _ => None; E_raw_subject := fun _ => None; E_msg_id := fun _ => Some (lit "id1"); E_header_id := fun _ => None;
     E_addrs := E_addrs E1; E_raw := fun _ => None; E_has_addr := fun _ _ => false;
     E_now := E_now E1; E_date := fun _ => lit "D"; E_new_id := fun _ => lit "I"; E_boundary := fun _ => lit "B" |}.
(** Compile a script and run it on the message of PropertiesRun.v; the host answers. *)
Definition go (s : String.string) (answers : list input) : option (list (option out)) :=
  match comp s with
  | Compiled x => option_map fst (converse_run E3 (InScript (SPersonal []) x :: answers) s0)
  | _ => None
  end.

(** *** C68 *)

(** Compiling ends, whatever the bytes: the number of iterations the model grants the
    loops always suffices. *)
Theorem C68_terminates : forall K script, compile K script <> OutOfFuel.
Proof. exact compile_terminates. Qed.
Print Assumptions C68_terminates.

(** A script that is text (valid UTF-8) is compiled or rejected, never a panic.  Full
    statement: for all bytes, which is false (below). *)
Theorem C68_no_panic_partial : forall K t, Forall scalar t ->
  (exists x, compile K (utf8 t) = Compiled x) \/ compile K (utf8 t) = Parse.Rejected.
Proof.
  intros K t S. pose proof (compile_terminates K (utf8 t)) as A. pose proof (compile_no_panic K t S) as B.
  destruct (compile K (utf8 t)); eauto; congruence.
Qed.
Print Assumptions C68_no_panic_partial.

(** Not so for arbitrary bytes: an over-long string that is not valid UTF-8, where the
    compiler looks for elsif or else, whatever the libraries do. *)
Definition bad_script : list N := lit "if true {}" ++ [34%N] ++ repeat 255%N 4096 ++ [34%N; 59%N].
Theorem C68_no_panic_refuted : forall L M dec regex fns umax,
  compile (defaults L M dec regex fns umax) bad_script = Panicked.
Proof. intros. vm_compute. reflexivity. Qed.
Print Assumptions C68_no_panic_refuted.

Example C68_case :
  (exists x, comp "require ""fileinto""; if header :is ""A"" ""b"" { fileinto ""x""; } else { keep; }" = Compiled x) /\
  comp "if header :is ""A"" ""b"" { fileinto ""x""; }" = Parse.Rejected /\
  comp "((((" = Parse.Rejected /\
  compile K1 (utf8 [107; 101; 101; 112; 59; 35; 233; 8364; 128512]%N) =
    Compiled {| s_code := [IxKeep []]; s_vars := 0; s_match_vars := 0 |}.
Proof. split; [eexists; vm_compute; reflexivity|]. vm_compute. repeat split; reflexivity. Qed.

(** *** C69 *)

(** A character that belongs to no token is dropped after a conditional, and a word the
    script ends with is dropped: scripts that are not in the language are accepted. *)
Theorem C69_stray_character_refuted :
  comp "@ keep;" = Parse.Rejected /\ comp "if true {} keep;" <> Parse.Rejected /\
  comp "if true {} @ keep;" = comp "if true {} keep;".
Proof. vm_compute. repeat split; (reflexivity || discriminate). Qed.
Print Assumptions C69_stray_character_refuted.
Theorem C69_unfinished_refuted :
  comp "keep; discard" = comp "keep;" /\ comp "keep;" <> Parse.Rejected /\ comp "keep; discard " = Parse.Rejected.
Proof. vm_compute. repeat split; (reflexivity || discriminate). Qed.
Print Assumptions C69_unfinished_refuted.

(** *** C30, C31 *)

(** require "variables"; set "aa" "x"; set "ab" "x"; ... discard; with [n] variables *)
Definition var_name (n : nat) : list N := map N.of_nat [97 + n / 26; 97 + Nat.modulo n 26].
Definition sets (n : nat) : list N :=
  lit "require ""variables"";" ++ flat_map (fun i => lit "set """ ++ var_name i ++ lit """ ""x"";") (seq 0 n) ++ lit "discard;".
Definition run_of (bytes : list N) : option (list (option out)) :=
  match compile K1 bytes with
  | Compiled x => option_map fst (converse_run E3 [InScript (SPersonal []) x; InTrue] s0)
  | _ => None
  end.
(** With 257 variables the compiler accepts the script, and the runtime reports that it
    is done without having run it. *)
Theorem C30_refuted :
  run_of (sets 256) = Some [ev EDiscard; None] /\ run_of (sets 257) = Some [None; None].
Proof. vm_compute. split; reflexivity. Qed.
Print Assumptions C30_refuted.

(** *** C63 *)

(** A block left by [break] does not clear its variables: the variable [b] of another
    block starts with the value of [a]. *)
Theorem C63_break_refuted :
  go "require [""variables"", ""foreverypart"", ""fileinto"", ""imap4flags""];
      foreverypart { set ""a"" ""Old""; break; } if true { addflag ""b"" ""New""; fileinto ""${b}""; }" [InTrue] =
    Some [ev (EFileInto (lit "Old New") [] None None false 0); None] /\
  go "require [""variables"", ""foreverypart"", ""fileinto"", ""imap4flags""];
      foreverypart { set ""a"" ""Old""; } if true { addflag ""b"" ""New""; fileinto ""${b}""; }" [InTrue] =
    Some [ev (EFileInto (lit "New") [] None None false 0); None].
Proof. vm_compute. split; reflexivity. Qed.
Print Assumptions C63_break_refuted.

(** *** C70 *)

(** The subject of the message is "hi".  A match variable in a test that itself matches
    is dropped: [string :matches "${1}" "h*"] matches the empty string and fails, and the
    message is kept.  With another match type, or through a variable, it is filed. *)
Theorem C70_match_in_match_refuted :
  go "require [""variables"", ""fileinto""];
      if header :matches ""Subject"" ""*"" { if string :matches ""${1}"" ""h*"" { fileinto ""${1}""; } }" [InTrue] =
    Some [ev (EKeep [] 0); None] /\
  go "require [""variables"", ""fileinto""];
      if header :matches ""Subject"" ""*"" { if string :contains ""${1}"" ""h"" { fileinto ""${1}""; } }" [InTrue] =
    Some [ev (EFileInto (lit "hi") [] None None false 0); None] /\
  go "require [""variables"", ""fileinto""]; if header :matches ""Subject"" ""*"" {
        set ""x"" ""${1}""; if string :matches ""${x}"" ""h*"" { fileinto ""${1}""; } }" [InTrue] =
    Some [ev (EFileInto (lit "i") [] None None false 0); None].
Proof. vm_compute. repeat split; reflexivity. Qed.
Print Assumptions C70_match_in_match_refuted.

(** A match that fails loses the variables of the match before it. *)
Theorem C70_failed_match_refuted :
  go "require [""variables"", ""fileinto""]; if header :matches ""Subject"" ""h*"" {
        if header :matches ""To"" ""x*"" { discard; } fileinto ""${1}""; }" [InTrue] =
    Some [ev (EFileInto (lit "") [] None None false 0); None] /\
  go "require [""variables"", ""fileinto""]; if header :matches ""Subject"" ""h*"" {
        if header :contains ""To"" ""x"" { discard; } fileinto ""${1}""; }" [InTrue] =
    Some [ev (EFileInto (lit "i") [] None None false 0); None].
Proof. vm_compute. split; reflexivity. Qed.
Print Assumptions C70_failed_match_refuted.
