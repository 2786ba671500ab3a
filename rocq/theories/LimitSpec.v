(** Specification of the limits that end a run with an error. *)
From Verif Require Import Base Lib Var Value Event Sieve Run.
Import ListNotations.

(** The same runtime with other limits on instructions and on active scripts *)
Definition with_limits (cpu includes : nat) (E : renv) : renv :=
  {| E_L := E_L E; E_rx := E_rx E; E_M := E_M E; E_A := E_A E; E_utf8 := E_utf8 E; E_caps := E_caps E; E_uris :=
     E_uris E; E_lists := E_lists E; E_protected := E_protected E; E_metadata := E_metadata E; E_scripts :=
     E_scripts E; E_fns := E_fns E; E_max_includes := includes; E_cpu := cpu; E_max_var := E_max_var E;
     E_max_redirects := E_max_redirects E; E_max_received := E_max_received E; E_max_header := E_max_header E;
     E_max_out := E_max_out E; E_vac_expiry := E_vac_expiry E; E_dup_expiry := E_dup_expiry E; E_vac_orcpt :=
     E_vac_orcpt E; E_vac_subject := E_vac_subject E; E_vac_prefix := E_vac_prefix E; E_user := E_user E; E_name :=
     E_name E; E_spam := E_spam E; E_virus := E_virus E; E_msgvar := E_msgvar E; E_bytes := E_bytes E; E_body :=
     E_body E; E_h2t := E_h2t E; E_t2h := E_t2h E; E_psize := E_psize E; E_subject := E_subject E; E_raw_subject :=
     E_raw_subject E; E_msg_id := E_msg_id E; E_header_id := E_header_id E; E_addrs := E_addrs E; E_raw := E_raw E;
     E_has_addr := E_has_addr E; E_timestamp := E_timestamp E; E_now := E_now E; E_date := E_date E; E_new_id :=
     E_new_id E; E_boundary := E_boundary E |}.
(** The output says that a limit is exceeded. *)
Definition over_limit (o : option out) : Prop := o = Some (OError ErCpu) \/ o = Some (OError ErIncludes).
