(** Specification: what the actions that edit the message do in a run, and the tests convert and
    vacation. *)
From Verif Require Import Base Lib Address Var Value SetVar Flags Message EditHeader Mime Build BuildSpec BuildView Event Notify NotifySpec Vacation VacationSpec Sieve Run TestSpec ActionSpec.
Import ListNotations.
Local Open Scope list_scope.

(** What replace, enclose and convert take from the run: the limits, the user as the sender, and the
    date, the message id and the boundary made for this instruction. *)
Definition edit_env (E : renv) (s : rst) : mimeenv :=
  {| me_psize := E_psize E; me_max_header := E_max_header E; me_protected := E_protected E;
     me_from := user_field (E_name E) (E_user E); me_date := E_date E (r_instrs s + 1);
     me_msgid := E_new_id E (r_instrs s + 1); me_boundary := E_boundary E (r_instrs s + 1);
     me_subject := E_subject E; me_h2t := E_h2t E; me_t2h := E_t2h E |}.
(** [st], the message with its offsets, is the message of the run. *)
Definition shows (E : renv) (s : rst) (st : fstate) : Prop :=
  fview st = r_msg s /\ accounted (edit_env E s) st.

(** *** Conversion *)
(** A part of the given content type and text, with no other field. *)
Definition fresh (type : text) (b : pbody) : part -> Prop :=
  fun p => p_headers p = [new_header (lit "Content-Type") type] /\ p_ct p = None /\ p_body p = b.
(** [q] is what [convert from to] makes of [p]. *)
Inductive converts (E : renv) (from to : text) (p q : part) : Prop :=
| cv_html t : ci_eq from (lit "text/html") -> ci_eq to (lit "text/plain") ->
    p_body p = BHtml t -> fresh (lit "text/plain; charset=utf8") (BText (E_h2t E t)) q -> converts E from to p q
| cv_text t r : from = lit "text/" ++ r -> ~ ci_eq from to -> ci_eq to (lit "text/html") ->
    p_body p = BText t -> fresh (lit "text/html; charset=utf8") (BHtml (E_t2h E t)) q -> converts E from to p q
| cv_plain t ct sub : ci_eq from (lit "text") -> ci_eq to (lit "text/html") ->
    p_body p = BText t -> p_ct p = Some ct -> ct_subtype ct = Some sub -> ci_eq sub (lit "plain") ->
    fresh (lit "text/html; charset=utf8") (BHtml (E_t2h E t)) q -> converts E from to p q.
(** Every part that can be converted is, every other part stays. *)
Definition converted (E : renv) (from to : text) (old new : list part) : Prop :=
  Forall2 (fun p q => converts E from to p q \/ (q = p /\ forall x, ~ converts E from to p x)) old new.
(** There is a part to convert. *)
Definition convertible (E : renv) (from to : text) (ps : list part) : Prop :=
  exists p q, In p ps /\ converts E from to p q.

(** *** Vacation *)
(** What the test of a vacation action takes from the run ... *)
Definition vacation_view (E : renv) (s : rst) (fields : list header) : venv :=
  {| ve_headers := fields; ve_envelope := c_envelope (r_vars s); ve_user := E_user E; ve_name := E_name E;
     ve_orcpt := E_vac_orcpt E; ve_prefix := E_vac_prefix E; ve_default_subject := E_vac_subject E;
     ve_default_expiry := E_vac_expiry E; ve_max_received := E_max_received E;
     ve_max_out := E_max_out E; ve_out := r_out s; ve_last := r_last s;
     ve_date := E_date E (r_instrs s + 1); ve_msgid := E_new_id E (r_instrs s + 1) |}.
(** ... and from its arguments. *)
Definition vacation_given (E : renv) (s : rst) (addresses : list value) (handle : option value) (reason : value) (p : period) : vargs :=
  {| va_addresses := map (tx E s) addresses; va_handle := option_map (tx E s) handle; va_reason := tx E s reason;
     va_period := p; Vacation.va_subject := None; va_from := None; va_mime := false; va_fcc := None |}.
(** The time for which no second reply is sent. *)
Definition quiet_for (E : renv) (p : period) (n : N) : Prop :=
  match p with PDays d => n = (d * 86400)%N | PSeconds x => n = x | PDefault => n = E_vac_expiry E end.
