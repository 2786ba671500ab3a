(** Independent specification of when a vacation reply may be sent. *)
From Verif Require Import Base Lib Var Value Message Flags Notify NotifySpec Vacation.

Definition ci_eq (a b : text) : Prop := lower_text a = lower_text b.
Definition has_name (h : header) (n : string) : Prop := ci_eq (h_name h) (lit n).

(** [sender env s]: [s] is the last sender of the envelope that is not empty. *)
Definition sender (L : rustlib) (env : list (envk * var)) (s : text) : Prop :=
  exists e1 v e2, env = e1 ++ (EnvFrom, v) :: e2 /\ v_is_empty v = false /\ s = v_text L v /\
    (forall v', In (EnvFrom, v') e2 -> v_is_empty v' = true).

(** The user's own addresses: the envelope recipients (or the original
    recipients), the addresses listed in the action, the configured address. *)
Definition own_address (L : rustlib) (e : venv) (a : vargs) (x : text) : Prop :=
  (exists v, In (if ve_orcpt e then EnvOrcpt else EnvTo, v) (ve_envelope e) /\ v_is_empty v = false /\ x = v_text L v) \/
  (In x (va_addresses a) /\ x <> []) \/ (x = ve_user e /\ x <> []).

(** [s] is a comma separated list with the piece [w]. *)
Definition comma_piece (w s : text) : Prop :=
  ~ In 44%N w /\ exists p q, s = p ++ w ++ q /\
    (p = [] \/ exists p', p = p' ++ [44%N]) /\ (q = [] \/ exists q', q = 44%N :: q').

Record may_reply (L : rustlib) (addrs : header -> list text) (e : venv) (a : vargs) (from : text) : Prop := {
  mr_limit : ve_out e < ve_max_out e;
  mr_sender : sender L (ve_envelope e) from;
  mr_nonempty : from <> [];
  mr_daemon : forall r, lower_text from <> lit "mailer-daemon" ++ r;
  mr_owner : forall r, lower_text from <> lit "owner-" ++ r;
  mr_request : forall p s, lower_text from <> p ++ lit "-request@" ++ s;
  mr_own : forall x, own_address L e a x -> ~ ci_eq x from;
  mr_list : forall h n, In h (ve_headers e) ->
    In n ["list-archive"; "list-help"; "list-id"; "list-owner"; "list-post"; "list-subscribe"; "list-unsubscribe"]%string ->
    ~ has_name h n;
  mr_auto : forall h, In h (ve_headers e) -> has_name h "auto-submitted" ->
    exists t, h_val h = HText t /\ ci_eq t (lit "no");
  mr_suppress : forall h t w, In h (ve_headers e) -> has_name h "x-auto-response-suppress" -> h_val h = HText t ->
    comma_piece w (lower_text t) -> trim (chr_is_ws L) w <> lit "all" /\ trim (chr_is_ws L) w <> lit "oof";
  mr_bulk : forall h t, In h (ve_headers e) -> has_name h "precedence" -> h_val h = HText t -> ~ ci_eq t (lit "bulk");
  mr_rcpt : exists h n x y, In h (ve_headers e) /\
    In n ["to"; "cc"; "bcc"; "resent-to"; "resent-cc"; "resent-bcc"]%string /\ has_name h n /\
    In x (addrs h) /\ own_address L e a y /\ ci_eq x y;
  mr_received : length (filter (fun h => teqb_ic (h_name h) (lit "received")) (ve_headers e)) <= ve_max_received e
}.

(** *** The reply *)
(** A subject of more than 256 characters is cut and marked (one of exactly 257
    is cut without the mark). *)
Definition shortened (s : text) : text :=
  if Nat.leb (length s) 256 then s
  else if Nat.eqb (length s) 257 then firstn 256 s else firstn 256 s ++ [8230%N].
(** The subject of the reply: the one given; else the first subject of the message,
    prefixed; else the default. *)
Definition reply_subject (e : venv) (a : vargs) (s : text) : Prop :=
  match va_subject a with
  | Some ((_ :: _) as given) => s = given
  | _ =>
      (exists h1 h t h2, ve_headers e = h1 ++ h :: h2 /\ has_name h "subject" /\ h_val h = HText t /\
         s = shortened (ve_prefix e ++ t) /\ s <> [] /\
         (forall h' t', In h' h1 -> has_name h' "subject" -> h_val h' = HText t' -> ve_prefix e ++ t' = [])) \/
      (s = ve_default_subject e /\
       (forall h' t', In h' (ve_headers e) -> has_name h' "subject" -> h_val h' = HText t' -> ve_prefix e ++ t' = []))
  end.
(** Nothing that goes into the reply's header contains a carriage return; the raw
    header fields of the message are single lines. *)
Record clean_reply (L : rustlib) (raw : header -> option text) (e : venv) (a : vargs) : Prop := {
  cr_from : forall f, va_from a = Some f -> no_cr f;
  cr_user : no_cr (ve_user e) /\ no_cr (ve_name e);
  cr_env : forall k v, In (k, v) (ve_envelope e) -> no_cr (v_text L v);
  cr_subject : forall s, va_subject a = Some s -> no_cr s;
  cr_fixed : no_cr (ve_prefix e) /\ no_cr (ve_default_subject e) /\ no_cr (ve_date e) /\ no_cr (ve_msgid e);
  cr_texts : forall h t, In h (ve_headers e) -> h_val h = HText t -> no_cr t;
  cr_raw : forall h r, In h (ve_headers e) -> raw h = Some r -> exists x, r = x ++ [13%N; 10%N] /\ no_cr x
}.
