(** Independent specification of well-formed addresses and quoted strings. *)
From Verif Require Import Base Lib Address.

(** Characters that must not appear in an address handed to the mail system. *)
Definition angle_or_quote (c : ch) : Prop := c = 60%N \/ c = 62%N \/ c = c_dquote.

(** local@domain with a dot in the domain. *)
Definition dotted_address (r : text) : Prop :=
  exists local d1 d2, local <> [] /\ r = local ++ c_at :: d1 ++ c_dot :: d2.

(** A mailbox as SMTP writes it: local part, '@', domain that neither starts
    with a dot nor has two dots in a row. *)
Definition no_double_dot (d : list N) : Prop :=
  (forall d', d <> c_dot :: d') /\ (forall a b, d <> a ++ c_dot :: c_dot :: b).
Definition path_char (c : N) : Prop :=
  (c < 128)%N /\ is_ws_ascii c = false /\ c <> 60%N /\ c <> 62%N /\ c <> 58%N /\ c <> 44%N.
Definition mailbox (r : list N) : Prop :=
  Forall path_char r /\
  exists local domain : list N, local <> [] /\ domain <> [] /\ r = local ++ c_at :: domain /\
    ~ In c_at domain /\ no_double_dot domain.

(** How the accepted address sits in the envelope text: alone or between angle
    brackets, possibly after a source route ending in a colon. *)
Inductive sits (addr r : list N) : Prop :=
| sit_plain : addr = r -> sits addr r
| sit_route : forall route, addr = route ++ 58%N :: r -> sits addr r
| sit_angle : addr = 60%N :: r ++ [62%N] -> sits addr r
| sit_angle_route : forall route, addr = 60%N :: route ++ 58%N :: r ++ [62%N] -> sits addr r.

(** RFC 5322 quoted-string: after the opening quote, a backslash quotes the next
    character, an unquoted double quote ends it. *)
Inductive quoted : text -> text -> text -> Prop :=
| q_end : forall rest, quoted (c_dquote :: rest) [] rest
| q_esc : forall c s t rest, quoted s t rest -> quoted (c_bslash :: c :: s) (c :: t) rest
| q_chr : forall c s t rest, c <> c_dquote -> c <> c_bslash -> quoted s t rest -> quoted (c :: s) (c :: t) rest.
