(** Properties C19, C45, C46: addresses. *)
From Verif Require Import Base Lib Address AddressSpec AddressProofs.

(** C19, the part that holds for every text: what redirect accepts is
    local@domain with a dot after the '@', no angle bracket and no double quote. *)
Theorem C19_redirect_address_shape_partial :
  forall addr r, sanitize_address addr = Some r ->
    Forall (fun c => ~ angle_or_quote c) r /\ dotted_address r.
Proof. exact sanitize_ok. Qed.
Print Assumptions C19_redirect_address_shape_partial.
(** C19 for texts without double quotes: also no white space, and one '@'. *)
Theorem C19_redirect_address_unquoted_partial :
  forall addr r, ~ In c_dquote addr -> sanitize_address addr = Some r ->
    Forall (fun c => is_ws_ascii c = false) r /\
    exists local domain, r = local ++ c_at :: domain /\ local <> [] /\ ~ In c_at local /\ ~ In c_at domain.
Proof. exact sanitize_unquoted. Qed.
Print Assumptions C19_redirect_address_unquoted_partial.
(** Plain addresses are accepted unchanged, alone or after a display name. *)
Theorem C19_plain_addresses_accepted :
  forall name local d1 d2,
    Forall (fun c => c <> c_dquote /\ c <> c_at /\ c <> 60%N /\ c <> 62%N) name ->
    Forall plain_char local -> local <> [] -> Forall plain_char d1 -> Forall plain_char d2 ->
    let a := local ++ c_at :: d1 ++ c_dot :: d2 in
    sanitize_address a = Some a /\ sanitize_address (name ++ 60%N :: a ++ [62%N]) = Some a.
Proof.
  exact (fun name local d1 d2 FN F1 NE F2 F3 =>
    conj (sanitize_plain local d1 d2 F1 NE F2 F3) (sanitize_named name local d1 d2 FN F1 NE F2 F3)).
Qed.
Print Assumptions C19_plain_addresses_accepted.
(** The full C19 is false: white space (here CR LF) survives inside quotes, two
    '@' survive, the domain may be just a dot, control characters are kept. *)
Theorem C19_redirect_address_clean_refuted :
  ~ (forall addr r, sanitize_address addr = Some r -> Forall (fun c => c <> c_cr /\ c <> c_lf /\ is_ws_ascii c = false) r).
Proof.
  intro H. specialize (H (lit """a" ++ [c_cr; c_lf] ++ lit "b""@c.d") _ eq_refl).
  rewrite Forall_forall in H. specialize (H c_cr). destruct H as [H _]; [vm_compute; tauto|]. congruence.
Qed.
Print Assumptions C19_redirect_address_clean_refuted.
Theorem C19_redirect_address_single_at_refuted :
  ~ (forall addr r, sanitize_address addr = Some r -> exists local domain, r = local ++ c_at :: domain /\ ~ In c_at local /\ ~ In c_at domain).
Proof.
  intro H. destruct (H (lit """a@b""@c.d") _ eq_refl) as (l & d & E & A & B).
  assert (C : count_occ N.eq_dec (lit "a@b@c.d") c_at = 1); [|vm_compute in C; discriminate].
  change (lit "a@b@c.d" = l ++ c_at :: d) in E. rewrite E. rewrite count_occ_app.
  apply (count_occ_not_In N.eq_dec) in A, B. unfold ch in *. rewrite A. rewrite (count_occ_cons_eq N.eq_dec d (eq_refl c_at)), B. reflexivity.
Qed.
Print Assumptions C19_redirect_address_single_at_refuted.
Theorem C19_redirect_address_idempotent_refuted :
  exists addr r, sanitize_address addr = Some r /\ sanitize_address r = None.
Proof. exists (lit """a@b""@c.d"), (lit "a@b@c.d"). split; reflexivity. Qed.
Print Assumptions C19_redirect_address_idempotent_refuted.
Theorem C19_redirect_domain_interior_dot_refuted :
  exists addr, sanitize_address addr = Some addr /\ addr = lit "a@.".
Proof. exists (lit "a@."). split; reflexivity. Qed.
Print Assumptions C19_redirect_domain_interior_dot_refuted.
Example C19_ex1 : sanitize_address (lit "John Doe <john@example.com>") = Some (lit "john@example.com"). Proof. reflexivity. Qed.
Example C19_ex2 : sanitize_address (lit "a@b@c.d") = None. Proof. reflexivity. Qed.
Example C19_ex3 : sanitize_address (lit " john @ex ample.com") = Some (lit "john@example.com"). Proof. reflexivity. Qed.
Example C19_ex4 : ~ In c_dquote (lit " john @ex ample.com"). Proof. vm_compute. intuition discriminate. Qed.

(** C45: an accepted envelope address is empty for "" or "<>", or mailer-daemon,
    or a mailbox standing alone or between the brackets, after the last ':' of a
    source route; it has a single '@' unless the text starts with '@'. *)
Theorem C45_envelope_addresses_normalised_partial :
  forall addr r, parse_envelope_address addr = Some r ->
    (r = [] /\ (addr = [] \/ addr = [60; 62]%N)) \/
    (teqb_ic r (lit "mailer-daemon") = true) \/
    (mailbox r /\ sits addr r /\
     (forall x rest, addr = x :: rest -> x <> c_at ->
        exists local domain, r = local ++ c_at :: domain /\ ~ In c_at local)).
Proof. exact envelope_exact. Qed.
Print Assumptions C45_envelope_addresses_normalised_partial.
(** Mailboxes are accepted as they are, with or without brackets. *)
Theorem C45_mailboxes_accepted :
  forall local domain,
    Forall path_char (local ++ c_at :: domain) -> local <> [] -> domain <> [] -> ~ In c_at local -> ~ In c_at domain ->
    no_double_dot domain ->
    parse_envelope_address (local ++ c_at :: domain) = Some (local ++ c_at :: domain) /\
    parse_envelope_address (60%N :: (local ++ c_at :: domain) ++ [62%N]) = Some (local ++ c_at :: domain).
Proof. exact envelope_complete. Qed.
Print Assumptions C45_mailboxes_accepted.
(** set_envelope adds at most one entry; other parameters are stored verbatim;
    senders and recipients are always normalised. *)
Theorem C45_set_envelope :
  forall env e v,
    (set_envelope env e v = env \/ exists a, set_envelope env e v = env ++ [(e, a)]) /\
    (e <> EnvFrom -> e <> EnvTo -> set_envelope env e v = env ++ [(e, v)]) /\
    (forall e' a, (e' = EnvFrom \/ e' = EnvTo) -> In (e', a) (set_envelope env e v) ->
       In (e', a) env \/ a = [] \/ teqb_ic a (lit "mailer-daemon") = true \/ mailbox a).
Proof. exact set_envelope_ok. Qed.
Print Assumptions C45_set_envelope.
(** Not true in general: a single '@', and a dotted domain. *)
Theorem C45_single_at_refuted :
  ~ (forall addr r, parse_envelope_address addr = Some r -> count_occ N.eq_dec r c_at <= 1).
Proof. intro H. specialize (H (lit "@a@b") _ eq_refl). vm_compute in H. lia. Qed.
Print Assumptions C45_single_at_refuted.
Theorem C45_dotted_domain_refuted :
  ~ (forall addr r, parse_envelope_address addr = Some r -> r = [] \/ teqb_ic r (lit "mailer-daemon") = true \/ In c_dot r).
Proof.
  intro H. specialize (H (lit "a@b") _ eq_refl). destruct H as [H|[H|H]]; [discriminate|discriminate|].
  vm_compute in H. intuition discriminate.
Qed.
Print Assumptions C45_dotted_domain_refuted.
(** An unclosed bracket is accepted before mailer-daemon. *)
Theorem C45_closed_bracket_refuted :
  ~ (forall addr r, parse_envelope_address (60%N :: addr) = Some r -> exists a, addr = a ++ [62%N]).
Proof.
  intro H.
  assert (P : parse_envelope_address (60%N :: lit "mailer-daemon") = Some (lit "mailer-daemon")) by (vm_compute; reflexivity).
  destruct (H _ _ P) as (a & E).
  apply (f_equal (@rev N)) in E. rewrite rev_app_distr in E. discriminate E.
Qed.
Print Assumptions C45_closed_bracket_refuted.
Example C45_ex1 : parse_envelope_address (lit "<@hosta.int,@jkl.org:userc@d.bar.org>") = Some (lit "userc@d.bar.org").
Proof. vm_compute. reflexivity. Qed.
Example C45_ex2 : parse_envelope_address (lit "<>") = Some []. Proof. reflexivity. Qed.
Example C45_ex3 : parse_envelope_address (lit "user@domain..org") = None. Proof. reflexivity. Qed.
Example C45_ex4 : exists local domain, lit "user@d.org" = local ++ c_at :: domain /\ no_double_dot domain.
Proof.
  exists (lit "user"), (lit "d.org"). split; [reflexivity|]. split.
  - intros d' H. discriminate H.
  - intros a b H. change (lit "d.org") with [100; 46; 111; 114; 103]%N in H.
    destruct a as [|a1 [|a2 [|a3 [|a4 [|a5 [|a6 a]]]]]]; discriminate H.
Qed.

(** C46: the From field is the address alone, or a quoted string whose only
    reading is the given name, a space and the address in brackets. *)
Theorem C46_display_name_quoted :
  forall name address,
    (name = [] -> user_from_field (escape_name name) address = address) /\
    (name <> [] ->
     exists q, user_from_field (escape_name name) address = c_dquote :: q /\
       quoted q name (lit " <" ++ address ++ lit ">") /\
       (forall t rest, quoted q t rest -> t = name /\ rest = lit " <" ++ address ++ lit ">")).
Proof. exact display_name_quoted. Qed.
Print Assumptions C46_display_name_quoted.
(** Line breaks in the name are not removed. *)
Theorem C46_name_without_line_breaks_refuted :
  exists name address, In c_lf (user_from_field (escape_name name) address) /\ ~ In c_lf address.
Proof. exists [c_lf], (lit "a@b.c"). split; [vm_compute; tauto|vm_compute; intuition discriminate]. Qed.
Print Assumptions C46_name_without_line_breaks_refuted.
Example C46_ex : user_from_field (escape_name (lit "a""b\")) (lit "x@y.z") = lit """a\""b\\"" <x@y.z>". Proof. reflexivity. Qed.
