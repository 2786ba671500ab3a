(** Proofs: the actions that edit the message, and the tests convert and vacation, in a run. *)
From Coq Require Import Lia.
From Verif Require Import Base Lib Address Var Value SetVar Flags Message EditHeader Mime Build BuildSpec BuildView BuildProofs6 Event Notify NotifySpec Vacation VacationSpec VacationProofs Sieve Run TestSpec TestProofs ActionSpec ActionProofs EditRunSpec.
Import ListNotations.
Local Open Scope list_scope.

Lemma env_same E s : mime_env E (moved_on s) = edit_env E s.
Proof. unfold mime_env, edit_env. rewrite user_field_same. reflexivity. Qed.
Lemma vacation_same E s hs : vacation_env E (moved_on s) hs = vacation_view E s hs.
Proof. reflexivity. Qed.

(** *** The message *)
Lemma replace_run E s st subject from body mime :
  at_instr E s (IxReplace subject from body mime) -> shows E s st -> step E s <> SPanic ->
  exists st', freplace (edit_env E s) (option_map (tx E s) subject) (option_map (tx E s) from) (tx E s body) mime (r_part s) st = Some st' /\
    step E s = SCont (w_msg (fview st') (moved_on s)).
Proof.
  intros AT [V A] NP. apply step_instr in AT. cbn [exec_instr] in AT. rewrite env_same in AT.
  change (step E s = edit_msg (replace (edit_env E s) (option_map (tx E s) subject) (option_map (tx E s) from) (tx E s body) mime (r_part s) (r_msg s)) (moved_on s)) in AT.
  rewrite <- V, <- (replace_view _ _ _ _ _ _ _ A) in AT.
  destruct (freplace (edit_env E s) (option_map (tx E s) subject) (option_map (tx E s) from) (tx E s body) mime (r_part s) st) as [st'|] eqn:F; [|contradiction].
  exists st'. split; [reflexivity|exact AT].
Qed.
Lemma enclose_run E s st st' headers subject body :
  at_instr E s (IxEnclose headers subject body) -> fview st = r_msg s ->
  fenclose (E_L E) (E_M E) (edit_env E s) (map (tx E s) headers) (option_map (tx E s) subject) (tx E s body) st = Some st' ->
  step E s = SCont (w_msg (fview st') (w_part 0 (moved_on s))).
Proof.
  intros AT V F. apply step_instr in AT. cbn [exec_instr] in AT. rewrite env_same in AT.
  change (step E s = edit_msg (enclose (E_L E) (E_M E) (edit_env E s) (map (tx E s) headers) (option_map (tx E s) subject) (tx E s body) (r_msg s)) (w_part 0 (moved_on s))) in AT.
  rewrite <- V, <- enclose_view, F in AT. exact AT.
Qed.

(** *** Conversion *)
Lemma conv_html from to : conversion_of from to = Some CvHtmlToText -> ci_eq from (lit "text/html") /\ ci_eq to (lit "text/plain").
Proof.
  unfold conversion_of. destruct (teqb_ic from to); [discriminate|]. destruct (_ && _); [destruct (teqb_ic from _); discriminate|].
  destruct (teqb_ic from (lit "text/html")) eqn:A, (teqb_ic to (lit "text/plain")) eqn:B; try discriminate. intros _. split; apply teqb_ic_spec; assumption.
Qed.
Lemma html_conv from to : ci_eq from (lit "text/html") -> ci_eq to (lit "text/plain") -> conversion_of from to = Some CvHtmlToText.
Proof.
  unfold ci_eq. intros A B. unfold conversion_of.
  assert (teqb_ic from to = false) as ->. { destruct (teqb_ic from to) eqn:X; [|reflexivity]. apply teqb_ic_spec in X. rewrite A, B in X. discriminate X. }
  assert (teqb_ic to (lit "text/html") = false) as ->. { destruct (teqb_ic to (lit "text/html")) eqn:X; [|reflexivity]. apply teqb_ic_spec in X. rewrite B in X. discriminate X. }
  rewrite andb_false_r. apply teqb_ic_spec in A, B. rewrite A, B. reflexivity.
Qed.
Lemma conv_text from to : conversion_of from to = Some CvTextToHtml -> exists r, from = lit "text/" ++ r /\ ~ ci_eq from to /\ ci_eq to (lit "text/html").
Proof.
  unfold conversion_of. destruct (teqb_ic from to) eqn:N; [discriminate|].
  destruct (teqb_ic from (lit "text")) eqn:P.
  { destruct (teqb_ic to (lit "text/html")); cbn [orb andb]; [discriminate|]. destruct (_ && _); discriminate. }
  destruct (starts_with from (lit "text/")) eqn:S, (teqb_ic to (lit "text/html")) eqn:T; cbn [orb andb]; try (destruct (teqb_ic from (lit "text/html")), (teqb_ic to (lit "text/plain")); discriminate).
  intros _. apply ComparatorProofs.starts_with_spec in S as [r S]. exists r. split; [exact S|]. split; [|apply teqb_ic_spec, T].
  intro C. apply teqb_ic_spec in C. congruence.
Qed.
Lemma text_conv from to r : from = lit "text/" ++ r -> ~ ci_eq from to -> ci_eq to (lit "text/html") -> conversion_of from to = Some CvTextToHtml.
Proof.
  intros F N T. unfold conversion_of.
  assert (teqb_ic from to = false) as ->. { destruct (teqb_ic from to) eqn:X; [|reflexivity]. apply teqb_ic_spec in X. contradiction. }
  assert (starts_with from (lit "text/") = true) as ->. { apply ComparatorProofs.starts_with_spec. exists r. exact F. }
  apply teqb_ic_spec in T. rewrite T, orb_true_r. cbn [andb].
  assert (teqb_ic from (lit "text") = false) as ->; [|reflexivity].
  destruct (teqb_ic from (lit "text")) eqn:X; [|reflexivity]. apply teqb_ic_spec in X. apply (f_equal (@length _)) in X. subst from.
  unfold lower_text in X. rewrite !map_length, app_length in X. change (length (lit "text/")) with 5 in X. change (length (lit "text")) with 4 in X. lia.
Qed.
Lemma conv_plain from to : conversion_of from to = Some CvPlainToHtml -> ci_eq from (lit "text") /\ ci_eq to (lit "text/html").
Proof.
  unfold conversion_of. destruct (teqb_ic from to) eqn:N; [discriminate|].
  destruct (teqb_ic from (lit "text")) eqn:P.
  - destruct (teqb_ic to (lit "text/html")) eqn:T; cbn [orb andb]; [intros _; split; apply teqb_ic_spec; assumption|]. destruct (_ && _); discriminate.
  - destruct (_ && _); [discriminate|]. destruct (_ && _); discriminate.
Qed.
Lemma plain_conv from to : ci_eq from (lit "text") -> ci_eq to (lit "text/html") -> conversion_of from to = Some CvPlainToHtml.
Proof.
  unfold ci_eq. intros A B. unfold conversion_of.
  assert (teqb_ic from to = false) as ->. { destruct (teqb_ic from to) eqn:X; [|reflexivity]. apply teqb_ic_spec in X. rewrite A, B in X. discriminate X. }
  apply teqb_ic_spec in A, B. rewrite A, B. reflexivity.
Qed.

Section Conv.
  Variable E : renv. Variable Me : mimeenv. Variables from to : text.
  Hypothesis H2T : me_h2t Me = E_h2t E. Hypothesis T2H : me_t2h Me = E_t2h E.

  Lemma body_some cv p b ct : conversion_of from to = Some cv -> convert_body Me cv p = Some (b, ct) ->
    converts E from to p (Part [new_header (lit "Content-Type") ct] None b).
  Proof.
    intros C B. unfold convert_body in B. rewrite H2T, T2H in B. destruct (p_body p) as [t|t|t|l|m] eqn:PB; destruct cv; try discriminate B.
    - injection B as <- <-. destruct (conv_text _ _ C) as (r & F & N & T). eapply cv_text; try eassumption. repeat split; reflexivity.
    - destruct (p_ct p) as [c|] eqn:PC; [|discriminate]. destruct (ct_subtype c) as [sub|] eqn:SU; [|discriminate].
      destruct (teqb_ic sub (lit "plain")) eqn:PL; [|discriminate]. injection B as <- <-. apply conv_plain in C as [F T].
      eapply cv_plain; try eassumption; [apply teqb_ic_spec, PL|]. repeat split; reflexivity.
    - injection B as <- <-. apply conv_html in C as [F T]. eapply cv_html; try eassumption. repeat split; reflexivity.
  Qed.
  Lemma body_none cv p : conversion_of from to = Some cv -> convert_body Me cv p = None -> forall q, ~ converts E from to p q.
  Proof.
    intros C B q [t F T PB _|t r F N T PB _|t ct sub F T PB PC SU PL _]; unfold convert_body in B; rewrite PB in B.
    - rewrite (html_conv _ _ F T) in C. injection C as <-. discriminate.
    - rewrite (text_conv _ _ _ F N T) in C. injection C as <-. discriminate.
    - rewrite (plain_conv _ _ F T) in C. injection C as <-. rewrite PC, SU in B. apply teqb_ic_spec in PL. rewrite PL in B. discriminate.
  Qed.
  Lemma no_conv p q : conversion_of from to = None -> ~ converts E from to p q.
  Proof.
    intros C [t F T _ _|t r F N T _ _|t ct sub F T _ _ _ _ _].
    - rewrite (html_conv _ _ F T) in C. discriminate.
    - rewrite (text_conv _ _ _ F N T) in C. discriminate.
    - rewrite (plain_conv _ _ F T) in C. discriminate.
  Qed.
  Lemma conv_parts cv : conversion_of from to = Some cv -> forall ps size did ps' n d,
    convert_parts Me cv ps size did = Some (ps', n, d) ->
    converted E from to ps ps' /\ (d = true <-> did = true \/ convertible E from to ps).
  Proof.
    intros C. induction ps as [|p ps IH]; intros size did ps' n d H; cbn [convert_parts] in H.
    - injection H as <- <- <-. split; [constructor|]. split; [auto|]. intros [X|(p & q & [] & _)]; exact X.
    - destruct (convert_body Me cv p) as [[b ct]|] eqn:B.
      + destruct (Nat.ltb _ _); [discriminate|]. destruct (convert_parts Me cv ps _ true) as [[[r k] d']|] eqn:R; [|discriminate].
        injection H as <- <- <-. apply IH in R as [R1 R2]. pose proof (body_some _ _ _ _ C B) as CV. split; [constructor; [left; exact CV|exact R1]|].
        split; [intros _; right; exists p; eexists; split; [left; reflexivity|exact CV]|]. intros _. apply R2. left. reflexivity.
      + destruct (convert_parts Me cv ps size did) as [[[r k] d']|] eqn:R; [|discriminate].
        injection H as <- <- <-. apply IH in R as [R1 R2]. pose proof (body_none _ _ C B) as NC. cbn [fst snd] in *. split; [constructor; [right; split; [reflexivity|exact NC]|exact R1]|].
        rewrite R2. split; intros [X|(x & q & I & CV)]; [left; exact X|right; exists x, q; split; [right; exact I|exact CV]|left; exact X|].
        destruct I as [<-|I]; [destruct (NC q CV)|]. right. exists x, q. split; assumption.
  Qed.
  Lemma convert_exact st d st' : convert Me from to st = Some (d, st') ->
    converted E from to (ms_parts st) (ms_parts st') /\ (d = true <-> convertible E from to (ms_parts st)) /\
    ms_changed st' = ms_changed st || d.
  Proof.
    unfold convert. destruct (conversion_of from to) as [cv|] eqn:C.
    - destruct (convert_parts Me cv (ms_parts st) (ms_size st) false) as [[[ps n] d']|] eqn:R; [|discriminate]. intro H. injection H as <- <-.
      apply (conv_parts _ C) in R as [R1 R2]. split; [exact R1|]. split; [|reflexivity]. rewrite R2. split; [intros [X|X]; [discriminate|exact X]|auto].
    - intro H. injection H as <- <-. split; [|split].
      + unfold converted. induction (ms_parts st); constructor; [right; split; [reflexivity|]|assumption]. intro x. apply no_conv, C.
      + split; [discriminate|]. intros (p & q & _ & CV). destruct (no_conv _ _ C CV).
      + rewrite orb_false_r. reflexivity.
  Qed.
End Conv.
