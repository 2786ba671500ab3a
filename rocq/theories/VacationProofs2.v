(** Proofs about the text of a vacation reply. *)
From Coq Require Import Lia.
From Verif Require Import Base Lib Address Var Value SetVar Message Flags Event Notify NotifySpec NotifyProofs
  Vacation VacationSpec VacationProofs.

Lemma clip_shortened s : clip_subject s = shortened s.
Proof.
  unfold clip_subject, shortened. destruct (Nat.leb_spec (length s) 256) as [H|H].
  - rewrite firstn_all2 by exact H. destruct (Nat.ltb_spec 257 (length s)); [lia|apply app_nil_r].
  - destruct (Nat.eqb_spec (length s) 257) as [E|E]; destruct (Nat.ltb_spec 257 (length s)); try lia; [apply app_nil_r|reflexivity].
Qed.
Lemma shortened_nil s : shortened s = [] -> s = [].
Proof.
  rewrite <- clip_shortened. unfold clip_subject. destruct s as [|c s]; [reflexivity|]. discriminate.
Qed.
Lemma named1 h n : named h [n] = true <-> has_name h n \/ has_name h n.
Proof.
  unfold named, has_name, ci_eq, hn_eqb. cbn [existsb]. rewrite Bool.orb_false_r, teqb_ic_spec. tauto.
Qed.

Section R.
  Variable L : rustlib.
  Variable raw : header -> option text.
  Variable cont : header -> text -> bool.
  Variable e : venv.
  Variable a : vargs.
  Let to := vac_to L e.
  Notation scan hs := (fold_left (vac_scan1 raw cont e to) hs
      {| sc_subject := opt_text (va_subject a); sc_id := None; sc_refs := None; sc_to := None |}).

  Definition subj_inv (hs : list header) (s : text) : Prop :=
    match va_subject a with
    | Some ((_ :: _) as given) => s = given
    | _ =>
        (exists h1 h t h2, hs = h1 ++ h :: h2 /\ has_name h "subject" /\ h_val h = HText t /\
           s = shortened (ve_prefix e ++ t) /\ s <> [] /\
           (forall h' t', In h' h1 -> has_name h' "subject" -> h_val h' = HText t' -> ve_prefix e ++ t' = [])) \/
        (s = [] /\ forall h' t', In h' hs -> has_name h' "subject" -> h_val h' = HText t' -> ve_prefix e ++ t' = [])
    end.

  Lemma named_lower h n : named h [n] = teqb_ic (h_name h) (lit n).
  Proof. unfold named, hn_eqb. cbn [existsb]. apply Bool.orb_false_r. Qed.

  Lemma subj_step hs h s : subj_inv hs (sc_subject s) -> subj_inv (hs ++ [h]) (sc_subject (vac_scan1 raw cont e to s h)).
  Proof.
    intros I. unfold vac_scan1. rewrite !named_lower.
    assert (K : (has_name h "subject" -> forall t, h_val h = HText t -> sc_subject s <> [] \/ ve_prefix e ++ t = []) -> subj_inv (hs ++ [h]) (sc_subject s)).
    { intros NS. unfold subj_inv in *. destruct (va_subject a) as [[|c g]|]; [|exact I|].
      - destruct I as [(h1 & x & t & h2 & E & I)|[Z I]].
        + left. exists h1, x, t, (h2 ++ [h]). rewrite E, <- app_assoc. split; [reflexivity|exact I].
        + right. split; [exact Z|]. intros h' t' J. apply in_app_iff in J. destruct J as [J|[<-|[]]]; [now apply I|].
          intros HN V. destruct (NS HN _ V); [congruence|assumption].
      - destruct I as [(h1 & x & t & h2 & E & I)|[Z I]].
        + left. exists h1, x, t, (h2 ++ [h]). rewrite E, <- app_assoc. split; [reflexivity|exact I].
        + right. split; [exact Z|]. intros h' t' J. apply in_app_iff in J. destruct J as [J|[<-|[]]]; [now apply I|].
          intros HN V. destruct (NS HN _ V); [congruence|assumption]. }
    destruct (teqb_ic (h_name h) (lit "Subject")) eqn:TS.
    - apply teqb_ic_spec in TS. change (lower_text (lit "Subject")) with (lower_text (lit "subject")) in TS.
      unfold h_text. destruct (sc_subject s) as [|c0 s0] eqn:S0.
      + destruct (h_val h) eqn:V; try (rewrite S0; apply K; intros _ t1 V1; congruence).
        cbn [sc_subject]. rewrite clip_shortened.
        destruct (shortened (ve_prefix e ++ t)) as [|d r] eqn:SH.
        * apply shortened_nil in SH. apply K. intros _ t1 V1. right. congruence.
        * unfold subj_inv in *. destruct (va_subject a) as [[|c g]|]; [|discriminate|].
          -- left. exists hs, h, t, []. rewrite SH. repeat split; auto; [discriminate|].
             destruct I as [(h1 & x & t1 & h2 & E & _ & _ & _ & NE & _)|[_ I]]; [congruence|exact I].
          -- left. exists hs, h, t, []. rewrite SH. repeat split; auto; [discriminate|].
             destruct I as [(h1 & x & t1 & h2 & E & _ & _ & _ & NE & _)|[_ I]]; [congruence|exact I].
      + rewrite S0. apply K. intros _ t _. left. discriminate.
    - assert (NS : ~ has_name h "subject").
      { intros HN. unfold has_name, ci_eq in HN. change (lower_text (lit "subject")) with (lower_text (lit "Subject")) in HN.
        apply teqb_ic_spec in HN. congruence. }
      clear TS. destruct (teqb_ic _ _); [cbn [sc_subject]; apply K; tauto|].
      destruct (teqb_ic _ _); [destruct (raw h); cbn [sc_subject]; apply K; tauto|].
      destruct (named h _); [|apply K; tauto].
      destruct (cont h to); [|apply K; tauto]. destruct (raw h); cbn [sc_subject]; apply K; tauto.
  Qed.
  Lemma subj_scan hs : subj_inv hs (sc_subject (scan hs)).
  Proof.
    induction hs as [|h hs IH] using rev_ind.
    - unfold subj_inv. cbn. destruct (va_subject a) as [[|c g]|]; cbn; try reflexivity; right; split; try reflexivity; intros ? ? [].
    - rewrite fold_left_app. cbn [fold_left]. now apply subj_step.
  Qed.
  Lemma subject_ok : reply_subject e a (vac_subject e (vac_scan raw cont e a to)).
  Proof.
    assert (I := subj_scan (ve_headers e)). unfold vac_subject, vac_scan. revert I.
    generalize (sc_subject (scan (ve_headers e))). intros s I. unfold subj_inv, reply_subject in *.
    destruct (va_subject a) as [[|c g]|]; [|now subst s|].
    - destruct I as [(h1 & h & t & h2 & E & N & V & S & NE & P)|[-> P]]; [left|right; auto].
      destruct s as [|c s]; [congruence|]. exists h1, h, t, h2. auto 10.
    - destruct I as [(h1 & h & t & h2 & E & N & V & S & NE & P)|[-> P]]; [left|right; auto].
      destruct s as [|c s]; [congruence|]. exists h1, h, t, h2. auto 10.
  Qed.

  Definition rest_inv (hs : list header) (s : vscan) : Prop :=
    (forall r, sc_to s = Some r -> exists h, In h hs /\ (has_name h "from" \/ has_name h "sender") /\ cont h to = true /\ raw h = Some r) /\
    (forall m, sc_id s = Some m -> exists h, In h hs /\ has_name h "message-id" /\ h_val h = HText m) /\
    (forall r, sc_refs s = Some r -> exists h, In h hs /\ has_name h "references" /\ raw h = Some r).
  Lemma rest_scan hs : rest_inv hs (scan hs).
  Proof.
    induction hs as [|h hs IH] using rev_ind.
    - cbn. repeat split; discriminate.
    - rewrite fold_left_app. cbn [fold_left].
      assert (W : rest_inv (hs ++ [h]) (scan hs)).
      { destruct IH as (I1 & I2 & I3). repeat split; intros x E.
        - destruct (I1 _ E) as (y & J & ?). exists y. split; [apply in_or_app; now left|assumption].
        - destruct (I2 _ E) as (y & J & ?). exists y. split; [apply in_or_app; now left|assumption].
        - destruct (I3 _ E) as (y & J & ?). exists y. split; [apply in_or_app; now left|assumption]. }
      assert (IN : In h (hs ++ [h])) by (apply in_or_app; right; now left).
      revert W. generalize (scan hs). intros s W. destruct W as (I1 & I2 & I3).
      unfold vac_scan1. rewrite !named_lower.
      destruct (teqb_ic (h_name h) (lit "Subject")).
      { destruct (sc_subject s); [|repeat split; assumption]. destruct (h_text h); repeat split; assumption. }
      destruct (teqb_ic (h_name h) (lit "Message-ID")) eqn:T2.
      { repeat split; try assumption. cbn [sc_id]. intros m E. exists h. split; [exact IN|]. split.
        - apply teqb_ic_spec in T2. exact T2.
        - unfold h_text in E. destruct (h_val h); congruence. }
      destruct (teqb_ic (h_name h) (lit "References")) eqn:T3.
      { destruct (raw h) as [r|] eqn:R; repeat split; try assumption. cbn [sc_refs]. intros m E. injection E as <-. exists h.
        split; [exact IN|]. split; [|exact R]. apply teqb_ic_spec in T3. exact T3. }
      destruct (named h ["From"; "Sender"]%string) eqn:T4; [|repeat split; assumption].
      destruct (cont h to) eqn:C; [|repeat split; assumption].
      destruct (raw h) as [r|] eqn:R; repeat split; try assumption. cbn [sc_to]. intros m E. injection E as <-. exists h.
      split; [exact IN|]. split; [|auto]. unfold named, hn_eqb in T4. cbn [existsb] in T4.
      rewrite Bool.orb_false_r in T4. apply Bool.orb_true_iff in T4. rewrite !teqb_ic_spec in T4. exact T4.
  Qed.

  Hypothesis C : clean_reply L raw e a.
  Lemma no_cr_env k : Forall no_cr (env_texts L k (ve_envelope e)).
  Proof.
    apply Forall_forall. intros x I. unfold env_texts in I. apply in_flat_map in I. destruct I as ([k' v] & J & I).
    cbn [fst snd] in I. destruct (_ && _); [|destruct I]. destruct I as [<-|[]]. exact (cr_env _ _ _ _ C _ _ J).
  Qed.
  Lemma no_cr_to : no_cr to.
  Proof.
    unfold to, vac_to. assert (F := no_cr_env EnvFrom). destruct (env_texts L EnvFrom (ve_envelope e)); [intros []|]. cbn. now inversion F.
  Qed.
  Lemma no_cr_fromfield : no_cr (vac_from_field L e a).
  Proof.
    unfold vac_from_field. destruct (va_from a) as [f|] eqn:F; [exact (cr_from _ _ _ _ C _ F)|].
    destruct (cr_user _ _ _ _ C) as [A N]. destruct (ve_user e) as [|c u] eqn:U.
    - destruct (envlookup EnvTo (ve_envelope e)) as [v|] eqn:E; [|intros []].
      assert (J : exists k, In (k, v) (ve_envelope e)).
      { revert E. generalize (ve_envelope e). induction l as [|[k v'] l IH]; cbn; [discriminate|].
        destruct k; cbn; intros E; try (injection E as ->; eauto); destruct (IH E); eauto. }
      destruct J as [k J]. exact (cr_env _ _ _ _ C _ _ J).
    - unfold user_from_field. destruct (ve_name e) as [|x n]; [exact A|].
      intros [I | I]; [discriminate|]. apply in_app_iff in I. destruct I as [I | [I | [I | [I | I]]]]; try discriminate; [now apply N|].
      apply in_app_iff in I. destruct I as [I | [I | []]]; [now apply A|discriminate].
  Qed.
  Lemma no_cr_shortened t : no_cr t -> no_cr (shortened t).
  Proof. rewrite <- clip_shortened. apply no_cr_clip. Qed.
  Lemma no_cr_reply_subject s : reply_subject e a s -> no_cr s.
  Proof.
    destruct (cr_fixed _ _ _ _ C) as (P & D & _). unfold reply_subject.
    assert (X : (exists h1 h t h2, ve_headers e = h1 ++ h :: h2 /\ has_name h "subject" /\ h_val h = HText t /\
         s = shortened (ve_prefix e ++ t) /\ s <> [] /\
         (forall h' t', In h' h1 -> has_name h' "subject" -> h_val h' = HText t' -> ve_prefix e ++ t' = [])) \/
      (s = ve_default_subject e /\
       (forall h' t', In h' (ve_headers e) -> has_name h' "subject" -> h_val h' = HText t' -> ve_prefix e ++ t' = [])) -> no_cr s).
    { intros [(h1 & h & t & h2 & E & _ & V & -> & _)|[-> _]]; [|exact D]. apply no_cr_shortened, no_cr_app; [exact P|].
      apply (cr_texts _ _ _ _ C h); [rewrite E; apply in_or_app; right; now left|exact V]. }
    destruct (va_subject a) as [[|c g]|] eqn:E; [exact X| |exact X]. intros ->. exact (cr_subject _ _ _ _ C _ E).
  Qed.

  Lemma lines_line n v rest : no_cr n -> no_cr v -> lines_go (hline n v ++ rest) [] = (n ++ v) :: lines_go rest [].
  Proof.
    intros A B. unfold hline. rewrite <- !app_assoc.
    change (n ++ v ++ CRLF ++ rest) with (n ++ (v ++ CRLF ++ rest)). rewrite (app_assoc n v).
    rewrite lines_hline by (now apply no_cr_app). reflexivity.
  Qed.

  Definition until_more (l : list text) (rest : list text) : Prop := Forall (fun x => x <> []) l.
  Lemma until_app l rest : Forall (fun x => x <> []) l -> until_empty (l ++ rest) = l ++ until_empty rest.
  Proof. induction 1 as [|x l N F IH]; [reflexivity|]. cbn [app until_empty]. destruct x; [congruence|]. now rewrite IH. Qed.

  Lemma reply_lines :
    exists to' subj more,
      header_lines (vac_message L raw cont e a) =
        [lit "From: " ++ vac_from_field L e a; lit "To:" ++ to'; lit "Subject: " ++ subj] ++ more ++
        [lit "Date: " ++ ve_date e; lit "Message-ID: " ++ ve_msgid e; lit "Auto-Submitted: auto-replied"] ++
        (if va_mime a then header_lines (va_reason a) else [lit "Content-type: text/plain; charset=utf-8"]) /\
      reply_subject e a subj /\
      (to' = 32%N :: to \/
       exists h, In h (ve_headers e) /\ (has_name h "from" \/ has_name h "sender") /\ cont h to = true /\ raw h = Some (to' ++ [13%N; 10%N])) /\
      Forall (fun l => In (line_name l) [lit "In-Reply-To"; lit "References"]) more.
  Proof.
    assert (S := subject_ok). destruct (rest_scan (ve_headers e)) as (R1 & R2 & R3).
    fold (vac_scan raw cont e a to) in *. unfold vac_message. fold to. cbv zeta.
    set (s := vac_scan raw cont e a to) in *.
    assert (NS := no_cr_reply_subject _ S). destruct (cr_fixed _ _ _ _ C) as (_ & _ & ND & NM).
    set (subj := vac_subject e s) in *.
    set (tail1 := hline (lit "Date: ") (ve_date e) ++ _).
    assert (T1 : forall rest, tail1 ++ rest = hline (lit "Date: ") (ve_date e) ++ hline (lit "Message-ID: ") (ve_msgid e) ++
        hline (lit "Auto-Submitted: ") (lit "auto-replied") ++
        (if va_mime a then [] else hline (lit "Content-type: ") (lit "text/plain; charset=utf-8") ++ CRLF) ++ va_reason a ++ rest)
      by (intros rest; unfold tail1; now rewrite <- !app_assoc).
    assert (T2 : exists ls, lines_go tail1 [] = [lit "Date: " ++ ve_date e; lit "Message-ID: " ++ ve_msgid e; lit "Auto-Submitted: auto-replied"] ++ ls /\
                 until_empty ls = if va_mime a then header_lines (va_reason a) else [lit "Content-type: text/plain; charset=utf-8"]).
    { rewrite <- (app_nil_r tail1), T1. rewrite !app_nil_r.
      do 3 (rewrite lines_line by (auto; now apply no_cr_lit)). eexists. split; [reflexivity|].
      destruct (va_mime a); [reflexivity|].
      rewrite <- app_assoc. rewrite lines_line by (now apply no_cr_lit). reflexivity. }
    destruct T2 as (ls & T2 & T3).
    assert (M : exists more, forall rest, lines_go ((match sc_id s with
     | Some m => lit "In-Reply-To: <" ++ m ++ lit ">" ++ CRLF ++ lit "References: <" ++ m ++
                 (match sc_refs s with Some r => lit "> " ++ r | None => lit ">" ++ CRLF end)
     | None => []
     end) ++ rest) [] = more ++ lines_go rest [] /\
       Forall (fun l => In (line_name l) [lit "In-Reply-To"; lit "References"]) more /\ Forall (fun x => x <> []) more).
    { destruct (sc_id s) as [m|] eqn:SI; [|exists []; intros; repeat split; constructor].
      destruct (R2 _ eq_refl) as (h & IH & _ & V). assert (Nm := cr_texts _ _ _ _ C _ _ IH V).
      assert (NI : no_cr (lit "In-Reply-To: <" ++ m ++ lit ">"))
        by (apply no_cr_app; [now apply no_cr_lit|apply no_cr_app; [assumption|now apply no_cr_lit]]).
      destruct (sc_refs s) as [r|] eqn:SR.
      - destruct (R3 _ eq_refl) as (h' & IH' & _ & RW). destruct (cr_raw _ _ _ _ C _ _ IH' RW) as (x & -> & Nx).
        exists [lit "In-Reply-To: <" ++ m ++ lit ">"; lit "References: <" ++ m ++ lit "> " ++ x]. intros rest.
        split; [|split; [constructor; [left; reflexivity|constructor; [right; left; reflexivity|constructor]]|repeat constructor; discriminate]].
        replace ((lit "In-Reply-To: <" ++ m ++ lit ">" ++ CRLF ++ lit "References: <" ++ m ++ lit "> " ++ x ++ [13%N; 10%N]) ++ rest)
          with ((lit "In-Reply-To: <" ++ m ++ lit ">") ++ CRLF ++ (lit "References: <" ++ m ++ lit "> " ++ x) ++ CRLF ++ rest)
          by (unfold CRLF; now rewrite <- !app_assoc).
        rewrite lines_hline by exact NI. rewrite lines_hline; [reflexivity|].
        apply no_cr_app; [now apply no_cr_lit|]. apply no_cr_app; [assumption|]. apply no_cr_app; [now apply no_cr_lit|assumption].
      - exists [lit "In-Reply-To: <" ++ m ++ lit ">"; lit "References: <" ++ m ++ lit ">"]. intros rest.
        split; [|split; [constructor; [left; reflexivity|constructor; [right; left; reflexivity|constructor]]|repeat constructor; discriminate]].
        replace ((lit "In-Reply-To: <" ++ m ++ lit ">" ++ CRLF ++ lit "References: <" ++ m ++ lit ">" ++ CRLF) ++ rest)
          with ((lit "In-Reply-To: <" ++ m ++ lit ">") ++ CRLF ++ (lit "References: <" ++ m ++ lit ">") ++ CRLF ++ rest)
          by (unfold CRLF; now rewrite <- !app_assoc).
        rewrite lines_hline by exact NI. rewrite lines_hline; [reflexivity|].
        apply no_cr_app; [now apply no_cr_lit|]. apply no_cr_app; [assumption|now apply no_cr_lit]. }
    destruct M as (more & M).
    assert (TO : exists to', (forall rest, lines_go ((match sc_to s with Some r => lit "To:" ++ r | None => hline (lit "To: ") to end) ++ rest) [] =
        (lit "To:" ++ to') :: lines_go rest []) /\
      (to' = 32%N :: to \/
       exists h, In h (ve_headers e) /\ (has_name h "from" \/ has_name h "sender") /\ cont h to = true /\ raw h = Some (to' ++ [13%N; 10%N]))).
    { destruct (sc_to s) as [r|] eqn:ST.
      - destruct (R1 _ eq_refl) as (h & IH & HN & CO & RW). destruct (cr_raw _ _ _ _ C _ _ IH RW) as (x & -> & Nx).
        exists x. split; [|right; exists h; auto]. intros rest.
        replace ((lit "To:" ++ x ++ [13%N; 10%N]) ++ rest) with ((lit "To:" ++ x) ++ CRLF ++ rest) by (unfold CRLF; now rewrite <- !app_assoc).
        rewrite lines_hline; [reflexivity|]. apply no_cr_app; [now apply no_cr_lit|exact Nx].
      - exists (32%N :: to). split; [|now left]. intros rest. rewrite lines_line; [reflexivity|now apply no_cr_lit|exact no_cr_to]. }
    destruct TO as (to' & TO & TO2). exists to', subj, more. split; [|split; [exact S|split; [exact TO2|]]].
    - unfold header_lines. rewrite lines_line by (auto using no_cr_fromfield; now apply no_cr_lit).
      rewrite TO. rewrite lines_line by (auto; now apply no_cr_lit). destruct (M tail1) as (M1 & _ & M3). rewrite M1, T2.
      cbn [app until_empty]. change (lit "From: " ++ vac_from_field L e a) with (70%N :: skipn 1 (lit "From: ") ++ vac_from_field L e a).
      cbn [until_empty lit]. rewrite until_app by exact M3. cbn. rewrite T3. reflexivity.
    - now destruct (M []) as (_ & M2 & _).
  Qed.
End R.
