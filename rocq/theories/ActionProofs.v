From Coq Require Import Lia String.
From Verif Require Import Base Lib Address Var Value SetVar Flags Message EditHeader Event Notify NotifySpec NotifyProofs Vacation VacationSpec VacationProofs
  VacationProofs2 SetProofs Sieve Run ComparatorProofs TestSpec TestProofs ActionSpec.
Import ListNotations.
Local Open Scope list_scope.

Lemma user_field_same name addr : user_from_field name addr = user_field name addr.
Proof. destruct name; reflexivity. Qed.
Lemma occurs_same small big : tcontains (lower_text big) (lower_text small) = true <-> occurs_ci small big.
Proof. unfold occurs_ci. rewrite ComparatorProofs.tcontains_spec. reflexivity. Qed.
Lemma from_same e a : notification_from (n_from a) (v_name e) (v_addr e) (notify_from e a).
Proof.
  unfold notify_from, notification_from. destruct (n_from a) as [f|].
  - destruct (tcontains (lower_text f) (lower_text (v_addr e))) eqn:T.
    + left. split; [reflexivity|apply occurs_same, T].
    + right. split; [apply user_field_same|]. intros g X O. injection X as <-. apply occurs_same in O. congruence.
  - right. split; [apply user_field_same|]. discriminate.
Qed.
Lemma mem_same c l : mem_ch c l = existsb (N.eqb c) l.
Proof. reflexivity. Qed.
Lemma show_addr_same a : show_addr a = bracketed a.
Proof. unfold show_addr, bracketed. rewrite mem_same. reflexivity. Qed.
Lemma show_addrs_same : forall l, show_addrs l = comma_list l.
Proof.
  induction l as [|a l IH]; [reflexivity|]. cbn [show_addrs comma_list]. rewrite IH, show_addr_same. destruct l; [symmetry; apply app_nil_r|reflexivity].
Qed.
Lemma hline_field n v : hline (n ++ lit ": ") v = field (n, v).
Proof. unfold hline, field. cbn [fst snd]. rewrite <- app_assoc. reflexivity. Qed.
Lemma section_app a b : section (a ++ b) = section a ++ section b.
Proof. unfold section. rewrite map_app, concat_app. reflexivity. Qed.
Lemma addr_header_same n l : addr_header (n ++ lit ": ") l = section (address_fields n l).
Proof.
  unfold addr_header, address_fields. destruct l as [|a l]; [reflexivity|]. rewrite hline_field, show_addrs_same.
  cbn [length Nat.eqb]. unfold section. cbn [map concat]. rewrite app_nil_r. reflexivity.
Qed.
Lemma mh_is_spec h n : mh_is h n = true <-> exists x, h = MParsed x /\ lower_text x = lower_text n.
Proof.
  destruct h as [x|x]; cbn [mh_is]; [|split; [discriminate|intros (y & X & _); discriminate]].
  unfold hn_eqb. rewrite teqb_ic_spec. split; [eauto|]. intros (y & X & Q). injection X as ->. exact Q.
Qed.
Lemma uri_headers_copied : forall l, exists fs, copied l fs /\ uri_headers l = section fs.
Proof.
  induction l as [|[h v] l (fs & C & U)]; [exists []; split; [constructor|reflexivity]|].
  unfold uri_headers in *. cbn [flat_map fst snd]. rewrite U.
  destruct (mh_is h (lit "Subject")) eqn:S; [|destruct (mh_is h (lit "From")) eqn:F]; cbn [orb].
  - apply mh_is_spec in S as (x & -> & S). exists fs. split; [apply co_skip; [left; exact S|exact C]|reflexivity].
  - apply mh_is_spec in F as (x & -> & F). exists fs. split; [apply co_skip; [right; exact F|exact C]|reflexivity].
  - destruct h as [x|x].
    + exists ((x, v) :: fs). split; [|rewrite hline_field; reflexivity]. apply co_known; [| |exact C].
      * intro Q. assert (X : mh_is (MParsed x) (lit "Subject") = true) by (apply mh_is_spec; exists x; split; [reflexivity|exact Q]). congruence.
      * intro Q. assert (X : mh_is (MParsed x) (lit "From") = true) by (apply mh_is_spec; exists x; split; [reflexivity|exact Q]). congruence.
    + exists ((x, v) :: fs). split; [constructor; exact C|rewrite hline_field; reflexivity].
Qed.
Lemma has_field p n : existsb (fun hv => mh_is (fst hv) n) (m_headers p) = true <-> exists x, uri_field p n x.
Proof.
  rewrite existsb_exists. split.
  - intros ([h v] & I & M). apply mh_is_spec in M as (x & M & Q). cbn [fst] in M. subst h. exists v, x. auto.
  - intros (v & x & I & Q). exists (MParsed x, v). split; [exact I|]. apply mh_is_spec. exists x. auto.
Qed.
Lemma added_same p n v : exists fs, added p n v fs /\
  (if existsb (fun hv => mh_is (fst hv) n) (m_headers p) then [] else hline (n ++ lit ": ") v) = section fs.
Proof.
  destruct (existsb _ _) eqn:X.
  - exists []. split; [left; split; [apply has_field, X|reflexivity]|reflexivity].
  - exists [(n, v)]. split.
    + right. split; [|reflexivity]. intros x U. assert (Y : existsb (fun hv => mh_is (fst hv) n) (m_headers p) = true) by (apply has_field; eauto). congruence.
    + rewrite hline_field. symmetry. apply app_nil_r.
Qed.
Lemma uri_subject_spec : forall l acc, let r := fold_left (fun acc hv => if mh_is (fst hv) (lit "Subject") then Some (snd hv) else acc) l (acc : option text) in
  (exists l1 h t l2, l = l1 ++ (MParsed h, t) :: l2 /\ lower_text h = lit "subject" /\ r = Some t /\
     forall h' v', In (MParsed h', v') l2 -> lower_text h' <> lit "subject") \/
  ((forall h v, In (MParsed h, v) l -> lower_text h <> lit "subject") /\ r = acc).
Proof.
  induction l as [|[h v] l IH]; intro acc; cbn [fold_left fst snd].
  - right. split; [intros ? ? []|reflexivity].
  - destruct (mh_is h (lit "Subject")) eqn:M.
    + apply mh_is_spec in M as (x & -> & Q). destruct (IH (Some v)) as [(l1 & h' & t & l2 & -> & Q' & R & N)|[N R]]; cbv zeta in R; rewrite R.
      * left. exists ((MParsed x, v) :: l1), h', t, l2. auto.
      * left. exists [], x, v, l. auto.
    + destruct (IH acc) as [(l1 & h' & t & l2 & -> & Q' & R & N)|[N R]]; cbv zeta in R; rewrite R.
      * left. exists ((h, v) :: l1), h', t, l2. auto.
      * right. split; [|reflexivity]. intros h' v' [X|X]; [|eapply N; exact X]. injection X as -> <-. intro Q.
        assert (Y : mh_is (MParsed h') (lit "Subject") = true) by (apply mh_is_spec; exists h'; auto). congruence.
Qed.
Lemma subject_same p message subject :
  notification_subject p message subject (opt_text (opt_or (uri_subject (m_headers p)) (opt_or message subject))).
Proof.
  unfold notification_subject, uri_subject. destruct (uri_subject_spec (m_headers p) None) as [(l1 & h & t & l2 & X & Q & R & N)|[N R]]; cbv zeta in R; rewrite R.
  - left. exists l1, h, l2. auto.
  - right. split; [|destruct message, subject; reflexivity]. intros x (h & I & Q). exact (N h x I Q).
Qed.
Lemma importance_same given : exists word priority, importance_is given (importance_of given) word priority /\
  importance_lines (importance_of given) = section [(lit "Importance", word); (lit "X-Priority", priority)].
Proof.
  assert (N : forall g, g <> Some (lit "1") -> g <> Some (lit "3") -> exists word priority, importance_is g INormal word priority /\
    importance_lines INormal = section [(lit "Importance", word); (lit "X-Priority", priority)]).
  { intros g A B. exists (lit "Normal"), (lit "3 (Normal)"). split; [right; right; auto|reflexivity]. }
  unfold importance_of. destruct given as [t|]; [|apply N; discriminate].
  destruct (teqb t (lit "1")) eqn:A; [apply teqb_spec in A as ->; exists (lit "High"), (lit "1 (High)"); split; [left; auto|reflexivity]|].
  destruct (teqb t (lit "3")) eqn:B; [apply teqb_spec in B as ->; exists (lit "Low"), (lit "5 (Low)"); split; [right; left; auto|reflexivity]|].
  apply N; intro X; injection X as ->; rewrite (proj2 (teqb_spec _ _) eq_refl) in *; discriminate.
Qed.

Lemma tcat_eq (a b c d : text) : a = b -> c = d -> a ++ c = b ++ d.
Proof. congruence. Qed.
Section E.
  Context (E : renv).
  Notation tx := (Run.tx E).
  Definition nenv_of (s : rst) (root : part) : nenv :=
    {| v_headers := p_headers root; v_subject := E_subject E (r_msg s); v_addr := E_user E; v_name := E_name E;
       v_date := E_date E (r_instrs s + 1); v_msgid := E_new_id E (r_instrs s + 1);
       v_max_out := E_max_out E; v_out := r_out s; v_last := r_last s |}.
  Lemma text_same s root a from importance message p :
    n_from a = option_map (tx s) from -> n_importance a = option_map (tx s) importance -> n_message a = option_map (tx s) message ->
    notification E s from importance message p (notify_text (nenv_of s root) a p).
  Proof.
    intros F IM MS. destruct (uri_headers_copied (m_headers p)) as (others & C & HC).
    destruct (added_same p (lit "Date") (E_date E (r_instrs s + 1))) as (date & AD & HD).
    destruct (added_same p (lit "Message-ID") (E_new_id E (r_instrs s + 1))) as (id & AI & HI).
    destruct (importance_same (n_importance a)) as (word & priority & W & HW).
    exists (notify_from (nenv_of s root) a), others, date, id, (importance_of (n_importance a)), word, priority,
      (opt_text (opt_or (uri_subject (m_headers p)) (opt_or (n_message a) (E_subject E (r_msg s))))).
    rewrite <- F, <- IM, <- MS. split; [apply from_same|]. split; [exact C|]. split; [exact AD|]. split; [exact AI|]. split; [exact W|].
    split; [apply subject_same|]. rewrite <- clip_shortened. unfold notify_text, notify_headers.
    rewrite !section_app, <- HC, <- HD, <- HI, <- !addr_header_same, <- !app_assoc.
    apply tcat_eq; [symmetry; apply app_nil_r|]. do 5 (apply tcat_eq; [reflexivity|]).
    set (sub := clip_subject _). change (section [(lit "Importance", word); (lit "X-Priority", priority); (lit "Subject", sub); (lit "Auto-Submitted", lit "auto-notified");
      (lit "X-Sieve", lit "yes"); (lit "Content-type", lit "text/plain; charset=utf-8")]) with
      (section ([(lit "Importance", word); (lit "X-Priority", priority)] ++ [(lit "Subject", sub); (lit "Auto-Submitted", lit "auto-notified");
      (lit "X-Sieve", lit "yes"); (lit "Content-type", lit "text/plain; charset=utf-8")])).
    rewrite section_app, <- HW, <- app_assoc. apply tcat_eq; [reflexivity|].
    unfold section. cbn [map concat]. rewrite app_nil_r, <- !app_assoc. do 4 (apply tcat_eq; [unfold field, hline; cbn [fst snd]; rewrite ?app_assoc; reflexivity|]).
    apply tcat_eq; [reflexivity|]. unfold notify_body. cbn [v_subject nenv_of]. destruct (m_body p), (n_message a), (E_subject E (r_msg s)); reflexivity.
  Qed.
  Lemma automatic_same hs : existsb auto_submitted hs = true <-> automatic hs.
  Proof.
    rewrite existsb_exists. unfold automatic, auto_submitted. split; intros (h & I & A).
    - apply andb_true_iff in A as [N V]. apply teqb_ic_spec in N. exists h. split; [exact I|]. split; [exact N|].
      intros t HT Q. rewrite HT in V. apply negb_true_iff in V. assert (X : teqb_ic t (lit "no") = true) by (apply teqb_ic_spec; exact Q). congruence.
    - destruct A as [N V]. exists h. split; [exact I|]. apply andb_true_iff. split; [apply teqb_ic_spec; exact N|].
      destruct (h_val h) as [t| |]; [|reflexivity..]. apply negb_true_iff. destruct (teqb_ic t (lit "no")) eqn:T; [|reflexivity].
      apply teqb_ic_spec in T. destruct (V t eq_refl T).
  Qed.
  Lemma not_automatic hs : existsb auto_submitted hs = false -> ~ automatic hs.
  Proof. intros X A. apply automatic_same in A. congruence. Qed.
  Lemma copy_same s f id : match option_map (fcc_of E s) f with Some (f, fl, mid, su, cr) => [EFileInto f fl mid su cr id] | None => [] end = copy_of E s f id.
  Proof. destruct f as [[[[[f fl] mid] su] cr]|]; reflexivity. Qed.
  Definition nargs_of (s : rst) method from importance options message fcc : nargs :=
    {| n_method := tx s method; n_from := option_map (tx s) from; n_importance := option_map (tx s) importance;
       n_options := map (tx s) options; n_message := option_map (tx s) message; n_fcc := option_map (fcc_of E s) fcc |}.
  Lemma notify_same s root rest method from importance options message fcc : parts s = root :: rest ->
    match exec_notify (E_M E) (E_utf8 E) (nenv_of s root) (nargs_of s method from importance options message fcc) with
    | None => notifies E s method from importance options message fcc [] (r_last s) (r_out s)
    | Some (evs, last, out) => notifies E s method from importance options message fcc evs last out
    end.
  Proof.
    intro P. unfold exec_notify. cbv zeta. cbn [v_headers nenv_of n_method nargs_of v_out v_max_out v_last n_fcc n_from n_options n_importance n_message v_subject].
    destruct (existsb auto_submitted (p_headers root)) eqn:AU; [apply (no_automatic _ _ _ _ _ _ _ _ root rest P), automatic_same, AU|].
    apply not_automatic in AU. destruct (parse_uri (tx s method)) as [[scheme u]|] eqn:PU; [|exact (no_uri _ _ _ _ _ _ _ _ root rest P AU PU)].
    destruct (teqb_ic scheme (lit "mailto") && Nat.ltb (r_out s) (E_max_out E)) eqn:IM.
    - apply andb_true_iff in IM as [SC OUT]. apply teqb_ic_spec in SC. apply Nat.ltb_lt in OUT.
      destruct (parse_mailto (E_M E) (E_utf8 E) (utf8 u)) as [p|] eqn:PM; [|exact (no_mailto _ _ _ _ _ _ _ _ root rest scheme u P AU PU SC OUT PM)].
      rewrite copy_same. refine (no_mail _ _ _ _ _ _ _ _ root rest scheme u p _ P AU PU SC OUT PM _). apply text_same; reflexivity.
    - assert (O : lower_text scheme <> lit "mailto" \/ E_max_out E <= r_out s).
      { apply andb_false_iff in IM as [X|X]; [left|right; apply Nat.ltb_ge; exact X]. intro Q.
        assert (Y : teqb_ic scheme (lit "mailto") = true) by (apply teqb_ic_spec; exact Q). congruence. }
      destruct (importance_same (option_map (tx s) importance)) as (word & priority & W & _).
      assert (BODY : opt_text (opt_or (option_map (tx s) message) (E_subject E (r_msg s))) =
        match option_map (tx s) message, E_subject E (r_msg s) with Some m, _ => m | None, Some x => x | None, None => [] end)
        by (destruct message, (E_subject E (r_msg s)); reflexivity).
      rewrite BODY. destruct fcc as [f|].
      + change (option_map (fcc_of E s) (Some f)) with (Some (fcc_of E s f)). cbv beta iota. pose proof (copy_same s (Some f) (r_last s + 1)) as CS.
        cbn [option_map] in CS. cbn [app]. rewrite CS.
        refine (no_host_copy E s method from importance options message (Some f) root rest scheme u _ word priority _ P AU PU O W _ _); [discriminate|].
        apply text_same; reflexivity.
      + cbn [option_map app]. exact (no_host E s method from importance options message None root rest scheme u _ word priority P AU PU O W eq_refl).
  Qed.

  Lemma step_instr s i : at_instr E s i -> step E s = exec_instr E i (moved_on s).
  Proof.
    intros (ST & NI & CPU). unfold step. destruct (r_stack s) as [|f st] eqn:RS; [contradiction|]. rewrite NI.
    assert (LT : Nat.ltb (length (s_code (f_script f))) (r_pos s) = false).
    { apply Nat.ltb_ge. unfold next_instr in NI. rewrite RS in NI. apply Nat.lt_le_incl, nth_error_Some. congruence. }
    rewrite LT. cbv zeta.
    replace (Nat.ltb (E_cpu E) (r_instrs (w_instrs (r_instrs s + 1) s))) with false; [reflexivity|].
    symmetry. apply Nat.ltb_ge. cbn [r_instrs w_instrs]. lia.
  Qed.
  Lemma taken s evs s' : r_queue s' = [] -> step E s = take_queue (w_queue evs s') -> hands_out E s evs s'.
  Proof.
    intros Q ST. unfold hands_out. destruct evs as [|e q]; rewrite ST; unfold take_queue; cbn [r_queue w_queue]; [|reflexivity].
    destruct s'. cbn in *. subst. reflexivity.
  Qed.
  Theorem notify_step s method from importance options message fcc :
    at_instr E s (IxNotify method from importance options message fcc) -> r_queue s = [] -> parts s <> [] ->
    exists evs last out, notifies E s method from importance options message fcc evs last out /\
      hands_out E s evs (w_last last (w_out out (moved_on s))).
  Proof.
    intros AT Q P. destruct (parts s) as [|root rest] eqn:PS; [contradiction|]. apply step_instr in AT.
    pose proof (notify_same s root rest method from importance options message fcc PS) as N.
    cbn [exec_instr] in AT. change (parts (moved_on s)) with (parts s) in AT. rewrite PS in AT.
    change (step E s = match exec_notify (E_M E) (E_utf8 E) (nenv_of s root) (nargs_of s method from importance options message fcc) with
      | None => take_queue (moved_on s)
      | Some (events, last, out) => take_queue (w_queue events (w_last last (w_out out (moved_on s))))
      end) in AT.
    destruct (exec_notify _ _ _ _) as [[[evs last] out]|].
    - exists evs, last, out. split; [exact N|]. apply taken; [exact Q|exact AT].
    - exists [], (r_last s), (r_out s). split; [exact N|]. unfold hands_out. rewrite AT. unfold take_queue.
      change (r_queue (moved_on s)) with (r_queue s). rewrite Q. destruct s. reflexivity.
  Qed.

  Lemma fold_last {T B} (step : T -> header -> T) (f : T -> B) (ok : header -> bool) (g : header -> B) :
    (forall t h, f (step t h) = if ok h then g h else f t) ->
    forall l t, (exists l1 h l2, l = l1 ++ h :: l2 /\ ok h = true /\ (forall h', In h' l2 -> ok h' = false) /\ f (fold_left step l t) = g h) \/
      ((forall h, In h l -> ok h = false) /\ f (fold_left step l t) = f t).
  Proof.
    intros ST. induction l as [|h l IH]; intro t; cbn [fold_left]; [right; split; [intros ? []|reflexivity]|].
    destruct (IH (step t h)) as [(l1 & h' & l2 & -> & O & N & R)|[N R]].
    - left. exists (h :: l1), h', l2. auto.
    - rewrite R, ST. destruct (ok h) eqn:O; [left; exists [], h, l; auto|right]. split; [|reflexivity]. intros x [<-|X]; auto.
  Qed.
  Definition ok_id h := named h ["Message-ID"]%string.
  Definition ok_refs h := named h ["References"]%string && match E_raw E h with Some _ => true | None => false end.
  Definition ok_to to h := named h ["From"; "Sender"]%string && E_has_addr E h to && match E_raw E h with Some _ => true | None => false end.
  Lemma named_spec h n : named h [n] = true <-> has_name h n.
  Proof. rewrite named_lower, teqb_ic_spec. reflexivity. Qed.
  Lemma named_diff h a l : named h [a] = true -> existsb (fun n => teqb_ic (lit a) (lit n)) l = false -> named h l = false.
  Proof.
    intros N D. apply named_spec in N. destruct (named h l) eqn:X; [|reflexivity]. apply existsb_exists in X as (n & I & X).
    apply teqb_ic_spec in X. rewrite <- D. symmetry. apply existsb_exists. exists n. split; [exact I|]. apply teqb_ic_spec.
    unfold has_name, ci_eq in N. rewrite <- N. exact X.
  Qed.
  Lemma scan_id e to t h : sc_id (vac_scan1 (E_raw E) (E_has_addr E) e to t h) = if ok_id h then h_text h else sc_id t.
  Proof.
    unfold vac_scan1, ok_id. destruct (named h ["Subject"]%string) eqn:S.
    - rewrite (named_diff h "Subject" ["Message-ID"]%string S eq_refl). destruct (sc_subject t), (h_text h); reflexivity.
    - destruct (named h ["Message-ID"]%string); [reflexivity|]. destruct (named h ["References"]%string); [destruct (E_raw E h); reflexivity|].
      destruct (named h ["From"; "Sender"]%string); [|reflexivity]. destruct (E_has_addr E h to), (E_raw E h); reflexivity.
  Qed.
  Lemma scan_refs e to t h : sc_refs (vac_scan1 (E_raw E) (E_has_addr E) e to t h) = if ok_refs h then E_raw E h else sc_refs t.
  Proof.
    unfold vac_scan1, ok_refs. destruct (named h ["Subject"]%string) eqn:S.
    - rewrite (named_diff h "Subject" ["References"]%string S eq_refl). destruct (sc_subject t), (h_text h); reflexivity.
    - destruct (named h ["Message-ID"]%string) eqn:M; [rewrite (named_diff h "Message-ID" ["References"]%string M eq_refl); reflexivity|].
      destruct (named h ["References"]%string); [destruct (E_raw E h); reflexivity|].
      destruct (named h ["From"; "Sender"]%string); [|reflexivity]. destruct (E_has_addr E h to), (E_raw E h); reflexivity.
  Qed.
  Lemma scan_to e to t h : sc_to (vac_scan1 (E_raw E) (E_has_addr E) e to t h) = if ok_to to h then E_raw E h else sc_to t.
  Proof.
    unfold vac_scan1, ok_to. destruct (named h ["Subject"]%string) eqn:S.
    - rewrite (named_diff h "Subject" ["From"; "Sender"]%string S eq_refl). destruct (sc_subject t), (h_text h); reflexivity.
    - destruct (named h ["Message-ID"]%string) eqn:M; [rewrite (named_diff h "Message-ID" ["From"; "Sender"]%string M eq_refl); reflexivity|].
      destruct (named h ["References"]%string) eqn:R; [rewrite (named_diff h "References" ["From"; "Sender"]%string R eq_refl); destruct (E_raw E h); reflexivity|].
      destruct (named h ["From"; "Sender"]%string); [|reflexivity]. destruct (E_has_addr E h to), (E_raw E h); reflexivity.
  Qed.
  Lemma ok_refs_spec h : ok_refs h = true <-> has_name h "references" /\ E_raw E h <> None.
  Proof.
    unfold ok_refs. rewrite andb_true_iff, named_spec. change (has_name h "References") with (has_name h "references").
    destruct (E_raw E h); split; intros [A B]; split; auto; congruence.
  Qed.
  Lemma ok_to_spec to h : ok_to to h = true <-> (has_name h "from" \/ has_name h "sender") /\ E_has_addr E h to = true /\ E_raw E h <> None.
  Proof.
    unfold ok_to. rewrite !andb_true_iff.
    assert (X : named h ["From"; "Sender"]%string = true <-> has_name h "from" \/ has_name h "sender").
    { change (has_name h "from") with (has_name h "From"). change (has_name h "sender") with (has_name h "Sender").
      rewrite <- !named_spec. unfold named. cbn [existsb]. rewrite !orb_true_iff. intuition discriminate. }
    rewrite X. destruct (E_raw E h); intuition congruence.
  Qed.
  Lemma last_same ok P (g : header -> option text) hs (v v0 : option text) :
    (forall h, ok h = true <-> P h) ->
    (exists l1 h l2, hs = l1 ++ h :: l2 /\ ok h = true /\ (forall h', In h' l2 -> ok h' = false) /\ v = g h) \/ ((forall h, In h hs -> ok h = false) /\ v = v0) ->
    exists r, last_field hs P r /\ v = match r with Some h => g h | None => v0 end.
  Proof.
    intros S [(l1 & h & l2 & A & O & N & V)|[N V]].
    - exists (Some h). split; [|exact V]. exists l1, l2. split; [exact A|]. split; [apply S, O|]. intros h' I X. apply S in X. rewrite (N h' I) in X. discriminate.
    - exists None. split; [|exact V]. intros h I X. apply S in X. rewrite (N h I) in X. discriminate.
  Qed.
  Lemma answered_same s env : ve_envelope env = c_envelope (r_vars s) -> answered E s (vac_to (E_L E) env).
  Proof.
    intro Q. unfold answered, vac_to. rewrite Q. clear Q. induction (c_envelope (r_vars s)) as [|[k v] l IH].
    - right. split; [reflexivity|intros ? []].
    - unfold env_texts. cbn [flat_map fst snd]. destruct (envk_eqb k EnvFrom) eqn:K; [destruct (v_is_empty v) eqn:V|]; cbn [andb negb app hd].
      + apply envk_eqb_spec in K as ->. destruct IH as [(l1 & w & l2 & -> & W & T & N)|[T N]].
        * left. exists ((EnvFrom, v) :: l1), w, l2. repeat split; auto. intros v' [X|X]; [injection X as <-; exact V|auto].
        * right. split; [exact T|]. intros v' [X|X]; [injection X as <-; exact V|auto].
      + apply envk_eqb_spec in K as ->. left. exists [], v, l. repeat split; auto; intros ? [].
      + assert (NK : k <> EnvFrom) by (intros ->; assert (Y : envk_eqb EnvFrom EnvFrom = true) by (apply envk_eqb_spec; reflexivity); congruence).
        destruct IH as [(l1 & w & l2 & -> & W & T & N)|[T N]].
        * left. exists ((k, v) :: l1), w, l2. repeat split; auto. intros v' [X|X]; [congruence|auto].
        * right. split; [exact T|]. intros v' [X|X]; [congruence|auto].
  Qed.
  Lemma envlookup_spec k : forall l, match envlookup k l with
    | Some v => exists l1 l2, l = l1 ++ (k, v) :: l2 /\ forall v', ~ In (k, v') l1
    | None => forall v, ~ In (k, v) l
    end.
  Proof.
    induction l as [|[k' v] l IH]; cbn [envlookup]; [intros ? []|]. destruct (envk_eqb k k') eqn:K.
    - apply envk_eqb_spec in K as <-. exists [], l. split; [reflexivity|intros ? []].
    - assert (NK : k' <> k) by (intros ->; assert (Y : envk_eqb k k = true) by (apply envk_eqb_spec; reflexivity); congruence).
      destruct (envlookup k l) as [w|].
      + destruct IH as (l1 & l2 & -> & N). exists ((k', v) :: l1), l2. split; [reflexivity|]. intros v' [X|X]; [congruence|exact (N v' X)].
      + intros w [X|X]; [congruence|exact (IH w X)].
  Qed.
  Theorem vacation_step s subject from mime fcc reason root rest :
    at_instr E s (IxVacation subject from mime fcc reason) -> r_queue s = [] -> parts s = root :: rest ->
    exists to t, answered E s to /\ reply E s (p_headers root) to subject from mime reason t /\
      hands_out E s (ECreated (r_last s + 1) t :: ESend (RAddress to) (DsnNever, RetDefault, ByNone) (r_last s + 1) :: copy_of E s fcc (r_last s + 1))
        (w_last (r_last s + 1) (w_out (r_out s + 1) (moved_on s))).
  Proof.
    intros AT Q PS. apply step_instr in AT. cbn [exec_instr] in AT. change (parts (moved_on s)) with (parts s) in AT. rewrite PS in AT.
    unfold exec_vacation in AT. cbn [va_fcc vacation_args ve_last vacation_env ve_out] in AT.
    change (fcc_of E (moved_on s)) with (fcc_of E s) in AT. rewrite copy_same in AT.
    set (e := vacation_env E (moved_on s) (p_headers root)) in *. set (a := vacation_args _ _ _ _ _ _ _ _) in *.
    exists (vac_to (E_L E) e), (vac_message (E_L E) (E_raw E) (E_has_addr E) e a). split; [apply answered_same; reflexivity|]. split.
    2:{ apply taken; [exact Q|exact AT]. }
    unfold vac_message. set (to := vac_to (E_L E) e). set (sc := vac_scan _ _ e a to).
    destruct (last_same _ _ _ _ _ _ (fun h => named_spec h "Message-ID") (fold_last _ _ _ _ (scan_id e to) (ve_headers e)
      {| sc_subject := opt_text (Vacation.va_subject a); sc_id := None; sc_refs := None; sc_to := None |})) as (ri & LI & VI).
    destruct (last_same _ _ _ _ _ _ ok_refs_spec (fold_last _ _ _ _ (scan_refs e to) (ve_headers e)
      {| sc_subject := opt_text (Vacation.va_subject a); sc_id := None; sc_refs := None; sc_to := None |})) as (rr & LR & VR).
    destruct (last_same _ _ _ _ _ _ (ok_to_spec to) (fold_last _ _ _ _ (scan_to e to) (ve_headers e)
      {| sc_subject := opt_text (Vacation.va_subject a); sc_id := None; sc_refs := None; sc_to := None |})) as (rt & LT & VT).
    change (sc_id sc = match ri with Some h => h_text h | None => None end) in VI.
    change (sc_refs sc = match rr with Some h => E_raw E h | None => None end) in VR.
    change (sc_to sc = match rt with Some h => E_raw E h | None => None end) in VT.
    change (ve_headers e) with (p_headers root) in LI, LR, LT.
    exists (vac_from_field (E_L E) e a), (match sc_to sc with Some r => lit "To:" ++ r | None => hline (lit "To: ") to end), (vac_subject e sc),
      (match sc_id sc with
       | Some m => lit "In-Reply-To: <" ++ m ++ lit ">" ++ CRLF ++ lit "References: <" ++ m ++
                   (match sc_refs sc with Some r => lit "> " ++ r | None => lit ">" ++ CRLF end)
       | None => []
       end).
    split; [|split; [|split; [|split]]].
    - unfold reply_from, vac_from_field. cbn [va_from a vacation_args]. destruct from as [f|]; [reflexivity|]. cbn [otx option_map ve_user e vacation_env ve_envelope ve_name].
      destruct (E_user E) as [|c u] eqn:U; cbn [length Nat.eqb]; [|apply user_field_same].
      change (r_vars (moved_on s)) with (r_vars s).
      pose proof (envlookup_spec EnvTo (c_envelope (r_vars s))) as X. destruct (envlookup EnvTo (c_envelope (r_vars s))) as [v|].
      + destruct X as (l1 & l2 & X & N). left. exists l1, v, l2. auto.
      + right. auto.
    - exists rt. split; [exact LT|]. rewrite VT. destruct rt as [h|]; [|reflexivity].
      destruct LT as (l1 & l2 & _ & (_ & _ & RAW) & _). destruct (E_raw E h) as [r|]; [|contradiction]. exists r. split; reflexivity.
    - exact (subject_ok (E_L E) (E_raw E) (E_has_addr E) e a).
    - exists ri. split; [exact LI|].
      assert (HI : match ri with Some h => match h_val h with HText id => Some id | _ => None end | None => None end = sc_id sc) by (rewrite VI; reflexivity).
      rewrite HI. destruct (sc_id sc) as [id|]; [|reflexivity]. exists rr. split; [exact LR|]. rewrite VR. destruct rr as [h|].
      + destruct LR as (l1 & l2 & _ & (_ & RAW) & _). destruct (E_raw E h) as [r|]; [|contradiction]. exists r. split; [reflexivity|].
        unfold field. cbn [fst snd]. rewrite <- !app_assoc. reflexivity.
      + unfold section, field. cbn [map concat fst snd]. rewrite <- !app_assoc. reflexivity.
    - unfold section, field, hline. cbn [map concat fst snd]. rewrite <- !app_assoc. reflexivity.
  Qed.

  Lemma handed s : let '(s1, created) := build_message_id E (moved_on s) in
    opt_list created = edited_first E s /\ handed_out s s1 /\ r_queue s1 = r_queue s /\ r_final s1 = r_final s /\
    r_out s1 = r_out s /\ r_redirects s1 = r_redirects s /\ vw E s1 = vw E s.
  Proof.
    unfold build_message_id, edited_first, handed_out, delivered_id. change (r_msg (moved_on s)) with (r_msg s).
    destruct (ms_changed (r_msg s)) eqn:C; repeat split; auto.
  Qed.
  Lemma received_same root : received_count root = length (filter (fun h => teqb_ic (h_name h) (lit "received")) (p_headers root)).
  Proof. reflexivity. Qed.
  Lemma delivery_same s n r b : exists b', deliver_by E s b b' /\ delivery E s (n, r, b) = (n, r, b').
  Proof. destruct b; eexists; split; try constructor; reflexivity. Qed.
  Theorem redirect_step s address copy list_ n r b root rest :
    at_instr E s (IxRedirect address copy list_ (n, r, b)) -> r_queue s = [] -> parts s = root :: rest ->
    (redirect_forbidden E s (p_headers root) address list_ -> hands_out E s [] (moved_on s)) /\
    (~ redirect_forbidden E s (p_headers root) address list_ -> exists a b' s',
       sanitize_address (tx s address) = Some a /\ deliver_by E s b b' /\
       hands_out E s (edited_first E s ++ [ESend (if list_ then RList a else RAddress a) (n, r, b') (delivered_id s)]) s' /\
       handed_out s s' /\ r_redirects s' = r_redirects s + 1 /\ r_out s' = r_out s + 1 /\
       (copy = false -> is_keep (r_final s) -> r_final s' = None) /\ (copy = true \/ ~ is_keep (r_final s) -> r_final s' = r_final s)).
  Proof.
    intros AT Q PS. apply step_instr in AT. cbn [exec_instr] in AT. unfold exec_redirect in AT.
    change (parts (moved_on s)) with (parts s) in AT. change (tx (moved_on s) address) with (tx s address) in AT. rewrite PS in AT.
    change (r_redirects (moved_on s)) with (r_redirects s) in AT. change (r_out (moved_on s)) with (r_out s) in AT.
    change (r_final (moved_on s)) with (r_final s) in AT. change (delivery E (moved_on s)) with (delivery E s) in AT. rewrite received_same in AT.
    assert (TQ : take_queue (moved_on s) = SCont (moved_on s)).
    { unfold take_queue. change (r_queue (moved_on s)) with (r_queue s). rewrite Q. reflexivity. }
    rewrite TQ in AT. unfold redirect_forbidden.
    destruct (sanitize_address (tx s address)) as [a|] eqn:SA; [|split; [intros _; exact AT|intro N; destruct N; tauto]].
    destruct (Nat.ltb_spec (r_redirects s) (E_max_redirects E)) as [R|R]; cbn [andb] in AT; [|split; [intros _; exact AT|intro N; destruct N; tauto]].
    destruct (Nat.ltb_spec (r_out s) (E_max_out E)) as [O|O]; [|split; [intros _; exact AT|intro N; destruct N; tauto]].
    destruct (Nat.ltb_spec (length (filter (fun h => teqb_ic (h_name h) (lit "received")) (p_headers root))) (E_max_received E)) as [RC|RC];
      [|split; [intros _; exact AT|intro N; destruct N; tauto]].
    destruct (negb list_ && teqb_ic a (E_user E)) eqn:OWN.
    { split; [intros _; exact AT|]. intro N. destruct N. right; right; right; right. apply andb_true_iff in OWN as [A B].
      apply negb_true_iff in A. apply teqb_ic_spec in B. eauto. }
    split.
    { intros [X|[X|[X|[X|(A & a' & X & Y)]]]]; try lia; try discriminate. injection X as <-. subst list_. cbn [negb andb] in OWN.
      assert (Z : teqb_ic a (E_user E) = true) by (apply teqb_ic_spec; exact Y). congruence. }
    intros _. destruct (delivery_same s n r b) as (b' & DB & DE). rewrite DE in AT.
    pose proof (handed s) as H. exists a, b'.
    assert (F : exists f, (if copy then moved_on s else match r_final s with Some (EKeep _ _) => w_final None (moved_on s) | _ => moved_on s end) = w_final f (moved_on s) /\
      (copy = false -> is_keep (r_final s) -> f = None) /\ (copy = true \/ ~ is_keep (r_final s) -> f = r_final s)).
    { destruct copy.
      - exists (r_final s). split; [destruct s; reflexivity|]. split; [discriminate|reflexivity].
      - destruct (r_final s) as [ev|] eqn:FI; [destruct ev|]; try (exists (r_final s); rewrite FI; split; [destruct s; cbn in FI; subst; reflexivity|];
          split; [intros _ (? & ? & X); discriminate X|reflexivity]).
        exists None. split; [reflexivity|]. split; [reflexivity|]. intros [X|X]; [discriminate|]. destruct X. eexists _, _. reflexivity. }
    destruct F as (f & FE & F1 & F2). rewrite FE in AT.
    assert (BM : build_message_id E (w_final f (moved_on s)) = (w_final f (fst (build_message_id E (moved_on s))), snd (build_message_id E (moved_on s)))).
    { unfold build_message_id. cbn [r_msg w_final]. destruct (ms_changed (r_msg (moved_on s))); reflexivity. }
    rewrite BM in AT. destruct (build_message_id E (moved_on s)) as [s1 created]. cbn [fst snd] in AT. destruct H as (CR & HO & QQ & RF & RO & RR & VW).
    exists (w_out (r_out s1 + 1) (w_redirects (r_redirects s1 + 1) (w_final f s1))). split; [reflexivity|]. split; [exact DB|]. split.
    - rewrite <- CR, <- (proj1 HO). apply taken; [rewrite <- Q, <- QQ; reflexivity|exact AT].
    - split; [exact HO|]. split; [cbn; rewrite RR; reflexivity|]. split; [cbn; rewrite RO; reflexivity|]. split; [exact F1|exact F2].
  Qed.
  Theorem fileinto_step s folder flags mid su copy create :
    at_instr E s (IxFileInto folder flags mid su copy create) -> r_queue s = [] ->
    exists s', hands_out E s (edited_first E s ++
        [EFileInto (tx s folder) (flags_for E s flags) (option_map (tx s) mid) (option_map (tx s) su) create (delivered_id s)]) s' /\
      handed_out s s' /\ r_redirects s' = r_redirects s /\ r_out s' = r_out s /\
      r_final s' = if copy then r_final s else match r_final s with Some (EKeep (_ :: _) _) => r_final s | _ => None end.
  Proof.
    intros AT Q. apply step_instr in AT. cbn [exec_instr] in AT. unfold exec_fileinto in AT. pose proof (handed s) as H.
    destruct (build_message_id E (moved_on s)) as [s1 created]. destruct H as (CR & HO & QQ & RF & RO & RR & VW).
    set (s2 := if copy then s1 else _) in AT.
    assert (F : exists f, s2 = w_final f s1 /\ f = if copy then r_final s else match r_final s with Some (EKeep (_ :: _) _) => r_final s | _ => None end).
    { subst s2. rewrite RF. destruct copy; [exists (r_final s1); split; [destruct s1; reflexivity|exact RF]|].
      destruct (r_final s) as [ev|] eqn:FI; [destruct ev as [| | | | | |fl id| | | | | |]; try (eexists; split; reflexivity); destruct fl; [eexists; split; reflexivity|]|eexists; split; reflexivity].
      eexists. split; [|reflexivity]. rewrite <- RF. destruct s1; reflexivity. }
    destruct F as (f & -> & FF). exists (w_final f s1). split.
    - rewrite <- CR, <- (proj1 HO). apply taken; [rewrite <- Q, <- QQ; reflexivity|].
      rewrite AT. f_equal. f_equal. f_equal. f_equal. change (vw E (w_final f s1)) with (vw E s1). rewrite VW.
      unfold otx, tx, Run.tx, Run.ev. change (vw E (w_final f s1)) with (vw E s1). rewrite VW. unfold flags_for. destruct flags; reflexivity.
    - split; [exact HO|]. split; [exact RR|]. split; [exact RO|]. exact FF.
  Qed.
  Theorem keep_step s flags : at_instr E s (IxKeep flags) -> r_queue s = [] ->
    exists s', hands_out E s (edited_first E s) s' /\ handed_out s s' /\ r_redirects s' = r_redirects s /\ r_out s' = r_out s /\
      r_final s' = Some (EKeep (flags_for E s flags) (delivered_id s)).
  Proof.
    intros AT Q. apply step_instr in AT. cbn [exec_instr] in AT. pose proof (handed s) as H.
    destruct (build_message_id E (moved_on s)) as [s1 created]. destruct H as (CR & HO & QQ & RF & RO & RR & VW).
    assert (FL : local_or_global_flags (E_L E) (vw E s1) flags = flags_for E s flags) by (rewrite VW; destruct flags; reflexivity).
    rewrite FL in AT. eexists. split.
    - unfold hands_out. rewrite <- CR. destruct created as [ev|]; cbn [opt_list]; rewrite AT; [|reflexivity].
      assert (X : w_queue [] (w_final (Some (EKeep (flags_for E s flags) (r_main s1))) s1) = w_final (Some (EKeep (flags_for E s flags) (r_main s1))) s1)
        by (rewrite Q in QQ; destruct s1; cbn in *; subst; reflexivity). rewrite X. reflexivity.
    - split; [exact HO|]. split; [exact RR|]. split; [exact RO|]. cbn [r_final w_final]. rewrite (proj1 HO). reflexivity.
  Qed.
  Theorem reject_step s extended reason : at_instr E s (IxReject extended reason) -> r_queue s = [] ->
    hands_out E s [EReject extended (tx s reason)] (w_final None (moved_on s)).
  Proof.
    intros AT Q. apply step_instr in AT. cbn [exec_instr] in AT. unfold hands_out. rewrite AT. destruct s. cbn in *. subst. reflexivity.
  Qed.
End E.
