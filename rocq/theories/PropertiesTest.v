(** Property C92: tests in a running script decide, and ask the host, what their arguments say. *)
From Verif Require Import Base Lib Var Value SetVar Flags Glob GlobSpec Comparator ComparatorSpec ComparatorProofs2 Message MessageSpec
  EditHeader HeaderShowSpec HeaderShowProofs AddrTest AddrSpec Spam Notify Event Sieve Run MatchSpec RunSpec TestSpec TestProofs
  PropertiesCompare PropertiesMessage PropertiesNotify PropertiesVacation PropertiesAddrTest PropertiesRun.
Import ListNotations.
Local Open Scope string_scope.
Local Open Scope list_scope.

(** A test that compares values with keys goes on with 'some value matches some key', turned
    around by 'not'; nothing else changes but match variables (C70), the position and the number of
    instructions.  [Forall]: patterns have at most 63 wildcards (C07). *)
Theorem C92_finds :
  forall E s t c m neg,
    (forall ch, chr_lower (E_L E) ch <> []) ->
    wf_deep (parts s) -> r_part s < length (parts s) ->
    at_test E s t -> match_of t = Some (c, m, neg) -> single_value_match m ->
    Forall (fun k => wildcards k <= 63) (keys_of E s t) ->
    exists b mv,
      step E s = SCont (w_test b (w_vars (set_vars (c_local (r_vars s)) mv (r_vars s)) (moved_on s))) /\
      (b = true <-> (finds E s t c m <-> neg = false)).
Proof.
  intros E s t c m neg L WD RP AT MO SV FW.
  destruct (exec_finds E L (moved_on s) t c m neg WD RP MO SV) as (b & mv & H & HB).
  { destruct t; exact FW. }
  exists b, mv. rewrite (step_test E s t AT), H. split; [reflexivity|]. rewrite HB, finds_moved. reflexivity.
Qed.
Print Assumptions C92_finds.

(** A test that compares nothing goes on with what it says. *)
Theorem C92_says :
  forall E s t P neg,
    wf_deep (parts s) -> r_part s < length (parts s) ->
    at_test E s t -> says E s t = Some (P, neg) ->
    exists b, step E s = SCont (w_test b (moved_on s)) /\ (b = true <-> (P <-> neg = false)).
Proof.
  intros E s t P neg WD RP AT SY. destruct (exec_says E (moved_on s) t P neg WD RP) as (b & H & HB).
  { destruct t; exact SY. }
  exists b. rewrite (step_test E s t AT), H. split; [reflexivity|exact HB].
Qed.
Print Assumptions C92_says.

(** A test that asks the host reports the question its arguments make: one for every test but
    those of lists, whose values may come in another order.  The answer of the host, turned around
    by 'not', is the result of the test. *)
Theorem C92_asks :
  forall E s t,
    wf_deep (parts s) -> r_part s < length (parts s) -> at_test E s t ->
    (exists e neg, asks E s t e neg) ->
    exists e neg s',
      asks E s t e neg /\ (~ asks_lists t -> forall e' neg', asks E s t e' neg' -> e' = e /\ neg' = neg) /\
      step E s = SYield s' (OEvent e) /\
      feed InTrue s' = w_test (negb neg) (moved_on s) /\ feed InFalse s' = w_test neg (moved_on s).
Proof.
  intros E s t WD RP AT (e & neg & A). assert (WF : well_formed (parts (moved_on s))) by (inversion WD; assumption).
  assert (AN : forall n, feed InTrue (w_test n (moved_on s)) = w_test (negb n) (moved_on s) /\ feed InFalse (w_test n (moved_on s)) = w_test n (moved_on s)).
  { intro n. split; cbn [feed w_test r_test]; destruct n; reflexivity. }
  assert (D : asks_lists t \/ ~ asks_lists t) by (destruct t; cbn; tauto). destruct D as [AL|NL].
  - assert (exists c, match_of t = Some (c, MList, neg)) as (c & MO).
    { inversion A; subst; try contradiction. eauto. }
    destruct (exec_lists E (moved_on s) t c neg WF RP AL MO) as [(l & AL' & H)|[Q _]].
    + exists (EListContains (keys_of E (moved_on s) t) l c), neg, (w_test neg (moved_on s)). rewrite (step_test E s t AT), H.
      split; [apply asks_moved; exact AL'|]. split; [intro NL; contradiction|]. split; [reflexivity|apply AN].
    + exfalso. inversion A as [| | | | |t' c' neg' l A1 A2 A3 A4 A5]; subst; try contradiction.
      destruct l as [|v l]; [contradiction|]. destruct (proj1 (A5 v) (or_introl eq_refl)) as (N & x & V & K). apply N. rewrite <- K. apply Q, value_moved, V.
  - exists e, neg, (w_test neg (moved_on s)). split; [exact A|]. split.
    + intros _ e' neg' A'. apply asks_moved in A, A'. apply (exec_asks E (moved_on s) t) in A; [|assumption|assumption|assumption].
      apply (exec_asks E (moved_on s) t) in A'; [|assumption|assumption|assumption]. rewrite A in A'. injection A' as -> ->. split; reflexivity.
    + apply asks_moved in A. apply (exec_asks E (moved_on s) t) in A; [|assumption|assumption|assumption].
      rewrite (step_test E s t AT), A. split; [reflexivity|apply AN].
Qed.
Print Assumptions C92_asks.

(** With nothing to ask the test is false, or true with 'not'. *)
Theorem C92_nothing_to_ask :
  forall E s t,
    wf_deep (parts s) -> r_part s < length (parts s) -> at_test E s t ->
    (forall c neg, asks_lists t -> match_of t = Some (c, MList, neg) ->
       (forall x, value_of E s t x -> k_text (E_L E) x = []) -> step E s = SCont (w_test neg (moved_on s))) /\
    (forall d handle last seconds neg, t = TeDuplicate d handle last seconds neg ->
       (forall id, id_is E s d id -> id = []) -> step E s = SCont (w_test neg (moved_on s))).
Proof.
  intros E s t WD RP AT. assert (WF : well_formed (parts (moved_on s))) by (inversion WD; assumption). split.
  - intros c neg AL MO Q. destruct (exec_lists E (moved_on s) t c neg WF RP AL MO) as [(l & A & H)|[_ H]]; rewrite (step_test E s t AT), H; [|reflexivity].
    exfalso. inversion A as [| | | | |t' c' neg' l' A1 A2 A3 A4 A5]; subst; try contradiction.
    destruct l as [|v l]; [contradiction|]. destruct (proj1 (A5 v) (or_introl eq_refl)) as (N & x & V & K). apply N. rewrite <- K. apply Q, value_moved, V.
  - intros d handle last seconds neg -> Q. destruct (exec_duplicate E (moved_on s) d handle last seconds neg WF RP) as [(id & N & I & _)|[_ H]].
    + exfalso. apply N, Q, id_moved, I.
    + rewrite (step_test E s _ AT), H. reflexivity.
Qed.
Print Assumptions C92_nothing_to_ask.

(** *** Examples *)
Definition started (l : list instruction) : rst := feed (main l) s0.
Example C92_at : at_test E1 (started [IxTest TeTrue]) TeTrue.
Proof. split; [discriminate|]. split; [reflexivity|]. change (0 < 100). lia. Qed.
Example C92_wf : wf_deep (parts (started [])) /\ r_part (started []) < length (parts (started [])).
Proof.
  split; [|change (0 < 1); lia]. change (parts (started [])) with msg0. constructor; [apply single_wf; reflexivity|].
  intros p ps [<-|[]] X. discriminate.
Qed.
Definition subject_is (k : String.string) (neg : bool) : test :=
  TeHeader [str "Subject"] None false MvNone CCasemap MIs [str k] neg.
Example C92_found : finds E1 (started []) (subject_is "HI" false) CCasemap MIs.
Proof.
  exists (KStr (lit "hi")), (KVar (VStr (lit "HI"))). split; [|split].
  - eapply va_header with (n := lit "Subject") (h := hd "Subject" "hi") (o' := MoNone).
    + exists (str "Subject"). split; [left; reflexivity|reflexivity].
    + exists 0, (Part [hd "Received" "a"; hd "To" "me@my.org"; hd "Subject" "hi"] None (BText (lit "hello"))), 2. split.
      * split; [reflexivity|left; reflexivity].
      * split; [reflexivity|]. split; [reflexivity|exact Logic.I].
    + exact Logic.I.
    + apply shows_values. vm_compute. auto.
  - apply (ke_any E1 (started []) _ [str "HI"] (str "HI")); [reflexivity|left; reflexivity].
  - vm_compute. reflexivity.
Qed.
Example C92_runs :
  (forall neg, exists s', step E1 (started [IxTest (subject_is "HI" neg)]) = SCont s' /\ r_test s' = negb neg) /\
  (forall neg, exists s', step E1 (started [IxTest (subject_is "ho" neg)]) = SCont s' /\ r_test s' = neg) /\
  (forall neg, exists s', step E1 (started [IxTest (TeSize true 99 neg)]) = SCont s' /\ r_test s' = negb neg) /\
  (forall neg, exists s', step E1 (started [IxTest (TeExists [str "To"; str "Cc"] false neg)]) = SCont s' /\ r_test s' = neg) /\
  (exists s', step E1 (started [IxTest (TeDuplicate DupDefault (Some (str "h")) true None false)]) =
     SYield s' (OEvent (EDuplicateId (lit "hid1") 50 true))) /\
  (exists s', step E1 (started [IxTest (TeMailboxIdExists [str "x"] true)]) = SYield s' (OEvent (EMailboxExists [MbId (lit "x")] [])) /\
     r_test (feed InTrue s') = false).
Proof. repeat split; try (intros []); eexists; (split || idtac); vm_compute; reflexivity. Qed.
