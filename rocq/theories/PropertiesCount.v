(** Property C92, continued: what ':count' compares. *)
From Coq Require Import Lia.
From Verif Require Import Base Lib Var Value SetVar Flags Comparator Message MessageSpec EditHeader AddrTest Spam Notify Event Sieve Run MatchSpec TestSpec
  CountSpec CountProofs PropertiesMessage PropertiesRun PropertiesTest.
Import ListNotations.
Local Open Scope string_scope.
Local Open Scope list_scope.

(** A test with ':count' goes on with 'the number of things it counts stands in the relation to some key',
    turned around by 'not'; nothing else changes. *)
Theorem C92_counts :
  forall E s t c r neg,
    wf_deep (parts s) -> r_part s < length (parts s) -> at_test E s t -> match_of t = Some (c, MCount r, neg) ->
    exists b, step E s = SCont (w_test b (moved_on s)) /\ (b = true <-> (count_holds E s t r <-> neg = false)).
Proof. exact count_step. Qed.
Print Assumptions C92_counts.

(** Every test but the three named in [counts] has a count, and it has one only. *)
Theorem C92_one_count :
  forall E s t n n', counts E s t n -> counts E s t n' -> n = n'.
Proof.
  intros E s t n n' H H'.
  inversion H as [? ? S M| | | | |]; subst; inversion H' as [? ? S' M'| | | | |]; subst; try reflexivity; try contradiction.
  rewrite (hm_unique _ _ _ M M'). reflexivity.
Qed.
Print Assumptions C92_one_count.

(** A field whose name is given twice is counted twice. *)
Definition subjects (names : list value) (n : string) : test :=
  TeHeader names None false MvNone CNumeric (MCount REq) [str n] false.
Definition result_of (r : sres) : option bool := match r with SCont s => Some (r_test s) | _ => None end.
Definition outcome (t : test) : option bool := result_of (step E1 (started [IxTest t])).
Example C92_counts_once : outcome (subjects [str "Subject"] "1") = Some true /\ outcome (subjects [str "Subject"; str "To"; str "Cc"] "2") = Some true.
Proof. vm_compute. split; reflexivity. Qed.
Lemma started_wf l : wf_deep (parts (started l)) /\ r_part (started l) < length (parts (started l)).
Proof.
  assert (P : parts (started l) = msg0) by reflexivity. assert (R : r_part (started l) = 0) by reflexivity. rewrite P, R.
  split; [|change (0 < 1); lia]. constructor; [apply single_wf; reflexivity|]. intros p ps [<-|[]] X. discriminate.
Qed.
Definition twice : test := subjects [str "Subject"; str "SUBJECT"] "2".
Lemma twice_holds : result_of (step E1 (started [IxTest twice])) = Some true. Proof. vm_compute; reflexivity. Qed.
Lemma twice_name s n x : In x [str "Subject"; str "SUBJECT"] -> hn_parse (E_M E1) (tx E1 (started s) x) = Some n -> lower_text n = lit "subject".
Proof.
  intros [<-|[<-|[]]] H.
  - assert (Q : hn_parse (E_M E1) (tx E1 (started s) (str "Subject")) = Some (lit "Subject")) by (vm_compute; reflexivity).
    rewrite Q in H. injection H as <-. vm_compute; reflexivity.
  - assert (Q : hn_parse (E_M E1) (tx E1 (started s) (str "SUBJECT")) = Some (lit "SUBJECT")) by (vm_compute; reflexivity).
    rewrite Q in H. injection H as <-. vm_compute; reflexivity.
Qed.
Lemma one_subject pos h : nth_error (p_headers (nth 0 msg0 (Part [] None (BText [])))) pos = Some h ->
  lower_text (h_name h) = lit "subject" -> pos = 2.
Proof.
  intros N H. destruct pos as [|[|[|[|]]]]; try reflexivity; try discriminate;
    injection N as <-; exfalso; revert H; vm_compute; discriminate.
Qed.
Lemma subject_found : exists h, nth_error (p_headers (nth 0 msg0 (Part [] None (BText [])))) 2 = Some h /\ hn_eqb (h_name h) (lit "Subject") = true.
Proof. exists (hd "Subject" "hi"). vm_compute. split; reflexivity. Qed.
Lemma one_field s p :
  parts s = [p] -> r_part s = 0 ->
  (exists h, nth_error (p_headers p) 2 = Some h /\ hn_eqb (h_name h) (lit "Subject") = true) ->
  (forall pos h, nth_error (p_headers p) pos = Some h -> lower_text (h_name h) = lit "subject" -> pos = 2) ->
  hn_parse (E_M E1) (tx E1 s (str "Subject")) = Some (lit "Subject") ->
  (forall n x, In x [str "Subject"; str "SUBJECT"] -> hn_parse (E_M E1) (tx E1 s x) = Some n -> lower_text n = lit "subject") ->
  how_many (fun ip : nat * nat => exists j h, field_item E1 s [str "Subject"; str "SUBJECT"] None false (fst ip) j (snd ip) h) 1.
Proof.
  intros P R (h0 & F1 & F2) OS HN TN.
  exists [(0, 2)]. split; [repeat constructor; intros []|]. split; [|reflexivity]. intros [i pos]. cbn [fst snd]. unfold field_item. rewrite P, R. split.
  - intros [E|[]]. injection E as <- <-. exists 0, h0, p, (str "Subject"), (lit "Subject").
    split; [split; [reflexivity|left; reflexivity]|]. split; [reflexivity|]. split; [exact HN|].
    split; [exact F1|]. split; [exact F2|exact Logic.I].
  - intros (j & h & p' & x & n & (NP & LK) & NJ & HP & NH & NM & _). left.
    assert (i = 0) as -> by (destruct LK as [->|[LK _]]; [reflexivity|discriminate]).
    injection NP as <-. f_equal. symmetry. apply (OS pos h NH).
    unfold hn_eqb in NM. apply teqb_ic_spec in NM. rewrite NM. exact (TN _ _ (nth_error_In _ _ NJ) HP).
Qed.
Lemma twice_once : how_many (fun ip : nat * nat => exists j h, field_item E1 (started [IxTest twice]) [str "Subject"; str "SUBJECT"] None false (fst ip) j (snd ip) h) 1.
Proof.
  apply (one_field _ (nth 0 msg0 (Part [] None (BText [])))); [reflexivity|reflexivity|exact subject_found|exact one_subject|vm_compute; reflexivity|exact (twice_name _)].
Qed.
Lemma one_not_two s : rel_number REq (NInt (Z.of_nat 1)) (v_number (E_L E1) (Run.ev E1 (started s) (str "2"))) = false.
Proof. vm_compute; reflexivity. Qed.
Lemma twice_refutes s s' :
  wf_deep (parts s) -> r_part s < length (parts s) -> at_test E1 s twice -> step E1 s = SCont s' -> r_test s' = true ->
  rel_number REq (NInt (Z.of_nat 1)) (v_number (E_L E1) (Run.ev E1 s (str "2"))) = false ->
  (forall n, counts E1 s twice (NInt (Z.of_nat n)) -> n = 1) -> False.
Proof.
  intros WF PT AT ST TR F H.
  destruct (C92_counts E1 s twice CNumeric REq false WF PT AT eq_refl) as (b & ST' & B).
  rewrite ST in ST'. injection ST' as ->. change (b = true) in TR. apply B in TR.
  destruct (proj2 TR eq_refl) as (q & k & C & IK & R). destruct IK as [<-|[]].
  assert (Q : exists m, q = NInt (Z.of_nat m)) by (inversion C; subst; eauto). destruct Q as (m & ->).
  rewrite (H m C), F in R. discriminate.
Qed.
Lemma twice_at : at_test E1 (started [IxTest twice]) twice.
Proof. split; [discriminate|split; [reflexivity|change (0 < 100); lia]]. Qed.
Lemma result_true r : result_of r = Some true -> exists s', r = SCont s' /\ r_test s' = true.
Proof. destruct r as [s'| | | |]; try discriminate. intro H. injection H as H. exists s'. split; [reflexivity|exact H]. Qed.
Lemma twice_step : exists s', step E1 (started [IxTest twice]) = SCont s' /\ r_test s' = true.
Proof. exact (result_true _ twice_holds). Qed.
Theorem C92_count_distinct_refuted :
  ~ (forall E s names keys n, wf_deep (parts s) -> counts E s (TeHeader names None false MvNone CNumeric (MCount REq) keys false) (NInt (Z.of_nat n)) ->
      how_many (fun ip => exists j h, field_item E s names None false (fst ip) j (snd ip) h) n).
Proof.
  intro H. destruct twice_step as (s' & ST & TR).
  refine (twice_refutes _ s' (proj1 (started_wf _)) (proj2 (started_wf _)) twice_at ST TR (one_not_two _) _).
  intros n C. exact (hm_unique _ _ _ (H E1 _ _ _ n (proj1 (started_wf _)) C) twice_once).
Qed.
Print Assumptions C92_count_distinct_refuted.
