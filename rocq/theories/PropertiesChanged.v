(** C105: what [has_message_changed] tells the host. *)
From Coq Require Import Lia.
From Verif Require Import Base Lib Address Var Value Flags Comparator Message EditHeader Event Sieve Run RunSpec Changed ChangedProofs PropertiesRun.
Import ListNotations.

Lemma evs_same outs : evs_of outs = events_of outs.
Proof. induction outs as [|[[e|e]|] outs IH]; cbn; rewrite <- ?IH; reflexivity. Qed.
Lemma start E m size c : fin E {| ms_parts := m; ms_changed := false; ms_size := size |} False [] [] (initial m size c).
Proof.
  split; [|intros f id []]. split; [reflexivity|]. split; [intros _ f id H; now injection H|]. split; [intros _ f id []|].
  split; [intro X; now destruct X|contradiction].
Qed.
Section Whole.
  Variables (E : renv) (m : list part) (size : nat) (c : vctx) (inputs : list input) (outs : list (option out)) (s' : rst).
  Hypothesis conversation : converse_run E inputs (initial m size c) = Some (outs, s').
  Lemma whole : kp E {| ms_parts := m; ms_changed := false; ms_size := size |} False (events_of outs ++ r_queue s') s'.
  Proof. destruct (converse_good _ _ _ _ _ _ _ _ (start E m size c) conversation) as [[K _] _]. now rewrite evs_same in K. Qed.
End Whole.

(** The host is told that the message has not changed: every keep it is asked for is
    a keep of the message it gave. *)
Theorem C105_original :
  forall E m size c inputs outs s', converse_run E inputs (initial m size c) = Some (outs, s') ->
    has_message_changed s' = false -> forall flags id, In (EKeep flags id) (events_of outs) -> id = 0.
Proof.
  intros E m size c inputs outs s' H N flags id X. apply Nat.ltb_ge in N. destruct (whole _ _ _ _ _ _ _ H) as (_ & _ & K & _).
  apply (K ltac:(lia) flags id). apply in_or_app. now left.
Qed.
Print Assumptions C105_original.
(** If moreover the last thing the host was asked for is that keep, the message it can
    take out of the context is the one it gave. *)
Theorem C105_unchanged :
  forall E m size c inputs outs s' flags id,
    converse_run E inputs (initial m size c) = Some (outs ++ [Some (OEvent (EKeep flags id))], s') ->
    has_message_changed s' = false -> message s' = m.
Proof.
  intros E m size c inputs outs s' flags id H N. apply Nat.ltb_ge in N.
  destruct (converse_good _ _ _ _ _ _ _ _ (start E m size c) H) as [[(K & _) _] L].
  specialize (L outs _ eq_refl flags id (or_introl eq_refl)). unfold message. rewrite (K ltac:(lia) L). reflexivity.
Qed.
Print Assumptions C105_unchanged.
(** The host is told that the message has changed: it was handed, or is about to be handed, the
    bytes of a message that an action had changed. *)
Theorem C105_announced :
  forall E m size c inputs outs s', converse_run E inputs (initial m size c) = Some (outs, s') ->
    has_message_changed s' = true ->
    exists id edited, 0 < id /\ ms_changed edited = true /\ In (ECreated id (E_bytes E edited)) (events_of outs ++ r_queue s').
Proof.
  intros E m size c inputs outs s' H Y. apply Nat.ltb_lt in Y. destruct (whole _ _ _ _ _ _ _ H) as (_ & _ & _ & K & _).
  destruct (K ltac:(lia)) as [[]|(mm & C & X)]. eauto 6.
Qed.
Print Assumptions C105_announced.
(** Once told so, it is told so for the rest of the conversation. *)
Theorem C105_stays :
  forall E m size c inputs outs s inputs' outs' s',
    converse_run E inputs (initial m size c) = Some (outs, s) -> has_message_changed s = true ->
    converse_run E inputs' s = Some (outs', s') -> has_message_changed s' = true.
Proof.
  intros E m size c inputs outs s inputs' outs' s' H Y H'. apply Nat.ltb_lt in Y.
  destruct (converse_good _ _ _ _ _ _ _ _ (start E m size c) H) as [[_ S] _].
  assert (F : fin E (r_msg s) True [] [] s).
  { split; [|exact S]. split; [intros Z; lia|]. split; [intros Z; lia|]. split; [intros Z; lia|]. split; [now left|intros _; lia]. }
  destruct (converse_good _ _ _ _ _ _ _ _ F H') as [[(_ & _ & _ & _ & K) _] _]. apply Nat.ltb_lt. specialize (K Logic.I). lia.
Qed.
Print Assumptions C105_stays.

(** A conversation of the sample message with a script: what the host got, whether it is told
    that the message has changed, and the names of the headers it can take out. *)
Definition ask (l : list instruction) (answers : list input) : option (list (option out) * bool * list text) :=
  option_map (fun r => (fst r, has_message_changed (snd r), flat_map (fun p => map h_name (p_headers p)) (message (snd r))))
    (converse_run E1 (main l :: answers) s0).
Example C105_case_kept :
  ask [IxAddHeader (str "X-A") (str "1") true] [InTrue; InTrue] =
  Some ([ev (ECreated 1 (lit "M")); ev (EKeep [] 1); None], true, map lit ["Received"; "To"; "Subject"; "X-A"]%string).
Proof. vm_compute. reflexivity. Qed.
Example C105_case_refused :
  ask [IxAddHeader (str "?!") (str "1") true; IxDeleteHeader (str "X-B") None false COctet MIs []] [InTrue] =
  Some ([ev (EKeep [] 0); None], false, map lit ["Received"; "To"; "Subject"]%string).
Proof. vm_compute. reflexivity. Qed.
Example C105_case_filed :
  ask [IxAddHeader (str "X-A") (str "1") true; fileinto "A" false] [InTrue; InTrue] =
  Some ([ev (ECreated 1 (lit "M")); ev (EFileInto (lit "A") [] None None false 1); None], true, map lit ["Received"; "To"; "Subject"; "X-A"]%string).
Proof. vm_compute. reflexivity. Qed.

(** Not every change is told: a script that edits the message and then discards it, or that has filed
    it before, leaves a changed message in the context, and the host is told that nothing changed. *)
Theorem C105_told_refuted :
  ~ (forall E m size c inputs outs s', converse_run E inputs (initial m size c) = Some (outs, s') ->
       (has_message_changed s' = true <-> message s' <> m)).
Proof.
  intro H. specialize (H E1 msg0 100 vars0 (main [IxAddHeader (str "X-A") (str "1") true; IxDiscard] :: [InTrue])).
  destruct (converse_run E1 (main [IxAddHeader (str "X-A") (str "1") true; IxDiscard] :: [InTrue]) (initial msg0 100 vars0)) as [[outs s']|] eqn:R;
    [|vm_compute in R; discriminate R].
  specialize (H outs s' eq_refl). vm_compute in R. injection R as <- <-. destruct H as [_ H]. vm_compute in H. discriminate H. intro X. discriminate X.
Qed.
Print Assumptions C105_told_refuted.
(** Nor is the host told only of messages that differ: an edit that was undone counts. *)
Theorem C105_undone_refuted :
  exists inputs outs s', converse_run E1 inputs (initial msg0 100 vars0) = Some (outs, s') /\ has_message_changed s' = true /\ message s' = msg0.
Proof.
  exists [main [IxAddHeader (str "X-A") (str "1") true; IxDeleteHeader (str "X-A") None false COctet MIs []]; InTrue; InTrue].
  destruct (converse_run E1 _ _) as [[outs s']|] eqn:R; [|vm_compute in R; discriminate R].
  exists outs, s'. split; [reflexivity|]. vm_compute in R. injection R as <- <-. vm_compute. split; reflexivity.
Qed.
Print Assumptions C105_undone_refuted.
