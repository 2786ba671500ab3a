(** The events of a run and the extensions they take. *)
From Coq Require Import Lia.
From Verif Require Import Base Lib Address Var Value SetVar Flags Comparator Message EditHeader
  Expr ExprTok Event Notify AddrTest Vacation Mime Sieve Utf8 Lexer Scope StringTok Compile ParseArgs ParseBase
  Parse ParseSpec Run RunSpec RunProofs RunProofs2 RunProofs3 RunProofs4 RunProofs5 RunProofs6 RunProofs7 GuardSpec.
Import ListNotations.
Local Open Scope string_scope.
Local Open Scope list_scope.

Definition meets (E : renv) (e : event) : Prop := Forall (fun l => exists c, In c l /\ allows E c) (event_needs e).
Definition fine_for (E : renv) (i : instruction) : Prop := forall c, In c (extensions_with "mailbox" i) -> allows E c.

Lemma announce_meets E s : Forall (meets E) (announce E s).
Proof. unfold announce. destruct (ms_changed _); repeat constructor. Qed.
Lemma given_otx E s x : given (otx E s x) = given x.
Proof. now destruct x. Qed.
Lemma fcc_meets E s f id : (forall c, In c (fcc_ext (Some f)) -> allows E c) ->
  Forall (meets E) (let '(f, fl, mid, su, cr) := fcc_of E s f in [EFileInto f fl mid su cr id]).
Proof.
  destruct f as [[[[f fl] mid] su] cr]. cbn [fcc_of fcc_ext]. intro H. constructor; [|constructor]. unfold meets. cbn [event_needs]. rewrite !given_otx.
  apply Forall_app. split; [|apply Forall_app; split; [|apply Forall_app; split]].
  - constructor; [|constructor]. exists "fcc". split; [cbn; auto|]. apply H. cbn. auto.
  - destruct mid; constructor; [|constructor]. exists "mailboxid". split; [cbn; auto|]. apply H. rewrite !in_app_iff. cbn. auto.
  - destruct su; constructor; [|constructor]. exists "special-use". split; [cbn; auto|]. apply H. rewrite !in_app_iff. cbn. auto 10.
  - destruct cr; constructor; [|constructor]. exists "mailbox". split; [cbn; auto|]. apply H. rewrite !in_app_iff. cbn. auto 10.
Qed.
Lemma actions_meet E i s : fine_for E i -> Forall (meets E) (actions_of E (i, s)).
Proof.
  intro H. unfold fine_for in H. destruct i; cbn [actions_of]; try apply Forall_nil.
  - apply announce_meets.
  - apply Forall_app. split; [apply announce_meets|]. constructor; [|constructor]. unfold meets. cbn [event_needs]. rewrite !given_otx.
    cbn [extensions_with] in H.
    apply Forall_app. split; [|apply Forall_app; split; [|apply Forall_app; split]].
    + constructor; [|constructor]. exists "fileinto". split; [cbn; auto|]. apply H. cbn. auto.
    + destruct mailbox_id; constructor; [|constructor]. exists "mailbox". split; [cbn; auto|]. apply H. rewrite !in_app_iff. cbn. auto 10.
    + destruct special_use; constructor; [|constructor]. exists "special-use". split; [cbn; auto|]. apply H. rewrite !in_app_iff. cbn. auto 10.
    + destruct create; constructor; [|constructor]. exists "mailbox". split; [cbn; auto|]. apply H. rewrite !in_app_iff. cbn. auto 10.
  - destruct opts as [[nt rt] bt]. cbn [extensions_with] in H. destruct (redirect_target _ _ _ _); [|constructor].
    apply Forall_app. split; [apply announce_meets|]. constructor; [|constructor].
    destruct list_; constructor; [|constructor]. exists "extlists". split; [cbn; auto|]. apply H. rewrite !in_app_iff. cbn. auto.
  - constructor; [|constructor]. match goal with |- context [EReject ?b] => destruct b end; (constructor; [|constructor]); eexists; (split; [left; reflexivity|]); apply H; now left.
  - destruct (notify_result E s method from importance options message fcc) as [[[evs n1] n2]|] eqn:N; [|constructor].
    unfold notify_result, exec_notify in N. destruct (existsb _ _); [discriminate|]. destruct (parse_uri _) as [[scheme rest]|]; [|discriminate].
    cbv zeta in N. cbn [n_fcc] in N. cbn [extensions_with] in H.
    assert (F : forall id, Forall (meets E) (match option_map (fcc_of E s) fcc with Some (f, fl, mid, su, cr) => [EFileInto f fl mid su cr id] | None => [] end)).
    { intro id. destruct fcc as [f|]; [|constructor]. cbn [option_map]. apply (fcc_meets E s f id). intros c Ic. apply H. right. exact Ic. }
    assert (Nt : forall a b c d e, meets E (ENotify a b c d e)).
    { intros. constructor; [|constructor]. exists "enotify". split; [now left|]. apply H. now left. }
    destruct (teqb_ic scheme _ && _).
    + destruct (parse_mailto _ _ _); [|discriminate]. injection N as <- <- <-.
      constructor; [constructor|]. constructor; [constructor|]. apply F.
    + destruct fcc as [f|].
      * injection N as <- <- <-. constructor; [constructor|]. cbn [app]. constructor; [apply Nt|apply F].
      * injection N as <- <- <-. constructor; [apply Nt|constructor].
  - cbn [extensions_with] in H. unfold vacation_result, exec_vacation. cbn [fst vacation_args va_fcc].
    constructor; [constructor|]. constructor; [constructor|].
    destruct fcc as [f|]; [|constructor]. cbn [option_map]. apply (fcc_meets E s f). intros c Ic. apply H. right. exact Ic.
Qed.
Lemma pending_disposition E log d : (match d with Some (EKeep _ _) | Some EDiscard | None => True | _ => False end) ->
  match fold_left (pending_after E) log d with Some (EKeep _ _) | Some EDiscard | None => True | _ => False end.
Proof.
  revert d. induction log as [|[i s] log IH]; intros d H; [exact H|]. cbn [fold_left]. apply IH.
  destruct i; cbn [pending_after]; try exact H; try exact Logic.I.
  - destruct copy; [exact H|]. destruct d as [[]|]; try exact Logic.I. destruct flags0; exact Logic.I.
  - destruct (redirect_target _ _ _ _); [|exact H]. destruct d as [[]|]; try exact H; try exact Logic.I. destruct copy; exact Logic.I.
Qed.
Lemma deliver_meets E log se : Forall (meets E) (deliver E (pending E log) se).
Proof.
  pose proof (pending_disposition E log implicit_keep Logic.I) as H. unfold pending. destruct (fold_left _ _ _) as [[]|]; try destruct H; cbn [deliver].
  - destruct (ms_changed _); [apply Forall_app; split; [apply announce_meets|]|]; repeat constructor.
  - repeat constructor.
  - constructor.
Qed.
Lemma needs_action e : is_action e = false -> event_needs e = [].
Proof. destruct e; cbn; congruence. Qed.
Lemma events_meet E m size c inputs outs s' :
  polite true inputs outs -> converse_run E inputs (initial m size c) = Some (outs, s') ->
  Forall (fun x => fine_for E (fst x)) (g_log (log_of E inputs (initial m size c))) ->
  forall e, In e (events_of outs) -> meets E e.
Proof.
  intros P H F e Ie. destruct (is_action e) eqn:A; [|unfold meets; rewrite (needs_action e A); constructor].
  assert (Fa : Forall (meets E) (flat_map (actions_of E) (g_log (log_of E inputs (initial m size c))))).
  { induction F as [|[i s] l F1 F2 IH]; cbn [flat_map]; [constructor|]. apply Forall_app. split; [apply actions_meet; exact F1|exact IH]. }
  assert (Ia : In e (actions (events_of outs ++ r_queue s'))) by (apply filter_In; split; [apply in_app_iff; now left|exact A]).
  destruct (accounting E m size c inputs outs s' P H) as [[_ Q]|(se & _ & Q)]; rewrite Q in Ia.
  - exact (proj1 (Forall_forall _ _) Fa e Ia).
  - apply in_app_iff in Ia as [Ia|Ia]; [exact (proj1 (Forall_forall _ _) Fa e Ia)|].
    exact (proj1 (Forall_forall _ _) (deliver_meets E _ se) e Ia).
Qed.
