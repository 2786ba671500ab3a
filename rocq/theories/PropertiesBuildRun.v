(** Properties C76 to C78 in a run: what the tests, variables and size limits of a
    script see after [replace], [enclose] and [convert] (the message of [Mime.replace],
    [Mime.enclose], [Mime.convert], with which [Run.v] runs scripts) is the message whose bytes are
    built (C73 to C78). *)
From Verif Require Import Base Lib Var Value Comparator PropertiesCompare Message PropertiesMessage
  EditHeader Mime Build BuildSpec BuildProofs2 BuildView PropertiesBuild.

(** C76: [replace].  One edit fails iff the other does. *)
Theorem C76_seen_in_run : forall E s f b mime id st, accounted E st ->
  (forall st', freplace E s f b mime id st = Some st' -> replace E s f b mime id (fview st) = Some (fview st')) /\
  (freplace E s f b mime id st = None <-> replace E s f b mime id (fview st) = None).
Proof.
  intros E s f b mime id st A. rewrite <- (replace_view E s f b mime id st A).
  destruct (freplace E s f b mime id st); cbn; (split; [|split]); intros; congruence.
Qed.
Print Assumptions C76_seen_in_run.
(** C77: [enclose], of any message. *)
Theorem C77_seen_in_run : forall L M E hs s b st,
  (forall st', fenclose L M E hs s b st = Some st' -> enclose L M E hs s b (fview st) = Some (fview st')) /\
  (fenclose L M E hs s b st = None <-> enclose L M E hs s b (fview st) = None).
Proof.
  intros L M E hs s b st. rewrite <- enclose_view.
  destruct (fenclose L M E hs s b st); cbn; (split; [|split]); intros; congruence.
Qed.
Print Assumptions C77_seen_in_run.
(** C78: [convert], and whether something was converted. *)
Theorem C78_seen_in_run : forall E from to st, accounted E st ->
  (forall d st', fconvert E from to st = Some (d, st') -> convert E from to (fview st) = Some (d, fview st')) /\
  (fconvert E from to st = None <-> convert E from to (fview st) = None).
Proof.
  intros E from to st A. rewrite <- (convert_view E from to st A).
  destruct (fconvert E from to st) as [[d st']|]; cbn; (split; [|split]); intros; congruence.
Qed.
Print Assumptions C78_seen_in_run.

(** The sample message is accounted for by its offsets. *)
Definition env_sample : mimeenv :=
  {| me_psize := fun p => match p_body p with BText _ => 39 | BHtml _ => 37 | _ => 175 end;
     me_max_header := 100; me_protected := []; me_from := lit "me@x"; me_date := lit "today";
     me_msgid := lit "<1@x>"; me_boundary := lit "bb"; me_subject := fun _ => Some (lit "hi");
     me_h2t := fun t => lit "T"; me_t2h := fun t => lit "H" |}.
Lemma sample_accounted : accounted env_sample sample_state.
Proof.
  intros p I. cbn in I. decompose [or] I; subst; try contradiction; (split; [vm_compute; reflexivity|]);
    intros h J; cbn in J; decompose [or] J; subst; try contradiction; (split; [vm_compute; reflexivity|discriminate]).
Qed.
Example C76_seen_example :
  match replace env_sample (Some (lit "s")) None (lit "new") false 0 (fview sample_state) with
  | Some st => ms_size st = 142 /\ map (fun p => map h_name (p_headers p)) (ms_parts st) =
      [[lit "Original-Subject"; lit "From"; lit "To"; lit "From"; lit "Subject"; lit "Date"; lit "Message-ID"; lit "Content-Type"]]
  | None => False
  end.
Proof. vm_compute. split; reflexivity. Qed.
Example C78_seen_example :
  match convert env_sample (lit "text/html") (lit "text/plain") (fview sample_state) with
  | Some (d, st) => d = true /\ map p_body (ms_parts st) = [BMulti [1; 2]; BText (lit "one"); BText (lit "T")]
  | None => False
  end.
Proof. vm_compute. split; reflexivity. Qed.
