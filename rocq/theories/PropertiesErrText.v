(** Properties of the texts of the errors of a run: C104. *)
From Verif Require Import Base Lib Var Utf8 ErrText DateProofs ValueProofs.
From Coq Require Import Lia.
Import ListNotations.
Local Open Scope string_scope.
Local Open Scope list_scope.

(** *** Specification *)

(** What the text of an error should say. *)
Definition names_extension (s text : text) : Prop :=
  exists why, text = lit "Capability '" ++ s ++ lit "'" ++ lit why /\ In why [" has been disabled."; " not supported."].
Definition names_place (debug : text -> text) (name : text) (line pos : nat) (t : text) : Prop :=
  t = lit "Script executed invalid instruction " ++ debug name ++ lit " at line " ++ show_Z (Z.of_nat line) ++
      lit ", column " ++ show_Z (Z.of_nat pos) ++ lit ".".
Inductive kind := KIncludes | KInvalid | KMessage | KDisabled | KUnsupported | KLimit.
Definition kind_of (e : runerr) : kind :=
  match e with
  | TooManyIncludes => KIncludes | InvalidInstruction _ _ _ => KInvalid | ScriptErrorMessage _ => KMessage
  | CapabilityNotAllowed _ => KDisabled | CapabilityNotSupported _ => KUnsupported | CPULimitReached => KLimit
  end.
Definition known (s : text) : Prop := In s (map (fun e => lit (fst e)) cap_table).
(** A name of a comparator that is not known. *)
Definition strange_comparator (s : text) : Prop := ~ known s /\ exists c, s = lit "comparator-" ++ c.

(** *** Lemmas *)

Lemma table_shown : Forall (fun e => show_capability (snd e) = lit (fst e)) cap_table.
Proof. repeat constructor. Qed.
Lemma lookup_shown s c : lookup_capabilities s = Some c -> show_capability c = s /\ known s.
Proof.
  unfold lookup_capabilities. destruct (find _ cap_table) as [e|] eqn:E; [|discriminate]. cbn [option_map].
  intros H. injection H as <-. destruct (find_some _ _ E) as [A B]. apply teqb_spec in B. subst s. split.
  - exact (proj1 (Forall_forall _ _) table_shown e A).
  - unfold known. apply (in_map (fun e => lit (fst e)) cap_table e A).
Qed.
Lemma lookup_none s : lookup_capabilities s = None -> ~ known s.
Proof.
  unfold lookup_capabilities, known. destruct (find _ cap_table) eqn:E; [discriminate|]. intros _ H.
  apply in_map_iff in H. destruct H as (e & <- & H). pose proof (find_none _ _ E e H) as F. cbn beta in F.
  rewrite teqb_refl in F. discriminate.
Qed.
Lemma strip_some : forall p s t, strip_prefix p s = Some t -> s = p ++ t.
Proof.
  induction p as [|a p IH]; intros s t H; cbn in H; [injection H as ->; reflexivity|].
  destruct s as [|b s]; [discriminate|]. destruct (N.eqb_spec a b) as [->|]; [|discriminate].
  cbn [app]. f_equal. apply IH, H.
Qed.
Lemma strip_app : forall p t, strip_prefix p (p ++ t) = Some t.
Proof. induction p as [|a p IH]; intros t; [reflexivity|]. cbn. rewrite N.eqb_refl. apply IH. Qed.

(** *** C104 *)

(** An extension is shown by the name it was required by, unless it is a comparator that is
    not known. *)
Theorem C104_names_partial : forall s, ~ strange_comparator s -> show_capability (parse_capability s) = s.
Proof.
  intros s H. unfold parse_capability. destruct (lookup_capabilities s) eqn:E; [exact (proj1 (lookup_shown _ _ E))|].
  destruct (strip_prefix (lit "comparator-") s) eqn:P; [|reflexivity].
  exfalso. apply H. split; [apply lookup_none, E|]. eexists. apply strip_some, P.
Qed.
Print Assumptions C104_names_partial.
(** Such a comparator is shown by another name, whatever it is. *)
Theorem C104_names_refuted : forall s, strange_comparator s -> show_capability (parse_capability s) <> s.
Proof.
  intros s (A & c & ->). unfold parse_capability. destruct (lookup_capabilities _) eqn:E; [destruct A; exact (proj2 (lookup_shown _ _ E))|].
  rewrite strip_app. cbn [show_capability]. intros H. apply (f_equal (@length N)) in H.
  assert (X : forall n, n <> 11 + n) by lia. exact (X (length c) H).
Qed.
Print Assumptions C104_names_refuted.
Example C104_names_case : strange_comparator (lit "comparator-x") /\ ~ strange_comparator (lit "comparator-i;octet") /\
  ~ strange_comparator (lit "vnd.acme") /\ show_capability (parse_capability (lit "comparator-fileinto")) = lit "fileinto".
Proof.
  split; [|split; [|split]].
  - split; [|exists (lit "x"); reflexivity]. apply lookup_none. vm_compute. reflexivity.
  - intros (A & _). apply A. apply (lookup_shown _ (OfComparator Octet)). vm_compute. reflexivity.
  - intros (_ & c & H). discriminate.
  - vm_compute. reflexivity.
Qed.

(** Two names stand for the same extension only if they are the same. *)
Theorem C104_one_name : forall s s', parse_capability s = parse_capability s' -> s = s'.
Proof.
  intros s s' H. unfold parse_capability in H.
  destruct (lookup_capabilities s) as [c|] eqn:E; destruct (lookup_capabilities s') as [c'|] eqn:E'.
  - subst c'. rewrite <- (proj1 (lookup_shown _ _ E)). exact (proj1 (lookup_shown _ _ E')).
  - exfalso. destruct (lookup_shown _ _ E) as [A K]. apply (lookup_none _ E').
    assert (NO : Forall (fun e => match snd e with OtherCapability _ | OfComparator (OtherComparator _) => False | _ => True end) cap_table)
      by (repeat constructor).
    unfold lookup_capabilities in E. destruct (find _ cap_table) as [e|] eqn:F; [|discriminate]. injection E as E.
    pose proof (proj1 (Forall_forall _ _) NO e (proj1 (find_some _ _ F))) as X. cbn beta in X. rewrite E, H in X.
    destruct (strip_prefix _ s'); contradiction.
  - exfalso. destruct (lookup_shown _ _ E') as [A K]. apply (lookup_none _ E).
    assert (NO : Forall (fun e => match snd e with OtherCapability _ | OfComparator (OtherComparator _) => False | _ => True end) cap_table)
      by (repeat constructor).
    unfold lookup_capabilities in E'. destruct (find _ cap_table) as [e|] eqn:F; [|discriminate]. injection E' as E'.
    pose proof (proj1 (Forall_forall _ _) NO e (proj1 (find_some _ _ F))) as X. cbn beta in X. rewrite E', <- H in X.
    destruct (strip_prefix _ s); contradiction.
  - destruct (strip_prefix (lit "comparator-") s) eqn:P; destruct (strip_prefix (lit "comparator-") s') eqn:P'; try discriminate.
    + injection H as ->. rewrite (strip_some _ _ _ P), (strip_some _ _ _ P'). reflexivity.
    + injection H as ->. reflexivity.
Qed.
Print Assumptions C104_one_name.

(** The error for an extension that is not allowed says by which name it was required. *)
Theorem C104_required_partial : forall debug s, ~ strange_comparator s ->
  names_extension s (show_error debug (require_error (parse_capability s))).
Proof.
  intros debug s H. pose proof (C104_names_partial s H) as N. destruct (parse_capability s) eqn:E; cbn [require_error show_error];
    rewrite ?N; try (eexists; split; [reflexivity|cbn; auto; fail]).
  cbn [show_capability] in N. subst s0. eexists. split; [reflexivity|]. cbn. auto.
Qed.
Print Assumptions C104_required_partial.

(** The text tells what kind of error it is. *)
Lemma same_end : forall (a b x y : list N), a ++ x = b ++ y -> length x = length y -> x = y.
Proof.
  intros a b x y H E. assert (length a = length b).
  { apply (f_equal (@length N)) in H. rewrite !app_length in H. lia. }
  revert b H H0. induction a as [|c a IH]; intros [|d b] H F; cbn in *; try discriminate; [exact H|].
  injection H as _ H. apply (IH b); auto.
Qed.
Theorem C104_kinds : forall debug e e', show_error debug e = show_error debug e' -> kind_of e = kind_of e'.
Proof.
  intros debug e e' H. destruct e; destruct e'; try reflexivity; try (cbn [show_error] in H; discriminate); exfalso; cbn [show_error] in H.
  - change (lit "' has been disabled.") with (lit "' has been dis" ++ lit "abled.") in H.
    change (lit "' not supported.") with (lit "' not supp" ++ lit "orted.") in H.
    rewrite !app_assoc in H. apply same_end in H; [discriminate|reflexivity].
  - change (lit "' has been disabled.") with (lit "' has been dis" ++ lit "abled.") in H.
    change (lit "' not supported.") with (lit "' not supp" ++ lit "orted.") in H.
    rewrite !app_assoc in H. apply same_end in H; [discriminate|reflexivity].
Qed.
Print Assumptions C104_kinds.

(** The text of an instruction that is not known does not name its place: it gives the
    position as the line and the line as the column. *)
Lemma show_before_comma a b x y : show_N a ++ 44%N :: x = show_N b ++ 44%N :: y -> a = b.
Proof.
  intros H. assert (E : show_N a = show_N b).
  { assert (A : Forall (fun c => c <> 44%N) (show_N a) /\ Forall (fun c => c <> 44%N) (show_N b)).
    { split; [destruct (show_digits a) as (ds & D & E & _)|destruct (show_digits b) as (ds & D & E & _)]; rewrite E;
        apply Forall_forall; intros c C; apply in_map_iff in C; destruct C as (d & <- & C); lia. }
    destruct A as [A B]. revert H A B. generalize (show_N a) (show_N b). clear.
    intros l. induction l as [|c l IH]; intros [|d m] H A B; cbn in H; [reflexivity| | |].
    - injection H as <- _. inversion B; congruence.
    - injection H as -> _. inversion A; congruence.
    - injection H as -> H. inversion A. inversion B. f_equal. apply IH; auto. }
  pose proof (parse_show_N a) as P. rewrite E, parse_show_N in P. congruence.
Qed.
Theorem C104_place_refuted : forall debug name line pos, line <> pos ->
  ~ names_place debug name line pos (show_error debug (InvalidInstruction name line pos)).
Proof.
  intros debug name line pos N H. unfold names_place in H. cbn [show_error] in H.
  apply app_inv_head, app_inv_head, app_inv_head in H. unfold show_Z in H.
  destruct (Z.ltb_spec (Z.of_nat pos) 0); [lia|]. destruct (Z.ltb_spec (Z.of_nat line) 0); [lia|].
  apply show_before_comma in H. lia.
Qed.
Print Assumptions C104_place_refuted.
Example C104_place_case :
  show_error (fun s => s) (InvalidInstruction (lit "foo") 12 5) = lit "Script executed invalid instruction foo at line 5, column 12.".
Proof. vm_compute. reflexivity. Qed.
(** And that of an include that is nested too deeply is empty. *)
Theorem C104_includes_refuted : forall debug, show_error debug TooManyIncludes = [].
Proof. reflexivity. Qed.
Print Assumptions C104_includes_refuted.
