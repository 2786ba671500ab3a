(** Proofs about whole runs: what is emitted. *)
From Coq Require Import Lia.
From Verif Require Import Base Lib Address Var Value SetVar Flags Comparator Message EditHeader Expr Event
  Notify Vacation Spam AddrTest Mime Sieve Run RunSpec RunProofs.

Definition setenv (e : event) : bool := match e with ESetEnvelope _ _ => true | _ => false end.
(** Inside the loop only reports of envelope changes may be queued. *)
Definition calm (s : rst) : Prop := forallb setenv (r_queue s) = true.
Definition quiet (e : event) : bool := is_action e || setenv e.

Lemma actions_setenv l : forallb setenv l = true -> actions l = [].
Proof.
  induction l as [|e l IH]; cbn; [reflexivity|]. intros H. apply andb_prop in H as [A B].
  destruct e; try discriminate. cbn. now apply IH.
Qed.
Lemma actions_app a b : actions (a ++ b) = actions a ++ actions b.
Proof. apply filter_app. Qed.
Lemma calm_quiet l : forallb setenv l = true -> forallb quiet l = true.
Proof. rewrite !forallb_forall. unfold quiet. intros H x I. now rewrite (H x I), orb_true_r. Qed.

(** The number of announced messages after a list of events. *)
Fixpoint advance (known : nat) (l : list event) : nat :=
  match l with
  | [] => known
  | ECreated id _ :: l' => advance id l'
  | _ :: l' => advance known l'
  end.
Lemma ids_ok_app l1 l2 : forall k, ids_ok k (l1 ++ l2) <-> ids_ok k l1 /\ ids_ok (advance k l1) l2.
Proof. induction l1 as [|e l1 IH]; intros k; cbn; [tauto|]. destruct e; cbn; rewrite IH; tauto. Qed.
Lemma advance_app l1 l2 : forall k, advance k (l1 ++ l2) = advance (advance k l1) l2.
Proof. induction l1 as [|e l1 IH]; intros k; cbn; [reflexivity|]. destruct e; apply IH. Qed.
Lemma setenv_ids l k : forallb setenv l = true -> ids_ok k l /\ advance k l = k.
Proof.
  induction l as [|e l IH]; cbn; [now split|]. intros H. apply andb_prop in H as [A B]. specialize (IH B).
  destruct e; try discriminate. cbn. tauto.
Qed.

Record batch (last : nat) (ev : list event) (last' : nat) : Prop := {
  b_actions : actions ev = ev;
  b_ids : ids_ok last ev;
  b_adv : advance last ev = last';
  b_le : last <= last';
  b_disp : dispositions ev = [];
  b_send : length (filter is_send ev) <= 1
}.
Lemma notify_batch M dec e a ev l o : exec_notify M dec e a = Some (ev, l, o) ->
  batch (v_last e) ev l /\ v_out e <= o.
Proof.
  unfold exec_notify. intros H.
  repeat match goal with
  | H : Some _ = Some _ |- _ => injection H as <- <- <-
  | H : None = Some _ |- _ => discriminate H
  | H : (_, _) = (_, _) |- _ => injection H as <- <-
  | H : (let '(_, _) := ?x in _) = Some _ |- _ => destruct x as [? ?] eqn:?
  | H : match ?x with _ => _ end = Some _ |- _ => destruct x eqn:?
  end; destruct (n_fcc a) as [[[[[]]]]|];
  repeat match goal with
  | H : (_, _) = (_, _) |- _ => injection H as <- <-
  end; repeat split; cbn; repeat rewrite ?Nat.add_0_r; try lia.
  all: destruct (_ && _); cbn; repeat split; lia.
Qed.
Lemma vacation_batch L raw has e a ev l o : exec_vacation L raw has e a = (ev, l, o) ->
  batch (ve_last e) ev l /\ o = ve_out e + 1.
Proof.
  unfold exec_vacation. intros H. injection H as <- <- <-.
  destruct (va_fcc a) as [[[[[]]]]|]; repeat split; cbn; try lia.
Qed.

Section P.
  Variable E : renv.

  (** The outcome of an instruction, as seen from outside. *)
  Definition emits (x : entry) (r : sres) : Prop :=
    let s := snd x in
    match r with
    | SCont s' => actions_of E x = [] /\ calm s' /\ r_final s' = pending_after E (r_final s) x /\ r_stack s' <> []
    | SYield s' (OEvent e) =>
        actions (e :: r_queue s') = actions_of E x /\ r_final s' = pending_after E (r_final s) x
        /\ forallb quiet (r_queue s') = true /\ r_stack s' <> []
    | SYield s' (OError _) =>
        actions_of E x = [] /\ pending_after E (r_final s) x = r_final s
        /\ actions (r_queue s') = deliver E (r_final s) s /\ r_final s' = None
        /\ r_stack s' = [] /\ forallb quiet (r_queue s') = true
    | SEnd s' =>
        actions_of E x = [] /\ calm s' /\ r_final s' = pending_after E (r_final s) x /\ r_stack s' = []
    | SNone _ => False
    | SPanic => True
    end.

  (** The pending disposition is a keep, a discard or nothing. *)
  Definition fin (d : option event) : Prop :=
    match d with None | Some (EKeep _ _) | Some EDiscard => True | _ => False end.

  Lemma finish_emits s : calm s -> fin (r_final s) ->
    actions (r_queue (finish_loop E s)) = deliver E (r_final s) s /\ r_final (finish_loop E s) = None /\
    r_stack (finish_loop E s) = [] /\ forallb quiet (r_queue (finish_loop E s)) = true.
  Proof.
    intros C D. rewrite finish_stack. unfold finish_loop. cbn [r_final w_stack].
    destruct (r_final s) as [[]|] eqn:F; cbn in D |- *; try contradiction; auto.
    - rewrite build_id_eq. cbn. unfold announce. destruct (ms_changed (r_msg s)); auto.
    - rewrite F. split; [|split; [reflexivity|split; [reflexivity|now apply calm_quiet]]]. now apply actions_setenv.
  Qed.
  Lemma pending_fin d x : fin d -> fin (pending_after E d x).
  Proof.
    destruct x as [i s]. intros H. destruct i; cbn; try exact H; try exact I.
    - destruct copy; [exact H|]. destruct d as [[]|]; cbn in *; try contradiction; try exact I.
      destruct flags0; exact I.
    - destruct (redirect_target _ _ _ _); [|exact H]. destruct d as [[]|]; cbn in *; try contradiction; try exact I.
      destruct copy; exact I.
  Qed.

  Lemma take_calm x s s0 : calm s0 -> r_stack s0 <> [] -> snd x = s -> actions_of E x = [] ->
    r_final s0 = pending_after E (r_final s) x -> emits x (take_queue s0).
  Proof.
    intros C S Hs A F. unfold take_queue. subst s. destruct (r_queue s0) as [|e q] eqn:Q; cbn.
    - repeat split; auto.
    - unfold calm in C. rewrite Q in C. cbn in C. apply andb_prop in C as [C1 C2].
      destruct e; try discriminate. cbn. repeat split; auto.
      + rewrite A. now apply actions_setenv.
      + now apply calm_quiet.
  Qed.
  Lemma take_batch x s s0 ev : snd x = s -> r_stack s0 <> [] -> r_queue s0 = ev -> actions ev = ev -> actions_of E x = ev ->
    r_final s0 = pending_after E (r_final s) x -> emits x (take_queue s0).
  Proof.
    intros Hs S Q A AO F. unfold take_queue. rewrite Q. subst s. destruct ev as [|e q].
    - cbn. repeat split; auto. unfold calm. now rewrite Q.
    - cbn [r_final w_queue emits r_queue]. rewrite A, AO. repeat split; auto.
      assert (B : actions q = q).
      { assert (is_action e = true) as Ie.
        { assert (In e (actions (e :: q))) as Hi by (rewrite A; now left). now apply filter_In in Hi. }
        cbn in A. rewrite Ie in A. now injection A. }
      apply forallb_forall. intros y Hy. rewrite <- B in Hy. apply filter_In in Hy as [_ Hy]. unfold quiet. now rewrite Hy.
  Qed.
  Lemma assign_calm r s : calm s -> calm (assign r s).
  Proof. unfold assign, calm. destruct (snd r) as [[]|]; auto. Qed.
  Lemma assign_final r s : r_final (assign r s) = r_final s.
  Proof. destruct (assign_eq r s) as [q ->]. reflexivity. Qed.
  Lemma assign_stack r s : r_stack (assign r s) = r_stack s.
  Proof. destruct (assign_eq r s) as [q ->]. reflexivity. Qed.
  Lemma pop_calm n s : calm s -> calm (pop_parts n s) /\ r_final (pop_parts n s) = r_final s /\ r_stack (pop_parts n s) = r_stack s.
  Proof. intros C. destruct (pop_parts_eq n s) as (p & it & its & ->). split; [exact C | split; reflexivity]. Qed.

  Ltac easy_cont := cbn; repeat split; auto using assign_calm, assign_final.

  Lemma fail_emits i s e : calm s -> fin (r_final s) -> actions_of E (i, s) = [] ->
    pending_after E (r_final s) (i, s) = r_final s -> emits (i, s) (fail E s e).
  Proof.
    intros C D A P. destruct (finish_emits s C D) as (F1 & F2 & F3 & F4). cbn. repeat split; auto.
  Qed.
  Lemma value_emits i s code k : calm s -> r_stack s <> [] -> actions_of E (i, s) = [] -> pending_after E (r_final s) (i, s) = r_final s ->
    (forall v, emits (i, s) (k v (w_estack [] (w_epos 0 s)))) ->
    emits (i, s) (with_value E code s k).
  Proof.
    intros C S A P K. unfold with_value.
    destruct (eval_expression _ _ _ _ _ _ _); try exact I; [apply K|].
    unfold emits. cbn [snd]. rewrite A, P. cbn. repeat split; [now apply actions_setenv | now apply calm_quiet | exact S].
  Qed.
  Lemma pop_emits i s : calm s -> actions_of E (i, s) = [] -> pending_after E (r_final s) (i, s) = r_final s ->
    r_stack s <> [] -> emits (i, s) (pop_frame s).
  Proof.
    intros C A P S. unfold pop_frame. destruct (r_stack s) as [|f rest]; [congruence|].
    destruct rest; unfold emits; cbn [snd]; rewrite A, P; cbn; repeat split; auto; discriminate.
  Qed.
  Lemma redirect_emits s address copy list_ opts : calm s -> r_stack s <> [] ->
    emits (IxRedirect address copy list_ opts, s) (exec_redirect E address copy list_ opts s).
  Proof.
    intros C S. unfold exec_redirect.
    assert (N : redirect_target E s address list_ = None ->
                emits (IxRedirect address copy list_ opts, s) (take_queue s)).
    { intros R. apply take_calm with s; auto; cbn; now rewrite R. }
    unfold redirect_target in N. destruct (sanitize_address (tx E s address)) as [a|] eqn:Sa; [|apply N; reflexivity].
    destruct (Nat.ltb (r_redirects s) (E_max_redirects E) && Nat.ltb (r_out s) (E_max_out E)) eqn:Lim.
    2:{ apply N. destruct (parts s); reflexivity. }
    destruct (parts s) as [|root pt] eqn:Pt; [exact I|].
    destruct (Nat.ltb (received_count root) (E_max_received E)) eqn:Rc; [|apply N; reflexivity].
    destruct (negb list_ && teqb_ic a (E_user E)) eqn:Own.
    { apply N. destruct list_; [discriminate|]. cbn in *. now rewrite Own. }
    assert (R : redirect_target E s address list_ = Some a).
    { unfold redirect_target. rewrite Sa, Pt, Lim, Rc. destruct list_; cbn in *; [reflexivity|]. now rewrite Own. }
    clear N. set (s1 := if copy then s else _). rewrite build_id_eq.
    assert (S1 : r_msg s1 = r_msg s /\ r_last s1 = r_last s /\ r_main s1 = r_main s /\ r_stack s1 <> []).
    { unfold s1. destruct copy; auto. destruct (r_final s) as [[]|]; auto. }
    destruct S1 as (S1 & S2 & S3 & S4).
    assert (F : r_final s1 = pending_after E (r_final s) (IxRedirect address copy list_ opts, s)).
    { cbn. rewrite R. unfold s1. destruct copy, (r_final s) as [[]|] eqn:Fi; auto. }
    rewrite S1, S2. destruct (ms_changed (r_msg s)) eqn:Ch; eapply take_batch; try exact S4; try reflexivity; try exact F.
    - cbn. rewrite R. unfold announce, current_id. rewrite Ch. reflexivity.
    - cbn. rewrite R. unfold announce, current_id. rewrite Ch, S3. reflexivity.
  Qed.
  Lemma fileinto_emits s folder flags mid su copy create : calm s -> r_stack s <> [] ->
    emits (IxFileInto folder flags mid su copy create, s) (exec_fileinto E folder flags mid su copy create s).
  Proof.
    intros C S. unfold exec_fileinto. rewrite build_id_eq. destruct (ms_changed (r_msg s)) eqn:Ch; cbn [r_final w_main w_last w_msg];
      eapply take_batch; try reflexivity; destruct copy; try exact S; try reflexivity; destruct (r_final s) as [[]|] eqn:Fi; try exact S;
      cbn [actions_of pending_after w_queue r_final w_final opt_list app]; unfold announce, current_id; rewrite ?Ch, ?Fi; cbn [app];
      try reflexivity.
    all: cbn [snd]; rewrite ?Fi; try reflexivity; destruct flags0; try exact S; try reflexivity; exact Fi.
  Qed.
  Lemma include_emits s name global once optional : calm s -> fin (r_final s) -> r_stack s <> [] ->
    emits (IxInclude name global once optional, s) (exec_include E name global once optional s).
  Proof.
    intros C D S. unfold exec_include. destruct (v_is_empty _); [easy_cont|].
    destruct (negb once || _); [|easy_cont].
    destruct (Nat.ltb _ _); [|now apply fail_emits].
    destruct (opt_or _ _); cbn; repeat split; auto; [discriminate | now apply actions_setenv | now apply calm_quiet].
  Qed.
  Lemma act_nil s : calm s -> filter is_action (r_queue s) = [].
  Proof. exact (actions_setenv (r_queue s)). Qed.
  Lemma edit_emits i s m s0 : calm s0 -> r_stack s0 <> [] -> actions_of E (i, s) = [] ->
    r_final s0 = pending_after E (r_final s) (i, s) -> emits (i, s) (edit_msg m s0).
  Proof. intros C S A F. destruct m; [|exact I]. unfold emits, edit_msg. cbn [snd]. auto. Qed.
  Theorem exec_emits i s : calm s -> fin (r_final s) -> r_stack s <> [] -> emits (i, s) (exec_instr E i s).
  Proof.
    intros C D S. destruct i; unfold exec_instr.
    - (* require *) destruct (find _ _) as [[]|]; try (now apply fail_emits). easy_cont.
    - (* keep *) rewrite build_id_eq. destruct (ms_changed (r_msg s)) eqn:Ch; cbn; unfold announce, current_id; rewrite Ch.
      + repeat split; [|now apply calm_quiet|exact S]. now rewrite (act_nil _ C).
      + repeat split; auto.
    - now apply fileinto_emits.
    - now apply redirect_emits.
    - easy_cont.
    - easy_cont.
    - (* reject *) cbn. rewrite (act_nil _ C). repeat split; [now apply calm_quiet | exact S].
    - easy_cont.
    - (* jz *) destruct (r_test s); easy_cont.
    - destruct (r_test s); easy_cont.
    - (* test *) destruct (exec_test E s t) eqn:T; [exact I | | |now apply fail_emits].
      + apply exec_test_state in T. destruct T as (mv & m & ->). easy_cont.
      + apply exec_test_ask in T. cbn. rewrite T, (act_nil _ C). repeat split; [now apply calm_quiet | exact S].
    - (* eval *) apply value_emits; auto. intros v. easy_cont.
    - (* clear *) split; [reflexivity | split; [exact C | split; [reflexivity | exact S]]].
    - (* foreverypart *) destruct (r_iter s) as [|p it], (r_iters s) as [|[p' it'] rest]; easy_cont.
    - destruct (nested_ids _ _ _); [|exact I]. easy_cont.
    - cbn. destruct (pop_calm n s C) as (P1 & P2 & P3). rewrite P3. auto.
    - apply value_emits; auto. intros v. destruct (to_bool v); easy_cont.
    - apply value_emits; auto. intros v. easy_cont; rewrite ?assign_final, ?assign_stack; auto.
    - apply edit_emits; [exact C | exact S | reflexivity | reflexivity].
    - apply edit_emits; [exact C | exact S | reflexivity | reflexivity].
    - apply take_calm with s; auto; [now apply assign_calm | now rewrite assign_stack | now rewrite assign_final].
    - match goal with |- emits _ (match ?c with _ => _ end) => destruct c as [[]|] end; [easy_cont | exact I].
    - apply edit_emits; [exact C | exact S | reflexivity | reflexivity].
    - apply edit_emits; [exact C | exact S | reflexivity | reflexivity].
    - apply take_calm with s; auto; [now apply assign_calm | now rewrite assign_stack | now rewrite assign_final].
    - (* notify *) destruct (parts s) as [|root pt] eqn:Pt; [exact I|].
      match goal with |- context [exec_notify ?a ?b ?c ?d] => destruct (exec_notify a b c d) as [[[ev l] o]|] eqn:N end.
      + pose proof (notify_batch _ _ _ _ _ _ _ N) as [B _]. eapply take_batch; try exact S; try reflexivity; [apply B|].
        cbn. unfold notify_result. rewrite Pt, N. reflexivity.
      + apply take_calm with s; auto. cbn. unfold notify_result. rewrite Pt, N. reflexivity.
    - (* vacation *) destruct (parts s) as [|root pt] eqn:Pt; [exact I|].
      match goal with |- context [exec_vacation ?a ?b ?c ?d ?e] => destruct (exec_vacation a b c d e) as [[ev l] o] eqn:N end.
      pose proof (vacation_batch _ _ _ _ _ _ _ _ N) as [B _]. eapply take_batch; try exact S; try reflexivity; [apply B|].
      unfold actions_of, vacation_result. rewrite Pt, N. reflexivity.
    - easy_cont; rewrite ?assign_final, ?assign_stack; auto.
    - now apply include_emits.
    - now apply pop_emits.
    - (* error *) destruct (finish_emits s C D) as (F1 & F2 & F3 & F4). cbn. repeat split; auto.
    - now apply fail_emits.
  Qed.

  Definition after (log : list entry) (d : option event) : option event := fold_left (pending_after E) log d.
  Lemma after_fin log : forall d, fin d -> fin (after log d).
  Proof. induction log; cbn; intros d H; auto. apply IHlog, pending_fin, H. Qed.
  Lemma after_app a b d : after (a ++ b) d = after b (after a d).
  Proof. apply fold_left_app. Qed.
  Notation all_actions := (flat_map (actions_of E)).

  Definition step_traced (s : rst) (r : sres) : Prop :=
    match r with
    | SCont s' => all_actions (executed E s) = [] /\ calm s' /\ r_final s' = after (executed E s) (r_final s)
                  /\ r_stack s' <> [] /\ ends E s = None
    | SYield s' (OEvent e) =>
        actions (e :: r_queue s') = all_actions (executed E s) /\ r_final s' = after (executed E s) (r_final s)
        /\ forallb quiet (r_queue s') = true /\ r_stack s' <> [] /\ ends E s = None
    | SYield s' (OError _) =>
        actions (r_queue s') = all_actions (executed E s) ++ deliver E (after (executed E s) (r_final s)) s
        /\ r_final s' = None /\ r_stack s' = [] /\ forallb quiet (r_queue s') = true /\ ends E s = Some s
    | SEnd s' => all_actions (executed E s) = [] /\ calm s' /\ r_final s' = after (executed E s) (r_final s)
                 /\ r_stack s' = [] /\ ends E s = Some s'
    | SNone s' => all_actions (executed E s) = [] /\ executed E s = [] /\ s' = s /\ ends E s = None
    | SPanic => True
    end.
  Lemma step_trace s : calm s -> fin (r_final s) -> r_stack s <> [] -> step_traced s (step E s).
  Proof.
    intros C D S. assert (En : ends E s = match step E s with
      | SEnd s' => Some s' | SYield _ (OError _) => Some s | _ => None end) by reflexivity.
    unfold step_traced. rewrite En. clear En.
    unfold step, executed, next_instr. destruct (r_stack s) as [|f rest] eqn:St; [congruence|].
    destruct (Nat.ltb (length (s_code (f_script f))) (r_pos s)) eqn:Rg.
    { apply Nat.ltb_lt in Rg. rewrite (proj2 (nth_error_None _ _)) by lia. repeat split. }
    destruct (nth_error (s_code (f_script f)) (r_pos s)) as [i|] eqn:Ni.
    - cbv zeta. change (r_instrs (w_instrs (r_instrs s + 1) s)) with (r_instrs s + 1).
      destruct (Nat.ltb (E_cpu E) (r_instrs s + 1)) eqn:Cpu.
      + apply Nat.ltb_lt in Cpu. rewrite (proj2 (Nat.leb_gt _ _)) by lia.
        destruct (finish_emits (w_instrs (r_instrs s + 1) s) C D) as (F1 & F2 & F3 & F4).
        unfold fail. repeat split; auto.
      + apply Nat.ltb_ge in Cpu. rewrite (proj2 (Nat.leb_le _ _)) by lia.
        change (r_pos (w_instrs (r_instrs s + 1) s)) with (r_pos s).
        set (s2 := w_pos (r_pos s + 1) (w_instrs (r_instrs s + 1) s)).
        assert (S2 : r_stack s2 <> []) by (unfold s2; cbn; rewrite St; discriminate).
        pose proof (exec_emits i s2 C D S2) as Em. unfold emits in Em. cbn [snd] in Em.
        unfold after. cbn [flat_map fold_left]. rewrite app_nil_r.
        change (r_final s) with (r_final s2). change (deliver E) with (deliver E).
        destruct (exec_instr E i s2) as [s'|s' [e|e]|s'|s'|]; try tauto.
        destruct Em as (A1 & A2 & A3 & A4 & A5 & A6). rewrite A1, A2. repeat split; auto.
    - assert (S2 : r_stack s <> []) by (rewrite St; discriminate).
      pose proof (pop_emits IxReturn s C eq_refl eq_refl S2) as Em. unfold emits in Em. cbn [snd] in Em.
      destruct (pop_frame s) as [s'|s' [e|e]|s'|s'|] eqn:Po; cbn; try tauto; unfold pop_frame in Po; rewrite St in Po;
        destruct rest; discriminate Po.
  Qed.

  (** What a call returned, together with what it left in the queue. *)
  Definition seen (s : rst) (o : option out) : list event := events_of [o] ++ r_queue s.

  Definition traced (g : logged) (d : option event) (before : list event) (s : rst) (ev : list event) : Prop :=
    (g_end g = [] /\ actions ev = before ++ all_actions (g_log g) /\ r_final s = after (g_log g) d) \/
    (exists se, g_end g = [se] /\ actions ev = before ++ all_actions (g_log g) ++ deliver E (after (g_log g) d) se
       /\ r_final s = None /\ r_stack s = [] /\ forallb quiet ev = true).

  Lemma finale_trace s s' o : calm s -> fin (r_final s) -> r_stack s = [] -> finale E s = (s', o) ->
    actions (seen s' o) = deliver E (r_final s) s /\ r_final s' = None /\ r_stack s' = []
    /\ forallb quiet (seen s' o) = true.
  Proof.
    intros C D S H. destruct (finale_keeps _ _ _ _ H) as (_ & K & _). rewrite K, S. clear K.
    unfold finale in H. destruct (r_final s) as [[]|] eqn:F; cbn in D; try contradiction.
    - rewrite build_id_eq in H. cbn in H. destruct (ms_changed (r_msg s)) eqn:Ch.
      + injection H as <- <-. cbn. unfold announce. rewrite Ch. auto.
      + injection H as <- <-. cbn. rewrite Ch. cbn. rewrite (act_nil _ C). repeat split. now apply calm_quiet.
    - injection H as <- <-. cbn. rewrite (act_nil _ C). repeat split. now apply calm_quiet.
    - injection H as <- <-. cbn. rewrite F. repeat split; [now apply act_nil | now apply calm_quiet].
  Qed.

  Lemma loop_trace n : forall s s' o, calm s -> fin (r_final s) -> r_stack s <> [] -> loop E n s = RRet s' o ->
    traced (loop_log E n s) (r_final s) [] s' (seen s' o) /\ fin (r_final s')
    /\ (g_end (loop_log E n s) = [] -> r_stack s' <> []).
  Proof.
    induction n as [|n IH]; intros s s' o C D S; [discriminate|]. cbn [loop loop_log].
    pose proof (step_trace s C D S) as T. unfold step_traced in T.
    destruct (step E s) as [s1|s1 [e|e]|s1|s1|] eqn:St; intros H; [| | | | |discriminate].
    - destruct T as (T1 & T2 & T3 & T4 & T5).
      assert (F1 : fin (r_final s1)) by (rewrite T3; now apply after_fin).
      destruct (IH s1 s' o T2 F1 T4 H) as ([(I1 & I2 & I3) | (se & I1 & I2 & I3 & I4 & I5)] & I6 & I7).
      + split; [left|split; [exact I6|]]; unfold turn, join; cbn [g_end g_log]; rewrite T5; [|exact I7].
        cbn [app]. rewrite flat_map_app, T1, I1, I2, I3, T3, after_app. repeat split.
      + split; [right; exists se|split; [exact I6|]]; unfold turn, join; cbn [g_end g_log]; rewrite T5; [|exact I7].
        cbn [app]. rewrite flat_map_app, T1, I1, I2, T3, after_app. repeat split; auto.
    - injection H as <- <-. destruct T as (T1 & T2 & T3 & T4 & T5).
      split; [left|split]; unfold turn; cbn [g_end g_log]; rewrite ?T5; auto.
      rewrite T2. now apply after_fin.
    - injection H as <- <-. destruct T as (T1 & T2 & T3 & T4 & T5).
      split; [right; exists s|split; [rewrite T2; exact I|]]; unfold turn; cbn [g_end g_log]; rewrite T5; [|discriminate].
      repeat split; auto.
    - destruct (finale E s1) as [s2 o2] eqn:Fi. injection H as <- <-. destruct T as (T1 & T2 & T3 & T4 & T5).
      assert (F1 : fin (r_final s1)) by (rewrite T3; now apply after_fin).
      destruct (finale_trace s1 s2 o2 T2 F1 T4 Fi) as (A1 & A2 & A3 & A4).
      split; [right; exists s1|split; [rewrite A2; exact I|]]; unfold turn; cbn [g_end g_log]; rewrite T5; [|discriminate].
      cbn [app]. rewrite T1, A1, T3. repeat split; auto.
    - injection H as <- <-. destruct T as (T1 & T2 & T3 & T4). subst s1.
      split; [left|split; [exact D|]]; unfold turn; cbn [g_end g_log]; rewrite T4; [|auto].
      rewrite T1, T2. repeat split. unfold seen. cbn. now apply act_nil.
  Qed.

  Lemma feed_queue inp s : r_queue (feed inp s) = r_queue s /\ r_final (feed inp s) = r_final s.
  Proof. destruct inp; cbn; try now split. destruct (_ && _); now split. Qed.
  Lemma run_trace inp s s' o : fin (r_final s) -> run E inp s = RRet s' o ->
    traced (run_log E inp s) (r_final s) (actions (r_queue s)) s' (seen s' o) /\ fin (r_final s').
  Proof.
    intros D H. unfold run, run_log in *. destruct (feed_queue inp s) as [Q F]. rewrite <- F, <- Q. rewrite <- F in D.
    clear Q F. set (s0 := feed inp s) in *. clearbody s0. clear s inp.
    destruct (r_queue s0) as [|e q] eqn:Q.
    - destruct (r_stack s0) as [|f rest] eqn:St.
      + injection H as <- <-. split; [left|exact D]. unfold seen. cbn. rewrite Q. repeat split.
      + assert (C : calm s0) by (unfold calm; now rewrite Q).
        assert (S : r_stack s0 <> []) by (rewrite St; discriminate).
        destruct (loop_trace _ _ _ _ C D S H) as (T & T2 & _). split; assumption.
    - injection H as <- <-. split; [left|exact D]. unfold seen. destruct (r_stack s0); cbn; rewrite app_nil_r; repeat split.
  Qed.

  (** After the end nothing happens any more: the queue is handed out. *)
  Lemma over_conv inputs : forall s outs s', r_stack s = [] -> forallb quiet (r_queue s) = true ->
    polite false inputs outs -> converse_run E inputs s = Some (outs, s') ->
    log_of E inputs s = nothing /\ events_of outs ++ r_queue s' = r_queue s
    /\ r_final s' = r_final s /\ r_stack s' = [].
  Proof.
    induction inputs as [|i rest IH]; intros s outs s' S Q P H; cbn in H.
    { injection H as <- <-. repeat split; auto. }
    destruct (run E i s) as [s1 o| |] eqn:R; try discriminate.
    destruct (converse_run E rest s1) as [[outs' s2]|] eqn:Cv; [|discriminate]. injection H as <- <-.
    cbn in P. destruct P as [P1 P2].
    assert (Fd : r_stack (feed i s) = [] /\ r_queue (feed i s) = r_queue s /\ r_final (feed i s) = r_final s).
    { destruct i; cbn; auto. discriminate. }
    destruct Fd as (F1 & F2 & F3).
    assert (N : run_log E i s = nothing).
    { unfold run_log. rewrite F1. destruct (r_queue (feed i s)); reflexivity. }
    unfold run in R. rewrite F1 in R. destruct (r_queue (feed i s)) as [|e q] eqn:Qe.
    - injection R as <- <-.
      assert (Q0 : forallb quiet (r_queue (feed i s)) = true) by now rewrite Qe.
      destruct (IH _ _ _ F1 Q0 P2 Cv) as (A & B & C & G).
      cbn [log_of]. unfold run at 1. rewrite F1, Qe, N, A. cbn [fst snd].
      change (events_of (None :: outs')) with (events_of outs'). rewrite B, Qe. repeat split; congruence.
    - injection R as <- <-. rewrite <- F2 in Q. cbn in Q. apply andb_prop in Q as [Q1 Q2].
      assert (Pf : polite false rest outs').
      { destruct e; try exact P2; discriminate. }
      destruct (IH (w_queue q (feed i s)) _ _ F1 Q2 Pf Cv) as (A & B & C & G).
      cbn [log_of]. unfold run at 1. rewrite F1, Qe, N, A. cbn [fst snd].
      change (events_of (Some (OEvent e) :: outs')) with (e :: events_of outs'). cbn [app].
      rewrite B, <- F2. repeat split; auto. now rewrite C.
  Qed.

  Definition conv_traced (g : logged) (d : option event) (before : list event) (s : rst) (ev : list event) : Prop :=
    (g_end g = [] /\ actions ev = before ++ all_actions (g_log g) /\ r_final s = after (g_log g) d) \/
    (exists se, g_end g = [se] /\ actions ev = before ++ all_actions (g_log g) ++ deliver E (after (g_log g) d) se
       /\ r_final s = None /\ r_stack s = []).
  Lemma events_cons o outs : events_of (o :: outs) = events_of [o] ++ events_of outs.
  Proof. unfold events_of. cbn. now rewrite app_nil_r. Qed.
  Theorem conversation_trace inputs : forall s asked outs s', fin (r_final s) ->
    polite asked inputs outs -> converse_run E inputs s = Some (outs, s') ->
    conv_traced (log_of E inputs s) (r_final s) (actions (r_queue s)) s' (events_of outs ++ r_queue s').
  Proof.
    induction inputs as [|i rest IH]; intros s asked outs s' D P H; cbn in H.
    { injection H as <- <-. left. cbn. now rewrite app_nil_r. }
    destruct (run E i s) as [s1 o| |] eqn:R; try discriminate.
    destruct (converse_run E rest s1) as [[outs' s2]|] eqn:Cv; [|discriminate]. injection H as <- <-.
    cbn in P. destruct P as [P1 P2]. cbn [fst snd]. unfold conv_traced. rewrite events_cons, <- app_assoc, actions_app.
    destruct (run_trace i s s1 o D R) as [T D1]. cbn [log_of]. rewrite R.
    unfold seen in T. destruct T as [(T1 & T2 & T3) | (se & T1 & T2 & T3 & T4 & T5)].
    - rewrite actions_app in T2. specialize (IH s1 _ outs' s2 D1 P2 Cv).
      destruct IH as [(I1 & I2 & I3) | (se & I1 & I2 & I3 & I4)]; [left | right; exists se];
        cbn [join g_log g_end]; rewrite T1, I1, I2, flat_map_app, after_app, <- T3, !app_assoc, T2, ?app_assoc; repeat split; auto.
    - rewrite forallb_app in T5. apply andb_prop in T5 as [T5 T6].
      assert (Pf : polite false rest outs').
      { destruct o as [[e|]|]; try exact P2. cbn in T5. destruct e; try exact P2. discriminate. }
      destruct (over_conv rest s1 outs' s2 T4 T6 Pf Cv) as (A & B & C & G).
      right. exists se. cbn [join g_log g_end]. rewrite A. cbn [nothing g_log g_end].
      rewrite B, !app_nil_r, <- actions_app, T1, T2, C, G. repeat split; auto.
  Qed.
End P.
