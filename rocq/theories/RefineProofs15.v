(** A script without the word "include" does not include. *)
From Coq Require Import Lia.
From Verif Require Import Base Lib Value Comparator Expr Sieve Utf8 Lexer Scope StringTok Compile ParseArgs ParseBase Parse CompileSpec CompileProofs1
  CompileProofs3 ControlSpec ControlProofs6 ArgSpec RefineSpec RefineProofs1 RefineProofs4 RefineProofs8 RefineProofs9 RefineProofs10 RefineProofs11.
Import ListNotations.
Local Open Scope string_scope.
Local Open Scope list_scope.

Definition tok_quiet (k : token) : Prop :=
  match k with
  | KLeaf i => is_test i = true
  | KInclude _ => False
  | KAct i | KVacation _ i | KClose (Some i) => is_include i = false
  | _ => True
  end.
Lemma leaves_quiet : (forall t, Forall tok_quiet (rtree t) -> tleaves t = true) /\ (forall ts, Forall tok_quiet (rtrees ts) -> tleaves_all ts = true).
Proof.
  apply tree_ind2; cbn [rtree rtrees tleaves tleaves_all].
  - auto.
  - intros i H. apply Forall_inv in H. exact H.
  - intros t IH H. apply IH. eapply Forall_inv_tail, H.
  - intros ts IH H. apply IH. apply Forall_inv_tail, Forall_inv_tail, Forall_app in H. apply H.
  - intros ts IH H. apply IH. apply Forall_inv_tail, Forall_inv_tail, Forall_app in H. apply H.
  - auto.
  - intros t IH ts IHs H. apply Forall_app in H. destruct H as [H1 H2]. apply Forall_inv_tail in H2.
    rewrite (IH H1), (IHs H2). auto.
Qed.
Definition silent (l : list instruction) : Prop := Forall (fun i => is_include i = false) l.
Lemma tree_silent t p n : Forall tok_quiet (rtree t) -> silent (gtree p n t).
Proof. intro H. apply Forall_forall. intros i Ii. eapply gtree_include; [|exact Ii]. now apply leaves_quiet. Qed.
Lemma kcode_silent k : tok_quiet (KClose k) -> silent (kcode k).
Proof. destruct k; cbn; intro H; repeat constructor. exact H. Qed.
Lemma code_silent :
  (forall c, Forall tok_quiet (rcmd c) -> forall p env, silent (gcmd p env c)) /\
  (forall cs, Forall tok_quiet (rcmds cs) -> forall p env, silent (gcmds p env cs)) /\
  (forall r, Forall tok_quiet (rrest r) -> forall p y env, silent (grest p y env r)).
Proof.
  apply cmd_ind3; cbn [rcmd rcmds rrest gcmd gcmds grest]; unfold silent.
  - intros i H p env. constructor; [|constructor]. exact (Forall_inv H).
  - constructor.
  - intros t v H p env. repeat constructor. exact (Forall_inv H).
  - intros t b IHb k r IHr H p env. apply Forall_inv_tail, Forall_app in H. destruct H as [H1 H]. apply Forall_inv_tail, Forall_app in H. destruct H as [H2 H].
    pose proof (Forall_inv H) as H3. apply Forall_inv_tail in H. apply Forall_app. split; [now apply tree_silent|].
    cbn [app]. constructor; [reflexivity|]. repeat (apply Forall_app; split); auto. now apply kcode_silent.
  - intros l b IHb k H p env. apply Forall_inv_tail, Forall_inv_tail, Forall_app in H. destruct H as [H1 H2]. apply Forall_inv in H2.
    repeat (constructor; [reflexivity|]). repeat (apply Forall_app; split); auto; try (now apply kcode_silent).
  - intros l b IHb k H p env. apply Forall_inv_tail, Forall_inv_tail, Forall_app in H. destruct H as [H1 H2]. apply Forall_inv in H2.
    repeat (constructor; [reflexivity|]). repeat (apply Forall_app; split); auto; try (now apply kcode_silent).
  - intros [l|] H p env.
    + destruct (named_loop l 0 env) as [[]|]; repeat constructor.
    + destruct env as [|x env]; [constructor|]. destruct (lp_for x); repeat constructor.
  - intros H p env. destruct env; repeat constructor.
  - intros H p env. destruct (length _); repeat constructor.
  - constructor.
  - intros c IH cs IHs H p env. apply Forall_app in H. destruct H as [H1 H2]. apply Forall_app. auto.
  - constructor.
  - intros b IHb k H p y env. apply Forall_inv_tail, Forall_inv_tail, Forall_app in H. destruct H as [H1 H2]. apply Forall_inv in H2.
    constructor; [reflexivity|]. apply Forall_app. split; auto. now apply kcode_silent.
  - intros t b IHb k r IHr H p y env. apply Forall_inv_tail, Forall_app in H. destruct H as [H1 H]. apply Forall_inv_tail, Forall_app in H. destruct H as [H2 H].
    pose proof (Forall_inv H) as H3. apply Forall_inv_tail in H. constructor; [reflexivity|]. apply Forall_app. split; [now apply tree_silent|].
    cbn [app]. constructor; [reflexivity|]. repeat (apply Forall_app; split); auto. now apply kcode_silent.
Qed.

Lemma test_reads_quiet K W V us ks : test_reads K W V us ks -> Forall tok_quiet ks.
Proof. induction 1; constructor; try exact Logic.I; auto. eapply leaf_ok; eauto. Qed.
Lemma action_quiet K V n us i W : action_is K V n us i W -> is_include i = false.
Proof. intro H. destruct H as [? ? ? H| | | |]; try destruct H; reflexivity. Qed.
Lemma vacation_quiet K V us t i : vacation_is K V us t i -> is_include i = false.
Proof. intros (l & x & r & subject & from & mime & addrs & handle & p & fcc & _ & _ & _ & _ & _ & _ & _ & _ & _ & _ & _ & ->). reflexivity. Qed.
Lemma reads_quiet K W D V ts ks : script_reads K W D V ts ks -> ~ In (TIdent (lit "include")) ts -> Forall tok_quiet ks.
Proof.
  induction 1; intro NI; repeat (apply Forall_cons; [try exact Logic.I|]); try (constructor; fail);
    try (apply IHscript_reads; intro X; apply NI; right; apply in_or_app; right; right; exact X; fail);
    try (apply IHscript_reads; intro X; apply NI; right; right; exact X; fail).
  - apply Forall_app. split; [eapply test_reads_quiet; eauto|]. constructor; [exact Logic.I|].
    apply IHscript_reads; intro X; apply NI; right; apply in_or_app; right; right; exact X.
  - apply Forall_app. split; [eapply test_reads_quiet; eauto|]. constructor; [exact Logic.I|].
    apply IHscript_reads; intro X; apply NI; right; apply in_or_app; right; right; exact X.
  - apply NI. left. reflexivity.
  - eapply vacation_quiet; eauto.
  - eapply action_quiet; eauto.
  - apply IHscript_reads; intro X; apply NI; right; apply in_or_app; right; exact X.
  - cbn. unfold cleared. destruct (Nat.ltb 0 num); [reflexivity|]. destruct (N.eqb mv 0); exact Logic.I || reflexivity.
  - apply IHscript_reads; intro X; apply NI; right; exact X.
Qed.
Lemma alike_include K o i i' : alike K o i i' -> is_include i' = is_include i.
Proof.
  intros (m & ->). unfold moved.
  assert (A : is_include (capture m i) = is_include i) by (destruct i; reflexivity).
  destruct o; [|exact A]. rewrite <- A. destruct (capture m i); try reflexivity. destruct opts as [[? ?] ?]. reflexivity.
Qed.
Lemma like_quiet K o k k' : tok_like (alike K o) k k' -> tok_quiet k -> tok_quiet k'.
Proof.
  destruct 1; cbn [tok_quiet]; auto.
  - apply alike_kind in H. destruct H as (-> & _ & _). auto.
  - apply alike_include in H. now rewrite H.
  - apply alike_include in H0. now rewrite H0.
Qed.
Lemma likes_quiet K o ks ks' : Forall2 (tok_like (alike K o)) ks ks' -> Forall tok_quiet ks -> Forall tok_quiet ks'.
Proof. induction 1; intro Q; constructor; [eapply like_quiet; eauto; exact (Forall_inv Q)|]. apply IHForall2. exact (Forall_inv_tail Q). Qed.
Lemma acted_quiet ks : Forall tok_quiet ks -> Forall tok_quiet (map acted ks).
Proof. induction 1 as [|k ks O F IH]; constructor; [|exact IH]. destruct k; try exact O. destruct O. Qed.
