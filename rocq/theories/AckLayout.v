(** Compiled code branches only after a test. *)
From Coq Require Import Lia.
From Verif Require Import Base Lib Var Value Event Sieve Run Compile CompileSpec CompileProofs1 CompileProofs2 AckSpec.
Import ListNotations.

Fixpoint chain (b : bool) (l : list instruction) : Prop :=
  match l with [] => True | i :: l => (branches i -> b = true) /\ chain (is_test i) l end.
Lemma chain_weak l b : chain false l -> chain b l.
Proof. destruct l as [|i l]; [auto|]. intros [H C]. split; [|exact C]. intro B. discriminate (H B). Qed.
Lemma chain_app l1 l2 : chain false l2 -> forall b, chain b l1 -> chain b (l1 ++ l2).
Proof.
  intro H. induction l1 as [|i l1 IH]; intros b C; cbn [app]; [now apply chain_weak|]. destruct C as [A C]. split; [exact A|]. now apply IH.
Qed.
Lemma not_chain i l b : ~ branches i -> chain false l -> chain b (i :: l).
Proof. intros N C. split; [intro B; contradiction|now apply chain_weak]. Qed.
Lemma chain_nth l : forall b p i, chain b l -> nth_error l p = Some i -> branches i ->
  (p = 0 /\ b = true) \/ exists p' t, p = S p' /\ nth_error l p' = Some t /\ tests t.
Proof.
  induction l as [|j l IH]; intros b [|p] i C N B; try discriminate.
  - injection N as ->. left. split; [reflexivity|]. exact (proj1 C B).
  - destruct C as [_ C]. cbn [nth_error] in N. destruct (IH _ _ _ C N B) as [[-> T]|(p' & t & -> & N' & T)]; right.
    + exists 0, j. split; [reflexivity|]. split; [reflexivity|]. destruct j; try discriminate T; exact Logic.I.
    + exists (S p'), t. auto.
Qed.
Lemma test_not i : is_test i = true -> ~ branches i.
Proof. destruct i; try discriminate; intros _ []. Qed.
Lemma plain_not i : plain i = true -> ~ branches i /\ forall q, ~ goes_to i q.
Proof. destruct i; try discriminate; intros _; split; intros; intro H; destruct H. Qed.

Lemma tree_chain :
  (forall t p neg l, tleaves t = true -> chain true l -> chain false (gtree p neg t ++ l)) /\
  (forall ts p q all neg l, tleaves_all ts = true -> chain true l -> chain false (gtrees p q all neg ts ++ l)).
Proof.
  apply tree_ind2; cbn [gtree gtrees tleaves tleaves_all]; intros; auto.
  - cbn. split; [intros []|assumption].
  - cbn. assert (T : is_test (if neg then set_not i else i) = true) by (destruct i, neg; try discriminate; reflexivity).
    split; [intro B; destruct (test_not _ T B)|]. now rewrite T.
  - apply andb_true_iff in H1. destruct H1 as [A B]. rewrite <- app_assoc. apply H; [exact A|]. cbn [app]. split; [reflexivity|].
    replace (is_test (if all then IxJz q else IxJnz q)) with false by (destruct all; reflexivity). now apply H0.
Qed.
Lemma kcode_chain k : plain_opt k = true -> chain false (kcode k).
Proof. destruct k; cbn; [|auto]. intro P. split; [|exact Logic.I]. intro B. destruct (proj1 (plain_not _ P) B). Qed.

Section P.
  Variable lim : limits.
  Lemma cmd_chain :
    (forall c e p env, ok_cmd lim e c = true -> chain false (gcmd p env c)) /\
    (forall cs e p env, ok_cmds lim e cs = true -> chain false (gcmds p env cs)) /\
    (forall r e p y env, ok_rest lim e r = true -> chain false (grest p y env r)).
  Proof.
    apply cmd_ind3; intros; cbn [gcmd gcmds grest ok_cmd ok_cmds ok_rest] in *;
      repeat match goal with H : _ && _ = true |- _ => apply andb_true_iff in H; destruct H end; try exact Logic.I.
    - split; [|exact Logic.I]. intro B. destruct (proj1 (plain_not _ H) B).
    - cbn. split; [intros []|]. split; [auto|]. split; [|exact Logic.I]. intro B. destruct (proj1 (plain_not _ H) B).
    - apply tree_chain; [assumption|]. cbn [app]. split; [reflexivity|]. cbn [is_test].
      apply chain_app; [|eapply H; eauto]. apply chain_app; [eapply H0; eauto|now apply kcode_chain].
    - apply not_chain; [intros []|]. apply not_chain; [intros []|]. apply chain_app; [|eapply H; eauto]. apply chain_app; [|now apply kcode_chain].
      apply not_chain; [intros []|exact Logic.I].
    - apply not_chain; [intros []|]. apply chain_app; [|eapply H; eauto]. apply chain_app; [|now apply kcode_chain].
      apply not_chain; [intros []|exact Logic.I].
    - destruct l as [n|].
      + destruct (named_loop n 0 env) as [[a b]|]; [|exact Logic.I]. repeat (apply not_chain; [intros []|]). exact Logic.I.
      + destruct env as [|l env]; [exact Logic.I|]. destruct (lp_for l); cbn [app]; repeat (apply not_chain; [intros []|]); exact Logic.I.
    - destruct env as [|l env]; [exact Logic.I|]. repeat (apply not_chain; [intros []|]); exact Logic.I.
    - destruct (length _); cbn [app]; repeat (apply not_chain; [intros []|]); exact Logic.I.
    - apply chain_app; [eapply H0; eauto|eapply H; eauto].
    - apply not_chain; [intros []|]. apply chain_app; [now apply kcode_chain|eapply H; eauto].
    - apply not_chain; [intros []|]. apply tree_chain; [assumption|]. cbn [app]. split; [reflexivity|]. cbn [is_test].
      apply chain_app; [|eapply H; eauto]. apply chain_app; [eapply H0; eauto|now apply kcode_chain].
  Qed.

  (** No branch at position [q] *)
  Definition lands (l : list instruction) (q : nat) : Prop := forall i, nth_error l q = Some i -> ~ branches i.
  Definition lands_all (l : list instruction) (c : list instruction) : Prop := Forall (fun i => forall q, goes_to i q -> lands l q) c.
  Lemma land_end l pre suf q : l = pre ++ suf -> length pre = q -> chain false suf -> lands l q.
  Proof.
    intros -> <- C i N B. rewrite nth_error_app2, Nat.sub_diag in N by lia. destruct suf as [|j suf]; [discriminate|]. injection N as ->. discriminate (proj1 C B).
  Qed.
  Lemma quiet_lands l c : Forall (fun i => forall q, ~ goes_to i q) c -> lands_all l c.
  Proof. apply Forall_impl. intros i N q G. destruct (N q G). Qed.
  Lemma kcode_lands l k : plain_opt k = true -> lands_all l (kcode k).
  Proof. destruct k; cbn; intro P; constructor; [|constructor]. intros q G. destruct (proj2 (plain_not _ P) q G). Qed.
  Lemma tree_quiet :
    (forall t p neg, tleaves t = true -> Forall (fun i => forall q, ~ goes_to i q) (gtree p neg t)) /\
    (forall ts p q all neg, tleaves_all ts = true -> Forall (fun i => forall q, ~ goes_to i q) (gtrees p q all neg ts)).
  Proof.
    apply tree_ind2; cbn [gtree gtrees tleaves tleaves_all]; intros; auto.
    - constructor; [|constructor]. intros q G. destruct i, neg; try discriminate; destruct G.
    - apply andb_true_iff in H1. destruct H1 as [A B]. apply Forall_app. split; [now apply H|]. constructor; [|now apply H0]. intros r G. destruct all; destruct G.
  Qed.
  Definition env_lands (l : list instruction) (env : list loop_at) : Prop := Forall (fun x => lands l (lp_start x) /\ lands l (lp_exit x)) env.
  Lemma named_lands l n env : env_lands l env -> forall k a b, named_loop n k env = Some (a, b) -> lands l b.
  Proof.
    induction 1 as [|x env [_ X] F IH]; intros k a b; cbn [named_loop]; [discriminate|]. destruct (lp_for x); [|apply IH].
    destruct (label_eqb _ _); [|apply IH]. intro H. now injection H as _ <-.
  Qed.
  Ltac lens := rewrite ?app_length, ?gtree_len; cbn [length]; rewrite ?app_length, ?gtree_len; cbn [length].
  Lemma cmd_lands :
    (forall c e p env l pre post, ok_cmd lim e c = true -> sig env = sig_e e -> env_lands l env -> l = pre ++ gcmd p env c ++ post -> length pre = p ->
      chain false post -> lands_all l (gcmd p env c)) /\
    (forall cs e p env l pre post, ok_cmds lim e cs = true -> sig env = sig_e e -> env_lands l env -> l = pre ++ gcmds p env cs ++ post -> length pre = p ->
      chain false post -> lands_all l (gcmds p env cs)) /\
    (forall r e p y env l pre post, ok_rest lim e r = true -> sig env = sig_e e -> env_lands l env -> l = pre ++ grest p y env r ++ post -> length pre = p ->
      lands l y -> chain false post -> lands_all l (grest p y env r)).
  Proof.
    pose proof (gcmd_length lim) as (Lc & Ls & Lr). pose proof cmd_chain as (Cc & Cs & Cr).
    assert (Lk : forall k, length (kcode k) = ksize k) by (intros [?|]; reflexivity).
    apply cmd_ind3; intros; cbn [gcmd gcmds grest ok_cmd ok_cmds ok_rest] in *;
      repeat match goal with H : _ && _ = true |- _ => apply andb_true_iff in H; destruct H end; try (now constructor).
    - constructor; [|constructor]. intros q G. destruct (proj2 (plain_not _ H) q G).
    - constructor; [intros q []|]. constructor; [intros q []|]. constructor; [|constructor]. intros q G. destruct (proj2 (plain_not _ H) q G).
    - (* if *)
      set (q := p + tsize t + 1) in *. set (q2 := q + ssize (fors env) b + ksize k) in *. set (jz := IxJz _) in *.
      set (y := q2 + rsize (fors env) r) in *.
      assert (Lb : length (gcmds q env b) = ssize (fors env) b) by (eapply (Ls b (EPlain :: e)); eauto).
      assert (Lrr : length (grest q2 y env r) = rsize (fors env) r) by (eapply Lr; eauto).
      assert (Q : l = pre ++ gtree p false t ++ [jz] ++ gcmds q env b ++ kcode k ++ grest q2 y env r ++ post) by (rewrite H4; rewrite <- ?app_assoc; reflexivity).
      apply Forall_app. split; [apply quiet_lands; now apply tree_quiet|]. constructor; [intros z []|]. repeat (apply Forall_app; split).
      + apply (H (EPlain :: e) q env l (pre ++ gtree p false t ++ [jz]) (kcode k ++ grest q2 y env r ++ post)); auto.
        * rewrite Q, <- !app_assoc. reflexivity.
        * lens. unfold q. lia.
        * apply chain_app; [|now apply kcode_chain]. apply chain_app; [assumption|eapply Cr; eauto].
      + now apply kcode_lands.
      + apply (H0 e q2 y env l (pre ++ gtree p false t ++ [jz] ++ gcmds q env b ++ kcode k) post); auto.
        * rewrite Q, <- !app_assoc. reflexivity.
        * lens. rewrite Lb, Lk. unfold q2, q. lia.
        * apply (land_end l (pre ++ gtree p false t ++ [jz] ++ gcmds q env b ++ kcode k ++ grest q2 y env r) post); auto.
          -- rewrite Q, <- !app_assoc. reflexivity.
          -- lens. rewrite Lb, Lk, Lrr. unfold y, q2, q. lia.
    - (* foreverypart *)
      set (q := p + 2 + ssize (true :: fors env) b + ksize k + 1) in *. set (env' := {| lp_for := true; lp_label := l; lp_start := p + 1; lp_exit := q |} :: env) in *.
      assert (Sg : sig env' = sig_e (EFor l :: e)) by (unfold env'; cbn; unfold sig in *; cbn; congruence).
      assert (Lb : length (gcmds (p + 2) env' b) = ssize (true :: fors env) b) by (rewrite (Ls b (EFor l :: e)); auto).
      assert (Q : l0 = pre ++ [IxForEveryPartPush; IxForEveryPart q] ++ gcmds (p + 2) env' b ++ kcode k ++ [IxJmp (p + 1)] ++ post) by (rewrite H3; cbn [app]; rewrite <- ?app_assoc; reflexivity).
      assert (End : lands l0 q).
      { apply (land_end l0 (pre ++ [IxForEveryPartPush; IxForEveryPart q] ++ gcmds (p + 2) env' b ++ kcode k ++ [IxJmp (p + 1)]) post); auto.
        - rewrite Q, <- !app_assoc. reflexivity.
        - lens. rewrite Lb, Lk. unfold q. lia. }
      assert (Start : lands l0 (p + 1)).
      { intros i N. rewrite Q in N. rewrite nth_error_app2 in N by lia. replace (p + 1 - length pre) with 1 in N by lia. injection N as <-. intros []. }
      constructor; [intros z []|]. constructor; [intros z ->; exact End|]. repeat (apply Forall_app; split).
      + apply (H (EFor l :: e) (p + 2) env' l0 (pre ++ [IxForEveryPartPush; IxForEveryPart q]) (kcode k ++ [IxJmp (p + 1)] ++ post)); auto.
        * constructor; [split; assumption|assumption].
        * rewrite Q, <- !app_assoc. reflexivity.
        * lens. lia.
        * apply chain_app; [|now apply kcode_chain]. apply not_chain; [intros []|assumption].
      + now apply kcode_lands.
      + constructor; [|constructor]. intros z ->. exact Start.
    - (* while *)
      set (q := p + 1 + ssize (false :: fors env) b + ksize k + 1) in *. set (env' := {| lp_for := false; lp_label := None; lp_start := p; lp_exit := q |} :: env) in *.
      assert (Sg : sig env' = sig_e (EWhile :: e0)) by (unfold env'; cbn; unfold sig in *; cbn; congruence).
      assert (Lb : length (gcmds (p + 1) env' b) = ssize (false :: fors env) b) by (rewrite (Ls b (EWhile :: e0)); auto).
      assert (Q : l = pre ++ [IxWhile e q] ++ gcmds (p + 1) env' b ++ kcode k ++ [IxJmp p] ++ post) by (rewrite H3; cbn [app]; rewrite <- ?app_assoc; reflexivity).
      assert (End : lands l q).
      { apply (land_end l (pre ++ [IxWhile e q] ++ gcmds (p + 1) env' b ++ kcode k ++ [IxJmp p]) post); auto.
        - rewrite Q, <- !app_assoc. reflexivity.
        - lens. rewrite Lb, Lk. unfold q. lia. }
      assert (Start : lands l p).
      { intros i N. rewrite Q in N. rewrite nth_error_app2 in N by lia. replace (p - length pre) with 0 in N by lia. injection N as <-. intros []. }
      constructor; [intros z ->; exact End|]. repeat (apply Forall_app; split).
      + apply (H (EWhile :: e0) (p + 1) env' l (pre ++ [IxWhile e q]) (kcode k ++ [IxJmp p] ++ post)); auto.
        * constructor; [split; assumption|assumption].
        * rewrite Q, <- !app_assoc. reflexivity.
        * lens. lia.
        * apply chain_app; [|now apply kcode_chain]. apply not_chain; [intros []|assumption].
      + now apply kcode_lands.
      + constructor; [|constructor]. intros z ->. exact Start.
    - destruct l as [n|].
      + destruct (named_loop n 0 env) as [[a b]|] eqn:N; [|constructor]. constructor; [intros z []|]. constructor; [|constructor]. intros z ->. eapply named_lands; eauto.
      + destruct env as [|x env]; [constructor|]. apply Forall_app. split; [destruct (lp_for x); constructor; [intros z []|constructor]|].
        constructor; [|constructor]. intros z ->. exact (proj2 (Forall_inv H1)).
    - destruct env as [|x env]; [constructor|]. constructor; [|constructor]. intros z ->. exact (proj1 (Forall_inv H1)).
    - apply quiet_lands. destruct (length _); cbn [app]; repeat (constructor; [intros z []|]); constructor.
    - apply Forall_app. assert (L : length (gcmd p env c) = csize (fors env) c) by (eapply Lc; eauto). split.
      + apply (H e p env l pre (gcmds (p + csize (fors env) c) env cs ++ post)); auto; [rewrite H4, <- app_assoc; reflexivity|].
        apply chain_app; [assumption|eapply Cs; eauto].
      + apply (H0 e (p + csize (fors env) c) env l (pre ++ gcmd p env c) post); auto; [rewrite H4, <- !app_assoc; reflexivity|]. rewrite app_length. lia.
    - constructor; [intros z ->; assumption|]. apply Forall_app. split; [|now apply kcode_lands].
      apply (H (EPlain :: e) (p + 1) env l (pre ++ [IxJmp y]) (kcode k ++ post)); auto.
      + rewrite H3. cbn [app]. rewrite <- !app_assoc. reflexivity.
      + rewrite app_length. cbn. lia.
      + apply chain_app; [assumption|now apply kcode_chain].
    - set (q := p + 1 + tsize t + 1) in *. set (q2 := q + ssize (fors env) b + ksize k) in *. set (jz := IxJz _) in *.
      assert (Lb : length (gcmds q env b) = ssize (fors env) b) by (eapply (Ls b (EPlain :: e)); eauto).
      assert (Q : l = pre ++ [IxJmp y] ++ gtree (p + 1) false t ++ [jz] ++ gcmds q env b ++ kcode k ++ grest q2 y env r ++ post) by (rewrite H4; cbn [app]; rewrite <- ?app_assoc; cbn [app]; rewrite <- ?app_assoc; reflexivity).
      constructor; [intros z ->; assumption|]. apply Forall_app. split; [apply quiet_lands; now apply tree_quiet|]. constructor; [intros z []|]. repeat (apply Forall_app; split).
      + apply (H (EPlain :: e) q env l (pre ++ [IxJmp y] ++ gtree (p + 1) false t ++ [jz]) (kcode k ++ grest q2 y env r ++ post)); auto.
        * rewrite Q, <- !app_assoc. reflexivity.
        * lens. unfold q. lia.
        * apply chain_app; [|now apply kcode_chain]. apply chain_app; [assumption|eapply Cr; eauto].
      + now apply kcode_lands.
      + apply (H0 e q2 y env l (pre ++ [IxJmp y] ++ gtree (p + 1) false t ++ [jz] ++ gcmds q env b ++ kcode k) post); auto.
        * rewrite Q, <- !app_assoc. reflexivity.
        * lens. rewrite Lb, Lk. unfold q2, q. lia.
  Qed.
  Lemma layout_tested p x : ok_prog lim p = true -> s_code x = gprog p -> tested x.
  Proof.
    intros O S pos i N B. rewrite S in *. unfold ok_prog in O.
    assert (Ch : chain false (gprog p)).
    { unfold gprog. apply chain_app; [eapply (proj1 (proj2 cmd_chain)); eauto|]. destruct (p_require p); [exact Logic.I|]. apply not_chain; [intros []|exact Logic.I]. }
    destruct (chain_nth _ _ _ _ Ch N B) as [[_ D]|(p' & t & -> & N' & T)]; [discriminate|]. split; [exists p', t; auto|].
    intros j J G. assert (L : lands_all (gprog p) (gprog p)).
    { unfold gprog. apply Forall_app. split.
      - destruct (p_require p); [constructor|]. constructor; [intros z []|constructor].
      - eapply (proj1 (proj2 cmd_lands)) with (e := []) (post := []) (pre := match p_require p with [] => [] | caps => [IxRequire caps] end); eauto; try reflexivity.
        + constructor.
        + now rewrite app_nil_r.
        + destruct (p_require p); reflexivity. }
    exact (proj1 (Forall_forall _ _) L j J _ G i N B).
  Qed.
End P.
