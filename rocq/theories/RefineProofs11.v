(** A compiled script, as the program that it spells. *)
From Coq Require Import Lia.
From Verif Require Import Base Lib Value Comparator Expr Sieve Utf8 Lexer Scope StringTok Compile ParseArgs ParseBase Parse CompileSpec CompileProofs1
  CompileProofs3 ControlSpec ArgSpec RefineSpec RefineProofs1 RefineProofs4 RefineProofs8 RefineProofs9 RefineProofs10 RefineProofs14.
Import ListNotations.
Local Open Scope list_scope.

(** *** What is read is a test or a plain action *)

Lemma leaf_ok K V t us vs i W : leaf_is K V t us vs i W -> is_test i = true /\ fresh i = true.
Proof. intro H. destruct H as [n us vs t W H| | |]; [|split; reflexivity..]. destruct H as [? ? ? H|]; [destruct H|]; split; reflexivity. Qed.
Lemma test_reads_ok K W V us ks : test_reads K W V us ks -> Forall tok_ok ks.
Proof. induction 1; constructor; try exact Logic.I; auto. eapply leaf_ok; eauto. Qed.
Lemma action_plain K V n us i W : action_is K V n us i W -> plain i = true.
Proof. intro H. destruct H as [? ? ? H| | | |]; try destruct H; reflexivity. Qed.
Lemma vacation_plain K V us t i : vacation_is K V us t i -> plain i = true.
Proof. intros (l & x & r & subject & from & mime & addrs & handle & p & fcc & _ & _ & _ & _ & _ & _ & _ & _ & _ & _ & _ & ->). reflexivity. Qed.
Lemma reads_ok K W D V ts ks : script_reads K W D V ts ks -> Forall tok_ok ks.
Proof.
  induction 1; repeat (apply Forall_cons; [try exact Logic.I|]); auto; try (constructor; fail).
  - apply Forall_app. split; [eapply test_reads_ok; eauto|]. constructor; [exact Logic.I|auto].
  - apply Forall_app. split; [eapply test_reads_ok; eauto|]. constructor; [exact Logic.I|auto].
  - destruct H as (l & y & n & g & o & op & _ & _ & _ & _ & _ & _ & ->). reflexivity.
  - eapply vacation_plain; eauto.
  - eapply action_plain; eauto.
  - cbn. unfold cleared. destruct (Nat.ltb 0 num); [reflexivity|]. destruct (N.eqb mv 0); reflexivity.
Qed.

(** *** Changes inside instructions *)

Definition alike (K : cenv) (o : option nat) (i i' : instruction) : Prop := exists m, i' = moved K o (capture m i).
Lemma alike_kind K o i i' : alike K o i i' -> is_test i' = is_test i /\ fresh i' = fresh i /\ plain i' = plain i.
Proof.
  intros (m & ->). unfold moved.
  assert (A : forall j, is_test (capture m j) = is_test j /\ fresh (capture m j) = fresh j /\ plain (capture m j) = plain j).
  { intro j. destruct j; try (repeat split; fail). destruct t; repeat split. }
  assert (B : forall f j, is_test (map_instruction f j) = is_test j /\ fresh (map_instruction f j) = fresh j /\ plain (map_instruction f j) = plain j).
  { intros f j. destruct j; try (repeat split; fail).
    - destruct opts as [[n r] t]. repeat split.
    - destruct t; repeat split. }
  specialize (A i). destruct o as [n|]; [|exact A]. destruct (B (map_var (C_umax K) n) (capture m i)) as (B1 & B2 & B3). destruct A as (A1 & A2 & A3).
  repeat split; congruence.
Qed.
Lemma like_ok K o k k' : tok_like (alike K o) k k' -> tok_ok k -> tok_ok k'.
Proof.
  destruct 1; cbn [tok_ok]; auto.
  - apply alike_kind in H. destruct H as (-> & -> & _). auto.
  - apply alike_kind in H. destruct H as (_ & _ & ->). auto.
  - apply alike_kind in H. destruct H as (_ & _ & ->). auto.
  - apply alike_kind in H0. destruct H0 as (_ & _ & ->). auto.
Qed.
Lemma likes_ok K o ks ks' : Forall2 (tok_like (alike K o)) ks ks' -> Forall tok_ok ks -> Forall tok_ok ks'.
Proof. induction 1 as [|k k' ks ks' X F IH]; intro T; constructor; [exact (like_ok _ _ _ _ X (Forall_inv T))|exact (IH (Forall_inv_tail T))]. Qed.
Lemma like_pair R a a' b b' : tok_like R a a' -> tok_like R b b' -> neat_pair a' b' = neat_pair a b.
Proof.
  intros A B. assert (E : ends a' = ends a) by (destruct A; reflexivity).
  assert (X : match a' with KAnyOf | KAllOf => true | _ => false end = match a with KAnyOf | KAllOf => true | _ => false end) by (destruct A; reflexivity).
  assert (Y : match a' with KClose _ => true | _ => false end = match a with KClose _ => true | _ => false end) by (destruct A; reflexivity).
  unfold neat_pair. destruct B as [| | | | |k H]; cbn [begins]; rewrite ?E, ?X, ?Y; reflexivity.
Qed.
Lemma like_neat R ks ks' : Forall2 (tok_like R) ks ks' -> forall a a', tok_like R a a' -> neat a' ks' = neat a ks.
Proof. induction 1 as [|b b' ks ks' B F IH]; intros a a' A; cbn [neat]; [reflexivity|]. rewrite (like_pair R a a' b b'), (IH b b'); auto. Qed.
Lemma like_apart R ks ks' : Forall2 (tok_like R) ks ks' -> forallb apart ks' = forallb apart ks.
Proof. induction 1 as [|b b' ks ks' B F IH]; cbn [forallb]; [reflexivity|]. rewrite IH. f_equal. destruct B; reflexivity. Qed.
Lemma like_first R ks ks' : Forall2 (tok_like R) ks ks' -> required_first ks' = required_first ks.
Proof.
  induction 1 as [|b b' ks ks' B F IH]; [reflexivity|].
  destruct B as [| | | | |k N]; cbn [required_first forallb]; rewrite ?(like_apart _ _ _ F); try reflexivity. destruct k; try reflexivity. exact IH.
Qed.

(** *** What is required at the start *)

Definition after_require (caps : list capability) : cst := do_require caps start.
Lemma require_more a b : do_require b (after_require a) = after_require (a ++ b).
Proof.
  destruct a as [|x a]; [reflexivity|]. destruct b as [|y b]; [rewrite app_nil_r; reflexivity|]. reflexivity.
Qed.
Section First.
  Variables (umax : nat) (lim : limits).
  Lemma go_requires r s' : forall css f a, go umax lim f (map KRequire css ++ r) (after_require a) = COk s' ->
    exists f', go umax lim f' r (after_require (a ++ concat css)) = COk s'.
  Proof.
    induction css as [|cs css IH]; intros f a G; cbn [map app concat] in *.
    - rewrite app_nil_r. eauto.
    - destruct f as [|f]; [discriminate|]. cbn [go Compile.command] in G. rewrite require_more in G. apply IH in G. rewrite <- app_assoc in G. exact G.
  Qed.
  Lemma first_split ks : required_first ks = true -> exists css r, ks = map KRequire css ++ r /\ forallb apart r = true.
  Proof.
    induction ks as [|k ks IH]; intro H; [exists [], []; auto|].
    destruct k; try (eexists [], _; split; [reflexivity|exact H]). destruct (IH H) as (css & r & -> & A). exists (caps :: css), r. auto.
  Qed.
  Lemma neat_after css r : neat KOpen (map KRequire css ++ r) = true -> exists a, neat a r = true /\ match a with KClose _ => False | _ => True end.
  Proof.
    destruct css as [|c css] using rev_ind; [exists KOpen; auto|]. rewrite map_app, <- app_assoc. cbn [map app]. intro N.
    exists (KRequire c). split; [eapply neat_app; exact N|exact Logic.I].
  Qed.
  Lemma acted_requires css r : map acted (map KRequire css ++ r) = map KRequire css ++ map acted r.
  Proof. rewrite map_app, map_map. reflexivity. Qed.
  Lemma spelled ks code : neat KOpen ks = true -> required_first ks = true -> Compile.compile umax lim ks = Some code ->
    exists p, spells p ks /\ Compile.compile umax lim (rprog p) = Some code.
  Proof.
    intros N F C. destruct (first_split _ F) as (css & r & -> & A). apply alone_acted in A. apply compile_acted in C.
    rewrite <- (neat_acted _ KOpen) in N. cbn [acted] in N. unfold spells. rewrite acted_requires in N, C |- *. destruct (neat_after _ _ N) as (a & Na & NC).
    unfold Compile.compile in C. destruct (go _ _ _ _ _) as [| |s] eqn:G; try discriminate. injection C as <-.
    change start with (after_require []) in G. apply go_requires in G. destruct G as (f & G). cbn [app] in G.
    assert (T : types (after_require (concat css)) = []) by (destruct (concat css); reflexivity).
    pose proof (go_shape umax lim f a _ _ _ Na A ltac:(rewrite T; constructor) G) as B. rewrite (neat_else _ _ Na NC), T in B. destruct B as (cs & B). rewrite B in *.
    exists {| p_require := concat css; p_cmds := cs |}. split; [exists css; split; reflexivity|].
    unfold Compile.compile, rprog. cbn [p_require p_cmds length go Compile.command]. change (do_require (concat css) start) with (after_require (concat css)).
    now rewrite (go_enough _ _ _ _ _ _ G).
  Qed.
  Lemma within p code : Forall tok_ok (rcmds (p_cmds p)) -> fit_cmds [] (p_cmds p) = true -> Compile.compile umax lim (rprog p) = Some code -> ok_prog lim p = true.
  Proof.
    intros T F C. unfold Compile.compile, rprog in C. destruct (go _ _ _ _ _) as [| |s] eqn:G; try discriminate. cbn [length go Compile.command] in G.
    refine (proj1 (proj1 (proj2 (accepts umax lim)) (p_cmds p) [] [(BNot, None)] s _ T F _)); [split; reflexivity|].
    rewrite app_nil_r. exists (length (rcmds (p_cmds p))), (do_require (p_require p) start). split; [exact G|]. destruct (p_require p); reflexivity.
  Qed.
End First.

Lemma no_continue :
  (forall c, ~ In KContinue (rcmd c) -> forall e, fit_cmd e c = true) /\
  (forall cs, ~ In KContinue (rcmds cs) -> forall e, fit_cmds e cs = true) /\
  (forall r, ~ In KContinue (rrest r) -> forall e, fit_rest e r = true).
Proof.
  apply cmd_ind3; cbn [rcmd rcmds rrest fit_cmd fit_cmds fit_rest]; auto.
  - intros t b IHb k r IHr H e. rewrite IHb, IHr; auto; intro X; apply H; right; apply in_or_app; right; right; apply in_or_app; [right; right|left]; exact X.
  - intros l b IHb k H e. apply IHb. intro X; apply H; right; right; apply in_or_app; left; exact X.
  - intros l b IHb k H e. apply IHb. intro X; apply H; right; right; apply in_or_app; left; exact X.
  - intros H e. destruct H. left. reflexivity.
  - intros c IH cs IHs H e. rewrite IH, IHs; auto; intro X; apply H; apply in_or_app; auto.
  - intros b IHb k H e. apply IHb. intro X; apply H; right; right; apply in_or_app; left; exact X.
  - intros t b IHb k r IHr H e. rewrite IHb, IHr; auto; intro X; apply H; right; apply in_or_app; right; right; apply in_or_app; [right; right|left]; exact X.
Qed.
Lemma like_continue R ks ks' : Forall2 (tok_like R) ks ks' -> In KContinue ks' -> In KContinue ks.
Proof.
  induction 1 as [|b b' ks ks' B F IH]; intro X; [destruct X|]. destruct X as [->|X]; [left|right; auto]. inversion B; reflexivity.
Qed.
(** Includes as actions *)
Lemma acted_ok ks : Forall tok_ok ks -> Forall tok_ok (map acted ks).
Proof. induction 1 as [|k ks O F IH]; constructor; [|exact IH]. destruct k; exact O. Qed.
Lemma acted_continue ks : In KContinue (map acted ks) -> In KContinue ks.
Proof. intro X. apply in_map_iff in X. destruct X as (k & E & X). destruct k; try discriminate E. exact X. Qed.
