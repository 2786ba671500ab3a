(** Positions in the compiled code and what is left to do there. *)
From Coq Require Import Lia.
From Verif Require Import Base Lib Address Var Value Flags Comparator Message EditHeader Expr Event
  Notify Vacation Mime Sieve Run RunSpec Compile CompileSpec CompileProofs1 CompileProofs2.

Definition at_ (C : list instruction) (p : nat) (l : list instruction) : Prop :=
  exists pre post, C = pre ++ l ++ post /\ length pre = p.
Lemma at_app C p a b : at_ C p (a ++ b) -> at_ C p a /\ at_ C (p + length a) b.
Proof.
  intros (pre & post & -> & <-). split.
  - exists pre, (b ++ post). split; [now rewrite <- app_assoc|reflexivity].
  - exists (pre ++ a), post. split; [now rewrite <- !app_assoc|now rewrite app_length].
Qed.
Lemma at_app1 C p a b : at_ C p (a ++ b) -> at_ C p a.
Proof. apply at_app. Qed.
Lemma at_app2 C p a b : at_ C p (a ++ b) -> at_ C (p + length a) b.
Proof. apply at_app. Qed.
Lemma at_cons C p i l : at_ C p (i :: l) -> at_ C p [i] /\ at_ C (p + 1) l.
Proof. apply (at_app C p [i] l). Qed.
Lemma at_nth C p i l : at_ C p (i :: l) -> nth_error C p = Some i.
Proof. intros (pre & post & -> & <-). rewrite nth_error_app2 by lia. now rewrite Nat.sub_diag. Qed.

(** The iterators of the loops of a list of tasks. *)
Fixpoint iter_of (ts : list task) : list nat :=
  match ts with
  | [] => []
  | KFor _ ids _ _ _ :: _ => ids
  | _ :: ts => iter_of ts
  end.
Fixpoint iters_of (ts : list task) : list (nat * list nat) :=
  match ts with
  | [] => []
  | KFor _ _ saved _ _ :: ts => (saved, iter_of ts) :: iters_of ts
  | _ :: ts => iters_of ts
  end.
Lemma iter_block b k ts : iter_of (block b k ts) = iter_of ts.
Proof. destruct k; reflexivity. Qed.
Lemma iters_block b k ts : iters_of (block b k ts) = iters_of ts.
Proof. destruct k; reflexivity. Qed.
Lemma iters_in_for ts : iters_of ts = [] <-> in_for ts = false.
Proof. induction ts as [|[] ts IH]; cbn; try tauto. split; discriminate. Qed.

Lemma test_plain (n : bool) i : is_test i = true -> plain (if n then set_not i else i) = true.
Proof. destruct i, n; try discriminate; reflexivity. Qed.

Lemma test_include (n : bool) i : is_test i = true -> is_include (if n then set_not i else i) = false.
Proof. destruct i, n; try discriminate; reflexivity. Qed.
Lemma xorb_neg n : xorb (negb n) n = true.
Proof. destruct n; reflexivity. Qed.

Section At.
  Variable E : renv.
  Variable Progs : sieve -> prog -> Prop.
  Variable lim : limits.
  Variable C : list instruction.
  (** What is left to do when the script has ended. *)
  Variable base : list task.
  Hypothesis base_ok : base = [] \/ exists ts, base = KLeave :: ts.
  Notation at_ := (at_ C).

  Definition lp (f : bool) (l : option text) (p q : nat) : loop_at :=
    {| lp_for := f; lp_label := l; lp_start := p; lp_exit := q |}.

  Inductive T : nat -> list loop_at -> list task -> Prop :=
  | T_end : T (length C) [] base
  | T_seq p env cs ts e : at_ p (gcmds p env cs) -> ok_cmds lim e cs = true -> sig env = sig_e e ->
      T (p + ssize (fors env) cs) env ts -> T p env (KSeq cs :: ts)
  | T_do p env i ts : at_ p [i] -> plain i = true -> T (p + 1) env ts -> T p env (KDo i :: ts)
  | T_none p env ts : T p env ts -> T p env (KRest RNone :: ts)
  | T_else p env b k ts : T p env (block b k ts) -> T p env (KRest (RElse b k) :: ts)
  | T_elsif p env t b k r ts z : at_ p (gtree p false t ++ [IxJz z]) -> tleaves t = true ->
      T (p + tsize t + 1) env (block b k ts) -> T z env (KRest r :: ts) ->
      T p env (KRest (RElsIf t b k r) :: ts)
  | T_for p env l ids saved b k ts e :
      let q := p + 1 + ssize (true :: fors env) b + ksize k + 1 in
      at_ p (IxForEveryPart q :: gcmds (p + 1) (lp true l p q :: env) b ++ kcode k ++ [IxJmp p]) ->
      ok_cmds lim (EFor l :: e) b = true -> plain_opt k = true -> sig env = sig_e e ->
      T q env ts -> T p (lp true l p q :: env) (KFor l ids saved b k :: ts)
  | T_while p env x b k ts e :
      let q := p + 1 + ssize (false :: fors env) b + ksize k + 1 in
      at_ p (IxWhile x q :: gcmds (p + 1) (lp false None p q :: env) b ++ kcode k ++ [IxJmp p]) ->
      ok_cmds lim (EWhile :: e) b = true -> plain_opt k = true -> sig env = sig_e e ->
      T q env ts -> T p (lp false None p q :: env) (KLoop x b k :: ts)
  | T_jmp p q env ts : at_ p [IxJmp q] -> T q env ts -> T p env ts.

  Inductive K : nat -> bool -> list nat -> list (nat * list nat) -> kont -> Prop :=
  | K_run p b env ts it its : T p env ts -> it = iter_of ts -> its = iters_of ts -> K p b it its (Run_ ts)
  | K_ret p b : at_ p [IxReturn] -> K p b (iter_of base) (iters_of base) (Run_ (KDo IxReturn :: after base))
  | K_test p b it its n t yes no : at_ p (gtree p n t) -> tleaves t = true ->
      (forall b', K (p + tsize t) b' it its (if xorb b' n then yes else no)) -> K p b it its (Test_ n t yes no)
  | K_head p b it its k i next : nth_error C p = Some i -> plain i = true -> head k = Some (i, next) ->
      (forall b', K (p + 1) b' it its (next b')) -> (its = [] <-> in_loop k = false) ->
      (forall ts, k = Run_ ts -> it = iter_of ts /\ its = iters_of ts) ->
      (is_include i = true -> exists ts, k = Run_ ts) ->
      K p b it its k
  | K_jmp p q b it its k : at_ p [IxJmp q] -> K q b it its k -> K p b it its k
  | K_jz p q (b : bool) it its k : at_ p [IxJz q] -> K (if b then p + 1 else q) b it its k -> K p b it its k
  | K_jnz p q (b : bool) it its k : at_ p [IxJnz q] -> K (if b then q else p + 1) b it its k -> K p b it its k.

  (** What the next instruction is, and what the script does there. *)
  Inductive ready : nat -> bool -> list nat -> list (nat * list nat) -> kont -> Prop :=
  | R_end b : ready (length C) b (iter_of base) (iters_of base) (Run_ base)
  | R_ret p b : nth_error C p = Some IxReturn -> ready p b (iter_of base) (iters_of base) (Run_ (KDo IxReturn :: after base))
  | R_do p b it its k i next : nth_error C p = Some i -> plain i = true -> head k = Some (i, next) ->
      (forall b', K (p + 1) b' it its (next b')) -> (its = [] <-> in_loop k = false) ->
      (forall ts, k = Run_ ts -> it = iter_of ts /\ its = iters_of ts) ->
      (is_include i = true -> exists ts, k = Run_ ts) ->
      ready p b it its k
  | R_jump p (b : bool) it its k i q : nth_error C p = Some i ->
      (i = IxJmp q \/ (exists z, i = IxJz z /\ q = if b then p + 1 else z) \/
                      (exists z, i = IxJnz z /\ q = if b then z else p + 1)) ->
      K q b it its k -> ready p b it its k
  | R_push p b0 l b k cs ts : nth_error C p = Some IxForEveryPartPush ->
      (forall ids saved, exists env, T (p + 1) env (KFor l ids saved b k :: KSeq cs :: ts)) ->
      ready p b0 (iter_of ts) (iters_of ts) (Run_ (KSeq (CCons (CFor l b k) cs) :: ts))
  | R_for p q b0 l ids saved b k ts env env' : nth_error C p = Some (IxForEveryPart q) ->
      T q env ts -> (forall ids, T (p + 1) env' (block b k (KFor l ids saved b k :: ts))) ->
      ready p b0 ids ((saved, iter_of ts) :: iters_of ts) (Run_ (KFor l ids saved b k :: ts))
  | R_while p q b0 x b k ts env env' : nth_error C p = Some (IxWhile x q) ->
      T q env ts -> T (p + 1) env' (block b k (KLoop x b k :: ts)) -> T p env' (KLoop x b k :: ts) ->
      ready p b0 (iter_of ts) (iters_of ts) (Run_ (KLoop x b k :: ts))
  | R_pop p b n saved it its it' its' k k' : nth_error C p = Some (IxForEveryPartPop n) ->
      (forall s, r_iter s = it -> r_iters s = its -> pop_parts n s = w_part saved (w_iter it' (w_iters its' s))) ->
      (forall s s', same (w_part saved s) s' -> src E Progs (k, s) [] (k', s')) ->
      K (p + 1) b it' its' k' -> ready p b it its k.

  Definition silent (k k' : kont) : Prop := forall s, srcs E Progs (k, s) [] (k', s).
  Lemma silent_refl k : silent k k.
  Proof. intros s. constructor. Qed.
  Lemma silent_step k k' k1 : (forall s, src E Progs (k, s) [] (k', s)) -> silent k' k1 -> silent k k1.
  Proof. intros A B s. apply (srcs_cons E Progs (k, s) (k', s) (k1, s) [] []); auto. Qed.

  Definition normal (p : nat) (b : bool) it its k : Prop :=
    exists k1, silent k k1 /\ ready p b it its k1.
  Lemma normal_step p b it its k k' : (forall s, src E Progs (k, s) [] (k', s)) -> normal p b it its k' -> normal p b it its k.
  Proof. intros A (k1 & B & R). exists k1. split; [|exact R]. eapply silent_step; eauto. Qed.
  Lemma normal_ready p b it its k : ready p b it its k -> normal p b it its k.
  Proof. intros R. exists k. split; [apply silent_refl|exact R]. Qed.

  Lemma iters_after : iter_of (after base) = iter_of base /\ iters_of (after base) = iters_of base.
  Proof. destruct base_ok as [-> | [ts ->]]; split; reflexivity. Qed.
  Lemma K_loop p b it its k : K p b it its k -> its = [] <-> in_loop k = false.
  Proof.
    induction 1 as [p b env ts it its H -> ->|p b A|p b it its n t yes no A L H IH| | | |]; auto.
    - apply iters_in_for.
    - destruct iters_after as [_ <-]. apply iters_in_for.
    - cbn. specialize (IH (negb n)). rewrite xorb_neg in IH. exact IH.
  Qed.

  Lemma K_iter p b it its ts : K p b it its (Run_ ts) -> it = iter_of ts /\ its = iters_of ts.
  Proof.
    intros H. remember (Run_ ts) as k eqn:Q. induction H; subst; try discriminate; auto.
    - injection Q as <-. now split.
    - injection Q as <-. destruct iters_after as [A1 A2]. cbn. now rewrite A1, A2.
  Qed.

  (** *** Tests *)
  Lemma norm_test : forall t n p b it its yes no, at_ p (gtree p n t) -> tleaves t = true ->
    (forall b', K (p + tsize t) b' it its (if xorb b' n then yes else no)) -> normal p b it its (Test_ n t yes no).
  Proof.
    enough (X : (forall t n p b it its yes no, at_ p (gtree p n t) -> tleaves t = true ->
      (forall b', K (p + tsize t) b' it its (if xorb b' n then yes else no)) -> normal p b it its (Test_ n t yes no)) /\
      (forall ts all n p b it its yes no, at_ p (gtree p n (if all : bool then TAll ts else TAny ts)) -> tleaves_all ts = true ->
      (forall b', K (p + tsizes ts) b' it its (if xorb b' n then yes else no)) ->
      normal p b it its (Test_ n (if all then TAll ts else TAny ts) yes no))) by exact (proj1 X).
    apply tree_ind2.
    - intros c n p b it its yes no A L H. apply normal_ready. cbn in *. eapply R_do.
      + eapply at_nth; exact A.
      + destruct (xorb c n); reflexivity.
      + cbn. reflexivity.
      + intros b'. apply H.
      + cbn. specialize (H (negb n)). rewrite xorb_neg in H. eapply K_loop; exact H.
      + discriminate.
      + destruct (xorb c n); discriminate.
    - intros i n p b it its yes no A L H. apply normal_ready. cbn in *. eapply R_do.
      + eapply at_nth; exact A.
      + now apply test_plain.
      + cbn. reflexivity.
      + intros b'. apply H.
      + cbn. specialize (H (negb n)). rewrite xorb_neg in H. eapply K_loop; exact H.
      + discriminate.
      + rewrite test_include by exact L. discriminate.
    - intros t IH n p b it its yes no A L H. eapply normal_step; [intros s; apply src_not; reflexivity|].
      apply IH; auto. intros b'. specialize (H b'). cbn [tsize] in H. destruct b', n; exact H.
    - intros ts IH n p b it its yes no A L H. exact (IH false n p b it its yes no A L H).
    - intros ts IH n p b it its yes no A L H. exact (IH true n p b it its yes no A L H).
    - intros t IH all n p b it its yes no A L H. cbn in L. destruct all; cbn in A, H.
      + eapply normal_step; [intros s; apply src_all1; reflexivity|]. apply IH; auto.
      + eapply normal_step; [intros s; apply src_any1; reflexivity|]. apply IH; auto.
    - intros t IH ts _ all n p b it its yes no A L H. cbn [tleaves_all] in L. apply andb_true_iff in L as [L1 L2].
      destruct all; cbn [gtree gtrees tsizes] in A; cbn [tsizes] in H.
      + eapply normal_step; [intros s; apply src_all; reflexivity|].
        apply at_app in A as [A1 A2]. rewrite gtree_len in A2. apply at_cons in A2 as [A2 A3].
        apply IH; auto. intros b'.
        assert (Q : K (p + tsize t + 1) b' it its (Test_ n (TAll ts) yes no)).
        { apply K_test; auto.
          - cbn [gtree]. replace (p + tsize t + 1 + tsizes ts) with (p + (tsize t + 1 + tsizes ts)) by lia. exact A3.
          - cbn [tsize]. intros b2. replace (p + tsize t + 1 + tsizes ts) with (p + (tsize t + 1 + tsizes ts)) by lia. apply H. }
        specialize (H b'). destruct n; cbn [negb] in A2.
        * eapply K_jnz; [exact A2|]. destruct b'; cbn in *; auto.
        * eapply K_jz; [exact A2|]. destruct b'; cbn in *; auto.
      + eapply normal_step; [intros s; apply src_any; reflexivity|].
        apply at_app in A as [A1 A2]. rewrite gtree_len in A2. apply at_cons in A2 as [A2 A3].
        apply IH; auto. intros b'.
        assert (Q : K (p + tsize t + 1) b' it its (Test_ n (TAny ts) yes no)).
        { apply K_test; auto.
          - cbn [gtree]. replace (p + tsize t + 1 + tsizes ts) with (p + (tsize t + 1 + tsizes ts)) by lia. exact A3.
          - cbn [tsize]. intros b2. replace (p + tsize t + 1 + tsizes ts) with (p + (tsize t + 1 + tsizes ts)) by lia. apply H. }
        specialize (H b'). destruct n.
        * eapply K_jz; [exact A2|]. destruct b'; cbn in *; auto.
        * eapply K_jnz; [exact A2|]. destruct b'; cbn in *; auto.
  Qed.

  (** *** Blocks *)
  Lemma T_block p env b k ts e : at_ p (gcmds p env b ++ kcode k) -> ok_cmds lim e b = true -> plain_opt k = true ->
    sig env = sig_e e -> T (p + ssize (fors env) b + ksize k) env ts -> T p env (block b k ts).
  Proof.
    destruct (gcmd_length lim) as (_ & Ls & _).
    intros A O P S H. apply at_app in A as [A1 A2]. rewrite (Ls b e) in A2 by auto.
    apply (T_seq p env b _ e); auto. destruct k as [i|]; cbn [do_opt kcode ksize app plain_opt] in *.
    - now apply T_do.
    - now rewrite Nat.add_0_r in H.
  Qed.
  Lemma T_rest : forall r q2 env ts e, at_ q2 (grest q2 (q2 + rsize (fors env) r) env r) -> ok_rest lim e r = true ->
    sig env = sig_e e -> T (q2 + rsize (fors env) r) env ts ->
    T (match r with RNone => q2 | _ => q2 + 1 end) env (KRest r :: ts) /\ T q2 env ts.
  Proof.
    destruct (gcmd_length lim) as (_ & Ls & _).
    assert (G : forall r q2 y env ts e, at_ q2 (grest q2 y env r) -> y = q2 + rsize (fors env) r -> ok_rest lim e r = true ->
      sig env = sig_e e -> T y env ts -> T (match r with RNone => q2 | _ => q2 + 1 end) env (KRest r :: ts) /\ T q2 env ts).
    { induction r as [|b k|t b k r IH]; intros q2 y env ts e A Y O S H; cbn [grest rsize ok_rest] in *.
      - rewrite Nat.add_0_r in Y. subst y. split; [now apply T_none|exact H].
      - apply at_cons in A as [A1 A2].
        apply andb_true_iff in O as [O Ok]. apply andb_true_iff in O as [O1 Ob].
        split; [|eapply T_jmp; eauto]. apply T_else. eapply (T_block _ _ _ _ _ (EPlain :: e)); eauto.
        replace (q2 + 1 + ssize (fors env) b + ksize k) with y by lia. exact H.
      - apply at_cons in A as [A1 A2]. split; [|eapply T_jmp; eauto].
        apply andb_true_iff in O as [O Or]. apply andb_true_iff in O as [O Ok]. apply andb_true_iff in O as [O Ob].
        apply andb_true_iff in O as [O O1]. apply andb_true_iff in O as [Ot O2].
        rewrite (app_assoc (gtree _ _ _)) in A2. apply at_app in A2 as [A2 A3].
        rewrite app_length, gtree_len in A3. cbn [length] in A3. rewrite Nat.add_assoc in A3.
        rewrite (app_assoc (gcmds _ _ _)) in A3. apply at_app in A3 as [A3 A4].
        rewrite app_length, (Ls b (EPlain :: e)) in A4 by auto.
        assert (KL : length (kcode k) = ksize k) by (destruct k; reflexivity). rewrite KL in A4. rewrite Nat.add_assoc in A4.
        destruct (IH _ _ _ ts e A4) as [I1 I2]; auto; [lia|].
        eapply T_elsif; eauto. apply (T_block _ _ _ _ _ (EPlain :: e)); auto. }
    intros. eapply G; eauto.
  Qed.

  (** *** Leaving loops *)
  Fixpoint pops (n : nat) (it : list nat) (its : list (nat * list nat)) (part : nat) : nat * list nat * list (nat * list nat) :=
    match n with
    | 0 => (part, it, its)
    | S n => match its with [] => (part, it, its) | (p, it) :: its => pops n it its p end
    end.
  Lemma pop_parts_pops n : forall s part' it' its',
    pops n (r_iter s) (r_iters s) (r_part s) = (part', it', its') -> pop_parts n s = w_part part' (w_iter it' (w_iters its' s)).
  Proof.
    induction n as [|n IH]; intros s part' it' its' H; cbn in *.
    - injection H as <- <- <-. destruct s; reflexivity.
    - destruct (r_iters s) as [|[p it] its] eqn:Q.
      + injection H as <- <- <-. rewrite <- Q. destruct s; reflexivity.
      + rewrite (IH (w_part p (w_iter it (w_iters its s))) part' it' its' H). destruct s; reflexivity.
  Qed.

  Lemma T_leave p env ts : T p env ts -> forall l env0, env = l :: env0 ->
    exists ts', T (lp_exit l) env0 ts' /\
      if lp_for l then
        exists saved, leave_loop ts = Some (ts', Some saved) /\ iters_of ts = (saved, iter_of ts') :: iters_of ts'
      else leave_loop ts = Some (ts', None) /\ iter_of ts = iter_of ts' /\ iters_of ts = iters_of ts'.
  Proof.
    induction 1; intros l0 env0 Q; try discriminate.
    - destruct (IHT _ _ Q) as (ts' & A & B). exists ts'. split; auto.
    - destruct (IHT _ _ Q) as (ts' & A & B). exists ts'. split; auto.
    - destruct (IHT _ _ Q) as (ts' & A & B). exists ts'. split; auto.
    - destruct (IHT _ _ Q) as (ts' & A & B). exists ts'. split; auto.
      rewrite iter_block, iters_block in B. unfold block in B. cbn [leave_loop] in B.
      cbn [leave_loop iter_of iters_of].
      replace (leave_loop (do_opt k ++ ts)) with (leave_loop ts) in B by (destruct k; reflexivity). exact B.
    - destruct (IHT2 _ _ Q) as (ts' & A & B). exists ts'. split; auto.
    - injection Q as <- <-. exists ts. split; [exact H3|]. cbn. exists saved. split; reflexivity.
    - injection Q as <- <-. exists ts. split; [exact H3|]. cbn. repeat split; reflexivity.
    - destruct (IHT _ _ Q) as (ts' & A & B). exists ts'. split; auto.
  Qed.
  Lemma T_leave_named n p env ts : T p env ts -> forall m q, named_loop n 0 env = Some (m, q) ->
    exists ts' env' saved, T q env' ts' /\ leave_named n ts = Some (ts', saved) /\
      forall part, pops m (iter_of ts) (iters_of ts) part = (saved, iter_of ts', iters_of ts').
  Proof.
    induction 1; intros m q0 Q; try discriminate.
    - destruct (IHT _ _ Q) as (ts' & env' & saved & A & B & D). exists ts', env', saved. auto.
    - destruct (IHT _ _ Q) as (ts' & env' & saved & A & B & D). exists ts', env', saved. auto.
    - destruct (IHT _ _ Q) as (ts' & env' & saved & A & B & D). exists ts', env', saved. auto.
    - destruct (IHT _ _ Q) as (ts' & env' & saved & A & B & D). exists ts', env', saved. split; auto.
      rewrite iter_block, iters_block in D. unfold block in B. cbn [leave_named] in B. cbn [leave_named iter_of iters_of].
      split; [|exact D]. destruct k; exact B.
    - destruct (IHT2 _ _ Q) as (ts' & env' & saved & A & B & D). exists ts', env', saved. auto.
    - cbn [named_loop lp lp_for lp_label lp_exit] in Q. cbn [leave_named iter_of iters_of].
      destruct (label_eqb l n) eqn:L.
      + injection Q as <- <-. exists ts, env, saved. repeat split; auto.
      + rewrite named_loop_pops in Q. destruct (named_loop n 0 env) as [[m' q']|] eqn:N; [|discriminate].
        cbn in Q. injection Q as <- <-. destruct (IHT _ _ eq_refl) as (ts' & env' & saved' & A & B & D).
        exists ts', env', saved'. split; [exact A|]. split; [exact B|]. intros part. cbn [plus pops]. apply D.
    - cbn [named_loop lp lp_for lp_label lp_exit] in Q. destruct (IHT _ _ Q) as (ts' & env' & saved' & A & B & D).
      exists ts', env', saved'. auto.
    - destruct (IHT _ _ Q) as (ts' & env' & saved & A & B & D). exists ts', env', saved. auto.
  Qed.
  Lemma T_restart p env ts : T p env ts -> forall l env0, env = l :: env0 -> lp_for l = false ->
    exists ts', T (lp_start l) env ts' /\ restart ts = Some ts' /\ iter_of ts = iter_of ts' /\ iters_of ts = iters_of ts'.
  Proof.
    induction 1; intros l0 env0 Q F; try discriminate.
    - destruct (IHT _ _ Q F) as (ts' & A & B & D). exists ts'. auto.
    - destruct (IHT _ _ Q F) as (ts' & A & B & D). exists ts'. auto.
    - destruct (IHT _ _ Q F) as (ts' & A & B & D). exists ts'. auto.
    - destruct (IHT _ _ Q F) as (ts' & A & B & D). exists ts'. split; auto.
      rewrite iter_block, iters_block in D. split; [|exact D]. unfold block in B. cbn [restart] in B.
      replace (restart (do_opt k ++ ts)) with (restart ts) in B by (destruct k; reflexivity). exact B.
    - destruct (IHT2 _ _ Q F) as (ts' & A & B & D). exists ts'. auto.
    - injection Q as <- <-. discriminate.
    - injection Q as <- <-. exists (KLoop x b k :: ts). split; [eapply T_while; eauto|]. repeat split; reflexivity.
    - destruct (IHT _ _ Q F) as (ts' & A & B & D). exists ts'. auto.
  Qed.
  (** The iterators of the script's own loops are on top of those around the script. *)
  Lemma T_pops p env ts : T p env ts -> after ts = after base /\
    (forall part, pops (length (filter lp_for env)) (iter_of ts) (iters_of ts) part =
      (match first_part ts with Some p => p | None => part end, iter_of base, iters_of base)) /\
    (length (filter lp_for env) = 0 <-> first_part ts = None).
  Proof.
    induction 1; cbn [lp_for lp filter length iter_of iters_of first_part after pops]; auto.
    - destruct base_ok as [-> | [ts ->]]; repeat split; auto; congruence.
    - destruct IHT as (A & B & D). destruct k; auto.
    - destruct IHT as (A & B & D). split; [exact A|]. split.
      + intros part. rewrite B. destruct (first_part ts); reflexivity.
      + destruct (first_part ts); split; discriminate.
  Qed.

  Lemma sig_enc e env : sig env = sig_e e -> existsb (fun x => match x with EPlain => false | _ => true end) e = true ->
    exists l env0, env = l :: env0.
  Proof.
    revert env. induction e as [|[]]; cbn; intros env S H; try discriminate; auto;
      destruct env; try discriminate; eauto.
  Qed.
  Lemma sig_cont e env : sig env = sig_e e -> continue_ok e = true -> exists l env0, env = l :: env0 /\ lp_for l = false.
  Proof.
    revert env. induction e as [|[]]; cbn; intros env S H; try discriminate; auto.
    destruct env as [|l0 env]; try discriminate. injection S as S1 S2. eauto.
  Qed.
  Lemma sig_named e env n : sig env = sig_e e -> existsb (encl_named n) e = true -> exists m q, named_loop n 0 env = Some (m, q).
  Proof.
    intros S H. destruct (nidx_named n e H) as [i Q]. rewrite <- S in Q.
    pose proof (named_loop_some n env 0) as X. rewrite Q in X. destruct (named_loop n 0 env) as [[m q]|]; [eauto|contradiction].
  Qed.

  (** *** Commands *)
  Lemma norm_cmds cs : forall p env ts e b, at_ p (gcmds p env cs) -> ok_cmds lim e cs = true -> sig env = sig_e e ->
    T (p + ssize (fors env) cs) env ts ->
    normal (p + ssize (fors env) cs) b (iter_of ts) (iters_of ts) (Run_ ts) ->
    normal p b (iter_of ts) (iters_of ts) (Run_ (KSeq cs :: ts)).
  Proof.
    destruct (gcmd_length lim) as (Lc & Ls & Lr).
    assert (KL : forall k, length (kcode k) = ksize k) by (intros []; reflexivity).
    induction cs as [|c cs IH]; intros p env ts e b0 A O S H N.
    { eapply normal_step; [intros s; apply src_end; reflexivity|]. cbn in N. now rewrite Nat.add_0_r in N. }
    cbn [gcmds ok_cmds ssize] in *. apply andb_true_iff in O as [O1 O2]. rewrite Nat.add_assoc in H, N.
    apply at_app in A as [A1 A2]. rewrite (Lc c e) in A2 by auto.
    assert (Tcs : T (p + csize (fors env) c) env (KSeq cs :: ts)) by (eapply T_seq; eauto).
    destruct c as [i| |t v|t b k r|l b k|x b k|l| |]; cbn [gcmd csize ok_cmd] in *.
    - (* action *)
      apply normal_ready. eapply R_do; [eapply at_nth; exact A1|exact O1|reflexivity| | | |].
      + intros b'. apply (K_run _ _ env); auto.
      + cbn. apply iters_in_for.
      + intros ts0 Q. injection Q as <-. split; reflexivity.
      + eauto.
    - (* quiet *)
      eapply normal_step; [intros s; apply src_quiet; reflexivity|]. rewrite Nat.add_0_r in *. eapply IH; eauto.
    - (* vacation *)
      eapply normal_step; [intros s; apply src_vacation; reflexivity|].
      apply at_cons in A1 as [A1 A3]. apply at_cons in A3 as [A3 A4]. rewrite <- Nat.add_assoc in A4. cbn [plus] in A4.
      apply norm_test; [exact A1|reflexivity|]. cbn [tsize]. intros b'. eapply K_jz; [exact A3|].
      destruct b'; cbn [xorb].
      + apply (K_run _ _ env); auto. rewrite <- Nat.add_assoc. cbn [plus]. apply T_do; auto.
        rewrite <- Nat.add_assoc. exact Tcs.
      + apply (K_run _ _ env); auto.
    - (* if *)
      eapply normal_step; [intros s; apply src_if; reflexivity|].
      apply andb_true_iff in O1 as [O Or]. apply andb_true_iff in O as [O Ok]. apply andb_true_iff in O as [O Ob].
      apply andb_true_iff in O as [O O1]. apply andb_true_iff in O as [Ot _].
      apply at_app in A1 as [A1 A3]. rewrite gtree_len in A3. apply at_cons in A3 as [A3 A4].
      rewrite app_assoc in A4. apply at_app in A4 as [A4 A5].
      rewrite app_length, KL, (Ls b (EPlain :: e)) in A5 by auto. rewrite Nat.add_assoc in A5.
      destruct (T_rest r _ env (KSeq cs :: ts) e A5) as [T1 T2]; auto.
      { replace (_ + rsize _ _) with (p + (tsize t + 1 + ssize (fors env) b + ksize k + rsize (fors env) r)) by lia. exact Tcs. }
      apply norm_test; auto. intros b'. eapply K_jz; [exact A3|].
      destruct b'; cbn [xorb].
      + apply (K_run _ _ env); [|now rewrite iter_block|now rewrite iters_block].
        apply (T_block _ _ _ _ _ (EPlain :: e)); auto.
      + apply (K_run _ _ env); auto.
    - (* for *)
      apply normal_ready.
      apply andb_true_iff in O1 as [O Ok]. apply andb_true_iff in O as [O Ob].
      apply at_cons in A1 as [A1 A3].
      apply R_push; [eapply at_nth; exact A1|]. intros ids saved.
      set (q := p + 2 + ssize (true :: fors env) b + ksize k + 1) in *.
      exists (lp true l (p + 1) q :: env).
      assert (Q : q = p + 1 + 1 + ssize (true :: fors env) b + ksize k + 1) by (unfold q; lia).
      clearbody q. subst q. apply (T_for (p + 1) env l ids saved b k _ e); auto.
      + replace (p + 2) with (p + 1 + 1) in A3 by lia. exact A3.
      + replace (p + 1 + 1 + ssize (true :: fors env) b + ksize k + 1) with (p + (2 + ssize (true :: fors env) b + ksize k + 1)) by lia.
        exact Tcs.
    - (* while *)
      eapply normal_step; [intros s; apply src_while; reflexivity|]. apply normal_ready.
      apply andb_true_iff in O1 as [O Ok]. apply andb_true_iff in O as [O Ob].
      set (q := p + 1 + ssize (false :: fors env) b + ksize k + 1) in *.
      assert (Tq : T q env (KSeq cs :: ts)).
      { replace q with (p + (1 + ssize (false :: fors env) b + ksize k + 1)) by (unfold q; lia). exact Tcs. }
      assert (Tp : T p (lp false None p q :: env) (KLoop x b k :: KSeq cs :: ts)) by (apply (T_while p env x b k _ e); auto).
      pose proof (at_nth _ _ _ _ A1) as An. apply at_cons in A1 as [A1 A3].
      rewrite app_assoc in A3. apply at_app in A3 as [A3 A4].
      rewrite app_length, KL, (Ls b (EWhile :: e)) in A4; auto; [|cbn; now f_equal].
      apply (R_while p q b0 x b k (KSeq cs :: ts) env (lp false None p q :: env)); auto.
      apply (T_block _ _ _ _ _ (EWhile :: e)); auto; [cbn; now f_equal|].
      eapply T_jmp; [|exact Tp]. rewrite Nat.add_assoc in A4. exact A4.
    - (* break *)
      destruct l as [n|].
      + apply normal_ready. destruct (sig_named e env n S O1) as (m & q & Q). rewrite Q in A1. apply at_cons in A1 as [A1 A3].
        destruct (T_leave_named n _ _ _ H _ _ Q) as (ts' & env' & saved & B1 & B2 & B3).
        eapply (R_pop _ _ m saved _ _ (iter_of ts') (iters_of ts')); [eapply at_nth; exact A1| | |].
        * intros s I1 I2. apply pop_parts_pops. rewrite I1, I2. apply B3.
        * intros s s' Sm. eapply src_break_named; eauto.
        * eapply K_jmp; [exact A3|]. eapply K_run; eauto.
      + destruct (sig_enc e env S O1) as (l & env0 & ->).
        destruct (T_leave _ _ _ H _ _ eq_refl) as (ts' & B1 & B2). destruct (lp_for l).
        * apply normal_ready. destruct B2 as (saved & B2 & B3). cbn [app] in A1. apply at_cons in A1 as [A1 A3].
          eapply (R_pop _ _ 1 saved _ _ (iter_of ts') (iters_of ts')); [eapply at_nth; exact A1| | |].
          -- intros s I1 I2. apply pop_parts_pops. rewrite I1, I2, B3. reflexivity.
          -- intros s s' Sm. eapply src_break; eauto.
          -- eapply K_jmp; [exact A3|]. eapply K_run; eauto.
        * destruct B2 as (B2 & B3 & B4). cbn [app] in A1.
          eapply normal_step; [intros s; eapply src_break; [exact B2|reflexivity]|].
          apply normal_ready. eapply (R_jump _ _ _ _ _ _ (lp_exit l)); [eapply at_nth; exact A1|left; reflexivity|].
          eapply K_run; eauto.
    - (* continue *)
      destruct (sig_cont e env S O1) as (l & env0 & -> & F).
      destruct (T_restart _ _ _ H _ _ eq_refl F) as (ts' & B1 & B2 & B3 & B4).
      eapply normal_step; [intros s; eapply src_continue; [exact B2|reflexivity]|].
      apply normal_ready. eapply (R_jump _ _ _ _ _ _ (lp_start l)); [eapply at_nth; exact A1|left; reflexivity|].
      eapply K_run; eauto.
    - (* return *)
      destruct (T_pops _ _ _ H) as (Af & Pa & Fp).
      destruct (length (filter lp_for env)) as [|n] eqn:Ln; cbn [app] in A1.
      + assert (F0 : first_part ts = None) by now apply Fp.
        eapply normal_step; [intros s; apply src_return; rewrite F0; reflexivity|].
        apply normal_ready. specialize (Pa 0). cbn [pops] in Pa. injection Pa as _ -> ->. rewrite Af. apply R_ret. eapply at_nth; exact A1.
      + apply normal_ready. apply at_cons in A1 as [A1 A3].
        destruct (first_part ts) as [sv|] eqn:F0; [|destruct Fp as [_ Fp]; discriminate (Fp eq_refl)].
        eapply (R_pop _ _ (Datatypes.S n) sv _ _ (iter_of base) (iters_of base)); [eapply at_nth; exact A1| | |].
        * intros s I1 I2. apply pop_parts_pops. rewrite I1, I2. apply Pa.
        * intros s s' Sm. apply src_return. rewrite F0. exact Sm.
        * rewrite Af. apply K_ret. exact A3.
  Qed.

  Lemma norm_T p env ts : T p env ts -> forall b, normal p b (iter_of ts) (iters_of ts) (Run_ ts).
  Proof.
    destruct (gcmd_length lim) as (Lc & Ls & Lr).
    assert (KL : forall k, length (kcode k) = ksize k) by (intros []; reflexivity).
    induction 1 as [|p env cs ts e A O S H IH|p env i ts A P H IH|p env ts H IH|p env b k ts H IH
                   |p env t b k r ts z A L H1 IH1 H2 IH2|p env l ids saved b k ts e q A O P S H IH
                   |p env x b k ts e q A O P S H IH|p q env ts A H IH]; intros b0.
    - apply normal_ready, R_end.
    - exact (norm_cmds cs p env ts e b0 A O S H (IH b0)).
    - apply normal_ready. eapply R_do; [eapply at_nth; exact A|exact P|reflexivity| | | |].
      + intros b'. apply (K_run _ _ env); auto.
      + apply iters_in_for.
      + intros ts0 Q. injection Q as <-. split; reflexivity.
      + eauto.
    - eapply normal_step; [intros s; apply src_none; reflexivity|]. apply IH.
    - eapply normal_step; [intros s; apply src_else; reflexivity|]. specialize (IH b0). rewrite iter_block, iters_block in IH. exact IH.
    - eapply normal_step; [intros s; apply src_elsif; reflexivity|].
      apply at_app in A as [A1 A2]. rewrite gtree_len in A2. apply norm_test; auto.
      intros b'. eapply K_jz; [exact A2|]. destruct b'; cbn [xorb].
      + apply (K_run _ _ env); [exact H1|now rewrite iter_block|now rewrite iters_block].
      + apply (K_run _ _ env); auto.
    - apply normal_ready. pose proof (at_nth _ _ _ _ A) as An.
      assert (Tp : forall ids', T p (lp true l p q :: env) (KFor l ids' saved b k :: ts)) by (intros ids'; apply (T_for p env l ids' saved b k _ e); auto).
      apply at_cons in A as [A1 A3]. rewrite app_assoc in A3. apply at_app in A3 as [A3 A4].
      rewrite app_length, KL, (Ls b (EFor l :: e)) in A4; auto; [|cbn; now f_equal].
      apply (R_for p q b0 l ids saved b k ts env (lp true l p q :: env)); auto. intros ids'.
      apply (T_block _ _ _ _ _ (EFor l :: e)); auto; [cbn; now f_equal|].
      eapply T_jmp; [|apply Tp]. rewrite Nat.add_assoc in A4. exact A4.
    - apply normal_ready. pose proof (at_nth _ _ _ _ A) as An.
      assert (Tp : T p (lp false None p q :: env) (KLoop x b k :: ts)) by (apply (T_while p env x b k _ e); auto).
      apply at_cons in A as [A1 A3]. rewrite app_assoc in A3. apply at_app in A3 as [A3 A4].
      rewrite app_length, KL, (Ls b (EWhile :: e)) in A4; auto; [|cbn; now f_equal].
      apply (R_while p q b0 x b k ts env (lp false None p q :: env)); auto.
      apply (T_block _ _ _ _ _ (EWhile :: e)); auto; [cbn; now f_equal|].
      eapply T_jmp; [|exact Tp]. rewrite Nat.add_assoc in A4. exact A4.
    - apply normal_ready. eapply (R_jump _ _ _ _ _ _ q); [eapply at_nth; exact A|left; reflexivity|].
      apply (K_run _ _ env); auto.
  Qed.

  Theorem norm p b it its k : K p b it its k -> normal p b it its k.
  Proof.
    intros H. destruct H as [p b env ts it its H -> ->|p b A|p b it its n t yes no A L H|p b it its k i next A P Hd H Lo It Ic|p q b it its k A H|p q b it its k A H|p q b it its k A H].
    - eapply norm_T; eauto.
    - apply normal_ready. apply R_ret. eapply at_nth; exact A.
    - apply norm_test; auto.
    - apply normal_ready. eapply R_do; eauto.
    - apply normal_ready. eapply R_jump; [eapply at_nth; exact A|left; reflexivity|exact H].
    - apply normal_ready. eapply R_jump; [eapply at_nth; exact A|right; left; eauto|exact H].
    - apply normal_ready. eapply R_jump; [eapply at_nth; exact A|right; right; eauto|exact H].
  Qed.
End At.
