(** The compiler produces the code laid out in CompileSpec: commands. *)
From Coq Require Import Lia.
From Verif Require Import Base Lib Address Var Value Flags Comparator Message EditHeader Expr Event
  Notify Vacation Mime Sieve Run RunSpec Compile CompileSpec CompileProofs1.

(** *** Loops around a command *)

Definition lsig := list (bool * option text).
Definition sig (env : list loop_at) : lsig := map (fun l => (lp_for l, lp_label l)) env.
Fixpoint sig_e (e : list encl) : lsig :=
  match e with
  | [] => []
  | EPlain :: e => sig_e e
  | EFor l :: e => (true, l) :: sig_e e
  | EWhile :: e => (false, None) :: sig_e e
  end.
Lemma fors_sig env : fors env = map fst (sig env).
Proof. unfold fors, sig. rewrite map_map. reflexivity. Qed.

Fixpoint nidx (n : text) (sg : lsig) : option nat :=
  match sg with
  | [] => None
  | (f, l) :: sg => if f && label_eqb l n then Some 0 else option_map S (nidx n sg)
  end.

Fixpoint set_exit (d x : nat) (env : list loop_at) {struct env} : list loop_at :=
  match env, d with
  | [], _ => []
  | l :: env, 0 => {| lp_for := lp_for l; lp_label := lp_label l; lp_start := lp_start l; lp_exit := x |} :: env
  | l :: env, S d => l :: set_exit d x env
  end.
Lemma sig_set_exit d x env : sig (set_exit d x env) = sig env.
Proof. unfold sig. revert d; induction env; intros [|d]; cbn; auto. now rewrite IHenv. Qed.
Lemma fors_set_exit d x env : fors (set_exit d x env) = fors env.
Proof. now rewrite !fors_sig, sig_set_exit. Qed.
Lemma filter_set_exit d x env : length (filter lp_for (set_exit d x env)) = length (filter lp_for env).
Proof. revert d; induction env; intros [|d]; cbn; auto; destruct (lp_for a); cbn; auto. Qed.

Lemma named_loop_pops n env : forall k, named_loop n k env = option_map (fun r => (k + fst r, snd r)) (named_loop n 0 env).
Proof.
  induction env as [|l env IH]; intros k; cbn; auto.
  destruct (lp_for l); auto. destruct (label_eqb (lp_label l) n); cbn; [do 2 f_equal; lia|].
  rewrite (IH (k + 1)), (IH 1). destruct (named_loop n 0 env) as [[a b]|]; cbn; auto. do 2 f_equal. lia.
Qed.
Lemma named_loop_set n d x env : forall k, named_loop n k (set_exit d x env) =
  match nidx n (sig env) with
  | Some i => option_map (fun r => (fst r, if Nat.eqb i d then x else snd r)) (named_loop n k env)
  | None => None
  end.
Proof.
  revert d. induction env as [|l env IH]; intros d k; [reflexivity|].
  unfold sig; cbn [map nidx]; fold (sig env).
  destruct d; cbn [set_exit named_loop lp_for lp_label lp_exit].
  - destruct (lp_for l); cbn [andb].
    + destruct (label_eqb (lp_label l) n); cbn; auto.
      specialize (IH (S (length env)) (k + 1)).
      assert (G : set_exit (S (length env)) x env = env).
      { clear. revert x. generalize (le_n (length env)). generalize (length env) at 2 3.
        induction env; intros m H y; cbn in *; auto. destruct m; [lia|]. f_equal. apply IHenv. lia. }
      rewrite G in IH. clear G.
      destruct (nidx n (sig env)) as [i|] eqn:Q; cbn; [|exact IH].
      destruct (named_loop n (k + 1) env) as [[a b]|]; reflexivity.
    + specialize (IH (S (length env)) k).
      assert (G : set_exit (S (length env)) x env = env).
      { clear. revert x. generalize (le_n (length env)). generalize (length env) at 2 3.
        induction env; intros m H y; cbn in *; auto. destruct m; [lia|]. f_equal. apply IHenv. lia. }
      rewrite G in IH. clear G.
      destruct (nidx n (sig env)) as [i|] eqn:Q; cbn; [|exact IH].
      destruct (named_loop n k env) as [[a b]|]; reflexivity.
  - destruct (lp_for l); cbn [andb].
    + destruct (label_eqb (lp_label l) n); cbn; auto.
      rewrite IH. destruct (nidx n (sig env)); cbn; auto.
    + rewrite IH. destruct (nidx n (sig env)); cbn; auto.
Qed.
Lemma named_loop_some n env : forall k, match nidx n (sig env), named_loop n k env with
  | Some _, Some _ => True | None, None => True | _, _ => False end.
Proof.
  induction env as [|l env IH]; intros k; [exact I|].
  unfold sig; cbn [map nidx named_loop]; fold (sig env).
  destruct (lp_for l); cbn [andb]; [destruct (label_eqb (lp_label l) n)|]; auto.
  - specialize (IH (k + 1)). destruct (nidx n (sig env)); cbn; auto.
  - specialize (IH k). destruct (nidx n (sig env)); cbn; auto.
Qed.
Lemma nidx_named n e : existsb (encl_named n) e = true -> exists i, nidx n (sig_e e) = Some i.
Proof.
  induction e as [|[|l|] e IH]; cbn; intros H; try discriminate; auto.
  - destruct l as [m|]; cbn in *; [destruct (teqb m n); cbn in *; eauto|];
      destruct (IH H) as [i ->]; cbn; eauto.
  - destruct (IH H) as [i ->]; cbn; eauto.
Qed.

(** *** Lengths *)

Lemma gcmd_length lim :
  (forall c e env p, ok_cmd lim e c = true -> sig env = sig_e e -> length (gcmd p env c) = csize (fors env) c) /\
  (forall cs e env p, ok_cmds lim e cs = true -> sig env = sig_e e -> length (gcmds p env cs) = ssize (fors env) cs) /\
  (forall r e env p y, ok_rest lim e r = true -> sig env = sig_e e -> length (grest p y env r) = rsize (fors env) r).
Proof.
  assert (K : forall k, length (kcode k) = ksize k) by (intros [?|]; reflexivity).
  apply cmd_ind3; intros; cbn [gcmd gcmds grest csize ssize rsize ok_cmd ok_cmds ok_rest] in *;
    repeat match goal with H : _ && _ = true |- _ => apply andb_true_iff in H; destruct H end; auto.
  - rewrite !app_length, gtree_len, K. cbn [length app].
    rewrite (H (EPlain :: e)), (H0 e) by assumption. lia.
  - cbn [length]. rewrite !app_length, K. cbn [length].
    rewrite (H (EFor l :: e)); [|auto|cbn; unfold sig in *; cbn; congruence]. unfold fors; cbn [map lp_for]; lia.
  - cbn [length]. rewrite !app_length, K. cbn [length].
    rewrite (H (EWhile :: e0)); [|auto|cbn; unfold sig in *; cbn; congruence]. unfold fors; cbn [map lp_for]; lia.
  - destruct l as [n|].
    + destruct (nidx_named n e H) as [i Q]. rewrite <- H0 in Q.
      pose proof (named_loop_some n env 0) as S. rewrite Q in S.
      destruct (named_loop n 0 env) as [[a b]|]; [reflexivity|contradiction].
    + destruct env as [|l env]; cbn.
      * exfalso. cbn in H0. clear -H H0. induction e as [|[|?|] e IH]; cbn in *; try discriminate; auto.
      * destruct (lp_for l); reflexivity.
  - destruct env as [|l env]; cbn; [|reflexivity].
    exfalso. cbn in H0. clear -H H0. induction e as [|[|?|] e IH]; cbn in *; try discriminate; auto.
  - rewrite app_length. unfold fors.
    replace (existsb (fun x => x) (map lp_for env)) with (negb (Nat.eqb (length (filter lp_for env)) 0)).
    + destruct (length (filter lp_for env)); reflexivity.
    + clear. induction env as [|l env IH]; cbn; auto. destruct (lp_for l); cbn; auto.
  - rewrite app_length. rewrite (H e), (H0 e); auto.
  - cbn [length]. rewrite !app_length, K. rewrite (H (EPlain :: e)) by assumption. lia.
  - cbn [length]. rewrite !app_length, gtree_len, K. cbn [length]. rewrite (H (EPlain :: e)), (H0 e) by assumption. lia.
Qed.

(** *** Positions of the jumps of [break] *)

Fixpoint cbrk (p : nat) (sg : lsig) (d : nat) (c : cmd) : list nat :=
  match c with
  | CIf t b k r =>
      let q := p + tsize t + 1 in
      sbrk q sg d b ++ rbrk (q + ssize (map fst sg) b + ksize k) sg d r
  | CFor l b _ => sbrk (p + 2) ((true, l) :: sg) (S d) b
  | CWhile _ b _ => sbrk (p + 1) ((false, None) :: sg) (S d) b
  | CBreak (Some n) => match nidx n sg with Some i => if Nat.eqb i d then [p + 1] else [] | None => [] end
  | CBreak None => match sg with
                   | (f, _) :: _ => if Nat.eqb 0 d then [if f then p + 1 else p] else []
                   | [] => []
                   end
  | _ => []
  end
with sbrk (p : nat) (sg : lsig) (d : nat) (cs : cmds) : list nat :=
  match cs with
  | CNil => []
  | CCons c cs => cbrk p sg d c ++ sbrk (p + csize (map fst sg) c) sg d cs
  end
with rbrk (p : nat) (sg : lsig) (d : nat) (r : rest) : list nat :=
  match r with
  | RNone => []
  | RElse b k => sbrk (p + 1) sg d b
  | RElsIf t b k r =>
      let q := p + 1 + tsize t + 1 in
      sbrk q sg d b ++ rbrk (q + ssize (map fst sg) b + ksize k) sg d r
  end.

Lemma kcode_len k : length (kcode k) = ksize k.
Proof. destruct k; reflexivity. Qed.

Ltac apps := rewrite <- ?app_assoc; cbn [app]; rewrite <- ?app_assoc; cbn [app]; rewrite <- ?app_assoc; reflexivity.
Lemma brk_patch lim :
  (forall c e env p d x pre post, ok_cmd lim e c = true -> sig env = sig_e e -> length pre = p ->
     patch (to_jmp x) (cbrk p (sig env) d c) (pre ++ gcmd p env c ++ post) =
     pre ++ gcmd p (set_exit d x env) c ++ post) /\
  (forall cs e env p d x pre post, ok_cmds lim e cs = true -> sig env = sig_e e -> length pre = p ->
     patch (to_jmp x) (sbrk p (sig env) d cs) (pre ++ gcmds p env cs ++ post) =
     pre ++ gcmds p (set_exit d x env) cs ++ post) /\
  (forall r e env p y d x pre post, ok_rest lim e r = true -> sig env = sig_e e -> length pre = p ->
     patch (to_jmp x) (rbrk p (sig env) d r) (pre ++ grest p y env r ++ post) =
     pre ++ grest p y (set_exit d x env) r ++ post).
Proof.
  destruct (gcmd_length lim) as (Lc & Ls & Lr).
  apply cmd_ind3; intros; cbn [gcmd gcmds grest cbrk sbrk rbrk ok_cmd ok_cmds ok_rest] in *;
    repeat match goal with H : _ && _ = true |- _ => apply andb_true_iff in H; destruct H end;
    rewrite ?fors_set_exit, <- ?fors_sig; auto.
  - (* if *)
    rewrite patch_app.
    match goal with |- context[gtree ?p false ?t ++ ?j ++ gcmds ?q _ b ++ _] =>
      replace (pre ++ (gtree p false t ++ j ++ gcmds q env b ++ kcode k ++ grest (q + ssize (fors env) b + ksize k) (q + ssize (fors env) b + ksize k + rsize (fors env) r) env r) ++ post)
      with ((pre ++ gtree p false t ++ j) ++ gcmds q env b ++ (kcode k ++ grest (q + ssize (fors env) b + ksize k) (q + ssize (fors env) b + ksize k + rsize (fors env) r) env r ++ post))
      by (rewrite <- !app_assoc; reflexivity);
      rewrite (H (EPlain :: e)); [|assumption|assumption|rewrite !app_length, gtree_len; cbn; lia];
      replace ((pre ++ gtree p false t ++ j) ++ gcmds q (set_exit d x env) b ++ kcode k ++ grest (q + ssize (fors env) b + ksize k) (q + ssize (fors env) b + ksize k + rsize (fors env) r) env r ++ post)
      with ((pre ++ gtree p false t ++ j ++ gcmds q (set_exit d x env) b ++ kcode k) ++ grest (q + ssize (fors env) b + ksize k) (q + ssize (fors env) b + ksize k + rsize (fors env) r) env r ++ post)
      by (rewrite <- !app_assoc; reflexivity);
      rewrite (H0 e); [|assumption|assumption|]
    end.
    + rewrite <- !app_assoc. reflexivity.
    + rewrite !app_length, gtree_len, kcode_len.
      rewrite (Ls b (EPlain :: e)); [|assumption|rewrite sig_set_exit; assumption]. rewrite fors_set_exit. cbn. lia.
  - (* for *)
    match goal with |- context[gcmds _ (?l0 :: env) b] =>
      change ((true, l) :: sig env) with (sig (l0 :: env));
      change (l0 :: set_exit d x env) with (set_exit (S d) x (l0 :: env));
      set (env' := l0 :: env) in *
    end.
    assert (Q : sig env' = (true, l) :: sig env) by reflexivity.
    replace (pre ++ (IxForEveryPartPush :: IxForEveryPart (p + 2 + ssize (true :: fors env) b + ksize k + 1) :: gcmds (p + 2) env' b ++ kcode k ++ [IxJmp (p + 1)]) ++ post)
      with ((pre ++ [IxForEveryPartPush; IxForEveryPart (p + 2 + ssize (true :: fors env) b + ksize k + 1)]) ++ gcmds (p + 2) env' b ++ (kcode k ++ [IxJmp (p + 1)] ++ post))
      by (apps).
    rewrite (H (EFor l :: e)); [|assumption|rewrite Q; cbn; congruence|rewrite app_length; cbn; lia].
    apps.
  - (* while *)
    match goal with |- context[gcmds _ (?l0 :: env) b] =>
      change ((false, None) :: sig env) with (sig (l0 :: env));
      change (l0 :: set_exit d x env) with (set_exit (S d) x (l0 :: env));
      set (env' := l0 :: env) in *
    end.
    assert (Q : sig env' = (false, None) :: sig env) by reflexivity.
    replace (pre ++ (IxWhile e (p + 1 + ssize (false :: fors env) b + ksize k + 1) :: gcmds (p + 1) env' b ++ kcode k ++ [IxJmp p]) ++ post)
      with ((pre ++ [IxWhile e (p + 1 + ssize (false :: fors env) b + ksize k + 1)]) ++ gcmds (p + 1) env' b ++ (kcode k ++ [IxJmp p] ++ post))
      by (apps).
    rewrite (H (EWhile :: e0)); [|assumption|rewrite Q; cbn; congruence|rewrite app_length; cbn; lia].
    apps.
  - (* break *)
    destruct l as [n|].
    + rewrite named_loop_set. pose proof (named_loop_some n env 0) as S.
      destruct (nidx n (sig env)) as [i|]; [|destruct (named_loop n 0 env) as [[a b]|]; [contradiction|reflexivity]].
      destruct (named_loop n 0 env) as [[a b]|]; [|contradiction]. cbn [option_map fst snd].
      destruct (Nat.eqb i d); [|reflexivity].
      rewrite patch_cons, patch_nil. cbn [app].
      change (pre ++ IxForEveryPartPop a :: IxJmp b :: post) with (pre ++ [IxForEveryPartPop a] ++ IxJmp b :: post).
      rewrite app_assoc. rewrite update_at by (rewrite app_length; cbn; lia). rewrite <- app_assoc. reflexivity.
    + destruct env as [|l env]; [reflexivity|]. destruct d; cbn [sig map set_exit Nat.eqb lp_for lp_exit]; [|reflexivity].
      rewrite patch_cons, patch_nil. destruct (lp_for l); cbn [app].
      * change (pre ++ IxForEveryPartPop 1 :: IxJmp (lp_exit l) :: post) with (pre ++ [IxForEveryPartPop 1] ++ IxJmp (lp_exit l) :: post).
        rewrite app_assoc. rewrite update_at by (rewrite app_length; cbn; lia). rewrite <- app_assoc. reflexivity.
      * rewrite update_at by lia. reflexivity.
  - (* continue *)
    destruct env as [|l env]; [reflexivity|]. destruct d; reflexivity.
  - (* return *)
    rewrite filter_set_exit. reflexivity.
  - (* cons *)
    rewrite patch_app. rewrite <- !app_assoc. rewrite (H e) by assumption.
    rewrite (app_assoc pre). rewrite (H0 e); [|assumption|assumption|].
    + rewrite <- !app_assoc. reflexivity.
    + rewrite app_length. rewrite (Lc c e); [|assumption|rewrite sig_set_exit; assumption]. rewrite fors_set_exit. lia.
  - (* else *)
    replace (pre ++ (IxJmp y :: gcmds (p + 1) env b ++ kcode k) ++ post)
      with ((pre ++ [IxJmp y]) ++ gcmds (p + 1) env b ++ (kcode k ++ post))
      by (apps).
    rewrite (H (EPlain :: e)); [|assumption|assumption|rewrite app_length; cbn; lia].
    apps.
  - (* elsif *)
    rewrite patch_app.
    match goal with |- context[gtree ?p' false ?t ++ ?j ++ gcmds ?q _ b ++ _] =>
      replace (pre ++ (IxJmp y :: gtree p' false t ++ j ++ gcmds q env b ++ kcode k ++ grest (q + ssize (fors env) b + ksize k) y env r) ++ post)
      with ((pre ++ IxJmp y :: gtree p' false t ++ j) ++ gcmds q env b ++ (kcode k ++ grest (q + ssize (fors env) b + ksize k) y env r ++ post))
      by (apps);
      rewrite (H (EPlain :: e)); [|assumption|assumption|rewrite app_length; cbn [length]; rewrite !app_length, gtree_len; cbn; lia];
      replace ((pre ++ IxJmp y :: gtree p' false t ++ j) ++ gcmds q (set_exit d x env) b ++ kcode k ++ grest (q + ssize (fors env) b + ksize k) y env r ++ post)
      with ((pre ++ IxJmp y :: gtree p' false t ++ j ++ gcmds q (set_exit d x env) b ++ kcode k) ++ grest (q + ssize (fors env) b + ksize k) y env r ++ post)
      by (apps);
      rewrite (H0 e); [|assumption|assumption|]
    end.
    + apps.
    + rewrite app_length; cbn [length]; rewrite !app_length, gtree_len, kcode_len.
      rewrite (Ls b (EPlain :: e)); [|assumption|rewrite sig_set_exit; assumption]. rewrite fors_set_exit. cbn. lia.
Qed.
