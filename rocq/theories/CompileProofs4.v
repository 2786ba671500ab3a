(** The compiler produces the code laid out in CompileSpec: whole scripts. *)
From Coq Require Import Lia.
From Verif Require Import Base Lib Address Var Value Flags Comparator Message EditHeader Expr Event
  Notify Vacation Mime Sieve Run RunSpec Compile CompileSpec CompileProofs1 CompileProofs2 CompileProofs3.

Lemma update_app_l n f l l' : n < length l -> update n f (l ++ l') = update n f l ++ l'.
Proof. revert n; induction l; intros [|n] H; cbn in *; try lia; auto. rewrite IHl by lia. reflexivity. Qed.
Lemma patch_app_l f ps : forall l l', Forall (fun p => p < length l) ps -> patch f ps (l ++ l') = patch f ps l ++ l'.
Proof.
  induction ps as [|p ps IH]; intros l l' H; [reflexivity|]. inversion H; subst.
  rewrite !patch_cons. rewrite update_app_l by auto. apply IH. now rewrite update_length.
Qed.

Definition hd_ok (r : list token) : Prop := match r with KElsIf :: _ | KElse :: _ => False | _ => True end.

Fixpoint ccost (c : cmd) : nat :=
  match c with
  | CIf t b k r => S (scost b + S (rcost r))
  | CFor _ b _ | CWhile _ b _ => S (scost b + 1)
  | _ => 1
  end
with scost (cs : cmds) : nat := match cs with CNil => 0 | CCons c cs => ccost c + scost cs end
with rcost (r : rest) : nat :=
  match r with
  | RNone => 0
  | RElse b k => S (scost b + 1)
  | RElsIf t b k r => S (scost b + S (rcost r))
  end.

Section Go.
  Variable umax : nat.
  Variable lim : limits.
  Notation env := (env_of umax).
  Notation go := (go umax lim).

  Lemma go_step f t r s r' s' : command umax lim t r s = Some (r', s') -> go (S f) (t :: r) s = go f r' s'.
  Proof. intros H. cbn [Compile.go]. now rewrite H. Qed.

  Definition becomes (s s' : cst) (code : list instruction) (j : nat -> list nat) : Prop :=
    c_code s' = c_code s ++ code /\ c_includes s' = c_includes s /\
    exists n l, blocks s' = touch n l (add_brk j (blocks s)).

  Lemma becomes_plain s s' code : c_code s' = c_code s ++ code -> c_includes s' = c_includes s -> blocks s' = blocks s ->
    becomes s s' code (fun _ => []).
  Proof.
    intros A B C. split; [exact A|]. split; [exact B|]. exists (b_start (c_blk s)), (b_if (c_blk s)).
    rewrite add_brk_nil, C. unfold blocks. cbn [touch]. f_equal. destruct (c_blk s); reflexivity.
  Qed.

  (** Opening a block. *)
  Lemma open_ok t l s : length (encls (map bshape (blocks s))) < l_blocks lim ->
    open lim t l s = Some {| c_code := c_code s; c_blk := new_blk t l;
              c_stack := with_start (length (c_code s) - 1) (c_blk s) :: c_stack s;
              c_last := c_last s; c_includes := c_includes s |}.
  Proof.
    intros H. unfold open. replace (Nat.ltb _ _) with true; auto. symmetry. apply Nat.ltb_lt.
    unfold encls in H. rewrite map_length in H. unfold blocks in H. cbn [map] in H.
    enough (Q : length (removelast (bshape (c_blk s) :: map bshape (c_stack s))) = length (c_stack s)) by lia.
    generalize (bshape (c_blk s)) as x. clear. induction (c_stack s) as [|b bs IH]; intros x; auto.
    cbn [map]. change (removelast (x :: bshape b :: map bshape bs)) with (x :: removelast (bshape b :: map bshape bs)).
    cbn [length]. now rewrite IH.
  Qed.

  Lemma test_then_ok t bt r s : tleaves t = true -> tdepth t <= l_tests lim ->
    length (encls (map bshape (blocks s))) < l_blocks lim ->
    test_then umax lim bt (rtree t ++ KOpen :: r) s =
    Some (r, {| c_code := c_code s ++ gtree (length (c_code s)) false t ++ [IxJz umax]; c_blk := new_blk bt None;
                c_stack := with_start (length (c_code s) + tsize t) (c_blk s) :: c_stack s;
                c_last := c_last s; c_includes := c_includes s |}).
  Proof.
    intros T D B. unfold test_then. rewrite parse_tree by auto. rewrite open_ok by exact B. cbn.
    match goal with |- context[with_start (?x - 1)] => replace (x - 1) with (length (c_code s) + tsize t) by (rewrite !app_length, gtree_len; cbn; lia) end.
    reflexivity.
  Qed.

  Lemma encls_open x l : l <> [] -> encls (x :: l) = encl_of x :: encls l.
  Proof. unfold encls. destruct l; [congruence|]. reflexivity. Qed.
  Lemma good_open x l : l <> [] -> fst x <> BNot -> (snd x = None \/ fst x = BFor) -> good l -> good (x :: l).
  Proof. destruct x, l; cbn; auto; congruence. Qed.

  Lemma fep_count bs : good (map bshape bs) -> length (filter is_for bs) = length (filter encl_for (encls (map bshape bs))).
  Proof.
    induction bs as [|b bs IH]; intros G; [reflexivity|]. cbn [map] in *. destruct bs as [|b' bs].
    - destruct G as [G _]. cbn in *. unfold is_for. rewrite G. reflexivity.
    - rewrite encls_open by discriminate. cbn [map] in G. destruct G as (_ & _ & G). specialize (IH G).
      cbn [filter]. replace (encl_for (encl_of (bshape b))) with (is_for b) by (unfold is_for, encl_of; cbn; destruct (b_type b); reflexivity).
      destruct (is_for b); cbn [length]; [f_equal|]; exact IH.
  Qed.
  Lemma label_used n bs : good (map bshape bs) ->
    existsb (fun b => label_eqb (b_label b) n) bs = existsb (encl_named n) (encls (map bshape bs)).
  Proof.
    induction bs as [|b bs IH]; intros G; [reflexivity|]. cbn [map] in *. destruct bs as [|b' bs].
    - destruct G as [_ G]. cbn in *. rewrite G. reflexivity.
    - rewrite encls_open by discriminate. cbn [map] in G. destruct G as (_ & G' & G). specialize (IH G).
      cbn [existsb]. f_equal; [|exact IH]. cbn in G'. unfold encl_of; cbn. destruct G' as [-> | ->].
      + destruct (b_type b); reflexivity.
      + destruct (b_label b); reflexivity.
  Qed.

  Lemma exit_env l bs : In l (env bs) -> lp_exit l = umax.
  Proof.
    induction bs as [|b bs IH]; cbn; [contradiction|]. destruct (is_loop b); [|exact IH]. intros [<-|H]; auto.
  Qed.

  Lemma main :
    (forall c e f r s, good (map bshape (blocks s)) -> encls (map bshape (blocks s)) = e -> ok_cmd lim e c = true -> hd_ok r ->
       exists s', go (ccost c + f) (rcmd c ++ r) s = go f r s' /\
         becomes s s' (gcmd (length (c_code s)) (env (blocks s)) c)
           (fun d => cbrk (length (c_code s)) (sig (env (blocks s))) d c)) /\
    (forall cs e f r s, good (map bshape (blocks s)) -> encls (map bshape (blocks s)) = e -> ok_cmds lim e cs = true -> hd_ok r ->
       exists s', go (scost cs + f) (rcmds cs ++ r) s = go f r s' /\
         becomes s s' (gcmds (length (c_code s)) (env (blocks s)) cs)
           (fun d => sbrk (length (c_code s)) (sig (env (blocks s))) d cs)) /\
    (forall r e f rr s p0 stk k, c_stack s = p0 :: stk -> b_type (c_blk s) = BIf \/ b_type (c_blk s) = BElsIf ->
       good (map bshape (p0 :: stk)) -> encls (map bshape (p0 :: stk)) = e -> ok_rest lim e r = true -> hd_ok rr ->
       b_start p0 < length (c_code s) -> Forall (fun p => p < length (c_code s)) (b_if p0) ->
       let q2 := length (c_code s) + ksize k in
       let en := env (p0 :: stk) in
       exists s' n l, go (S (rcost r) + f) (KClose k :: rrest r ++ rr) s = go f rr s' /\
         c_includes s' = c_includes s /\
         c_code s' = patch (to_jmp (q2 + rsize (fors en) r)) (b_if p0)
             (update (b_start p0) (to_jz (match r with RNone => q2 | _ => q2 + 1 end)) (c_code s)) ++
             kcode k ++ grest q2 (q2 + rsize (fors en) r) en r /\
         blocks s' = touch n l (add_brk (fun d => rbrk q2 (sig en) d r) (p0 :: stk))).
  Proof.
    destruct (gcmd_length lim) as (Lc & Ls & Lr).
    destruct (brk_patch lim) as (Bc & Bs & Br).
    apply cmd_ind3.
    - (* action *)
      intros i e f r s G Q O H. eexists. split; [apply go_step; reflexivity|]. now apply becomes_plain.
    - intros e f r s G Q O H. eexists. split; [apply go_step; reflexivity|]. apply becomes_plain; auto. cbn. now rewrite app_nil_r.
    - intros t v e f r s G Q O H. eexists. split; [apply go_step; reflexivity|]. now apply becomes_plain.
    - (* if *)
      intros t b IHb k r IHr e f rr s G Q O H. cbn [ok_cmd] in O.
      repeat match goal with H : _ && _ = true |- _ => apply andb_true_iff in H; destruct H end.
      repeat match goal with H : Nat.leb _ _ = true |- _ => apply Nat.leb_le in H | H : Nat.ltb _ _ = true |- _ => apply Nat.ltb_lt in H end.
      cbn [ccost rcmd plus app]. rewrite <- !app_assoc. cbn [app]. rewrite <- !app_assoc. cbn [app].
      set (s0 := with_blk (with_if [] (c_blk s)) s).
      set (s1 := {| c_code := c_code s ++ gtree (length (c_code s)) false t ++ [IxJz umax]; c_blk := new_blk BIf None;
                c_stack := with_start (length (c_code s) + tsize t) (with_if [] (c_blk s)) :: c_stack s;
                c_last := c_last s; c_includes := c_includes s |}).
      assert (ST : forall r0, command umax lim KIf (rtree t ++ KOpen :: r0) s = Some (r0, s1)).
      { intros r0. cbn [command]. apply (test_then_ok t BIf r0 s0); auto. cbn. change (bshape (with_if [] (c_blk s))) with (bshape (c_blk s)). unfold blocks in Q. cbn in Q. rewrite Q. assumption. }
      assert (SH : map bshape (c_stack s1) = map bshape (blocks s)) by reflexivity.
      assert (NE : map bshape (blocks s) <> []) by discriminate.
      assert (EN : env (c_stack s1) = env (blocks s)) by reflexivity.
      assert (EN1 : env (blocks s1) = env (blocks s)) by reflexivity.
      destruct (IHb (EPlain :: e) (S (rcost r) + f) (KClose k :: rrest r ++ rr) s1) as (s2 & A2 & B2 & C2 & n2 & l2 & D2).
      { unfold blocks. cbn [map]. rewrite SH. apply good_open; auto; discriminate. }
      { unfold blocks. cbn [map]. rewrite SH, encls_open by auto. now rewrite Q. }
      { assumption. } { exact I. }
      rewrite EN1 in *.
      assert (L1 : length (c_code s1) = length (c_code s) + tsize t + 1) by (cbn; rewrite !app_length, gtree_len; cbn; lia).
      rewrite L1 in *.
      cbn [blocks s1 c_blk c_stack add_brk] in D2. change (is_loop (new_blk BIf None)) with false in D2. cbv iota in D2. cbn [touch] in D2.
      assert (TY : b_type (c_blk s2) = BIf) by (unfold blocks in D2; injection D2 as -> _; reflexivity).
      destruct (c_stack s2) as [|p0 stk] eqn:K2.
      { exfalso. unfold blocks in D2. rewrite K2 in D2. injection D2 as _ D2. destruct (is_loop _); discriminate. }
      assert (PP : p0 :: stk = add_brk (fun d => sbrk (length (c_code s) + tsize t + 1) (sig (env (blocks s))) d b) (c_stack s1)).
      { unfold blocks in D2. rewrite K2 in D2. injection D2 as _ D2. exact D2. }
      assert (P0 : b_start p0 = length (c_code s) + tsize t /\ b_if p0 = []).
      { cbn [c_stack s1 add_brk] in PP. destruct (is_loop _); injection PP as -> _; split; reflexivity. }
      destruct P0 as [P0 P0'].
      assert (SHp : map bshape (p0 :: stk) = map bshape (blocks s)) by (rewrite PP, shape_add; reflexivity).
      assert (ENp : env (p0 :: stk) = env (blocks s)) by (rewrite PP, env_add; reflexivity).
      assert (SG : sig (env (blocks s)) = sig_e e) by (rewrite sig_env by auto; now rewrite Q).
      assert (Lb : length (gcmds (length (c_code s) + tsize t + 1) (env (blocks s)) b) = ssize (fors (env (blocks s))) b).
      { apply (Ls b (EPlain :: e)); auto. }
      assert (L2 : length (c_code s2) = length (c_code s) + tsize t + 1 + ssize (fors (env (blocks s))) b).
      { rewrite B2, app_length, L1, Lb. reflexivity. }
      destruct (IHr e f rr s2 p0 stk k) as (s3 & n3 & l3 & A3 & C3 & B3 & D3); auto.
      { rewrite SHp. exact G. } { rewrite SHp. exact Q. } { rewrite P0, L2. lia. } { rewrite P0'. constructor. }
      rewrite ENp, L2 in *.
      exists s3. split; [|split; [|split]].
      + change (S (scost b + S (rcost r)) + f) with (S (scost b + S (rcost r) + f)).
        rewrite (go_step _ _ _ _ _ _ (ST _)). rewrite <- Nat.add_assoc. rewrite A2. exact A3.
      + rewrite B3, P0', P0, patch_nil, B2. cbn [gcmd].
        change (c_code s1) with (c_code s ++ gtree (length (c_code s)) false t ++ [IxJz umax]).
        replace ((c_code s ++ gtree (length (c_code s)) false t ++ [IxJz umax]) ++ gcmds (length (c_code s) + tsize t + 1) (env (blocks s)) b)
          with ((c_code s ++ gtree (length (c_code s)) false t) ++ IxJz umax :: gcmds (length (c_code s) + tsize t + 1) (env (blocks s)) b)
          by (rewrite <- !app_assoc; reflexivity).
        rewrite update_at by (rewrite app_length, gtree_len; reflexivity).
        cbn [to_jz]. apps.
      + rewrite C3, C2. reflexivity.
      + exists n3, l3. rewrite D3, PP. rewrite add_brk_app.
        change (c_stack s1) with (touch (length (c_code s) + tsize t) [] (blocks s)).
        rewrite touch_add, touch_touch. f_equal. apply add_brk_ext. intros d. cbn [cbrk]. rewrite fors_sig. reflexivity.
    - (* for *)
      intros l b IHb k e f r s G Q O H. cbn [ok_cmd] in O.
      apply andb_true_iff in O as [O Ok]. apply andb_true_iff in O as [O Ob]. apply andb_true_iff in O as [O Ol].
      apply andb_true_iff in O as [O1 O2]. apply Nat.ltb_lt in O1. apply negb_true_iff, Nat.eqb_neq in O2.
      cbn [ccost rcmd plus app]. rewrite <- !app_assoc. cbn [app].
      set (s1 := {| c_code := c_code s ++ [IxForEveryPartPush; IxForEveryPart umax]; c_blk := new_blk BFor l;
                c_stack := with_start (length (c_code s) + 1) (c_blk s) :: c_stack s;
                c_last := c_last s; c_includes := c_includes s |}).
      assert (ST : forall r0, command umax lim (KForEvery l) (KOpen :: r0) s = Some (r0, s1)).
      { intros r0. cbn [command].
        assert (GS : c_stack s <> [] -> good (map bshape (c_stack s)) /\ encls (map bshape (blocks s)) = encl_of (bshape (c_blk s)) :: encls (map bshape (c_stack s))).
        { intros NE. unfold blocks in *. cbn [map] in *. destruct (c_stack s) as [|b0 bs]; [congruence|].
          split; [cbn [map] in G; apply G|]. apply encls_open. discriminate. }
        replace (Nat.eqb _ _) with false.
        2:{ symmetry. apply Nat.eqb_neq.
            destruct (c_stack s) as [|b0 bs] eqn:K.
            - assert (e = []) as -> by (subst e; unfold encls, blocks; rewrite K; reflexivity). exact O2.
            - destruct GS as [G1 G2]; [discriminate|]. rewrite fep_count by auto. rewrite G2 in Q. rewrite <- Q in O2. exact O2. }
        replace (match l with Some n => existsb (fun b => label_eqb (b_label b) n) (c_stack s) | None => false end) with false.
        2:{ destruct l as [n|]; [|reflexivity]. apply negb_true_iff in Ol.
            destruct (c_stack s) as [|b0 bs] eqn:K; [reflexivity|].
            destruct GS as [G1 G2]; [discriminate|]. rewrite label_used by auto. rewrite G2 in Q. rewrite <- Q in Ol. cbn [tl] in Ol.
            now rewrite Ol. }
        rewrite open_ok by (change (blocks (emit [IxForEveryPartPush; IxForEveryPart umax] s)) with (blocks s); rewrite Q; exact O1).
        cbn [option_map emit with_code c_code c_blk c_stack c_last c_includes].
        match goal with |- context[with_start (?x - 1)] => replace (x - 1) with (length (c_code s) + 1) by (rewrite app_length; cbn; lia) end. reflexivity. }
      assert (SH : map bshape (c_stack s1) = map bshape (blocks s)) by reflexivity.
      assert (NE : map bshape (blocks s) <> []) by discriminate.
      set (l0 := {| lp_for := true; lp_label := l; lp_start := length (c_code s) + 1; lp_exit := umax |}).
      assert (EN1 : env (blocks s1) = l0 :: env (blocks s)) by reflexivity.
      assert (SG : sig (env (blocks s)) = sig_e e) by (rewrite sig_env by auto; now rewrite Q).
      destruct (IHb (EFor l :: e) (1 + f) (KClose k :: r) s1) as (s2 & A2 & B2 & C2 & n2 & l2 & D2).
      { unfold blocks. cbn [map]. rewrite SH. apply good_open; auto; cbn; auto; discriminate. }
      { unfold blocks. cbn [map]. rewrite SH, encls_open by auto. now rewrite Q. }
      { assumption. } { exact I. }
      rewrite EN1 in *.
      assert (L1 : length (c_code s1) = length (c_code s) + 2) by (cbn; rewrite app_length; reflexivity).
      rewrite L1 in *.
      cbn [blocks s1 c_blk c_stack add_brk] in D2. change (is_loop (new_blk BFor l)) with true in D2. cbv iota in D2. cbn [touch] in D2.
      unfold blocks in D2. injection D2 as Db Ds.
      set (j := fun d => sbrk (length (c_code s) + 2) (sig (l0 :: env (blocks s))) (S d) b) in *.
      assert (PP : c_stack s2 = add_brk j (c_stack s1)) by exact Ds. clear Ds.
      assert (PT : exists p0 stk, add_brk j (c_stack s1) = p0 :: stk /\ b_start p0 = length (c_code s) + 1).
      { cbn [c_stack s1 add_brk]. destruct (is_loop _); eexists _, _; split; reflexivity. }
      destruct PT as (p0 & stk & PT & P0).
      assert (Lb : forall x, length (gcmds (length (c_code s) + 2) ({| lp_for := true; lp_label := l; lp_start := length (c_code s) + 1; lp_exit := x |} :: env (blocks s)) b) = ssize (true :: fors (env (blocks s))) b).
      { intros x. apply (Ls b (EFor l :: e)); auto. cbn. now f_equal. }
      set (cur := length (c_code s) + 2 + ssize (true :: fors (env (blocks s))) b + ksize k + 1).
      assert (LC : length ((c_code s2 ++ kcode k) ++ [IxJmp (b_start p0)]) = cur).
      { rewrite B2, !app_length, L1. unfold l0. rewrite Lb, kcode_len. cbn [length]. unfold cur. lia. }
      eexists. split; [|split; [|split]].
      + change (S (scost b + 1) + f) with (S (scost b + 1 + f)).
        rewrite (go_step _ _ _ _ _ _ (ST _)). rewrite <- Nat.add_assoc. rewrite A2.
        change (1 + f) with (S f). apply go_step. cbn [command]. unfold close. rewrite PP, PT.
        assert (TY : b_type (c_blk s2) = BFor) by (rewrite Db; reflexivity). rewrite TY.
        change (match k with Some i => [i] | None => [] end) with (kcode k). rewrite LC. cbn [option_map]. reflexivity.
      + cbn [c_code]. rewrite P0.
        assert (BR : b_break (c_blk s2) = sbrk (length (c_code s) + 2) (sig (l0 :: env (blocks s))) 0 b) by (rewrite Db; reflexivity).
        rewrite BR, B2.
        change (c_code s1) with (c_code s ++ [IxForEveryPartPush; IxForEveryPart umax]).
        replace ((((c_code s ++ [IxForEveryPartPush; IxForEveryPart umax]) ++ gcmds (length (c_code s) + 2) (l0 :: env (blocks s)) b) ++ kcode k) ++ [IxJmp (length (c_code s) + 1)])
          with ((c_code s ++ [IxForEveryPartPush]) ++ IxForEveryPart umax :: gcmds (length (c_code s) + 2) (l0 :: env (blocks s)) b ++ kcode k ++ [IxJmp (length (c_code s) + 1)]) by apps.
        rewrite update_at by (rewrite app_length; reflexivity). cbn [to_for].
        replace ((c_code s ++ [IxForEveryPartPush]) ++ IxForEveryPart cur :: gcmds (length (c_code s) + 2) (l0 :: env (blocks s)) b ++ kcode k ++ [IxJmp (length (c_code s) + 1)])
          with ((c_code s ++ [IxForEveryPartPush; IxForEveryPart cur]) ++ gcmds (length (c_code s) + 2) (l0 :: env (blocks s)) b ++ (kcode k ++ [IxJmp (length (c_code s) + 1)])) by apps.
        rewrite (Bs b (EFor l :: e)); [|assumption|cbn; now f_equal|rewrite app_length; reflexivity].
        cbn [set_exit l0 lp_for lp_label lp_start gcmd]. fold cur. apps.
      + exact C2.
      + exists (length (c_code s) + 1), (b_if (c_blk s)).
        transitivity (add_brk j (c_stack s1)); [rewrite PT; reflexivity|].
        replace (c_stack s1) with (touch (length (c_code s) + 1) (b_if (c_blk s)) (blocks s)) by (cbn; do 2 f_equal; destruct (c_blk s); reflexivity).
        rewrite touch_add. reflexivity.
    - (* while *)
      intros ex b IHb k e f r s G Q O H. cbn [ok_cmd] in O.
      apply andb_true_iff in O as [O Ok]. apply andb_true_iff in O as [O1 Ob]. apply Nat.ltb_lt in O1.
      cbn [ccost rcmd plus app]. rewrite <- !app_assoc. cbn [app].
      set (s1 := {| c_code := c_code s ++ [IxWhile ex umax]; c_blk := new_blk BWhile None;
                c_stack := with_start (length (c_code s)) (c_blk s) :: c_stack s;
                c_last := c_last s; c_includes := c_includes s |}).
      assert (ST : forall r0, command umax lim (KWhile ex) (KOpen :: r0) s = Some (r0, s1)).
      { intros r0. cbn [command].
        rewrite open_ok by (change (blocks (emit [IxWhile ex umax] s)) with (blocks s); rewrite Q; exact O1).
        cbn [option_map emit with_code c_code c_blk c_stack c_last c_includes].
        match goal with |- context[with_start (?x - 1)] => replace (x - 1) with (length (c_code s)) by (rewrite app_length; cbn; lia) end. reflexivity. }
      assert (SH : map bshape (c_stack s1) = map bshape (blocks s)) by reflexivity.
      assert (NE : map bshape (blocks s) <> []) by discriminate.
      set (l0 := {| lp_for := false; lp_label := None; lp_start := length (c_code s); lp_exit := umax |}).
      assert (EN1 : env (blocks s1) = l0 :: env (blocks s)) by reflexivity.
      assert (SG : sig (env (blocks s)) = sig_e e) by (rewrite sig_env by auto; now rewrite Q).
      destruct (IHb (EWhile :: e) (1 + f) (KClose k :: r) s1) as (s2 & A2 & B2 & C2 & n2 & l2 & D2).
      { unfold blocks. cbn [map]. rewrite SH. apply good_open; auto; cbn; auto; discriminate. }
      { unfold blocks. cbn [map]. rewrite SH, encls_open by auto. now rewrite Q. }
      { assumption. } { exact I. }
      rewrite EN1 in *.
      assert (L1 : length (c_code s1) = length (c_code s) + 1) by (cbn; rewrite app_length; reflexivity).
      rewrite L1 in *.
      cbn [blocks s1 c_blk c_stack add_brk] in D2. change (is_loop (new_blk BWhile None)) with true in D2. cbv iota in D2. cbn [touch] in D2.
      unfold blocks in D2. injection D2 as Db Ds.
      set (j := fun d => sbrk (length (c_code s) + 1) (sig (l0 :: env (blocks s))) (S d) b) in *.
      assert (PP : c_stack s2 = add_brk j (c_stack s1)) by exact Ds. clear Ds.
      assert (PT : exists p0 stk, add_brk j (c_stack s1) = p0 :: stk /\ b_start p0 = length (c_code s)).
      { cbn [c_stack s1 add_brk]. destruct (is_loop _); eexists _, _; split; reflexivity. }
      destruct PT as (p0 & stk & PT & P0).
      assert (Lb : forall x, length (gcmds (length (c_code s) + 1) ({| lp_for := false; lp_label := None; lp_start := length (c_code s); lp_exit := x |} :: env (blocks s)) b) = ssize (false :: fors (env (blocks s))) b).
      { intros x. apply (Ls b (EWhile :: e)); auto. cbn. now f_equal. }
      set (cur := length (c_code s) + 1 + ssize (false :: fors (env (blocks s))) b + ksize k + 1).
      assert (LC : length ((c_code s2 ++ kcode k) ++ [IxJmp (b_start p0)]) = cur).
      { rewrite B2, !app_length, L1. unfold l0. rewrite Lb, kcode_len. cbn [length]. unfold cur. lia. }
      eexists. split; [|split; [|split]].
      + change (S (scost b + 1) + f) with (S (scost b + 1 + f)).
        rewrite (go_step _ _ _ _ _ _ (ST _)). rewrite <- Nat.add_assoc. rewrite A2.
        change (1 + f) with (S f). apply go_step. cbn [command]. unfold close. rewrite PP, PT.
        assert (TY : b_type (c_blk s2) = BWhile) by (rewrite Db; reflexivity). rewrite TY.
        change (match k with Some i => [i] | None => [] end) with (kcode k). rewrite LC. cbn [option_map]. reflexivity.
      + cbn [c_code]. rewrite P0.
        assert (BR : b_break (c_blk s2) = sbrk (length (c_code s) + 1) (sig (l0 :: env (blocks s))) 0 b) by (rewrite Db; reflexivity).
        rewrite BR, B2.
        change (c_code s1) with (c_code s ++ [IxWhile ex umax]).
        replace ((((c_code s ++ [IxWhile ex umax]) ++ gcmds (length (c_code s) + 1) (l0 :: env (blocks s)) b) ++ kcode k) ++ [IxJmp (length (c_code s))])
          with (c_code s ++ IxWhile ex umax :: gcmds (length (c_code s) + 1) (l0 :: env (blocks s)) b ++ kcode k ++ [IxJmp (length (c_code s))]) by apps.
        rewrite update_at by reflexivity. cbn [to_while].
        replace (c_code s ++ IxWhile ex cur :: gcmds (length (c_code s) + 1) (l0 :: env (blocks s)) b ++ kcode k ++ [IxJmp (length (c_code s))])
          with ((c_code s ++ [IxWhile ex cur]) ++ gcmds (length (c_code s) + 1) (l0 :: env (blocks s)) b ++ (kcode k ++ [IxJmp (length (c_code s))])) by apps.
        rewrite (Bs b (EWhile :: e)); [|assumption|cbn; now f_equal|rewrite app_length; reflexivity].
        cbn [set_exit l0 lp_for lp_label lp_start gcmd]. fold cur. apps.
      + exact C2.
      + exists (length (c_code s)), (b_if (c_blk s)).
        transitivity (add_brk j (c_stack s1)); [rewrite PT; reflexivity|].
        replace (c_stack s1) with (touch (length (c_code s)) (b_if (c_blk s)) (blocks s)) by (cbn; do 2 f_equal; destruct (c_blk s); reflexivity).
        rewrite touch_add. reflexivity.
    - (* break *)
      intros l e f r s G Q O H. cbn [ccost rcmd plus app].
      assert (TT : forall j, touch (b_start (c_blk s)) (b_if (c_blk s)) (add_brk j (blocks s)) = add_brk j (blocks s)).
      { intros j. cbn. destruct (is_loop (c_blk s)); cbn; f_equal; destruct (c_blk s); reflexivity. }
      assert (WB : forall j, blocks (with_blocks (add_brk j (blocks s)) s) = add_brk j (blocks s) /\
        c_code (with_blocks (add_brk j (blocks s)) s) = c_code s /\ c_includes (with_blocks (add_brk j (blocks s)) s) = c_includes s).
      { intros j. cbn. destruct (is_loop (c_blk s)); repeat split; reflexivity. }
      destruct l as [n|]; cbn [ok_cmd] in O; rewrite <- Q in O.
      + destruct (find_label_ok umax n (length (c_code s) + 1) (blocks s) G O 0) as (pops & A & B).
        eexists. split.
        * apply go_step. cbn [command do_break]. rewrite A. cbn [option_map]. reflexivity.
        * cbn [gcmd cbrk]. rewrite B. match goal with |- context[add_brk ?j _] => destruct (WB j) as (W1 & W2 & W3) end.
          split; [unfold emit at 1; cbn [with_code c_code]; now rewrite W2|]. split; [exact W3|].
          exists (b_start (c_blk s)), (b_if (c_blk s)). rewrite TT. exact W1.
      + destruct (find_loop_ok umax (length (c_code s)) (blocks s) G O) as (l & env' & A & B).
        eexists. split.
        * apply go_step. cbn [command do_break]. rewrite B. cbn [option_map]. reflexivity.
        * assert (X : lp_exit l = umax) by (apply (exit_env l (blocks s)); rewrite A; left; reflexivity).
          cbn [gcmd cbrk]. rewrite A, X. cbn [sig map].
          match goal with |- context[with_blocks (add_brk ?j _) _] => destruct (WB j) as (W1 & W2 & W3) end.
          split; [unfold emit at 1; cbn [with_code c_code]; now rewrite W2|]. split; [exact W3|].
          exists (b_start (c_blk s)), (b_if (c_blk s)). rewrite TT. exact W1.
    - (* continue *)
      intros e f r s G Q O H. cbn [ccost rcmd plus app ok_cmd] in *. rewrite <- Q in O.
      destruct (continue_found umax (blocks s) G O) as (l & env' & A & B).
      eexists. split; [apply go_step; cbn [command]; rewrite B; reflexivity|].
      cbn [gcmd cbrk]. rewrite A. apply becomes_plain; reflexivity.
    - (* return *)
      intros e f r s G Q O H. cbn [ccost rcmd plus app ok_cmd] in *.
      eexists. split; [apply go_step; reflexivity|].
      cbn [gcmd cbrk]. rewrite <- return_pops. apply becomes_plain; [|reflexivity..].
      unfold do_return. cbn [emit with_code c_code]. destruct (length _); reflexivity.
    - (* nil *)
      intros e f r s G Q O H. exists s. split; [reflexivity|]. apply becomes_plain; auto. cbn. now rewrite app_nil_r.
    - (* cons *)
      intros c IHc cs IHs e f r s G Q O H. cbn [ok_cmds] in O. apply andb_true_iff in O as [O1 O2].
      cbn [scost rcmds gcmds sbrk]. rewrite <- app_assoc, <- Nat.add_assoc.
      destruct (IHc e (scost cs + f) (rcmds cs ++ r) s) as (s1 & A1 & B1 & C1 & n1 & l1 & D1); auto.
      { destruct cs as [|c' cs]; [exact H|]. cbn [rcmds]. destruct c'; exact I. }
      assert (SH : map bshape (blocks s1) = map bshape (blocks s)) by (rewrite D1, shape_touch, shape_add; reflexivity).
      assert (EN : env (blocks s1) = env (blocks s)) by (rewrite D1, env_touch, env_add; reflexivity).
      assert (SG : sig (env (blocks s)) = sig_e e) by (rewrite sig_env by auto; now rewrite Q).
      assert (L1 : length (c_code s1) = length (c_code s) + csize (fors (env (blocks s))) c).
      { rewrite B1, app_length. rewrite (Lc c e) by auto. reflexivity. }
      destruct (IHs e f r s1) as (s2 & A2 & B2 & C2 & n2 & l2 & D2); auto.
      { now rewrite SH. } { now rewrite SH. }
      rewrite EN, L1 in *.
      exists s2. split; [congruence|]. split; [rewrite B2, B1; apps|]. split; [congruence|].
      exists n2, l2. rewrite D2, D1, touch_add, touch_touch, add_brk_app. f_equal. apply add_brk_ext. intros d. now rewrite <- fors_sig.
    - (* no else *)
      intros e f rr s p0 stk k K TY G Q O H P1 P2 q2 en.
      assert (LQ : length (c_code s ++ kcode k) = q2) by (rewrite app_length, kcode_len; reflexivity).
      exists {| c_code := patch (to_jmp q2) (b_if p0) (update (b_start p0) (to_jz q2) (c_code s)) ++ kcode k;
                c_blk := with_if [] p0; c_stack := stk; c_last := BNot; c_includes := c_includes s |}, (b_start p0), [].
      split; [|split; [reflexivity|split]].
      + change (S (rcost RNone) + f) with (S f). apply go_step. cbn [rrest app command]. unfold close. rewrite K.
        assert (P : (match b_type (c_blk s) with BIf => true | BElsIf => true | _ => false end) = true) by (destruct TY as [-> | ->]; reflexivity).
        change (match k with Some i => [i] | None => [] end) with (kcode k). rewrite LQ.
        assert (X : patch (to_jmp q2) (b_if p0) (update (b_start p0) (to_jz q2) (c_code s ++ kcode k)) =
                    patch (to_jmp q2) (b_if p0) (update (b_start p0) (to_jz q2) (c_code s)) ++ kcode k).
        { rewrite update_app_l by auto. rewrite patch_app_l; auto. now rewrite update_length. }
        rewrite X.
        destruct TY as [-> | ->]; destruct rr as [|[] rr]; try contradiction; reflexivity.
      + cbn [c_code rsize grest]. rewrite app_nil_r, Nat.add_0_r. reflexivity.
      + cbn [rbrk]. rewrite add_brk_nil. reflexivity.
    - (* else *)
      intros b IHb k2 e f rr s p0 stk k K TY G Q O H P1 P2 q2 en.
      cbn [ok_rest] in O. apply andb_true_iff in O as [O Ok]. apply andb_true_iff in O as [O1 Ob]. apply Nat.ltb_lt in O1.
      assert (LQ : length (c_code s ++ kcode k) = q2) by (rewrite app_length, kcode_len; reflexivity).
      set (s1 := {| c_code := update (b_start p0) (to_jz (q2 + 1)) (c_code s) ++ kcode k ++ [IxJmp umax];
                    c_blk := with_if (b_if p0 ++ [q2]) p0; c_stack := stk; c_last := b_type (c_blk s); c_includes := c_includes s |}).
      set (s2 := {| c_code := c_code s1; c_blk := new_blk BElse None;
                    c_stack := with_start q2 (with_if (b_if p0 ++ [q2]) p0) :: stk; c_last := b_type (c_blk s); c_includes := c_includes s |}).
      assert (L1 : length (c_code s1) = q2 + 1).
      { cbn. rewrite !app_length, update_length, kcode_len. cbn. unfold q2. lia. }
      assert (ST1 : forall r0, command umax lim (KClose k) (KElse :: r0) s = Some (KElse :: r0, s1)).
      { intros r0. cbn [command]. unfold close. rewrite K.
        change (match k with Some i => [i] | None => [] end) with (kcode k). rewrite LQ.
        replace (length ((c_code s ++ kcode k) ++ [IxJmp umax])) with (q2 + 1) by (rewrite app_length, LQ; reflexivity).
        assert (X : update (b_start (with_if (b_if p0 ++ [q2]) p0)) (to_jz (q2 + 1)) ((c_code s ++ kcode k) ++ [IxJmp umax]) = c_code s1).
        { rewrite <- app_assoc. cbn. rewrite update_app_l by auto. reflexivity. }
        rewrite X. unfold s1. destruct TY as [-> | ->]; reflexivity. }
      assert (SHs : map bshape (blocks s1) = map bshape (p0 :: stk)) by reflexivity.
      assert (ST2 : forall r0, command umax lim KElse (KOpen :: r0) s1 = Some (r0, s2)).
      { intros r0. cbn [command]. rewrite open_ok by (rewrite SHs, Q; exact O1).
        rewrite L1. replace (q2 + 1 - 1) with q2 by lia. destruct TY as [T|T]; cbn [c_last s1]; rewrite T; unfold s2; rewrite T; reflexivity. }
      assert (SH : map bshape (c_stack s2) = map bshape (p0 :: stk)) by reflexivity.
      assert (NE : map bshape (p0 :: stk) <> []) by discriminate.
      assert (EN1 : env (blocks s2) = en) by reflexivity.
      assert (SG : sig en = sig_e e) by (unfold en; rewrite sig_env by auto; now rewrite Q).
      destruct (IHb (EPlain :: e) (1 + f) (KClose k2 :: rr) s2) as (s3 & A3 & B3 & C3 & n3 & l3 & D3).
      { unfold blocks. cbn [map]. rewrite SH. apply good_open; auto; cbn; auto; discriminate. }
      { unfold blocks. cbn [map]. rewrite SH, encls_open by auto. now rewrite Q. }
      { assumption. } { exact I. }
      change (length (c_code s2)) with (length (c_code s1)) in *. rewrite EN1, L1 in *.
      cbn [blocks s2 c_blk c_stack add_brk] in D3. change (is_loop (new_blk BElse None)) with false in D3. cbv iota in D3. cbn [touch] in D3.
      unfold blocks in D3. injection D3 as Db Ds.
      set (j := fun d => sbrk (q2 + 1) (sig en) d b) in *.
      assert (PP : c_stack s3 = add_brk j (c_stack s2)) by exact Ds. clear Ds.
      assert (PT : exists p1 stk1, add_brk j (c_stack s2) = p1 :: stk1 /\ b_if p1 = b_if p0 ++ [q2] /\
                     with_if [] p1 :: stk1 = touch q2 [] (add_brk j (p0 :: stk))).
      { cbn [c_stack s2 add_brk]. change (is_loop (with_start q2 (with_if (b_if p0 ++ [q2]) p0))) with (is_loop p0).
        destruct (is_loop p0); eexists _, _; repeat split; reflexivity. }
      destruct PT as (p1 & stk1 & PT & P3 & P4).
      assert (Lb : length (gcmds (q2 + 1) en b) = ssize (fors en) b) by (apply (Ls b (EPlain :: e)); auto).
      assert (LC : length (c_code s3 ++ kcode k2) = q2 + rsize (fors en) (RElse b k2)).
      { rewrite app_length, B3, app_length. change (length (c_code s2)) with (length (c_code s1)). rewrite L1, Lb, kcode_len. cbn. lia. }
      eexists _, q2, []. split; [|split; [|split]].
      + cbn [rcost rrest app]. rewrite <- !app_assoc. cbn [app].
        change (S (S (scost b + 1)) + f) with (S (S (scost b + 1 + f))).
        rewrite (go_step _ _ _ _ _ _ (ST1 _)). rewrite (go_step _ _ _ _ _ _ (ST2 _)). rewrite <- Nat.add_assoc, A3.
        change (1 + f) with (S f). apply go_step. cbn [command]. unfold close. rewrite PP, PT.
        assert (TY3 : b_type (c_blk s3) = BElse) by (rewrite Db; reflexivity). rewrite TY3.
        change (match k2 with Some i => [i] | None => [] end) with (kcode k2). rewrite LC, P3. cbn [option_map]. reflexivity.
      + exact C3.
      + cbn [c_code]. rewrite B3. change (c_code s2) with (c_code s1). rewrite patch_app.
        change (c_code s1) with (update (b_start p0) (to_jz (q2 + 1)) (c_code s) ++ kcode k ++ [IxJmp umax]).
        rewrite <- !app_assoc. rewrite patch_app_l by (now rewrite update_length).
        rewrite patch_cons, patch_nil.
        match goal with |- update q2 _ (?x ++ kcode k ++ [IxJmp umax] ++ ?y) = _ =>
          replace (x ++ kcode k ++ [IxJmp umax] ++ y) with ((x ++ kcode k) ++ IxJmp umax :: y) by apps end.
        rewrite update_at by (rewrite app_length, patch_length, update_length, kcode_len; reflexivity).
        cbn [to_jmp grest]. apps.
      + unfold blocks; cbn [c_blk c_stack]. exact P4.
    - (* elsif *)
      intros t b IHb k2 r IHr e f rr s p0 stk k K TY G Q O H P1 P2 q2 en.
      cbn [ok_rest] in O.
      apply andb_true_iff in O as [O Or]. apply andb_true_iff in O as [O Ok]. apply andb_true_iff in O as [O Ob].
      apply andb_true_iff in O as [O O1]. apply andb_true_iff in O as [Ot O2]. apply Nat.ltb_lt in O1. apply Nat.leb_le in O2.
      assert (LQ : length (c_code s ++ kcode k) = q2) by (rewrite app_length, kcode_len; reflexivity).
      set (s1 := {| c_code := update (b_start p0) (to_jz (q2 + 1)) (c_code s) ++ kcode k ++ [IxJmp umax];
                    c_blk := with_if (b_if p0 ++ [q2]) p0; c_stack := stk; c_last := b_type (c_blk s); c_includes := c_includes s |}).
      set (s2 := {| c_code := c_code s1 ++ gtree (q2 + 1) false t ++ [IxJz umax]; c_blk := new_blk BElsIf None;
                    c_stack := with_start (q2 + 1 + tsize t) (with_if (b_if p0 ++ [q2]) p0) :: stk; c_last := b_type (c_blk s); c_includes := c_includes s |}).
      assert (L1 : length (c_code s1) = q2 + 1).
      { cbn. rewrite !app_length, update_length, kcode_len. cbn. unfold q2. lia. }
      assert (ST1 : forall r0, command umax lim (KClose k) (KElsIf :: r0) s = Some (KElsIf :: r0, s1)).
      { intros r0. cbn [command]. unfold close. rewrite K.
        change (match k with Some i => [i] | None => [] end) with (kcode k). rewrite LQ.
        replace (length ((c_code s ++ kcode k) ++ [IxJmp umax])) with (q2 + 1) by (rewrite app_length, LQ; reflexivity).
        assert (X : update (b_start (with_if (b_if p0 ++ [q2]) p0)) (to_jz (q2 + 1)) ((c_code s ++ kcode k) ++ [IxJmp umax]) = c_code s1).
        { rewrite <- app_assoc. cbn. rewrite update_app_l by auto. reflexivity. }
        rewrite X. unfold s1. destruct TY as [-> | ->]; reflexivity. }
      assert (SHs : map bshape (blocks s1) = map bshape (p0 :: stk)) by reflexivity.
      assert (ST2 : forall r0, command umax lim KElsIf (rtree t ++ KOpen :: r0) s1 = Some (r0, s2)).
      { intros r0. cbn [command].
        assert (X : test_then umax lim BElsIf (rtree t ++ KOpen :: r0) s1 = Some (r0, s2)).
        { rewrite test_then_ok by (try assumption; rewrite SHs, Q; assumption). rewrite L1. reflexivity. }
        rewrite X. destruct TY as [T|T]; cbn [c_last s1]; rewrite T; reflexivity. }
      assert (SH : map bshape (c_stack s2) = map bshape (p0 :: stk)) by reflexivity.
      assert (NE : map bshape (p0 :: stk) <> []) by discriminate.
      assert (EN1 : env (blocks s2) = en) by reflexivity.
      assert (SG : sig en = sig_e e) by (unfold en; rewrite sig_env by auto; now rewrite Q).
      destruct (IHb (EPlain :: e) (S (rcost r) + f) (KClose k2 :: rrest r ++ rr) s2) as (s3 & A3 & B3 & C3 & n3 & l3 & D3).
      { unfold blocks. cbn [map]. rewrite SH. apply good_open; auto; cbn; auto; discriminate. }
      { unfold blocks. cbn [map]. rewrite SH, encls_open by auto. now rewrite Q. }
      { assumption. } { exact I. }
      assert (L2 : length (c_code s2) = q2 + 1 + tsize t + 1).
      { cbn [c_code s2]. rewrite !app_length, L1, gtree_len. cbn. lia. }
      rewrite EN1, L2 in *.
      cbn [blocks s2 c_blk c_stack add_brk] in D3. change (is_loop (new_blk BElsIf None)) with false in D3. cbv iota in D3. cbn [touch] in D3.
      unfold blocks in D3. injection D3 as Db Ds.
      set (j := fun d => sbrk (q2 + 1 + tsize t + 1) (sig en) d b) in *.
      assert (PP : c_stack s3 = add_brk j (c_stack s2)) by exact Ds. clear Ds.
      assert (PT : exists p1 stk1, add_brk j (c_stack s2) = p1 :: stk1 /\ b_if p1 = b_if p0 ++ [q2] /\
                     b_start p1 = q2 + 1 + tsize t).
      { cbn [c_stack s2 add_brk]. change (is_loop (with_start (q2 + 1 + tsize t) (with_if (b_if p0 ++ [q2]) p0))) with (is_loop p0).
        destruct (is_loop p0); eexists _, _; repeat split; reflexivity. }
      destruct PT as (p1 & stk1 & PT & P3 & P4).
      assert (TP : c_stack s2 = touch (q2 + 1 + tsize t) (b_if p0 ++ [q2]) (p0 :: stk)) by reflexivity.
      assert (SHp : map bshape (p1 :: stk1) = map bshape (p0 :: stk)) by (rewrite <- PT, shape_add; reflexivity).
      assert (ENp : env (p1 :: stk1) = en) by (rewrite <- PT, env_add; reflexivity).
      assert (Lb : length (gcmds (q2 + 1 + tsize t + 1) en b) = ssize (fors en) b) by (apply (Ls b (EPlain :: e)); auto).
      assert (L3 : length (c_code s3) = q2 + 1 + tsize t + 1 + ssize (fors en) b).
      { rewrite B3, app_length, L2, Lb. reflexivity. }
      destruct (IHr e f rr s3 p1 stk1 k2) as (s4 & n4 & l4 & A4 & C4 & B4 & D4); auto.
      { now rewrite PP. } { right. rewrite Db. reflexivity. } { now rewrite SHp. } { now rewrite SHp. } { rewrite P4, L3. lia. }
      { rewrite P3, L3. apply Forall_app. split; [|constructor; [lia|constructor]].
        eapply Forall_impl; [|exact P2]. cbn. unfold q2. intros; lia. }
      rewrite ENp, L3 in *.
      exists s4, n4, l4. split; [|split; [|split]].
      + cbn [rcost rrest app]. rewrite <- !app_assoc. cbn [app]. rewrite <- !app_assoc. cbn [app].
        change (S (S (scost b + S (rcost r))) + f) with (S (S (scost b + S (rcost r) + f))).
        rewrite (go_step _ _ _ _ _ _ (ST1 _)). rewrite (go_step _ _ _ _ _ _ (ST2 _)). rewrite <- Nat.add_assoc, A3. exact A4.
      + rewrite C4, C3; reflexivity.
      + rewrite B4, P3, P4, B3.
        set (y := q2 + rsize (fors en) (RElsIf t b k2 r)).
        replace (q2 + 1 + tsize t + 1 + ssize (fors en) b + ksize k2 + rsize (fors en) r) with y by (unfold y; cbn; lia).
        change (c_code s2) with ((update (b_start p0) (to_jz (q2 + 1)) (c_code s) ++ kcode k ++ [IxJmp umax]) ++ gtree (q2 + 1) false t ++ [IxJz umax]).
        set (U := update (b_start p0) (to_jz (q2 + 1)) (c_code s)).
        assert (LU : length U = length (c_code s)) by apply update_length.
        set (x := match r with RNone => _ | _ => _ end).
        replace (((U ++ kcode k ++ [IxJmp umax]) ++ gtree (q2 + 1) false t ++ [IxJz umax]) ++ gcmds (q2 + 1 + tsize t + 1) en b)
          with ((U ++ kcode k ++ [IxJmp umax] ++ gtree (q2 + 1) false t) ++ IxJz umax :: gcmds (q2 + 1 + tsize t + 1) en b) by apps.
        rewrite update_at by (rewrite !app_length, LU, kcode_len, gtree_len; cbn; unfold q2; lia).
        cbn [to_jz]. rewrite patch_app. rewrite <- !app_assoc.
        rewrite patch_app_l by (rewrite LU; exact P2).
        rewrite patch_cons, patch_nil.
        match goal with |- update q2 _ (?x ++ kcode k ++ [IxJmp umax] ++ ?y) ++ _ = _ =>
          replace (x ++ kcode k ++ [IxJmp umax] ++ y) with ((x ++ kcode k) ++ IxJmp umax :: y) by apps end.
        rewrite update_at by (rewrite app_length, patch_length, LU, kcode_len; reflexivity).
        cbn [to_jmp grest]. fold U. apps.
      + rewrite D4, <- PT, add_brk_app, TP, touch_add, touch_touch. f_equal. apply add_brk_ext. intros d.
        cbn [rbrk]. rewrite fors_sig. reflexivity.
  Qed.

  Theorem compile_layout p : ok_prog lim p = true -> compile umax lim (rprog p) = Some (gprog p).
  Proof.
    intros O. unfold compile, rprog, gprog.
    assert (C : (forall c, ccost c <= length (rcmd c)) /\ (forall cs, scost cs <= length (rcmds cs)) /\ (forall r, rcost r <= length (rrest r))).
    { apply cmd_ind3; intros; cbn [ccost scost rcost rcmd rcmds rrest length]; rewrite ?app_length; cbn [length];
        rewrite ?app_length; cbn [length]; rewrite ?app_length; cbn [length]; lia. }
    destruct C as (_ & C & _). specialize (C (p_cmds p)).
    cbn [length]. set (n := length (rcmds (p_cmds p))) in *.
    set (s0 := do_require (p_require p) start).
    assert (S0 : go (S n) (KRequire (p_require p) :: rcmds (p_cmds p)) start = go n (rcmds (p_cmds p)) s0) by reflexivity.
    rewrite S0.
    replace n with (scost (p_cmds p) + (n - scost (p_cmds p))) by lia.
    destruct main as (_ & M & _).
    destruct (M (p_cmds p) [] (n - scost (p_cmds p)) [] s0) as (s1 & A & B & _ & n1 & l1 & D).
    { unfold s0, do_require. destruct (p_require p); split; reflexivity. }
    { unfold s0, do_require. destruct (p_require p); reflexivity. }
    { exact O. } { exact I. }
    rewrite app_nil_r in A. rewrite A.
    assert (K : c_stack s1 = []).
    { unfold blocks in D. unfold s0, do_require in D. destruct (p_require p); cbn in D; injection D as _ D; exact D. }
    destruct (n - scost (p_cmds p)); cbn [Compile.go]; rewrite K, B; f_equal;
      unfold s0, do_require; destruct (p_require p); reflexivity.
  Qed.
End Go.
