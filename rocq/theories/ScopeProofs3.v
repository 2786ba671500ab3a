(** Slots behave like lexically scoped variables. *)
From Verif Require Import Base Lib Address Var Value SetVar Flags Comparator Message EditHeader Expr Event
  Notify Vacation Spam AddrTest Mime Sieve Run Scope ScopeSpec ScopeProofs ScopeProofs2 ScopeRun.
Local Open Scope nat_scope.

Definition holds (fr : list var) (p : text * nat) (q : text * text) : Prop :=
  fst p = fst q /\ nth_error fr (snd p) = Some (VStr (snd q)).
Fixpoint rel (fr : list var) (bs : list vars) (e : list scope) (hi : nat) : Prop :=
  match bs, e with
  | [], [] => hi = 0
  | b :: bs', sc :: e' => exists lo, hi = lo + length b /\ map snd b = rev (seq lo (length b)) /\
                                     Forall2 (holds fr) b sc /\ rel fr bs' e' lo
  | _, _ => False
  end.
Definition blank (fr : list var) (hi : nat) : Prop :=
  forall j, hi <= j < length fr -> nth_error fr j = Some vdefault.

Lemma upd_len {A} (x : A) l : forall i, length (upd i x l) = length l.
Proof. induction l; intros [|i]; cbn; auto. Qed.
Lemma upd_same {A} (x : A) l : forall i, i < length l -> nth_error (upd i x l) i = Some x.
Proof. induction l as [|y l IH]; intros [|i]; cbn; try lia; auto. intros; apply IH; lia. Qed.
Lemma upd_other {A} (x : A) l : forall i j, i <> j -> nth_error (upd i x l) j = nth_error l j.
Proof. induction l as [|y l IH]; intros [|i] [|j] H; cbn; auto; try congruence. Qed.

Lemma in_rev_seq i lo n : In i (rev (seq lo n)) <-> lo <= i < lo + n.
Proof. rewrite <- in_rev, in_seq. lia. Qed.
Lemma entry_range (b : vars) lo n i : map snd b = rev (seq lo (length b)) -> In (n, i) b -> lo <= i < lo + length b.
Proof. intros H Hi. apply (in_map snd) in Hi. rewrite H in Hi. apply in_rev_seq in Hi. exact Hi. Qed.

Lemma holds_find fr b sc n : Forall2 (holds fr) b sc ->
  match find_var n b with
  | Some i => exists t, sfind n sc = Some t /\ nth_error fr i = Some (VStr t)
  | None => sfind n sc = None
  end.
Proof.
  induction 1 as [|[m i] [m' t] b sc [H1 H2] HF IH]; cbn in *; [auto|]. subst m'.
  destruct (teqb n m); eauto.
Qed.
Lemma rel_find fr bs : forall e hi n, rel fr bs e hi ->
  match find_in n bs with
  | Some i => nth_error fr i = Some (VStr (value_of n e))
  | None => value_of n e = []
  end.
Proof.
  induction bs as [|b bs IH]; intros [|sc e] hi n; cbn; try tauto.
  intros (lo & _ & _ & HF & R). pose proof (holds_find _ _ _ n HF) as H.
  destruct (find_var n b) as [i|].
  - destruct H as (t & -> & H). exact H.
  - rewrite H. apply (IH e lo n R).
Qed.
Lemma rel_below fr bs : forall e hi n i, rel fr bs e hi -> find_in n bs = Some i -> i < hi.
Proof.
  induction bs as [|b bs IH]; intros [|sc e] hi n i; cbn; try tauto; try discriminate.
  intros (lo & -> & Hs & HF & R). destruct (find_var n b) as [j|] eqn:F.
  - intros X; inv X. apply find_var_in in F. apply (entry_range _ _ _ _ Hs) in F. lia.
  - intros X. apply (IH e lo n i R) in X. lia.
Qed.
(** Changing a slot that no variable of these blocks has. *)
Lemma holds_upd fr b sc i v : Forall2 (holds fr) b sc -> ~ In i (map snd b) -> Forall2 (holds (upd i v fr)) b sc.
Proof.
  induction 1 as [|[m j] [m' t] b sc [H1 H2] HF IH]; cbn; intros H; constructor; auto.
  split; [auto|]. cbn in *. rewrite upd_other; auto.
Qed.
Lemma rel_upd fr bs : forall e hi i v, rel fr bs e hi -> hi <= i -> rel (upd i v fr) bs e hi.
Proof.
  induction bs as [|b bs IH]; intros [|sc e] hi i v; cbn; try tauto.
  intros (lo & -> & Hs & HF & R) Hi. exists lo. repeat split; auto.
  - apply holds_upd; auto. rewrite Hs, in_rev_seq. lia.
  - apply IH; auto. lia.
Qed.
Lemma blank_upd fr hi i v : blank fr hi -> i < hi -> blank (upd i v fr) hi.
Proof. intros H Hi j. rewrite upd_len. intros Hj. rewrite upd_other by lia. auto. Qed.

Lemma holds_put fr t b : forall sc n i, Forall2 (holds fr) b sc -> NoDup (map snd b) -> find_var n b = Some i ->
  exists u, sfind n sc = Some u /\ (i < length fr -> Forall2 (holds (upd i (VStr t) fr)) b (sput n t sc)).
Proof.
  induction b as [|[m j] b IH]; intros sc n i HF ND; [discriminate|]. inv HF. destruct y as [m' w]. destruct H1 as [E1 E2]. cbn in *. subst m'.
  inv ND. destruct (teqb n m) eqn:E.
  - intros X; inv X. exists w. split; [auto|]. intros Hi. constructor; [split; [auto|apply upd_same; auto]|].
    apply holds_upd; auto.
  - intros X. destruct (IH _ _ _ H3 H2 X) as (u & Hu & HF'). exists u. split; [auto|]. intros Hi. constructor; [|auto].
    split; [auto|]. cbn. rewrite upd_other; auto. intros ->. apply H1. apply find_var_in in X. apply (in_map snd) in X. exact X.
Qed.
Lemma rel_assign fr bs : forall e hi n i t, rel fr bs e hi -> hi <= length fr -> find_in n bs = Some i ->
  exists e', assign_visible n t e = Some e' /\ rel (upd i (VStr t) fr) bs e' hi.
Proof.
  induction bs as [|b bs IH]; intros [|sc e] hi n i t; cbn; try tauto; try discriminate.
  intros (lo & -> & Hs & HF & R) Hl. destruct (find_var n b) as [j|] eqn:F.
  - intros X; inv X. pose proof (find_var_in _ _ _ F) as Fi. apply (entry_range _ _ _ _ Hs) in Fi.
    destruct (holds_put fr t b sc n i HF) as (u & -> & HF'); auto.
    { rewrite Hs. apply NoDup_rev, seq_NoDup. }
    eexists; split; [reflexivity|]. exists lo. repeat split; auto; [apply HF'; lia|]. apply rel_upd; auto. lia.
  - intros X. pose proof (holds_find _ _ _ n HF) as H. rewrite F in H. rewrite H.
    destruct (IH e lo n i t R ltac:(lia) X) as (e' & -> & R'). eexists; split; [reflexivity|].
    exists lo. repeat split; auto. apply holds_upd; auto. rewrite Hs, in_rev_seq.
    pose proof (rel_below _ _ _ _ _ _ R X). lia.
Qed.
Lemma rel_unassigned fr bs : forall e hi n t, rel fr bs e hi -> find_in n bs = None -> assign_visible n t e = None.
Proof.
  induction bs as [|b bs IH]; intros [|sc e] hi n t; cbn; try tauto.
  intros (lo & -> & Hs & HF & R). pose proof (holds_find _ _ _ n HF) as H.
  destruct (find_var n b) as [j|]; [discriminate|]. rewrite H. intros X. now rewrite (IH e lo n t R X).
Qed.
Lemma rel_new fr b bs sc e hi n t : rel fr (b :: bs) (sc :: e) hi -> hi < length fr ->
  rel (upd hi (VStr t) fr) (((n, hi) :: b) :: bs) (((n, t) :: sc) :: e) (hi + 1).
Proof.
  intros (lo & -> & Hs & HF & R) Hl. exists lo. cbn [length]. repeat split; [lia| | |].
  - cbn [map snd]. rewrite Hs. replace (S (length b)) with (length b + 1) by lia. rewrite seq_app, rev_app_distr. reflexivity.
  - constructor; [split; [auto|apply upd_same; auto]|]. apply holds_upd; auto. rewrite Hs, in_rev_seq. lia.
  - apply rel_upd; auto. lia.
Qed.

(** *** The end of a block *)

Lemma nth_clear idx num l j : nth_error (clear_local idx num l) j =
  if Nat.ltb 0 num && Nat.leb (idx + num) (length l) && Nat.leb idx j && Nat.ltb j (idx + num) then
    option_map (fun v => if v_is_empty v then v else vdefault) (nth_error l j)
  else nth_error l j.
Proof.
  unfold clear_local. destruct (Nat.ltb 0 num && Nat.leb (idx + num) (length l)) eqn:E; [|reflexivity].
  apply andb_prop in E as [E1 E2]. apply Nat.ltb_lt in E1. apply Nat.leb_le in E2. cbn [andb].
  destruct (Nat.leb_spec idx j) as [A|A]; cbn [andb].
  - rewrite nth_error_app2 by (rewrite firstn_length; lia). rewrite firstn_length, Nat.min_l by lia.
    destruct (Nat.ltb_spec j (idx + num)) as [B|B].
    + rewrite nth_error_app1 by (rewrite map_length, firstn_length, skipn_length; lia).
      rewrite nth_error_map. f_equal.
      rewrite <- (firstn_skipn idx l) at 2. rewrite nth_error_app2 by (rewrite firstn_length; lia).
      rewrite firstn_length, Nat.min_l by lia.
      rewrite <- (firstn_skipn num (skipn idx l)) at 2. rewrite nth_error_app1; [auto|].
      rewrite firstn_length, skipn_length. lia.
    + rewrite nth_error_app2 by (rewrite map_length, firstn_length, skipn_length; lia).
      rewrite map_length, firstn_length, skipn_length, Nat.min_l by lia.
      rewrite <- (firstn_skipn (idx + num) l) at 2. rewrite nth_error_app2 by (rewrite firstn_length; lia).
      rewrite firstn_length. f_equal. lia.
  - rewrite nth_error_app1 by (rewrite firstn_length; lia). rewrite <- (firstn_skipn idx l) at 2.
    rewrite nth_error_app1 by (rewrite firstn_length; lia). auto.
Qed.
Lemma clear_len idx num l : length (clear_local idx num l) = length l.
Proof.
  unfold clear_local. destruct (Nat.ltb 0 num && Nat.leb (idx + num) (length l)) eqn:E; [|auto].
  apply andb_prop in E as [E1 E2]. apply Nat.leb_le in E2.
  rewrite !app_length, map_length, !firstn_length, !skipn_length. lia.
Qed.
Lemma rel_ext fr fr' bs : forall e hi, rel fr bs e hi -> (forall j, j < hi -> nth_error fr' j = nth_error fr j) -> rel fr' bs e hi.
Proof.
  induction bs as [|b bs IH]; intros [|sc e] hi; cbn; try tauto.
  intros (lo & -> & Hs & HF & R) H. exists lo. repeat split; auto.
  - assert (forall p, In p b -> nth_error fr' (snd p) = nth_error fr (snd p)).
    { intros [m i] Hi. apply H. apply (entry_range _ _ _ _ Hs) in Hi. cbn. lia. }
    clear -HF H0. induction HF as [|[m i] [m' t] b sc [A B] HF IH]; constructor.
    + pose proof (H0 (m, i) (or_introl eq_refl)) as X. cbn in *. split; [auto|]. cbn. congruence.
    + apply IH. intros p Hp. apply H0. now right.
  - apply (IH e lo R). intros j Hj. apply H. lia.
Qed.
Lemma rel_close fr b bs sc e hi : rel fr (b :: bs) (sc :: e) hi -> blank fr hi -> hi <= length fr ->
  rel (clear_local (hi - length b) (length b) fr) bs e (hi - length b) /\
  blank (clear_local (hi - length b) (length b) fr) (hi - length b).
Proof.
  intros (lo & -> & Hs & HF & R) Hb Hl. replace (lo + length b - length b) with lo by lia. split.
  - apply (rel_ext fr); auto. intros j Hj. rewrite nth_clear.
    destruct (Nat.leb_spec lo j); [lia|]. now rewrite !andb_false_r.
  - intros j. rewrite clear_len. intros Hj. rewrite nth_clear.
    destruct (Nat.leb_spec (lo + length b) (length fr)); [|lia].
    destruct (Nat.leb_spec lo j); [|lia]. destruct (Nat.ltb_spec j (lo + length b)) as [B|B].
    + destruct (Nat.ltb_spec 0 (length b)); [|lia]. cbn [andb].
      assert (In j (map snd b)) by (rewrite Hs, in_rev_seq; lia).
      apply in_map_iff in H2 as ([m i] & E & Hi). cbn in E; subst i.
      assert (exists t, nth_error fr j = Some (VStr t)) as (t & ->).
      { clear -HF Hi. induction HF as [|p q b sc [A B] HF IH]; [destruct Hi|]. destruct Hi as [->|Hi]; [eauto|auto]. }
      cbn. destruct t; reflexivity.
    + rewrite !andb_false_r. apply Hb. lia.
Qed.

Lemma iter_S {A} d (f : A -> A) x : Nat.iter (S d) f x = f (Nat.iter d f x).
Proof. reflexivity. Qed.

Section Run.
  Variable L : rustlib.
  Hypothesis low : lower_ascii_ok L.
  Variable umax max : nat.
  Variable c : vctx.
  Definition cut (t : text) : text := v_text L (limit L max (VStr t)).
  Lemma limit_cut t : limit L max (VStr t) = VStr (cut t).
  Proof. unfold cut, limit. destruct (Nat.ltb _ _); reflexivity. Qed.

  Definition all (s : vst) : list vars := v_blk s :: v_stk s.
  Lemma value_denotes fr s e hi v : rel fr (all s) e hi -> v_glob s = [] ->
    v_text L (eval_value L (set_local c fr) (string_value s v)) = denotes e v /\
    exists t, eval_value L (set_local c fr) (string_value s v) = VStr t.
  Proof.
    intros R G.
    assert (P : forall v, flat_map (piece L (set_local c fr)) (flat_map (item s) v) = denotes e v).
    { clear v. induction v as [|[t|n] v IH]; cbn [flat_map item denotes]; [auto| |].
      - cbn [app flat_map piece]. now rewrite IH.
      - unfold parse_plain, is_var_global. rewrite G. cbn [existsb].
        pose proof (rel_find _ _ _ _ (lower_text n) R) as H. change (find_in (lower_text n) (all s)) with (get_local_var n s) in H.
        destruct (get_local_var n s) as [i|]; cbn [option_map app flat_map]; rewrite IH.
        + cbn [piece variable set_local c_local]. rewrite H. reflexivity.
        + now rewrite H. }
    assert (Q : forall x, In x (flat_map (item s) v) -> (exists t, eval_value L (set_local c fr) x = VStr t) /\
                match x with XText _ | XVariable _ => True | _ => False end).
    { intros x. rewrite in_flat_map. intros ([t|n] & _ & Hx); cbn in Hx.
      - destruct Hx as [<-|[]]. cbn. split; [eauto|auto].
      - revert Hx. unfold parse_plain, is_var_global. rewrite G. cbn [existsb].
        pose proof (rel_find _ _ _ _ (lower_text n) R) as H. change (find_in (lower_text n) (all s)) with (get_local_var n s) in H.
        destruct (get_local_var n s) as [i|]; [|intros []]. intros [<-|[]]. cbn. rewrite H. split; [eauto|auto]. }
    specialize (P v). unfold string_value. destruct (flat_map (item s) v) as [|x [|y l]].
    - cbn in *. split; [auto|eauto].
    - destruct (Q x (or_introl eq_refl)) as ((t & E) & K). split; [|eauto]. rewrite <- P. cbn [flat_map]. rewrite app_nil_r.
      destruct x as [u|u|u|u|u]; try destruct K; cbn in *; try reflexivity. destruct (variable _ u); reflexivity.
    - cbn [eval_value]. rewrite P. cbn. split; [auto|eauto].
  Qed.

  Definition sized (s : vst) : Prop := v_num s = length (concat (all s)) /\ v_glob s = [].
  Definition related (s : vst) (st : nstate) (st' : sstate) (n : nat) : Prop :=
    match st, st' with
    | (e, ds, out), (fr, ds', out') =>
        ds = ds' /\ out = out' /\ length fr = n /\ rel fr (all s) e (v_num s) /\ blank fr (v_num s)
    end.

  Lemma rel_size fr bs : forall e hi, rel fr bs e hi -> hi = length (concat bs).
  Proof.
    induction bs as [|b bs IH]; intros [|sc e] hi; cbn; try tauto.
    intros (lo & -> & _ & _ & R). apply IH in R. rewrite app_length. lia.
  Qed.

  Scheme vcmd_ind2 := Induction for vcmd Sort Prop
  with vcmds_ind2 := Induction for vcmds Sort Prop.
  Combined Scheme vcmd_both from vcmd_ind2, vcmds_ind2.

  Lemma lower_plain n : plain_name n -> str_lower L n = lower_text n /\ split_dot (lower_text n) = None.
  Proof.
    intros (A & D). split; [now apply low|]. clear A.
    induction n as [|x n IH]; [auto|]. cbn. destruct (N.eqb (lower_ascii x) c_dot) eqn:E.
    - exfalso. apply D. left. apply N.eqb_eq in E. revert E. unfold lower_ascii, is_upper_ascii, between, c_dot.
      destruct (N.leb 65 x && N.leb x 90) eqn:F; [|auto]. apply andb_prop in F as [F _]. apply N.leb_le in F. lia.
    - unfold lower_text in IH. rewrite IH; [auto|]. intros H. apply D. now right.
  Qed.

  (** Equations of the mutual functions. *)
  Lemma code_set n v s : code_cmd L umax (VSet n v) s =
    match register_variable L umax n false s with
    | Some (x, s') => Some (SSet x (string_value s' v), s')
    | None => None
    end.
  Proof. reflexivity. Qed.
  Lemma code_block b s : code_cmd L umax (VBlock b) s =
    match code_cmds L umax b (open_block s) with
    | Some (code, s') =>
        match close_block s' with
        | Some (s'', (idx, num)) => Some (SBlock code idx num, s'')
        | None => None
        end
    | None => None
    end.
  Proof. reflexivity. Qed.
  Lemma code_cons x xs s : code_cmds L umax (VCons x xs) s =
    match code_cmd L umax x s with
    | Some (z, s') => match code_cmds L umax xs s' with
                      | Some (zs, s'') => Some (SCons z zs, s'')
                      | None => None
                      end
    | None => None
    end.
  Proof. reflexivity. Qed.
  Lemma nrun_block b e ds out : nrun_cmd cut (VBlock b) (e, ds, out) =
    match ds with
    | [] => (e, [], out)
    | d :: ds' => Nat.iter d (fun st => match st with
                                        | (e, ds, out) => match nrun cut b ([] :: e, ds, out) with
                                                          | (e', ds', out') => (tl e', ds', out')
                                                          end
                                        end) (e, ds', out)
    end.
  Proof. reflexivity. Qed.
  Lemma srun_block b idx num fr ds out : srun_cmd L max c (SBlock b idx num) (fr, ds, out) =
    match ds with
    | [] => (fr, [], out)
    | d :: ds' =>
        Nat.iter d (fun st => match srun L max c b st with (fr, ds, out) => (clear_local idx num fr, ds, out) end)
          (fr, ds', out)
    end.
  Proof. reflexivity. Qed.

  Lemma code_steps :
    (forall x s y s', code_cmd L umax x s = Some (y, s') -> exists ops, vsteps L umax 0 ops s = Some s') /\
    (forall x s y s', code_cmds L umax x s = Some (y, s') -> exists ops, vsteps L umax 0 ops s = Some s').
  Proof.
    apply vcmd_both.
    - intros n v s y s'. rewrite code_set. destruct (register_variable L umax n false s) as [[w x]|] eqn:R; [|discriminate].
      intros X; inv X. exists [OAssign n false]. cbn [vsteps vstep]. now rewrite R.
    - intros v s y s' X. inv X. exists []. auto.
    - intros b IH s y s'. rewrite code_block. destruct (code_cmds L umax b (open_block s)) as [[x s1]|] eqn:B; [|discriminate].
      destruct (close_block s1) as [[s2 [idx num]]|] eqn:C; [|discriminate]. intros X; inv X.
      apply IH in B as (ops & B). exists (OOpen :: ops ++ [OClose]). cbn [vsteps vstep].
      assert (A : forall ops' s, vsteps L umax 0 (ops' ++ [OClose]) s = match vsteps L umax 0 ops' s with
         Some s => option_map fst (close_block s) | None => None end).
      { induction ops' as [|o ops' IHo]; intros s0; cbn; [destruct (option_map fst _); auto|].
        destruct (vstep _ _ _ o s0); auto. }
      rewrite A, B, C. auto.
    - intros s y s' X. inv X. exists []. auto.
    - intros x IH1 xs IH2 s y s'. rewrite code_cons. destruct (code_cmd L umax x s) as [[z s1]|] eqn:A; [|discriminate].
      destruct (code_cmds L umax xs s1) as [[zs s2]|] eqn:B; [|discriminate]. intros X; inv X.
      apply IH1 in A as (o1 & A). apply IH2 in B as (o2 & B). exists (o1 ++ o2). revert s A.
      induction o1 as [|o o1 IHo]; cbn; intros s A; [inv A; auto|]. destruct (vstep _ _ _ o s); [auto|discriminate].
  Qed.
  Lemma code_grows x s y s' : code_cmds L umax x s = Some (y, s') -> last_id s <= last_id s'.
  Proof. intros H. apply code_steps in H as (ops & H). apply steps_grow in H. tauto. Qed.
  Lemma code1_grows x s y s' : code_cmd L umax x s = Some (y, s') -> last_id s <= last_id s'.
  Proof. intros H. apply code_steps in H as (ops & H). apply steps_grow in H. tauto. Qed.

  Definition good {A B} (nr : nstate -> nstate) (sr : sstate -> sstate) (_ : A) (_ : B) (s s' : vst) : Prop :=
    sized s' /\ v_stk s' = v_stk s /\
    forall st st' n, last_id s' <= n -> related s st st' n -> related s' (nr st) (sr st') n.

  Lemma code_right :
    (forall x s y s', code_cmd L umax x s = Some (y, s') -> plain_cmd x -> sized s ->
       good (nrun_cmd cut x) (srun_cmd L max c y) x y s s') /\
    (forall x s y s', code_cmds L umax x s = Some (y, s') -> plain_cmds x -> sized s ->
       good (nrun cut x) (srun L max c y) x y s s').
  Proof.
    apply vcmd_both.
    - (* set *)
      intros n v s y s' E P [Sz G]. rewrite code_set in E. cbn in P. apply lower_plain in P as (P1 & P2).
      destruct (register_variable L umax n false s) as [[w x]|] eqn:R; [|discriminate]. inv E.
      unfold register_variable in R. rewrite P1, P2 in R. unfold is_var_global in R. rewrite G in R. cbn [existsb] in R.
      unfold register_local_var in R. unfold get_local_var in R. rewrite lower_idem in R.
      change (v_blk s :: v_stk s) with (all s) in R.
      destruct (find_in (lower_text n) (all s)) as [i|] eqn:F.
      + inv R. split; [split; auto|]. split; [auto|]. intros [[e ds] out] [[fr ds'] out'] k Hk (-> & -> & Hl & R & B).
        cbn [nrun_cmd srun_cmd].
        destruct (value_denotes fr s' e _ v R G) as (V1 & t & V2). unfold exec_set. cbn [apply_mods].
        rewrite V2 in *. cbn in V1. subst t. unfold set_variable. cbn zeta. rewrite limit_cut. cbn [fst set_local c_local].
        assert (Hh : v_num s' <= length fr) by (unfold last_id in Hk; lia).
        destruct (rel_assign fr (all s') e _ _ i (cut (denotes e v)) R Hh F) as (e' & A & R').
        unfold assign_named. rewrite A. cbn. rewrite upd_len. repeat split; auto.
        apply blank_upd; auto. eapply rel_below; eauto.
      + cbn [negb orb] in R. inv R. split; [split; [|auto]|].
        { unfold all. cbn [v_num v_blk v_stk concat app length]. rewrite Sz. unfold all. cbn. lia. }
        split; [auto|]. intros [[e ds] out] [[fr ds'] out'] k Hk (-> & -> & Hl & R & B).
        cbn [nrun_cmd srun_cmd].
        assert (Hh : v_num s < length fr) by (unfold last_id in Hk; cbn in Hk; lia).
        set (s1 := {| v_blk := (lower_text n, v_num s) :: v_blk s; v_stk := v_stk s; v_num := v_num s + 1;
                      v_max := v_max s; v_loc := v_loc s; v_glob := v_glob s |}) in *.
        destruct e as [|sc e]; [destruct R|].
        assert (R0 : rel (upd (v_num s) (VStr []) fr) (all s1) (((lower_text n, []) :: sc) :: e) (v_num s1)).
        { apply rel_new; auto. }
        assert (Efr : upd (v_num s) (VStr []) fr = fr).
        { specialize (B (v_num s) ltac:(lia)). clear -B. revert B. generalize (v_num s). induction fr as [|y fr IH]; intros [|i]; cbn; auto.
          - intros X; inv X. auto.
          - intros X. f_equal. apply IH. auto. }
        rewrite Efr in R0. destruct (value_denotes fr s1 _ _ v R0 G) as (V1 & t & V2). unfold exec_set. cbn [apply_mods].
        rewrite V2 in *. cbn in V1. subst t. unfold set_variable. cbn zeta. rewrite limit_cut. cbn [fst set_local c_local].
        unfold assign_named. rewrite (rel_unassigned _ _ _ _ _ _ R F).
        assert (Ed : denotes (((lower_text n, []) :: sc) :: e) v = denotes (sc :: e) v).
        { assert (N : value_of (lower_text n) (sc :: e) = []).
          { pose proof (rel_find _ _ _ _ (lower_text n) R) as H. now rewrite F in H. }
          clear -N. induction v as [|[t|m] v IH]; cbn [denotes]; [auto|now rewrite IH|]. rewrite IH. f_equal.
          cbn [value_of sfind]. destruct (teqb (lower_text m) (lower_text n)) eqn:E; [|auto].
          apply teqb_spec in E. rewrite E. cbn [value_of] in N. now rewrite N. }
        rewrite Ed. cbn [related]. rewrite upd_len. repeat split; auto; [apply rel_new; auto|].
        intros j Hj. rewrite upd_len in Hj. cbn in Hj. rewrite upd_other by lia. apply B. lia.
    - (* use *)
      intros v s y s' E P Sz. inv E. split; [auto|]. split; [auto|].
      intros [[e ds] out] [[fr ds'] out'] k Hk (-> & -> & Hl & R & B). cbn [nrun_cmd srun_cmd related].
      destruct (value_denotes fr s' e _ v R (proj2 Sz)) as (V1 & _). rewrite V1. repeat split; auto.
    - (* block *)
      intros b IH s y s' E P [Sz G]. rewrite code_block in E. cbn in P.
      destruct (code_cmds L umax b (open_block s)) as [[x s1]|] eqn:Bc; [|discriminate].
      pose proof Bc as Grow. apply code_grows in Grow. change (last_id (open_block s)) with (last_id s) in Grow.
      apply IH in Bc; auto; [|split; auto]. destruct Bc as ((Sz1 & G1) & St & Bc). cbn [open_block v_stk] in St.
      unfold close_block in E. rewrite St in E.
      assert (C : exists idx num, y = SBlock x idx num /\ all s' = all s /\ v_num s' = v_num s1 - length (v_blk s1) /\
                  last_id s' = last_id s1 /\ v_glob s' = [] /\ num = length (v_blk s1) /\ (num <> 0 -> idx = v_num s') /\ v_stk s' = v_stk s).
      { destruct (Nat.ltb_spec 0 (length (v_blk s1))) as [Z|Z]; inv E; do 2 eexists; unfold all, last_id; cbn;
          (split; [reflexivity|]); repeat split; auto; try lia. }
      clear E. destruct C as (idx & num & -> & Ea & En & El & Eg & -> & Ei & Es).
      assert (Nn : v_num s' = v_num s).
      { rewrite En, Sz1, Sz. unfold all. rewrite St. cbn. rewrite app_length. lia. }
      split; [split; [rewrite Nn, Sz, Ea; auto|auto]|]. split; [auto|].
      intros [[e ds] out] [[fr ds'] out'] k Hk (-> & -> & Hl & R & B). rewrite nrun_block, srun_block.
      destruct ds' as [|d ds']. { cbn [related]. rewrite Nn, Ea. repeat split; auto. }
      assert (I : related s (e, ds', out') (fr, ds', out') k) by (cbn; repeat split; auto).
      assert (Fin : forall st st', related s st st' k -> related s' st st' k).
      { intros [[e1 d1] o1] [[f1 d1'] o1']. cbn [related]. rewrite Nn, Ea. auto. }
      apply Fin. clear Fin R B. revert I. generalize (e, ds', out') (fr, ds', out').
      induction d as [|d IHd]; intros st st' I; [exact I|]. rewrite !iter_S. specialize (IHd _ _ I).
      revert IHd. match goal with |- related s ?a ?b k -> _ => generalize a b end.
      intros [[e1 d1] o1] [[f1 d1'] o1'] IHd.
      destruct IHd as (<- & <- & Hl1 & R1 & B1).
      assert (R2 : related (open_block s) ([] :: e1, d1, o1) (f1, d1, o1) k).
      { cbn. repeat split; auto. exists (v_num s). cbn. repeat split; auto. }
      apply Bc in R2; [|lia]. destruct (nrun cut b ([] :: e1, d1, o1)) as [[e2 d2] o2]. destruct (srun L max c x (f1, d1, o1)) as [[f2 d2'] o2'].
      destruct R2 as (<- & <- & Hl2 & R2 & B2). unfold all in R2. rewrite St in R2.
      destruct e2 as [|sc e2]; [destruct R2|]. cbn [tl related]. rewrite clear_len.
      assert (Hh : v_num s1 <= length f2) by (unfold last_id in *; lia).
      destruct (rel_close _ _ _ _ _ _ R2 B2 Hh) as (R3 & B3). rewrite <- En, Nn in R3, B3.
      destruct (Nat.eq_dec (length (v_blk s1)) 0) as [Z|Z].
      + rewrite Z in *. assert (X : forall i, clear_local i 0 f2 = f2) by reflexivity. rewrite X in *. repeat split; auto.
      + rewrite (Ei Z), Nn. repeat split; auto.
    - intros s y s' E P Sz. inv E. split; [auto|]. split; [auto|]. auto.
    - intros x IH1 xs IH2 s y s' E (P1 & P2) Sz. rewrite code_cons in E. destruct (code_cmd L umax x s) as [[z s1]|] eqn:A; [|discriminate].
      destruct (code_cmds L umax xs s1) as [[zs s2]|] eqn:B; [|discriminate]. inv E.
      pose proof (code_grows _ _ _ _ B). apply IH1 in A; auto. destruct A as (Sz1 & St1 & A).
      apply IH2 in B; auto. destruct B as (Sz2 & St2 & B). split; [auto|]. split; [congruence|].
      intros st st' k Hk R. cbn [nrun srun]. apply B; [auto|]. apply A; [lia|auto].
  Qed.

  Theorem slots_are_scopes x y f ds : code_cmds L umax x v_start = Some (y, f) -> plain_cmds x ->
    snd (srun L max c y (fresh_frame (num_vars f), ds, [])) = snd (nrun cut x ([[]], ds, [])).
  Proof.
    intros E P. apply code_right in E; auto; [|split; auto]. destruct E as (_ & _ & E).
    assert (R : related v_start ([[]], ds, []) (fresh_frame (num_vars f), ds, []) (num_vars f)).
    { cbn. unfold fresh_frame. rewrite repeat_length. repeat split; auto.
      - exists 0. repeat split; auto.
      - intros j. rewrite repeat_length. cbn. intros Hj. apply nth_error_repeat. lia. }
    apply E in R; [|unfold num_vars; lia].
    destruct (nrun _ _ _) as [[e1 d1] o1]. destruct (srun _ _ _ _ _) as [[f1 d1'] o1']. destruct R as (_ & -> & _). reflexivity.
  Qed.
End Run.
