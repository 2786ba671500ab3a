(** Slots of variables: an invariant of the compiler's bookkeeping. *)
From Verif Require Import Base Lib Var Value Scope ScopeSpec.
Local Open Scope nat_scope.

Ltac inv H := inversion H; subst; clear H.

Lemma find_var_in n l i : find_var n l = Some i -> In (n, i) l.
Proof.
  induction l as [|[m j] l IH]; cbn; [discriminate|].
  destruct (teqb n m) eqn:E; intros H; [inv H; apply teqb_spec in E; subst; now left|right; auto].
Qed.
Lemma find_var_none n l : find_var n l = None <-> ~ In n (map fst l).
Proof.
  induction l as [|[m j] l IH]; cbn; [split; auto|].
  destruct (teqb n m) eqn:E.
  - apply teqb_spec in E; subst. split; [discriminate|intros H; exfalso; apply H; now left].
  - rewrite IH. split; [intros H [->|H']; [rewrite teqb_refl in E; discriminate|auto]|intros H H'; apply H; now right].
Qed.
Lemma find_in_in n bs i : find_in n bs = Some i -> exists b, In b bs /\ In (n, i) b.
Proof.
  induction bs as [|b bs IH]; cbn; [discriminate|].
  destruct (find_var n b) eqn:E; intros H.
  - inv H. exists b; split; [now left|now apply find_var_in].
  - destruct (IH H) as (b' & ? & ?). exists b'; split; [now right|auto].
Qed.
Lemma find_in_none n bs : find_in n bs = None <-> forall b, In b bs -> ~ In n (map fst b).
Proof.
  induction bs as [|b bs IH]; cbn; [split; [intros _ b []|auto]|].
  destruct (find_var n b) eqn:E.
  - split; [discriminate|]. intros H. exfalso. apply (H b (or_introl eq_refl)).
    apply find_var_in in E. apply (in_map fst) in E. exact E.
  - rewrite IH. apply find_var_none in E. split.
    + intros H b' [->|H']; auto.
    + intros H b' H'. apply H. now right.
Qed.
Lemma find_in_app n b bs : find_in n (b :: bs) = match find_var n b with Some i => Some i | None => find_in n bs end.
Proof. reflexivity. Qed.

(** *** Where the variables are *)

Definition ids (b : vars) : list nat := map snd b.
(** The outermost block, with the [:local] variables. *)
Definition outer (umax loc : nat) (b : vars) (hi : nat) : Prop :=
  NoDup (ids b) /\ forall i, In i (ids b) <-> i < hi \/ exists j, j < loc /\ i = umax - j.
(** An inner block. *)
Definition inner (b : vars) (lo hi : nat) : Prop :=
  lo + length b = hi /\ NoDup (ids b) /\ forall i, In i (ids b) <-> lo <= i < hi.
Fixpoint laid (umax loc : nat) (b : vars) (bs : list vars) (hi : nat) : Prop :=
  match bs with
  | [] => outer umax loc b hi
  | b' :: bs' => exists lo, inner b lo hi /\ laid umax loc b' bs' lo
  end.
Record ok (umax k : nat) (s : vst) : Prop := {
  ok_laid : laid umax (v_loc s) (v_blk s) (v_stk s) (v_num s);
  ok_size : exists r, v_num s <= r /\ v_max s <= r /\ r + v_loc s <= k
}.

Lemma laid_ids umax loc bs : forall b hi,
  laid umax loc b bs hi -> forall c i, In c (b :: bs) -> In i (ids c) -> i < hi \/ exists j, j < loc /\ i = umax - j.
Proof.
  induction bs as [|b' bs IH]; cbn; intros b hi H c i Hc Hi.
  - destruct Hc as [->|[]]. now apply H.
  - destruct H as (lo & (Hl & _ & Hin) & H). destruct Hc as [->|Hc].
    + left. apply Hin in Hi. lia.
    + destruct (IH _ _ H c i Hc Hi) as [?|?]; [left; lia|now right].
Qed.
Lemma laid_all umax loc bs : forall b hi,
  laid umax loc b bs hi -> loc + hi <= umax -> NoDup (ids (concat (b :: bs))).
Proof.
  assert (App : forall a b : vars, ids (a ++ b) = ids a ++ ids b) by (intros; apply map_app).
  induction bs as [|b' bs IH]; intros b hi H Hu.
  - cbn. rewrite app_nil_r. apply H.
  - destruct H as (lo & (Hl & Hn & Hin) & H).
    change (concat (b :: b' :: bs)) with (b ++ concat (b' :: bs)). rewrite App.
    assert (Hn' : NoDup (ids (concat (b' :: bs)))) by (apply (IH _ lo); [auto|lia]).
    assert (D : forall i, In i (ids b) -> In i (ids (concat (b' :: bs))) -> False).
    { intros i Hi Hj. apply Hin in Hi. unfold ids in Hj. apply in_map_iff in Hj as ([m j] & <- & Hj).
      apply in_concat in Hj as (c & Hc & Hj). apply (in_map snd) in Hj.
      destruct (laid_ids _ _ _ _ _ H c _ Hc Hj) as [?|(x & ? & E)]; cbn in *; lia. }
    revert Hn D. generalize (ids b). intros l Hn D. induction l as [|x l IHl]; cbn; [auto|].
    inv Hn. constructor.
    + rewrite in_app_iff. intros [?|?]; [auto|eapply D; [now left|eauto]].
    + apply IHl; auto. intros i Hi. apply D. now right.
Qed.
Lemma ids_unique (l : vars) n m i : NoDup (ids l) -> In (n, i) l -> In (m, i) l -> n = m.
Proof.
  induction l as [|[p j] l IH]; [intros _ []|]. cbn. intros H. inv H. intros [A|A] [B|B].
  - congruence.
  - inv A. exfalso. apply H2. apply (in_map snd) in B. exact B.
  - inv B. exfalso. apply H2. apply (in_map snd) in A. exact A.
  - eauto.
Qed.

Lemma laid_insert umax loc e bs : forall b hi,
  laid umax loc b bs hi -> bs <> [] -> snd e = umax - loc -> loc + hi <= umax -> loc < umax ->
  laid umax (loc + 1) b (insert_last e bs) hi.
Proof.
  induction bs as [|b' bs IH]; [congruence|]. intros b hi (lo & Hi & H) _ He Hu Hl.
  destruct bs as [|b'' bs'].
  - cbn in *. exists lo. split; [auto|].
    destruct H as (Hn & Hin). split; cbn.
    + constructor; [|auto]. rewrite Hin, He. destruct Hi. intros [?|(j & ? & ?)]; lia.
    + intros i. rewrite Hin, He. split.
      * intros [<-|[?|(j & ? & ->)]]; [right; exists loc; split; [lia|auto]|now left|right; exists j; split; [lia|auto]].
      * intros [?|(j & Hj & ->)]; [right; now left|].
        destruct (Nat.eq_dec j loc) as [->|?]; [now left|right; right; exists j; split; [lia|auto]].
  - cbn [insert_last]. cbn [laid]. exists lo. split; [auto|].
    apply (IH b' lo); auto; [discriminate|]. destruct Hi. lia.
Qed.

Section Steps.
  Variable L : rustlib.
  Variable umax max_name : nat.
  Notation step := (vstep L umax max_name).
  Notation steps := (vsteps L umax max_name).

  Lemma register_ok k n l s i s' :
    ok umax k s -> k < umax -> register_local_var umax n l s = (i, s') -> ok umax (k + 1) s'.
  Proof.
    intros [Hl (r & H1 & H2 & H3)] Hk. unfold register_local_var.
    destruct (get_local_var n s) eqn:G.
    { intros E; inv E. split; [auto|]. exists r. lia. }
    destruct (negb l || _) eqn:C; intros E; inv E.
    - split; cbn; [|exists (r + 1); lia].
      destruct (v_stk s) as [|b bs] eqn:B; cbn in *.
      + destruct Hl as (Hn & Hin). split; cbn.
        * constructor; [|auto]. rewrite Hin. intros [?|(j & ? & ?)]; lia.
        * intros i. rewrite Hin. split; [intros [<-|[?|?]]; [left; lia|left; lia|now right]|].
          intros [?|?]; [|right; now right]. destruct (Nat.eq_dec i (v_num s)); [now left|right; left; lia].
      + destruct Hl as (lo & (He & Hn & Hin) & Hl). exists lo. split; [|auto]. split; [cbn; lia|]. split; cbn.
        * constructor; [|auto]. rewrite Hin. lia.
        * intros i. rewrite Hin. split; [intros [<-|?]; lia|].
          intros ?. destruct (Nat.eq_dec i (v_num s)); [now left|right; lia].
    - split; cbn; [|exists r; lia].
      apply laid_insert; auto; try lia. destruct (v_stk s); [|discriminate].
      rewrite orb_true_r in C. discriminate.
  Qed.
  Lemma close_ok k s s' c : ok umax k s -> close_block s = Some (s', c) -> ok umax (k + 1) s'.
  Proof.
    intros [Hl (r & H1 & H2 & H3)]. unfold close_block. destruct (v_stk s) as [|b bs] eqn:B; [discriminate|].
    cbn in Hl. destruct Hl as (lo & (He & Hn & Hin) & Hl).
    destruct (Nat.ltb 0 (length (v_blk s))) eqn:E; intros X; inv X.
    - apply Nat.ltb_lt in E. split; cbn; [replace (v_num s - length (v_blk s)) with lo by lia; auto|exists r; lia].
    - apply Nat.ltb_ge in E. split; cbn; [replace (v_num s) with lo by lia; auto|exists r; lia].
  Qed.
  Lemma step_ok k o s s' : ok umax k s -> k < umax -> step o s = Some s' -> ok umax (k + 1) s'.
  Proof.
    intros H Hk. destruct o; cbn.
    - intros E; inv E. destruct H as [Hl (r & ?)]. split; cbn; [|exists r; lia].
      exists (v_num s). split; [|auto]. split; [cbn; lia|]. split; [constructor|]. cbn. intros; lia.
    - destruct (close_block s) as [[x c]|] eqn:E; cbn; intros X; inv X. eapply close_ok; eauto.
    - unfold register_variable. destruct (split_dot _) as [[a b]|].
      + assert (Y : forall v : option (vartype * vst), option_map snd v = Some s' -> (forall x, v = Some x -> snd x = s) -> ok umax (k + 1) s').
        { intros [x|]; cbn; intros X D; inv X. rewrite (D x eq_refl). destruct H as [? (r & ?)]. split; [auto|exists r; lia]. }
        intros X. apply (Y _ X). intros [v x]. destruct (teqb a _ || _); [intros Z; inv Z; auto|].
        destruct (teqb a _); [|discriminate]. destruct (lookup_envelope b); cbn; [|discriminate]. intros Z; inv Z; auto.
      + destruct (is_var_global _ s); cbn.
        * intros X; inv X. destruct H as [? (r & ?)]. split; [auto|exists r; lia].
        * destruct (register_local_var _ _ _ s) as [i x] eqn:R. cbn. intros X; inv X. eapply register_ok; eauto.
    - unfold declare_global. destruct (get_local_var name s); [discriminate|]. destruct (Nat.ltb _ _); [|discriminate].
      intros X; inv X. destruct H as [? (r & ?)]. split; [auto|exists r; cbn; lia].
  Qed.
  Lemma steps_ok ops : forall k s s', ok umax k s -> k + length ops <= umax -> steps ops s = Some s' -> ok umax (k + length ops) s'.
  Proof.
    induction ops as [|o ops IH]; cbn; intros k s s' H Hk E.
    - inv E. now rewrite Nat.add_0_r.
    - destruct (step o s) as [x|] eqn:X; [|discriminate]. replace (k + S (length ops)) with ((k + 1) + length ops) by lia.
      apply (IH _ x); auto; [|lia]. eapply step_ok; eauto. lia.
  Qed.
  Lemma start_ok : ok umax 0 v_start.
  Proof.
    split; cbn; [|exists 0; cbn; lia]. split; [constructor|]. cbn. intros i. split; [intros []|intros [?|(? & ? & ?)]; lia].
  Qed.

  (** What is needed at the end never shrinks. *)
  Lemma step_grows o s s' : step o s = Some s' -> last_id s <= last_id s' /\ v_loc s <= v_loc s' /\ v_max s <= v_max s'.
  Proof.
    unfold last_id. destruct o; cbn.
    - intros X; inv X; cbn; lia.
    - unfold close_block. destruct (v_stk s); [discriminate|]. destruct (Nat.ltb _ _); cbn; intros X; inv X; cbn; lia.
    - unfold register_variable. destruct (split_dot _) as [[a b]|].
      + destruct (teqb a _ || _); [intros X; inv X; lia|]. destruct (teqb a _); [|discriminate].
        destruct (lookup_envelope b); [|discriminate]. intros X; inv X; lia.
      + destruct (is_var_global _ s); [intros X; inv X; lia|].
        unfold register_local_var. destruct (get_local_var _ s); [intros X; inv X; lia|].
        destruct (negb _ || _); intros X; inv X; cbn; lia.
    - unfold declare_global. destruct (get_local_var _ s); [discriminate|]. destruct (Nat.ltb _ _); [|discriminate].
      intros X; inv X; cbn; lia.
  Qed.
  Lemma steps_grow ops : forall s s', steps ops s = Some s' -> last_id s <= last_id s' /\ v_loc s <= v_loc s'.
  Proof.
    induction ops as [|o ops IH]; cbn; intros s s' E; [inv E; lia|].
    destruct (step o s) as [x|] eqn:X; [|discriminate]. apply step_grows in X. apply IH in E. lia.
  Qed.

  (** Both parts of the frame. *)
  Lemma slot_cases k s last loc i :
    ok umax k s -> last_id s <= last -> v_loc s <= loc -> last + loc <= umax ->
    i < v_num s \/ (exists j, j < v_loc s /\ i = umax - j) ->
    (i < v_num s /\ map_id umax last i = i) \/
    (exists j, j < v_loc s /\ i = umax - j /\ map_id umax last i = last + j).
  Proof.
    intros H H1 H2 H3 [A|(j & A & ->)]; unfold map_id, last_id in *.
    - left. split; [auto|]. destruct (Nat.ltb_spec last i); [lia|auto].
    - right. exists j. repeat split; [auto|]. destruct (Nat.ltb_spec last (umax - j)); lia.
  Qed.

  Lemma get_id k s n i : ok umax k s -> get_local_var n s = Some i ->
    i < v_num s \/ exists j, j < v_loc s /\ i = umax - j.
  Proof.
    intros [Hl _] H. apply find_in_in in H as (b & Hb & H). apply (in_map snd) in H.
    eapply laid_ids; eauto.
  Qed.
  Lemma get_distinct k s n m i : ok umax k s -> k <= umax -> lower_text n <> lower_text m ->
    get_local_var n s = Some i -> get_local_var m s = Some i -> False.
  Proof.
    intros [Hl (r & ?)] Hk D A B. apply D.
    apply find_in_in in A as (b & Hb & A). apply find_in_in in B as (c & Hc & B).
    apply (ids_unique (concat (v_blk s :: v_stk s)) _ _ i).
    - eapply laid_all; eauto. lia.
    - apply in_concat. eauto.
    - apply in_concat. eauto.
  Qed.

  (** The slots used at some point of an accepted script. *)
  Lemma slots_apart k s last loc n m x y :
    ok umax k s -> last_id s <= last -> v_loc s <= loc -> last + loc <= umax -> k <= umax ->
    lower_text n <> lower_text m ->
    slot_of umax last n s = Some x -> slot_of umax last m s = Some y -> x <> y.
  Proof.
    intros H H1 H2 H3 Hk D. unfold slot_of, parse_plain.
    destruct (is_var_global n s); [discriminate|]. destruct (is_var_global m s); [cbn; discriminate|].
    destruct (get_local_var n s) as [i|] eqn:A; [|discriminate].
    destruct (get_local_var m s) as [j|] eqn:B; [|cbn; discriminate]. cbn.
    intros X Y E; inv X; inv Y.
    assert (i <> j) by (intros ->; eapply get_distinct; eauto).
    pose proof (get_id _ _ _ _ H A) as A'. pose proof (get_id _ _ _ _ H B) as B'.
    destruct (slot_cases _ _ last loc i H H1 H2 H3 A') as [(? & Xi)|(a & ? & -> & Xi)];
      destruct (slot_cases _ _ last loc j H H1 H2 H3 B') as [(? & Xj)|(b & ? & -> & Xj)];
      rewrite Xi, Xj in *; unfold last_id in *; try lia.
  Qed.
  Lemma slots_inside k s last loc n x :
    ok umax k s -> last_id s <= last -> v_loc s <= loc -> last + loc <= umax ->
    slot_of umax last n s = Some x -> x < last + loc.
  Proof.
    intros H H1 H2 H3. unfold slot_of, parse_plain. destruct (is_var_global n s); [discriminate|].
    destruct (get_local_var n s) as [i|] eqn:A; [|discriminate]. cbn. intros X; inv X.
    pose proof (get_id _ _ _ _ H A) as A'.
    destruct (slot_cases _ _ last loc i H H1 H2 H3 A') as [(? & ->)|(a & ? & -> & ->)]; unfold last_id in *; lia.
  Qed.
End Steps.
