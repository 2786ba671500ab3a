(** Names of variables: which are visible, and what the end of a block clears. *)
From Verif Require Import Base Lib Var Value Scope ScopeSpec ScopeProofs.
Local Open Scope nat_scope.

Lemma lower_ascii_idem c : lower_ascii (lower_ascii c) = lower_ascii c.
Proof.
  unfold lower_ascii, is_upper_ascii, between. destruct (N.leb 65 c && N.leb c 90) eqn:E.
  - apply andb_prop in E as [E1 E2]. apply N.leb_le in E1, E2.
    destruct (N.leb 65 (c + 32) && N.leb (c + 32) 90) eqn:F; [|auto].
    apply andb_prop in F as [F1 F2]. apply N.leb_le in F1, F2. lia.
  - now rewrite E.
Qed.
Lemma lower_idem t : lower_text (lower_text t) = lower_text t.
Proof. unfold lower_text. rewrite map_map. apply map_ext. intros; apply lower_ascii_idem. Qed.

Lemma nodup_right {A} (l l' : list A) : NoDup (l ++ l') -> NoDup l'.
Proof. induction l; cbn; [auto|]. intros H; inv H; auto. Qed.

Definition entries (s : vst) : vars := concat (v_blk s :: v_stk s).
Record tidy (s : vst) : Prop := {
  td_low : forall n, In n (map fst (entries s)) -> lower_text n = n;
  td_nodup : NoDup (map fst (entries s));
  td_apart : forall n, In n (map fst (entries s)) -> ~ In n (v_glob s);
  td_glob : forall n, In n (v_glob s) -> lower_text n = n
}.

Lemma find_in_entries n bs : find_in n bs = find_var n (concat bs).
Proof.
  induction bs as [|b bs IH]; cbn; [auto|]. rewrite IH. clear IH.
  induction b as [|[m i] b IH]; cbn; [auto|]. destruct (teqb n m); auto.
Qed.
Lemma find_var_nodup (l : vars) n i : NoDup (map fst l) -> In (n, i) l -> find_var n l = Some i.
Proof.
  induction l as [|[m j] l IH]; [intros _ []|]. cbn. intros H. inv H. intros [E|E].
  - inv E. now rewrite teqb_refl.
  - destruct (teqb n m) eqn:X; [|auto]. apply teqb_spec in X; subst. exfalso. apply H2.
    apply (in_map fst) in E. exact E.
Qed.
Lemma is_global_in n s : is_var_global n s = true <-> In (lower_text n) (v_glob s).
Proof.
  unfold is_var_global. rewrite existsb_exists. split.
  - intros (x & H & E). apply teqb_spec in E; subst; auto.
  - intros H. exists (lower_text n). split; [auto|apply teqb_refl].
Qed.
Lemma get_entries n s : get_local_var n s = find_var (lower_text n) (entries s).
Proof. unfold get_local_var, entries. apply find_in_entries. Qed.

Lemma insert_last_in e bs : bs <> [] -> exists l1 l2, concat bs = l1 ++ l2 /\ concat (insert_last e bs) = l1 ++ e :: l2.
Proof.
  induction bs as [|b bs IH]; [congruence|]. intros _. destruct bs as [|b' bs'].
  - exists [], b. cbn. rewrite app_nil_r. auto.
  - destruct (IH ltac:(discriminate)) as (l1 & l2 & A & B).
    exists (b ++ l1), l2. split.
    + change (concat (b :: b' :: bs')) with (b ++ concat (b' :: bs')). rewrite A. apply app_assoc.
    + change (concat (insert_last e (b :: b' :: bs'))) with (b ++ concat (insert_last e (b' :: bs'))). rewrite B.
      apply app_assoc.
Qed.

Section Steps.
  Variable L : rustlib.
  Hypothesis low : lower_ok L.
  Variable umax max_name : nat.
  Notation step := (vstep L umax max_name).
  Notation steps := (vsteps L umax max_name).

  (** What registering a new name does to the entries. *)
  Lemma register_new n l s i s' : register_local_var umax n l s = (i, s') ->
    (get_local_var n s = Some i /\ s' = s) \/
    (get_local_var n s = None /\ v_glob s' = v_glob s /\
     exists l1 l2, entries s = l1 ++ l2 /\ entries s' = l1 ++ (n, i) :: l2).
  Proof.
    unfold register_local_var. destruct (get_local_var n s) eqn:G.
    { intros E; inv E. now left. }
    destruct (negb l || _) eqn:C; intros E; inv E; right; (split; [auto|]); (split; [auto|]).
    - exists [], (entries s). unfold entries. cbn. auto.
    - destruct (insert_last_in (n, umax - v_loc s) (v_stk s)) as (l1 & l2 & A & B).
      { destruct (v_stk s); [|discriminate]. rewrite orb_true_r in C. discriminate. }
      exists (v_blk s ++ l1), l2. unfold entries. cbn. rewrite A, B, !app_assoc. auto.
  Qed.
  Lemma tidy_insert n i l1 l2 s s' :
    tidy s -> lower_text n = n -> get_local_var n s = None -> is_var_global n s = false -> v_glob s' = v_glob s ->
    entries s = l1 ++ l2 -> entries s' = l1 ++ (n, i) :: l2 -> tidy s'.
  Proof.
    intros [T1 T2 T3 T4] Hn G Gl Eg E1 E2.
    assert (P : forall m, In m (map fst (entries s')) <-> m = n \/ In m (map fst (entries s))).
    { intros m. rewrite E1, E2, !map_app. cbn. rewrite !in_app_iff. cbn. intuition. }
    assert (F : ~ In n (map fst (entries s))).
    { rewrite get_entries, Hn in G. now apply find_var_none in G. }
    split.
    - intros m H. apply P in H as [->|H]; auto.
    - rewrite E2, map_app. cbn. apply NoDup_Add with (a := n) (l := map fst l1 ++ map fst l2); [apply Add_app|].
      rewrite <- map_app, <- E1. auto.
    - rewrite Eg. intros m H. apply P in H as [->|H]; [|auto].
      intros X. rewrite <- Hn in X. apply is_global_in in X. congruence.
    - rewrite Eg. auto.
  Qed.
  Lemma register_var_cases n l s v s' : register_variable L umax n l s = Some (v, s') ->
    (s' = s /\ forall i, v <> TLocal i) \/
    (split_dot (str_lower L n) = None /\ is_var_global (str_lower L n) s = false /\
     exists i, v = TLocal i /\ register_local_var umax (str_lower L n) l s = (i, s')).
  Proof.
    unfold register_variable. destruct (split_dot _) as [[a b]|].
    - destruct (teqb a _ || _); [intros Z; inv Z; left; split; [auto|discriminate]|].
      destruct (teqb a _); [|discriminate]. destruct (lookup_envelope b); cbn; [|discriminate].
      intros Z; inv Z. left; split; [auto|discriminate].
    - destruct (is_var_global _ s) eqn:G; [intros Z; inv Z; left; split; [auto|discriminate]|].
      destruct (register_local_var _ _ _ s) as [i x] eqn:R. intros Z; inv Z. right. eauto.
  Qed.
  Lemma close_entries s s' c : close_block s = Some (s', c) ->
    entries s = v_blk s ++ entries s' /\ v_glob s' = v_glob s /\
    snd c = length (v_blk s) /\ (v_blk s <> [] -> fst c = v_num s - length (v_blk s)).
  Proof.
    unfold close_block. destruct (v_stk s) as [|b bs] eqn:B; [discriminate|].
    destruct (v_blk s) as [|e l] eqn:E; cbn [length].
    - rewrite Nat.ltb_irrefl. intros X; inv X; unfold entries; cbn; rewrite ?B, ?E; cbn; repeat split; auto; congruence.
    - destruct (Nat.ltb_spec 0 (S (length l))); [|lia].
      intros X; inv X; unfold entries; cbn; rewrite ?B, ?E; cbn; repeat split; auto; congruence.
  Qed.
  Lemma step_tidy o s s' : tidy s -> step o s = Some s' -> tidy s'.
  Proof.
    intros T. destruct o; cbn.
    - intros E; inv E. destruct T as [T1 T2 T3 T4]. split; auto.
    - destruct (close_block s) as [[x c]|] eqn:E; cbn; intros X; inv X.
      apply close_entries in E as (A & B & _). destruct T as [T1 T2 T3 T4]. rewrite A, map_app in *.
      split.
      + intros n H. apply T1. apply in_app_iff. auto.
      + apply nodup_right in T2. auto.
      + intros n H. rewrite B. apply T3. apply in_app_iff. auto.
      + rewrite B. auto.
    - destruct (register_variable L umax name as_local s) as [[v x]|] eqn:R; cbn; intros X; inv X.
      apply register_var_cases in R as [(-> & _)|(_ & G & i & -> & R)]; [auto|].
      apply register_new in R as [(_ & ->)|(N & Eg & l1 & l2 & E1 & E2)]; [auto|].
      eapply tidy_insert; eauto.
    - unfold declare_global. destruct (get_local_var name s) eqn:G; [discriminate|]. destruct (Nat.ltb _ _); [|discriminate].
      intros X; inv X. destruct T as [T1 T2 T3 T4]. split; auto.
      + intros n H. cbn. intros [E|E]; [|eapply T3; eauto]. subst.
        rewrite get_entries in G. apply find_var_none in G. auto.
      + cbn. intros n [<-|H]; [apply lower_idem|auto].
  Qed.
  Lemma steps_tidy ops : forall s s', tidy s -> steps ops s = Some s' -> tidy s'.
  Proof.
    induction ops as [|o ops IH]; cbn; intros s s' T E; [inv E; auto|].
    destruct (step o s) as [x|] eqn:X; [|discriminate]. apply (IH x s'); [eapply step_tidy; eauto|auto].
  Qed.
  Lemma start_tidy : tidy v_start.
  Proof. split; cbn; [intros ? []|constructor|intros ? []|intros ? []]. Qed.

  (** A variable stays where it is as long as it is visible. *)
  Lemma step_stable o s s' n v : tidy s -> step o s = Some s' -> parse_plain n s = Some v ->
    parse_plain n s' = Some v \/ parse_plain n s' = None.
  Proof.
    intros T. unfold parse_plain. destruct o; cbn [vstep].
    - intros E; inv E. unfold is_var_global. rewrite !get_entries. change (entries (open_block s)) with (entries s). cbn. auto.
    - destruct (close_block s) as [[x c]|] eqn:E; cbn [option_map fst]; intros X; inv X.
      apply close_entries in E as (A & B & _). unfold is_var_global. rewrite B. destruct (existsb _ _); [auto|].
      rewrite !get_entries. destruct (find_var (lower_text n) (entries s')) as [i|] eqn:F; [|auto].
      apply find_var_in in F. rewrite (find_var_nodup (entries s) _ i); [auto|apply T|].
      rewrite A. apply in_app_iff. auto.
    - destruct (register_variable L umax name as_local s) as [[w x]|] eqn:R; cbn [option_map snd]; intros X; inv X.
      apply register_var_cases in R as [(-> & _)|(_ & G & i & -> & R)]; [auto|].
      apply register_new in R as [(_ & ->)|(N & Eg & l1 & l2 & E1 & E2)]; [auto|].
      assert (T' : tidy s') by (eapply tidy_insert; eauto).
      unfold is_var_global. rewrite Eg. destruct (existsb _ _); [auto|]. rewrite !get_entries.
      destruct (find_var (lower_text n) (entries s)) as [j|] eqn:F; [|discriminate]. apply find_var_in in F.
      rewrite (find_var_nodup (entries s') _ j); [auto|apply T'|]. rewrite E1 in F. rewrite E2.
      apply in_app_iff in F. apply in_app_iff. cbn. intuition.
    - unfold declare_global. destruct (get_local_var name s) eqn:G; [discriminate|]. destruct (Nat.ltb _ _); [|discriminate].
      intros X; inv X. unfold is_var_global. cbn [v_glob register_global_var existsb]. rewrite !get_entries in *. change (entries (register_global_var name s)) with (entries s).
      destruct (teqb (lower_text n) (lower_text name)) eqn:E; cbn [orb].
      + apply teqb_spec in E. rewrite E, G. destruct (existsb _ _); [auto|discriminate].
      + destruct (existsb _ _); auto.
  Qed.

  (** The end of a block clears the slots of the variables that are no longer visible
      after it, and no others. *)
  Lemma close_clears k s s' idx num last loc :
    ok umax k s -> tidy s -> last_id s <= last -> v_loc s <= loc -> last + loc <= umax ->
    close_block s = Some (s', (idx, num)) ->
    forall x, idx <= x < idx + num <-> exists n, slot_of umax last n s = Some x /\ parse_plain n s' = None.
  Proof.
    intros H T H1 H2 H3 C x. pose proof H as [Hl _].
    pose proof C as C'. apply close_entries in C' as (A & B & Cn & Ci). cbn in Cn, Ci.
    unfold close_block in C. destruct (v_stk s) as [|b bs] eqn:Bs; [discriminate|]. clear C.
    cbn in Hl. destruct Hl as (lo & (He & Hn & Hin) & Hl).
    assert (Small : forall i, In i (ids (v_blk s)) -> map_id umax last i = i).
    { intros i Hi. apply Hin in Hi. unfold map_id, last_id in *. destruct (Nat.ltb_spec last i); lia. }
    assert (R : idx <= x < idx + num <-> In x (ids (v_blk s))).
    { rewrite Hin. destruct (v_blk s) as [|e l]; [cbn in *; split; lia|].
      rewrite Ci by discriminate. cbn [length] in *. split; lia. }
    rewrite R. clear R. split.
    - intros Hx. pose proof Hx as Hx'. apply in_map_iff in Hx' as ([n i] & E & Hi). cbn in E; subst i.
      assert (In (n, x) (entries s)) by (rewrite A; apply in_app_iff; auto).
      assert (Hnn : In n (map fst (entries s))) by (apply (in_map fst) in H0; exact H0).
      pose proof (td_low _ T _ Hnn) as Ln.
      assert (G : is_var_global n s = false).
      { destruct (is_var_global n s) eqn:G; [|auto]. apply is_global_in in G. rewrite Ln in G.
        exfalso. eapply (td_apart _ T); eauto. }
      exists n. unfold slot_of, parse_plain. rewrite G. split.
      + rewrite get_entries, Ln, (find_var_nodup _ _ x); [|apply T|auto]. cbn. now rewrite Small.
      + replace (is_var_global n s') with false by (unfold is_var_global in *; now rewrite B).
        rewrite get_entries, Ln. replace (find_var n (entries s')) with (@None nat); [auto|].
        symmetry. apply find_var_none. pose proof (td_nodup _ T) as ND. rewrite A, map_app in ND.
        assert (Hb : In n (map fst (v_blk s))) by (apply (in_map fst) in Hi; exact Hi).
        clear -ND Hb. revert ND Hb. generalize (map fst (v_blk s)). intros l. induction l as [|y l IH]; [intros _ []|].
        cbn. intros ND. inv ND. intros [->|Hb]; [|auto]. intros X. apply H1. apply in_app_iff. auto.
    - intros (n & Sl & N). unfold slot_of, parse_plain in *. unfold is_var_global in *. rewrite B in N.
      destruct (existsb _ _); [discriminate|]. rewrite get_entries in Sl, N.
      destruct (find_var (lower_text n) (entries s)) as [i|] eqn:F; [|discriminate].
      apply find_var_in in F. rewrite A in F. apply in_app_iff in F as [F|F].
      + apply (in_map snd) in F. cbn in F. cbn in Sl. rewrite Small in Sl by auto. injection Sl as <-. exact F.
      + destruct (find_var (lower_text n) (entries s')) eqn:F'; [discriminate|]. apply find_var_none in F'.
        exfalso. apply F'. apply (in_map fst) in F. exact F.
  Qed.

  (** After an assignment the name denotes the variable assigned. *)
  Lemma assigned_visible n m l s i s' : tidy s -> register_variable L umax n l s = Some (TLocal i, s') ->
    lower_text m = str_lower L n -> parse_plain m s' = Some (TLocal i).
  Proof.
    intros T R E. apply register_var_cases in R as [(_ & X)|(_ & G & j & X & R)]; [exfalso; eapply X; eauto|].
    inv X. unfold parse_plain. assert (Gm : is_var_global m s = false).
    { unfold is_var_global in *. rewrite low in G. rewrite E. auto. }
    apply register_new in R as [(N & ->)|(N & Eg & l1 & l2 & E1 & E2)].
    - rewrite Gm. unfold get_local_var in *. rewrite low in N. now rewrite E, N.
    - assert (T' : tidy s') by (eapply tidy_insert; eauto).
      unfold is_var_global in *. rewrite Eg, Gm. rewrite get_entries, E.
      rewrite (find_var_nodup (entries s') _ j); [auto|apply T'|]. rewrite E2. apply in_app_iff. cbn. auto.
  Qed.
End Steps.

(** The frame has at most one slot per assignment. *)
Definition is_assign (o : vop) : bool := match o with OAssign _ _ => true | _ => false end.
Lemma frame_size L umax mx ops : forall s s', vsteps L umax mx ops s = Some s' ->
  num_vars s' <= num_vars s + length (filter is_assign ops).
Proof.
  induction ops as [|o ops IH]; cbn [vsteps filter]; intros s s' E; [inv E; cbn; lia|].
  destruct (vstep L umax mx o s) as [x|] eqn:X; [|discriminate]. apply IH in E.
  assert (num_vars x <= num_vars s + if is_assign o then 1 else 0).
  { clear -X. revert X. unfold num_vars, last_id. destruct o; cbn [vstep is_assign].
    - intros X; inv X; cbn; lia.
    - unfold close_block. destruct (v_stk s); [discriminate|]. destruct (Nat.ltb _ _); cbn [option_map fst]; intros X; inv X; cbn; lia.
    - destruct (register_variable L umax name as_local s) as [[v y]|] eqn:R; cbn [option_map snd]; intros X; inv X.
      apply register_var_cases in R as [(-> & _)|(_ & _ & i & _ & R)]; [lia|].
      unfold register_local_var in R. destruct (get_local_var _ s); [inv R; lia|].
      destruct (negb _ || _); inv R; cbn; lia.
    - unfold declare_global. destruct (get_local_var _ s); [discriminate|]. destruct (Nat.ltb _ _); [|discriminate].
      intros X; inv X; cbn; lia. }
  destruct (is_assign o); cbn [length]; lia.
Qed.
