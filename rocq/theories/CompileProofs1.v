(** The compiler produces the code laid out in CompileSpec: tests. *)
From Coq Require Import Lia.
From Verif Require Import Base Lib Address Var Value Flags Comparator Message EditHeader Expr Event
  Notify Vacation Mime Sieve Run RunSpec Compile CompileSpec.

Scheme tree_mut := Induction for tree Sort Prop with trees_mut := Induction for trees Sort Prop.
Combined Scheme tree_ind2 from tree_mut, trees_mut.
Scheme cmd_mut := Induction for cmd Sort Prop with cmds_mut := Induction for cmds Sort Prop
  with rest_mut := Induction for rest Sort Prop.
Combined Scheme cmd_ind3 from cmd_mut, cmds_mut, rest_mut.

(** *** Updates *)

Lemma update_length n f l : length (update n f l) = length l.
Proof. revert n; induction l; intros [|n]; cbn; auto. Qed.
Lemma patch_length f ps l : length (patch f ps l) = length l.
Proof. unfold patch. revert l; induction ps; cbn; intros; auto. now rewrite IHps, update_length. Qed.
Lemma patch_app f ps qs l : patch f (ps ++ qs) l = patch f qs (patch f ps l).
Proof. unfold patch. now rewrite fold_left_app. Qed.
Lemma patch_nil f l : patch f [] l = l.
Proof. reflexivity. Qed.
Lemma patch_cons f p ps l : patch f (p :: ps) l = patch f ps (update p f l).
Proof. reflexivity. Qed.
Lemma update_at f pre i post n : n = length pre -> update n f (pre ++ i :: post) = pre ++ f i :: post.
Proof. intros ->. induction pre; cbn; auto. now rewrite IHpre. Qed.

(** *** Sizes *)

Lemma gtree_length :
  (forall t p n, length (gtree p n t) = tsize t) /\
  (forall ts p q all n, length (gtrees p q all n ts) = tsizes ts).
Proof.
  apply tree_ind2; cbn; intros; auto.
  rewrite !app_length; cbn. rewrite H, H0. lia.
Qed.
Lemma gtree_len t p n : length (gtree p n t) = tsize t.
Proof. apply gtree_length. Qed.
Lemma gtrees_len ts p q all n : length (gtrees p q all n ts) = tsizes ts.
Proof. apply gtree_length. Qed.

(** *** Groups of tests *)

Fixpoint jpos (p : nat) (ts : trees) : list nat :=
  match ts with
  | TOne _ => []
  | TMore t ts => (p + tsize t) :: jpos (p + tsize t + 1) ts
  end.
Lemma jpos_patch q0 q all n ts : forall p pre post, length pre = p ->
  patch (to_cond q) (jpos p ts) (pre ++ gtrees p q0 all n ts ++ post) = pre ++ gtrees p q all n ts ++ post.
Proof.
  induction ts as [t|t ts IH]; intros p pre post Hp.
  - reflexivity.
  - cbn [jpos gtrees]. rewrite patch_cons.
    rewrite <- !app_assoc. cbn [app]. rewrite (app_assoc pre).
    rewrite update_at by (rewrite app_length, gtree_len; lia).
    replace ((pre ++ gtree p n t) ++ to_cond q (if all then IxJz q0 else IxJnz q0) :: gtrees (p + tsize t + 1) q0 all n ts ++ post)
      with ((pre ++ gtree p n t ++ [if all then IxJz q else IxJnz q]) ++ gtrees (p + tsize t + 1) q0 all n ts ++ post)
      by (rewrite <- !app_assoc; cbn; destruct all; reflexivity).
    rewrite IH by (rewrite !app_length, gtree_len; cbn; lia).
    rewrite <- !app_assoc. reflexivity.
Qed.

Fixpoint tcost (t : tree) : nat :=
  match t with
  | TConst _ | TLeaf _ => 1
  | TNot t => S (tcost t)
  | TAny ts | TAll ts => S (tcosts ts + 1)
  end
with tcosts (ts : trees) : nat :=
  match ts with
  | TOne t => tcost t
  | TMore t ts => tcost t + S (tcosts ts)
  end.
Lemma tcost_le : (forall t, tcost t <= length (rtree t)) /\ (forall ts, tcosts ts <= length (rtrees ts)).
Proof. apply tree_ind2; cbn; intros; rewrite ?app_length; cbn; lia. Qed.

Fixpoint nafter (t : tree) (n : bool) (b : tblock) : bool :=
  match t with
  | TConst _ => false
  | TLeaf _ => n
  | TNot t => nafter t (negb n) b
  | TAny _ | TAll _ => t_not b
  end.

Lemma set_not_is_test i : is_test (set_not i) = is_test i.
Proof. destruct i; reflexivity. Qed.
Lemma last_app_ne (l1 l2 : list instruction) d : l2 <> [] -> last (l1 ++ l2) d = last l2 d.
Proof.
  intros H. induction l1 as [|a l1 IH]; auto. cbn [app last]. rewrite IH.
  destruct (l1 ++ l2) eqn:Q; auto. destruct l1; cbn in Q; subst; congruence.
Qed.
Lemma gtree_ne t p n : gtree p n t <> [].
Proof.
  assert (H : (forall t, 0 < tsize t) /\ (forall ts, 0 < tsizes ts)) by (apply tree_ind2; cbn; intros; lia).
  pose proof (gtree_len t p n) as G. destruct H as [H _]. specialize (H t). intros Q. rewrite Q in G. cbn in G. lia.
Qed.
Lemma gtrees_ne ts p q a n : gtrees p q a n ts <> [].
Proof.
  assert (H : (forall t, 0 < tsize t) /\ (forall ts, 0 < tsizes ts)) by (apply tree_ind2; cbn; intros; lia).
  pose proof (gtrees_len ts p q a n) as G. destruct H as [_ H]. specialize (H ts). intros Q. rewrite Q in G. cbn in G. lia.
Qed.
Lemma gtree_last :
  (forall t p n, tleaves t = true -> is_test (last (gtree p n t) IxStop) = true) /\
  (forall ts p q all n, tleaves_all ts = true -> is_test (last (gtrees p q all n ts) IxStop) = true).
Proof.
  apply tree_ind2; cbn [gtree gtrees tleaves tleaves_all]; intros; auto.
  - cbn. destruct n; [rewrite set_not_is_test|]; auto.
  - apply andb_true_iff in H1 as [A B].
    rewrite app_assoc, last_app_ne by apply gtrees_ne. auto.
Qed.
Lemma rtree_word : (forall t r, peek_word (rtree t ++ r) = true) /\ (forall ts r, peek_word (rtrees ts ++ r) = true).
Proof.
  apply tree_ind2; cbn; intros; auto.
  - destruct b; reflexivity.
  - rewrite <- app_assoc. auto.
Qed.

Section Test.
  Variable umax : nat.
  Variable lim : limits.
  Notation pt := (parse_test umax lim).

  Definition after_tree f r code (b : tblock) (stk : list tblock) n : pres :=
    match stk with
    | [] => POk (code ++ [IxJz umax]) r
    | _ => pt f r code b stk n
    end.

  Lemma pt_tree :
    (forall t f r code b stk n, tleaves t = true -> tdepth t + length stk <= l_tests lim -> t_p b = 0 ->
       pt (tcost t + f) (rtree t ++ r) code b stk n =
       after_tree f r (code ++ gtree (length code) n t) b stk (nafter t n b)) /\
    (forall ts f r code b stk, tleaves_all ts = true -> tdepths ts + length stk <= l_tests lim -> t_p b = 0 -> stk <> [] ->
       exists n', pt (tcosts ts + f) (rtrees ts ++ KPClose :: r) code b stk (t_not b) =
       pt f (KPClose :: r) (code ++ gtrees (length code) umax (t_all b) (t_not b) ts)
          {| t_all := t_all b; t_not := t_not b; t_p := 0; t_jmps := t_jmps b ++ jpos (length code) ts |} stk n').
  Proof.
    apply tree_ind2.
    - (* constant *)
      intros c f r code b stk n _ _ P. destruct b as [ba bn bp bj]. cbn in P. subst.
      destruct c, n; cbn; destruct stk; reflexivity.
    - intros i f r code b stk n _ _ P. destruct b as [ba bn bp bj]. cbn in P. subst.
      cbn. destruct stk; reflexivity.
    - intros t IH f r code b stk n T D P. cbn [tcost rtree plus app parse_test nafter gtree].
      rewrite (proj1 rtree_word). apply IH; auto.
    - (* anyof *)
      intros ts IH f r code b stk n T D P. cbn [tcost rtree plus app parse_test nafter gtree tleaves tdepth] in *.
      replace (Nat.ltb (length stk) (l_tests lim)) with true by (symmetry; apply Nat.ltb_lt; lia).
      rewrite <- app_assoc.
      destruct (IH (1 + f) r code {| t_all := xorb false n; t_not := n; t_p := 0; t_jmps := [] |} (b :: stk)) as [n' H];
        try assumption; try reflexivity; try discriminate; [cbn; lia|].
      cbn [t_not t_all t_jmps app] in H. rewrite <- Nat.add_assoc. change ([KPClose] ++ r) with (KPClose :: r). rewrite H.
      change (1 + f) with (S f). cbn [parse_test t_p t_jmps].
      rewrite app_length, gtrees_len.
      pose proof (jpos_patch umax (length code + tsizes ts) (xorb false n) n ts (length code) code [] eq_refl) as J.
      rewrite !app_nil_r in J. rewrite J. replace (xorb false n) with n by now destruct n.
      unfold after_tree. destruct stk; reflexivity.
    - (* allof *)
      intros ts IH f r code b stk n T D P. cbn [tcost rtree plus app parse_test nafter gtree tleaves tdepth] in *.
      replace (Nat.ltb (length stk) (l_tests lim)) with true by (symmetry; apply Nat.ltb_lt; lia).
      rewrite <- app_assoc.
      destruct (IH (1 + f) r code {| t_all := xorb true n; t_not := n; t_p := 0; t_jmps := [] |} (b :: stk)) as [n' H];
        try assumption; try reflexivity; try discriminate; [cbn; lia|].
      cbn [t_not t_all t_jmps app] in H. rewrite <- Nat.add_assoc. change ([KPClose] ++ r) with (KPClose :: r). rewrite H.
      change (1 + f) with (S f). cbn [parse_test t_p t_jmps].
      rewrite app_length, gtrees_len.
      pose proof (jpos_patch umax (length code + tsizes ts) (xorb true n) n ts (length code) code [] eq_refl) as J.
      rewrite !app_nil_r in J. rewrite J. replace (xorb true n) with (negb n) by now destruct n.
      unfold after_tree. destruct stk; reflexivity.
    - (* one *)
      intros t IH f r code b stk T D P S. cbn [tcosts rtrees gtrees jpos tleaves_all tdepths] in *.
      rewrite IH by auto. unfold after_tree. destruct stk; [congruence|].
      exists (nafter t (t_not b) b). destruct b as [ba bn bp bj]. cbn in *. subst. now rewrite app_nil_r.
    - (* more *)
      intros t IHt ts IHs f r code b stk T D P S. cbn [tcosts rtrees gtrees jpos tleaves_all tdepths] in *.
      apply andb_true_iff in T as [T1 T2].
      rewrite <- app_assoc. rewrite <- Nat.add_assoc. rewrite IHt by (auto; lia).
      unfold after_tree. destruct stk as [|s0 stk]; [congruence|].
      cbn [app plus parse_test].
      rewrite last_app_ne by apply gtree_ne.
      rewrite (proj1 gtree_last) by auto. rewrite (proj2 rtree_word). cbn [andb].
      rewrite app_length, gtree_len.
      edestruct (IHs f r ((code ++ gtree (length code) (t_not b) t) ++ [if t_all b then IxJz umax else IxJnz umax])
        {| t_all := t_all b; t_not := t_not b; t_p := t_p b; t_jmps := t_jmps b ++ [length code + tsize t] |} (s0 :: stk))
        as [n' H]; try assumption; try discriminate; [lia|].
      exists n'. cbn [t_not t_all t_jmps t_p] in H. rewrite H. rewrite !app_length, gtree_len. cbn [length].
      rewrite <- !app_assoc. reflexivity.
  Qed.

  Lemma parse_tree t r code : tleaves t = true -> tdepth t <= l_tests lim ->
    parse_test umax lim (length (rtree t ++ r) + 1) (rtree t ++ r) code top_tblock [] false =
    POk (code ++ gtree (length code) false t ++ [IxJz umax]) r.
  Proof.
    intros T D. pose proof (proj1 tcost_le t). rewrite app_length.
    replace (length (rtree t) + length r + 1) with (tcost t + (length (rtree t) - tcost t + length r + 1)) by lia.
    rewrite (proj1 pt_tree) by (cbn; auto; lia). cbn. now rewrite <- app_assoc.
  Qed.
End Test.
