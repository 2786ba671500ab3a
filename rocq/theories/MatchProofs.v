(** Proofs about match variables (C70). *)
From Coq Require Import Lia.
From Verif Require Import Base Lib Address Var Value SetVar Flags Comparator Message EditHeader Expr Event Notify Vacation Spam AddrTest Mime Sieve Glob GlobSpec GlobProofs ValueProofs Run MatchSpec.
Import ListNotations.
Local Open Scope list_scope.

(** *** The positions a comparison captures *)
Definition sane (p : N) (set : list (nat * text)) : Prop :=
  NoDup (map fst set) /\ forall n, In n (map fst set) -> N.testbit p (N.of_nat n) = true.
Lemma sane_nil p : sane p [].
Proof. split; [constructor|intros n []]. Qed.

Fixpoint asc (p : N) (lo : nat) (l : list (nat * text)) : Prop :=
  match l with [] => True | (k, _) :: r => lo <= k /\ bit p k = true /\ asc p (S k) r end.
Lemma asc_weak p l : forall lo lo', lo <= lo' -> asc p lo' l -> asc p lo l.
Proof. destruct l as [|[k t] l]; intros lo lo' H A; simpl in *; [exact Logic.I|]. destruct A as (A & B & C). split; [lia|]. auto. Qed.
Lemma asc_app p l' : forall l lo hi, asc p lo l -> (forall k, In k (map fst l) -> k < hi) -> lo <= hi -> asc p hi l' -> asc p lo (l ++ l').
Proof.
  induction l as [|[k t] l IH]; intros lo hi A B C D; simpl in *.
  - eapply asc_weak; eassumption.
  - destruct A as (A1 & A2 & A3). split; [exact A1|]. split; [exact A2|].
    apply (IH (S k) hi A3).
    + intros j J. apply B. right. exact J.
    + specialize (B k (or_introl eq_refl)). lia.
    + exact D.
Qed.
Lemma asc_above p l : forall lo k, asc p lo l -> In k (map fst l) -> lo <= k /\ bit p k = true.
Proof.
  induction l as [|[j t] l IH]; intros lo k A []; simpl in *.
  - subst. split; apply A.
  - destruct A as (A1 & A2 & A3). specialize (IH _ _ A3 H). split; [lia|apply IH].
Qed.
Lemma asc_sane p l lo : asc p lo l -> sane p l.
Proof.
  intro A. split.
  - revert lo A. induction l as [|[j t] l IH]; intros lo A; simpl in *; constructor.
    + intro H. destruct A as (_ & _ & A). pose proof (asc_above _ _ _ _ A H). lia.
    + destruct A as (_ & _ & A). eauto.
  - intros n H. apply (asc_above _ _ _ _ A H).
Qed.

Lemma empty_caps_asc p n : forall wp l wp', empty_caps p wp n = Some (l, wp') ->
  wp <= wp' /\ asc p wp l /\ forall k, In k (map fst l) -> k < wp'.
Proof.
  induction n as [|n IH]; intros wp l wp' H; simpl in H.
  - injection H as <- <-. split; [lia|]. split; [exact Logic.I|intros k []].
  - destruct (Nat.ltb wp 64); [|discriminate]. destruct (empty_caps p (S wp) n) as [[l0 w0]|] eqn:Q; [|discriminate].
    injection H as <- <-. destruct (IH _ _ _ Q) as (A & B & C). split; [lia|].
    destruct (bit p wp) eqn:Eb.
    + split; [simpl; auto|]. intros k [<-|K]; [simpl; lia|auto].
    + split; [eapply asc_weak; [|exact B]; lia|exact C].
Qed.
Lemma cap_collect_asc p v items : forall wp lp l, cap_collect p v items wp lp = CapOk l -> asc p wp l.
Proof.
  induction items as [|[it mp] items IH]; intros wp lp l H; cbn [cap_collect] in H.
  - injection H as <-. exact Logic.I.
  - destruct (Nat.leb wp max_match_variables); [|injection H as <-; exact Logic.I].
    destruct it as [num| |c].
    + destruct (empty_caps p wp (num - 1)) as [[l0 w0]|] eqn:Q; [|discriminate].
      destruct (empty_caps_asc _ _ _ _ _ Q) as (A & B & C).
      destruct (Nat.ltb w0 64); [|discriminate].
      assert (forall l', (l' = [] \/ bit p w0 = true /\ exists t, l' = [(w0, t)]) ->
        forall l2, asc p (S w0) l2 -> asc p wp (l0 ++ l' ++ l2)) as K.
      { intros l' Hl' l2 A2. apply (asc_app p _ _ wp w0 B C A).
        destruct Hl' as [->|(Hb & t & ->)]; simpl; [eapply asc_weak; [|exact A2]; lia|auto]. }
      destruct (bit p w0) eqn:Eb.
      * destruct (slice v lp mp) as [l1|]; [|discriminate]. destruct (cap_collect p v items (S w0) (S mp)) as [| | |vals] eqn:Q2; try discriminate.
        injection H as <-. change ((w0, orig_text l1) :: vals) with ([(w0, orig_text l1)] ++ vals). apply K; [right; eauto|eauto].
      * destruct (cap_collect p v items (S w0) (S mp)) as [| | |vals] eqn:Q2; try discriminate.
        injection H as <-. change vals with ([] ++ vals). apply K; [left; reflexivity|eauto].
    + destruct (bit p wp) eqn:Eb.
      * destruct (nth_error v mp); [|discriminate]. destruct (cap_collect p v items (S wp) (S mp)) eqn:Q; try discriminate.
        injection H as <-. simpl. eauto.
      * destruct (cap_collect p v items (S wp) (S mp)) eqn:Q; try discriminate. injection H as <-. simpl.
        eapply asc_weak; [|eapply IH; exact Q]. lia.
    + eapply IH; exact H.
Qed.

Section Cmp.
  Variable L : rustlib.
  Variable rx : text -> text -> option (list (option text)).

  Lemma gcapture_sane pat tl v p l :
    gcapture (chr_is_upper L) (chr_lower L) pat tl v p = CapOk l -> sane p l.
  Proof.
    unfold gcapture. cbv zeta. destruct (cap_loop _ _ _ _ _) as [[[|] mp]|]; try discriminate.
    destruct (cap_collect p _ _ 1 0) eqn:Q; try discriminate. intro H. injection H as <-.
    apply cap_collect_asc in Q. destruct (bit p 0) eqn:Eb; simpl.
    - apply (asc_sane p _ 0). simpl. auto.
    - eapply asc_sane; exact Q.
  Qed.

  (** Clearing the highest bit. *)
  Lemma top_bit p : p <> 0%N -> forall j,
    N.testbit (N.lxor p (N.shiftl 1 (N.of_nat (N.to_nat (N.log2 p))))) j =
    if N.eqb j (N.log2 p) then false else N.testbit p j.
  Proof.
    intros Hp j. rewrite N2Nat.id, N.lxor_spec, N.shiftl_1_l, N.pow2_bits_eqb, (N.eqb_sym _ j).
    destruct (N.eqb j (N.log2 p)) eqn:Ej; [apply N.eqb_eq in Ej; subst; rewrite N.bit_log2 by exact Hp; reflexivity|apply xorb_false_r].
  Qed.
  Lemma regex_groups_bits groups fuel : forall p n t, In (n, t) (regex_groups fuel p groups) ->
    N.testbit p (N.of_nat n) = true /\ nth_error groups n = Some (Some t).
  Proof.
    induction fuel as [|f IH]; intros p n t H; [destruct H|]. cbn [regex_groups] in H.
    destruct (N.eqb p 0) eqn:Ep; [destruct H|]. apply N.eqb_neq in Ep. cbv zeta in H.
    apply in_app_or in H. destruct H as [H|H].
    - destruct (nth_error groups (N.to_nat (N.log2 p))) as [[x|]|] eqn:Q; [|destruct H|destruct H]. destruct H as [H|[]].
      injection H as <- <-. rewrite N2Nat.id. split; [apply N.bit_log2, Ep|exact Q].
    - destruct (IH _ _ _ H) as [A B]. rewrite top_bit in A by exact Ep.
      destruct (N.eqb (N.of_nat n) (N.log2 p)); [discriminate|]. auto.
  Qed.
  Lemma regex_groups_all groups fuel : forall p n t, (p < 2 ^ N.of_nat fuel)%N ->
    N.testbit p (N.of_nat n) = true -> nth_error groups n = Some (Some t) -> In (n, t) (regex_groups fuel p groups).
  Proof.
    induction fuel as [|f IH]; intros p n t Hp Hb Hg.
    - simpl in Hp. assert (p = 0)%N as -> by lia. rewrite N.bits_0 in Hb. discriminate.
    - cbn [regex_groups]. destruct (N.eqb p 0) eqn:Ep.
      { apply N.eqb_eq in Ep. subst. rewrite N.bits_0 in Hb. discriminate. }
      apply N.eqb_neq in Ep. cbv zeta. apply in_or_app.
      destruct (N.eqb (N.of_nat n) (N.log2 p)) eqn:En.
      + apply N.eqb_eq in En. left. rewrite <- En, Nat2N.id, Hg. left. reflexivity.
      + right. apply IH; [|rewrite top_bit, En by exact Ep; exact Hb|exact Hg].
        set (q := N.lxor p _). destruct (N.eq_dec q 0) as [Z|Z].
        { rewrite Z. apply N.neq_0_lt_0, N.pow_nonzero. lia. }
        apply N.log2_lt_pow2; [lia|]. pose proof (N.bit_log2 q Z) as B. unfold q in B at 1. rewrite top_bit in B by exact Ep.
        destruct (N.eqb (N.log2 q) (N.log2 p)) eqn:Ek; [discriminate|]. apply N.eqb_neq in Ek.
        assert (N.log2 q <= N.log2 p)%N.
        { destruct (N.le_gt_cases (N.log2 q) (N.log2 p)) as [X|X]; [exact X|]. rewrite N.bits_above_log2 in B by exact X. discriminate. }
        assert (N.log2 p < N.of_nat (S f))%N by (apply N.log2_lt_pow2; lia). lia.
  Qed.
  Lemma regex_groups_sane groups fuel : forall p, sane p (regex_groups fuel p groups).
  Proof.
    intro p. split.
    - revert p. induction fuel as [|f IH]; intro p; cbn [regex_groups]; [constructor|].
      destruct (N.eqb p 0) eqn:Ep; [constructor|]. apply N.eqb_neq in Ep. cbv zeta.
      destruct (nth_error groups (N.to_nat (N.log2 p))) as [[x|]|] eqn:Q; simpl; try apply IH.
      constructor; [|apply IH]. intro H. apply in_map_iff in H. destruct H as ([n t] & H1 & H2). simpl in H1. subst n.
      apply regex_groups_bits in H2. destruct H2 as [H2 _]. rewrite top_bit in H2 by exact Ep.
      rewrite N2Nat.id, N.eqb_refl in H2. discriminate.
    - intros n H. apply in_map_iff in H. destruct H as ([k t] & H1 & H2). simpl in H1. subst k.
      apply regex_groups_bits in H2. apply H2.
  Qed.

  (** *** What a comparison does to the captures so far *)
  Definition mask (m : mtype) : N := match m with MMatches p | MRegex p => p | _ => 0%N end.
  Definition cap1 (c : comparator) (m : mtype) (v k : text) (set : list (nat * text)) : Prop :=
    match m with
    | MMatches p => glob_texts L c p v k set /\ sane p set
    | MRegex p => ((p < 2 ^ 64)%N -> regex_texts rx p v k set) /\ sane p set
    | _ => False
    end.
  Definition outcome (m : mtype) (P : list (nat * text) -> Prop) (caps : list (nat * text)) (r : cres) : Prop :=
    match r with
    | CPanic => True
    | CRes b caps' => if b && negb (N.eqb (mask m) 0) then P caps' else caps' = caps
    end.

  Lemma cmp_glob_outcome c v k p caps : outcome (MMatches p) (cap1 c (MMatches p) v k) caps (cmp_glob L c v k p caps).
  Proof.
    unfold cmp_glob, cmp_matches. set (cm := match c with CCasemap => true | _ => false end). cbv zeta.
    unfold outcome, mask. destruct (N.eqb p 0) eqn:Ep.
    - destruct (gmatches _ _ _ _) as [[|]|]; reflexivity.
    - destruct (gcapture _ _ _ _ v p) as [| | |l] eqn:Q; try exact Logic.I; simpl; [reflexivity|].
      split; [|eapply gcapture_sane; exact Q].
      unfold glob_texts. fold cm. cbv zeta. intros Hne fold1 H W.
      pose proof (capture_exact (chr_is_upper L) (chr_lower L) (fun t => t) Hne k cm fold1 v p H W) as X. cbv zeta in X.
      fold cm in X. rewrite Q in X. destruct X as (ws & X1 & X2 & X3). exists ws. split; [exact X1|]. split; [exact X2|exact X3].
  Qed.
  Lemma cmp_regex_outcome c k v p caps : outcome (MRegex p) (cap1 c (MRegex p) v k) caps (cmp_regex rx k v p caps).
  Proof.
    unfold cmp_regex, outcome, mask. destruct (rx k v) as [groups|] eqn:Q; [|reflexivity].
    destruct (N.eqb p 0) eqn:Ep; cbn [andb negb]; [reflexivity|]. unfold cap1. split; [|apply (regex_groups_sane groups 64)].
    intro Hp. exists groups. split; [exact Q|]. intros n t. split.
    - apply (regex_groups_bits groups 64).
    - intros [A B]. apply (regex_groups_all groups 64); [exact Hp|exact A|exact B].
  Qed.
  Lemma compare1_outcome c m v k caps : outcome m (cap1 c m (k_text L v) (k_text L k)) caps (compare1 L rx c m v k caps).
  Proof.
    destruct m; try (unfold compare1, outcome, mask; rewrite andb_false_r; reflexivity).
    - apply cmp_glob_outcome.
    - apply cmp_regex_outcome.
  Qed.

  Lemma outcome_weak m (P Q : list (nat * text) -> Prop) caps r : (forall x, P x -> Q x) -> outcome m P caps r -> outcome m Q caps r.
  Proof. intros H. destruct r as [|b c]; simpl; [trivial|]. destruct (b && _); auto. Qed.
  Ltac first_loop X IH :=
    pose proof X as O; unfold outcome in O |- *;
    match type of O with match ?r with _ => _ end => destruct r as [|[|] ?] end; simpl in O |- *;
      [exact Logic.I| |subst; eapply outcome_weak; [|apply IH]].

  Lemma first_key_outcome c m v : forall keys caps,
    outcome m (fun set => exists k, In k keys /\ cap1 c m (k_text L v) (v_text L k) set) caps (first_key L rx c m v keys caps).
  Proof.
    induction keys as [|k keys IH]; intro caps; cbn [first_key]; [reflexivity|].
    first_loop (compare1_outcome c m v (KVar k) caps) IH.
    - destruct (N.eqb (mask m) 0); simpl in *; [exact O|]. exists k. split; [left; reflexivity|exact O].
    - intros x (k' & A & B). exists k'. split; [right; exact A|exact B].
  Qed.
  Lemma values_loop_outcome c m keys : forall values caps,
    outcome m (fun set => exists v k, In v values /\ In k keys /\ cap1 c m v (v_text L k) set) caps (values_loop L rx c m values keys caps).
  Proof.
    induction values as [|v values IH]; intro caps; cbn [values_loop]; [reflexivity|].
    first_loop (first_key_outcome c m (KStr v) keys caps) IH.
    - destruct (N.eqb (mask m) 0); simpl in *; [exact O|]. destruct O as (k & A & B). exists v, k. auto.
    - intros x (v' & k' & A & B). exists v', k'. auto.
  Qed.
  Lemma hasflag1_as_glob c m f k caps : hasflag1 L c m f k caps = compare1 L rx c (as_glob m) (KStr f) (KStr k) caps.
  Proof. destruct m; reflexivity. Qed.
  Lemma mask_as_glob m : mask (as_glob m) = mask m.
  Proof. destruct m; reflexivity. Qed.
  Lemma hasflag_flags_outcome c m k : forall flags caps,
    outcome (as_glob m) (fun set => exists f, In f flags /\ cap1 c (as_glob m) f k set) caps (hasflag_flags L c m k flags caps).
  Proof.
    induction flags as [|f flags IH]; intro caps; cbn [hasflag_flags]; [reflexivity|]. rewrite hasflag1_as_glob.
    first_loop (compare1_outcome c (as_glob m) (KStr f) (KStr k) caps) IH.
    - destruct (N.eqb (mask (as_glob m)) 0); simpl in *; [exact O|]. exists f. auto.
    - intros x (f' & A & B). exists f'. auto.
  Qed.
  Lemma hasflag_checks_outcome c m flags : forall checks caps,
    outcome (as_glob m) (fun set => exists f k, In f flags /\ In k checks /\ cap1 c (as_glob m) f k set) caps (hasflag_checks L c m checks flags caps).
  Proof.
    induction checks as [|k checks IH]; intro caps; cbn [hasflag_checks]; [reflexivity|].
    first_loop (hasflag_flags_outcome c m k flags caps) IH.
    - destruct (N.eqb (mask (as_glob m)) 0); simpl in *; [exact O|]. destruct O as (f & A & B). exists f, k. auto.
    - intros x (f' & k' & A & B & C). exists f', k'. auto.
  Qed.
  Lemma sources_loop_outcome e c m k : forall sources caps,
    outcome m (fun set => exists v, In v sources /\ cap1 c m (v_text L v) (v_text L k) set) caps (sources_loop L rx e c m k sources false caps).
  Proof.
    induction sources as [|v sources IH]; intro caps; cbn [sources_loop]; [reflexivity|].
    assert (W : forall x, (exists v0, In v0 sources /\ cap1 c m (v_text L v0) (v_text L k) x) ->
      exists v0, In v0 (v :: sources) /\ cap1 c m (v_text L v0) (v_text L k) x).
    { intros x (f' & A & B). exists f'. split; [right; exact A|exact B]. }
    destruct (negb e || negb (v_is_empty v)).
    - first_loop (compare1_outcome c m (KVar v) (KVar k) caps) IH.
      + destruct (N.eqb (mask m) 0); simpl in *; [exact O|]. exists v. split; [left; reflexivity|exact O].
      + exact W.
    - eapply outcome_weak; [exact W|apply IH].
  Qed.
  (** With several keys the captures may come from an earlier key. *)
  Lemma sources_loop_any e c m k : forall sources r caps,
    match sources_loop L rx e c m k sources r caps with
    | CPanic => True
    | CRes _ caps' => caps' = caps \/ sane (mask m) caps'
    end.
  Proof.
    induction sources as [|v sources IH]; intros r caps; cbn [sources_loop]; [left; reflexivity|].
    destruct (negb e || negb (v_is_empty v)); [|apply IH].
    pose proof (compare1_outcome c m (KVar v) (KVar k) caps) as O. unfold outcome in O.
    destruct (compare1 L rx c m (KVar v) (KVar k) caps) as [|[|] caps']; simpl in O; [exact Logic.I| |subst; apply IH].
    destruct (N.eqb (mask m) 0); simpl in O; [left; exact O|right]. destruct m; try destruct O; assumption.
  Qed.
  Lemma keys_loop_any e c m sources : forall keys r caps, sane (mask m) caps ->
    match keys_loop L rx e c m keys sources r caps with
    | CPanic => True
    | CRes _ caps' => sane (mask m) caps'
    end.
  Proof.
    induction keys as [|k keys IH]; intros r caps S0; cbn [keys_loop]; [exact S0|].
    pose proof (sources_loop_any e c m k sources r caps) as O.
    destruct (sources_loop L rx e c m k sources r caps) as [|b caps']; [exact Logic.I|].
    apply IH. destruct O as [->|O]; assumption.
  Qed.
End Cmp.

(** *** Tests *)
Section Tests.
  Variable E : renv.
  Let L := E_L E. Let rx := E_rx E.

  Definition tout (m : mtype) (neg : bool) (P : list (nat * text) -> Prop) (r : tres) : Prop :=
    match r with
    | TBool b set => if xorb b neg && negb (N.eqb (mask m) 0) then P set else set = []
    | _ => True
    end.
  Lemma xorb_twice a b : xorb (xorb a b) b = a.
  Proof. destruct a, b; reflexivity. Qed.
  Lemma tout_of m neg P r : outcome m P [] r ->
    tout m neg P (match r with CPanic => TPanic | CRes b caps => TBool (xorb b neg) caps end).
  Proof. destruct r as [|b caps]; simpl; [trivial|]. rewrite xorb_twice. auto. Qed.
  Lemma tout_nil m neg P b : mask m = 0%N -> tout m neg P (TBool b []).
  Proof. intro H. unfold tout. rewrite H, N.eqb_refl, andb_false_r. reflexivity. Qed.
  Lemma tout_weak m neg (P Q : list (nat * text) -> Prop) r : (forall x, P x -> Q x) -> tout m neg P r -> tout m neg Q r.
  Proof. intro H. destruct r; simpl; auto. destruct (xorb b neg && _); auto. Qed.
  Lemma tout_as_glob m neg P r : tout (as_glob m) neg P r -> tout m neg P r.
  Proof. unfold tout. rewrite mask_as_glob. auto. Qed.

  Lemma values_test_out c m neg values keys :
    tout m neg (fun set => exists v k, In v values /\ In k keys /\ cap1 L rx c m v (v_text L k) set) (values_test L rx c m neg values keys).
  Proof.
    unfold values_test. pose proof (values_loop_outcome L rx c m keys values []) as O.
    destruct m; try (apply (tout_of _ neg) in O; exact O); try (apply tout_nil; reflexivity).
    destruct (distinct values); [apply tout_nil; reflexivity|exact Logic.I].
  Qed.
  Lemma score_test_out st u c m neg key :
    tout m neg (cap1 L rx c m (show_Z st) (v_text L key)) (score_test L rx st u c m neg key).
  Proof.
    unfold score_test. pose proof (compare1_outcome L rx c m (KVar (VInt st)) (KVar key) []) as O.
    destruct m; try (apply (tout_of _ neg) in O; exact O); apply tout_nil; reflexivity.
  Qed.
  Lemma hasflag_out ctx vars strings c m neg :
    tout m neg (fun set => exists f k, In f (flat_map (fun n => flags_of_var L (get_variable ctx n)) (match vars with [] => [default_flags] | _ => vars end)) /\
        In k (flag_tokens L ctx strings) /\ cap1 L rx c (as_glob m) f k set) (hasflag L ctx vars strings c m neg).
  Proof.
    apply tout_as_glob. unfold hasflag. cbv zeta. set (flags := flat_map _ _).
    pose proof (hasflag_checks_outcome L rx c m flags (flag_tokens L ctx strings) []) as O.
    destruct m; try (apply (tout_of _ neg) in O; exact O); apply tout_nil; reflexivity.
  Qed.
  Lemma string_out e c m neg sources keys : length keys <= 1 ->
    tout m neg (fun set => exists v k, In v sources /\ In k keys /\ cap1 L rx c m (v_text L v) (v_text L k) set) (string_test L rx e c m neg sources keys).
  Proof.
    intro H. assert (O : outcome m (fun set => exists v k, In v sources /\ In k keys /\ cap1 L rx c m (v_text L v) (v_text L k) set) []
                      (keys_loop L rx e c m keys sources false [])).
    { destruct keys as [|k [|]]; [reflexivity| |simpl in H; lia]. cbn [keys_loop].
      pose proof (sources_loop_outcome L rx e c m k sources []) as O.
      destruct (sources_loop L rx e c m k sources false []) as [|b caps]; [exact Logic.I|].
      revert O. apply outcome_weak. intros x (v & A & B). exists v, k. split; [exact A|]. split; [left; reflexivity|exact B]. }
    unfold string_test. destruct m; try (apply (tout_of _ neg) in O; exact O); try (apply tout_nil; reflexivity).
    cbv zeta. destruct (fold_left _ _ _); [apply tout_nil; reflexivity|exact Logic.I].
  Qed.
  Lemma metadata_out store w c m neg keys :
    tout m neg (fun set => exists md v k, In (md, v) store /\ md_eq md w = true /\ In k keys /\ cap1 L rx c m v (v_text L k) set)
      (metadata_test L rx store w c m neg keys).
  Proof.
    unfold metadata_test. destruct (find _ store) as [[md v]|] eqn:F.
    - apply find_some in F. destruct F as [F1 F2]. simpl in F2.
      pose proof (first_key_outcome L rx c m (KStr v) keys []) as O.
      assert (O' : outcome m (fun set => exists md v k, In (md, v) store /\ md_eq md w = true /\ In k keys /\ cap1 L rx c m v (v_text L k) set) []
        (first_key L rx c m (KStr v) keys [])).
      { revert O. apply outcome_weak. intros x (k & A & B). exists md, v, k. auto. }
      destruct m; try (apply (tout_of _ neg) in O'; exact O'); apply tout_nil; reflexivity.
    - unfold tout. rewrite xorb_false_l, xorb_nilpotent. reflexivity.
  Qed.
  Lemma header_out ps cur names index anychild o c m neg keys r :
    header_test L rx (E_M E) ps cur names index anychild o c m neg keys = Some r ->
    tout m neg (fun set => exists found l v k, find_headers ps cur names index anychild = Some found /\ In l found /\
        In v (header_values (E_M E) (l_header l) o) /\ In k keys /\ cap1 L rx c m v (v_text L k) set) r.
  Proof.
    unfold header_test. destruct (find_headers _ _ _ _ _) as [found|] eqn:F; [|discriminate]. simpl. intro H. injection H as <-.
    pose proof (values_loop_outcome L rx c m keys (flat_map (fun l => header_values (E_M E) (l_header l) o) found) []) as O.
    assert (O' : outcome m (fun set => exists found0 l v k, Some found = Some found0 /\ In l found0 /\
        In v (header_values (E_M E) (l_header l) o) /\ In k keys /\ cap1 L rx c m v (v_text L k) set) []
        (values_loop L rx c m (flat_map (fun l => header_values (E_M E) (l_header l) o) found) keys [])).
    { revert O. apply outcome_weak. intros x (v & k & A & B & C). apply in_flat_map in A. destruct A as (l & A1 & A2).
      exists found, l, v, k. auto 6. }
    destruct m; try (apply (tout_of _ neg) in O'; exact O'); try (apply tout_nil; reflexivity).
    cbv zeta. destruct (fold_left _ _ _); [apply tout_nil; reflexivity|exact Logic.I].
  Qed.

  (** What the captures of a test are. *)
  Definition taken (s : rst) (t : test) (set : list (nat * text)) : Prop :=
    exists value key, looks_at E s t value /\ In key (keys_of E s t) /\
      ((wanted t < 2 ^ 64)%N -> captured L rx t value key set) /\ sane (wanted t) set.

  Lemma cap1_taken t c m neg v k set : match_of t = Some (c, m, neg) ->
    match t with TeHasFlag _ _ _ _ _ | TeDate _ _ _ _ _ _ _ _ _ | TeCurrentDate _ _ _ _ _ _ => False | _ => True end ->
    cap1 L rx c m v k set -> ((wanted t < 2 ^ 64)%N -> captured L rx t v k set) /\ sane (wanted t) set.
  Proof.
    intros H N C. unfold captured, wanted. rewrite H. destruct m; try destruct C as [C1 C2]; try destruct C.
    - split; auto.
    - split; [|exact C2]. intro B. specialize (C1 B). destruct t; try exact C1; destruct N.
  Qed.
  Lemma cap1_taken_glob t c m neg v k set : match_of t = Some (c, m, neg) ->
    match t with TeHasFlag _ _ _ _ _ | TeDate _ _ _ _ _ _ _ _ _ | TeCurrentDate _ _ _ _ _ _ => True | _ => False end ->
    cap1 L rx c (as_glob m) v k set -> ((wanted t < 2 ^ 64)%N -> captured L rx t v k set) /\ sane (wanted t) set.
  Proof.
    intros H N C. unfold captured, wanted. rewrite H. destruct m; try destruct C as [C1 C2]; try destruct C.
    - split; auto.
    - split; [|exact C2]. intros _. destruct t; try exact C1; destruct N.
  Qed.
  Definition set_match (set : list (nat * text)) (s : rst) : rst :=
    w_vars (set_vars (c_local (r_vars s)) (set_match_variables set (c_match (r_vars s))) (r_vars s)) s.
  Lemma of_tres_out s m neg P t b s' :
    (forall r, t = Some r -> tout m neg P r) -> of_tres s neg t = XBool b s' ->
    exists set, s' = set_match set s /\ (if xorb b neg && negb (N.eqb (mask m) 0) then P set else set = []).
  Proof.
    intros H. unfold of_tres. destruct t as [[|b0 set|]|]; try discriminate. intro Q. injection Q as <- <-.
    exists set. split; [reflexivity|]. exact (H _ eq_refl).
  Qed.
  Lemma in_txs s k keys : In k (evs E s keys) -> In (v_text L k) (txs E s keys).
  Proof. unfold evs, txs. intro H. apply in_map_iff in H. destruct H as (x & <- & H). apply (in_map (tx E s)) in H. exact H. Qed.

  Lemma test_taken s t c m neg b s' : match_of t = Some (c, m, neg) -> capturing t -> one_key t ->
    exec_test E s t = XBool b s' ->
    exists set, s' = set_match set s /\ (if xorb b neg && negb (N.eqb (mask m) 0) then taken s t set else set = []).
  Proof.
    intros Mt Ct Ok X. destruct t; try discriminate; try destruct Ct; pose proof Mt as Mt'; injection Mt' as -> -> ->; unfold exec_test in X.
    - (* header *)
      eapply of_tres_out; [|exact X]. intros r R. apply header_out in R. revert R. apply tout_weak.
      intros set (found & l & v & k & A1 & A2 & A3 & A4 & A5). exists v, (v_text L k).
      split; [exists found, l; auto|]. split; [apply in_txs; exact A4|]. apply (cap1_taken _ _ _ _ _ _ _ Mt Logic.I A5).
    - (* address *)
      eapply of_tres_out; [|exact X]. intros r R. unfold address_test in R.
      destruct (find_headers _ _ _ _ _) as [found|] eqn:F; [|discriminate]. simpl in R. injection R as <-.
      eapply tout_weak; [|apply values_test_out].
      intros set (v & k & A1 & A2 & A3). apply in_flat_map in A1. destruct A1 as (l & A1 & A1').
      exists v, (v_text L k). split; [exists found, l; auto|]. split; [apply in_txs; exact A2|].
      apply (cap1_taken _ _ _ _ _ _ _ Mt Logic.I A3).
    - (* envelope *)
      eapply of_tres_out; [|exact X]. intros r R. injection R as <-.
      eapply tout_weak; [|apply values_test_out].
      intros set (v & k & A1 & A2 & A3). apply in_flat_map in A1. destruct A1 as (l & A1 & A1').
      exists v, (v_text L k). split; [exists l; auto|]. split; [apply in_txs; exact A2|].
      apply (cap1_taken _ _ _ _ _ _ _ Mt Logic.I A3).
    - (* string *)
      eapply of_tres_out; [|exact X]. intros r R. injection R as <-.
      eapply tout_weak; [|apply string_out; unfold evs; rewrite map_length; exact Ok].
      intros set (v & k & A1 & A2 & A3). exists (v_text L v), (v_text L k).
      split; [apply in_txs; exact A1|]. split; [apply in_txs; exact A2|].
      apply (cap1_taken _ _ _ _ _ _ _ Mt Logic.I A3).
    - (* environment *)
      eapply of_tres_out; [|exact X]. intros r R. injection R as <-.
      eapply tout_weak; [|apply string_out; unfold evs; rewrite map_length; exact Ok].
      intros set (v & k & A1 & A2 & A3). exists (v_text L v), (v_text L k).
      split; [apply in_txs; exact A1|]. split; [apply in_txs; exact A2|].
      apply (cap1_taken _ _ _ _ _ _ _ Mt Logic.I A3).
    - (* hasflag *)
      eapply of_tres_out; [|exact X]. intros r R. injection R as <-.
      eapply tout_weak; [|apply hasflag_out].
      intros set (v & k & A1 & A2 & A3). apply in_flat_map in A1. destruct A1 as (n & A1 & A1').
      exists v, k. split; [exists n; auto|]. split; [exact A2|].
      apply (cap1_taken_glob _ _ _ _ _ _ _ Mt Logic.I A3).
    - (* date *)
      eapply of_tres_out; [|exact X]. intros r R. apply tout_as_glob. unfold date_test in R.
      destruct (header_name E s name) as [n|] eqn:Hn.
      + destruct (find_headers _ _ _ _ _) as [found|] eqn:F; [|discriminate]. simpl in R. injection R as <-.
        assert (V : tout (as_glob m) neg (fun set => exists v k, In v (flat_map (fun l => date_values (E_A E) p z (l_header l)) found) /\
          In k (evs E s keys) /\ cap1 L rx c (as_glob m) v (v_text L k) set)
          (match m with
           | MCount r => TBool (xorb (existsb (fun k => rel_number r (NInt (Z.of_nat (length (flat_map (fun l => date_values (E_A E) p z (l_header l)) found)))) (v_number L k)) (evs E s keys)) neg) []
           | _ => values_test L rx c (as_glob m) neg (flat_map (fun l => date_values (E_A E) p z (l_header l)) found) (evs E s keys)
           end)).
        { destruct m; try apply values_test_out. apply tout_nil. reflexivity. }
        revert V. apply tout_weak.
        intros set (v & k & A1 & A2 & A3). apply in_flat_map in A1. destruct A1 as (l & A1 & A1').
        exists v, (v_text L k). split; [exists n, found, l; auto|]. split; [apply in_txs; exact A2|].
        apply (cap1_taken_glob _ _ _ _ _ _ _ Mt Logic.I A3).
      + injection R as <-. unfold tout. destruct neg; reflexivity.
    - (* currentdate *)
      eapply of_tres_out; [|exact X]. intros r R. injection R as <-. apply tout_as_glob.
      assert (V : tout (as_glob m) neg (fun set => exists v k, In v [date_part (E_A E) p (E_now E z)] /\
          In k (evs E s keys) /\ cap1 L rx c (as_glob m) v (v_text L k) set)
          (currentdate_test L rx (E_A E) (E_now E z) p c m neg (evs E s keys))).
      { unfold currentdate_test. destruct m; try apply values_test_out. apply tout_nil. reflexivity. }
      revert V. apply tout_weak. intros set (v & k & [A1|[]] & A2 & A3).
      exists v, (v_text L k). split; [symmetry; exact A1|]. split; [apply in_txs; exact A2|].
      apply (cap1_taken_glob _ _ _ _ _ _ _ Mt Logic.I A3).
    - (* metadata *)
      eapply of_tres_out; [|exact X]. intros r R. injection R as <-.
      eapply tout_weak; [|apply metadata_out].
      intros set (md' & v & k & A1 & A2 & A3 & A4).
      exists v, (v_text L k). split; [exists md'; auto|]. split; [apply in_txs; exact A3|].
      apply (cap1_taken _ _ _ _ _ _ _ Mt Logic.I A4).
    - (* spamtest *)
      eapply of_tres_out; [|exact X]. intros r R. injection R as <-.
      eapply tout_weak; [|apply score_test_out]. intros set A.
      eexists _, (tx E s key). split; [reflexivity|]. split; [left; reflexivity|].
      apply (cap1_taken _ _ _ _ _ _ _ Mt Logic.I A).
    - (* virustest *)
      eapply of_tres_out; [|exact X]. intros r R. injection R as <-.
      eapply tout_weak; [|apply score_test_out]. intros set A.
      eexists _, (tx E s key). split; [reflexivity|]. split; [left; reflexivity|].
      apply (cap1_taken _ _ _ _ _ _ _ Mt Logic.I A).
  Qed.

  (** Every test, whatever its keys. *)
  Lemma set_match_nil s : set_match [] s = s.
  Proof. destruct s as [v]. destruct v. reflexivity. Qed.
  Lemma test_sane s t b s' : exec_test E s t = XBool b s' ->
    r_stack s' = r_stack s /\ exists set, sane (wanted t) set /\ c_match (r_vars s') = set_match_variables set (c_match (r_vars s)).
  Proof.
    intro X.
    assert (Z : r_stack s' = r_stack s /\ c_match (r_vars s') = c_match (r_vars s) ->
       r_stack s' = r_stack s /\ exists set, sane (wanted t) set /\ c_match (r_vars s') = set_match_variables set (c_match (r_vars s))).
    { intros [A B]. split; [exact A|]. exists []. split; [apply sane_nil|exact B]. }
    assert (W : (exists set, s' = set_match set s /\ sane (wanted t) set) ->
       r_stack s' = r_stack s /\ exists set, sane (wanted t) set /\ c_match (r_vars s') = set_match_variables set (c_match (r_vars s))).
    { intros (set & -> & A). split; [reflexivity|]. exists set. split; [exact A|reflexivity]. }
    destruct (match_of t) as [[[c m] neg]|] eqn:Mt.
    - assert (V : capturing t -> one_key t -> exists set, s' = set_match set s /\ sane (wanted t) set).
      { intros Ct Ok. destruct (test_taken s t c m neg b s' Mt Ct Ok X) as (set & A & B). exists set. split; [exact A|].
        destruct (xorb b neg && _); [destruct B as (? & ? & _ & _ & _ & B); exact B|subst; apply sane_nil]. }
      destruct t; try discriminate; try (apply W, V; exact Logic.I); unfold exec_test in X.
      + (* body *)
        apply Z. assert (B : forall f, of_tres s neg0 (body_test L rx (parts s) (r_part s) f (E_body E bt) c0 m0 neg0 (evs E s keys)) = XBool b s' ->
           r_stack s' = r_stack s /\ c_match (r_vars s') = c_match (r_vars s)).
        { intro f. unfold body_test. destruct (deep_parts _ _) as [ps|]; [|discriminate]. simpl.
          destruct m0; try (destruct (values_loop _ _ _ _ _ _ _)); try discriminate; intro Q; injection Q as <- <-; auto. }
        destruct (if subject then _ else _) as [|[] y] in X; [discriminate|injection X as <- <-; auto|].
        destruct bt; eauto. destruct (ct_filters E s types); eauto. injection X as <- <-. auto.
      + (* string *)
        unfold of_tres in X. pose proof (keys_loop_any L rx false c0 m0 (evs E s sources) (evs E s keys) false [] (sane_nil _)) as K.
        destruct (string_test _ _ _ _ _ _ _ _) as [|b0 set|] eqn:St; try discriminate. injection X as <- <-.
        apply W. exists set. split; [reflexivity|]. unfold string_test in St. unfold wanted, match_of.
        destruct m0; try (destruct (keys_loop _ _ _ _ _ _ _ _ _); [discriminate|]; injection St as <- <-; exact K);
          try (injection St as <- <-; apply sane_nil).
        cbv zeta in St. destruct (fold_left _ _ _); [injection St as <- <-; apply sane_nil|discriminate].
      + (* environment *)
        unfold of_tres in X. pose proof (keys_loop_any L rx true c0 m0 (evs E s sources) (evs E s keys) false [] (sane_nil _)) as K.
        destruct (string_test _ _ _ _ _ _ _ _) as [|b0 set|] eqn:St; try discriminate. injection X as <- <-.
        apply W. exists set. split; [reflexivity|]. unfold string_test in St. unfold wanted, match_of.
        destruct m0; try (destruct (keys_loop _ _ _ _ _ _ _ _ _); [discriminate|]; injection St as <- <-; exact K);
          try (injection St as <- <-; apply sane_nil).
        cbv zeta in St. destruct (fold_left _ _ _); [injection St as <- <-; apply sane_nil|discriminate].
      + (* notify_method_capability *)
        apply Z. destruct (_ && _) in X; [|injection X as <- <-; auto].
        destruct m0; try (destruct (first_key _ _ _ _ _ _ _) in X; [discriminate|]); injection X as <- <-; auto.
    - apply Z. destruct t; try discriminate; simpl in X; try (injection X as <- <-; auto).
      + unfold of_bool in X. destruct (exists_test _ _ _ _ _); [injection X as <- <-; auto|discriminate].
      + destruct (duplicate_id E s d) as [[|]|]; try discriminate. injection X as <- <-; auto.
      + destruct (convert _ _ _ _) as [[b0 m0]|]; [injection X as <- <-; auto|discriminate].
      + destruct (parts s); [discriminate|]. destruct (vacation_test _ _ _ _); try discriminate. injection X as <- <-; auto.
  Qed.
End Tests.

(** *** How long match variables are kept *)
Section Kept.
  Variable E : renv.

  (** Neither the scripts running nor the match variables change. *)
  Definition still (s s' : rst) : Prop := r_stack s' = r_stack s /\ c_match (r_vars s') = c_match (r_vars s).
  Lemma still_refl s : still s s. Proof. split; reflexivity. Qed.
  Lemma still_trans a b c : still a b -> still b c -> still a c.
  Proof. intros [A B] [C D]. split; congruence. Qed.
  Definition pushed (s s' : rst) : Prop := exists f, r_stack s' = f :: r_stack s /\ f_match f = c_match (r_vars s).
  Definition popped (s s' : rst) : Prop := exists f, r_stack s = f :: r_stack s' /\ f_match f = c_match (r_vars s').
  (** What an instruction that is neither a test nor a clear does. *)
  Definition fate (s s' : rst) : Prop := still s s' \/ pushed s s' \/ popped s s' \/ r_stack s' = [].
  Definition result_fate (s : rst) (r : sres) : Prop :=
    match r with SCont s' | SYield s' _ => fate s s' | _ => True end.

  Lemma build_message_id_still s : still s (fst (build_message_id E s)).
  Proof. unfold build_message_id. destruct (ms_changed _); split; reflexivity. Qed.
  Lemma finish_loop_stack s : r_stack (finish_loop E s) = [].
  Proof.
    unfold finish_loop, build_message_id. destruct (r_final (w_stack [] s)) as [[]|]; try reflexivity.
    destruct (ms_changed _); reflexivity.
  Qed.
  Lemma take_queue_fate s0 s : fate s0 s -> result_fate s0 (take_queue s).
  Proof. intro H. unfold take_queue. destruct (r_queue s); exact H. Qed.
  Lemma assign_still c n v s max : c_match c = c_match (r_vars s) -> still s (assign (set_variable (E_L E) max c n v) s).
  Proof. intro H. unfold assign, set_variable. destruct n; split; try reflexivity; exact H. Qed.
  Lemma vw_match s : c_match (vw E s) = c_match (r_vars s). Proof. reflexivity. Qed.
  Lemma pop_parts_still n : forall s, still s (pop_parts n s).
  Proof.
    induction n as [|n IH]; intro s; simpl; [apply still_refl|]. destruct (r_iters s) as [|[p it] rest]; [apply still_refl|].
    eapply still_trans; [|apply IH]. split; reflexivity.
  Qed.
  Lemma with_value_fate code s k : (forall v s1, still s s1 -> result_fate s (k v s1)) -> result_fate s (with_value E code s k).
  Proof.
    intro H. unfold with_value. destruct (eval_expression _ _ _ _ _ _ _); try exact Logic.I.
    - apply H. split; reflexivity.
    - left. split; reflexivity.
  Qed.
  Lemma pop_frame_fate s : result_fate s (pop_frame s).
  Proof.
    unfold pop_frame. destruct (r_stack s) as [|f rest] eqn:Q; [exact Logic.I|]. cbv zeta. destruct rest as [|g rest]; [exact Logic.I|].
    right. right. left. exists f. split; [exact Q|reflexivity].
  Qed.
  Lemma exec_instr_fate i s : (forall t, i <> IxTest t) -> (forall p a n, i <> IxClear p a n) -> result_fate s (exec_instr E i s).
  Proof.
    intros NT NC.
    assert (S0 : forall s', still s s' -> fate s s') by (intros s' H; left; exact H).
    destruct i; cbn [exec_instr];
      try (exfalso; eapply NT; reflexivity); try (exfalso; eapply NC; reflexivity);
      try (apply S0; split; reflexivity); try exact Logic.I;
      try (unfold edit_msg; match goal with |- context [match ?m with Some _ => _ | None => _ end] => destruct m end; try exact Logic.I; apply S0; split; reflexivity);
      try (right; right; right; apply finish_loop_stack).
    - destruct (find _ caps) as [[]|]; try (right; right; right; apply finish_loop_stack). apply S0, still_refl.
    - (* keep *) pose proof (build_message_id_still s) as B. destruct (build_message_id E s) as [s1 [e|]]; apply S0; exact B.
    - (* fileinto *)
      unfold exec_fileinto. pose proof (build_message_id_still s) as B. destruct (build_message_id E s) as [s1 e]. cbv zeta. simpl in B.
      apply take_queue_fate, S0. destruct copy; [exact B|]. destruct (r_final s1) as [e0|]; [|exact B]. destruct e0; try exact B. match goal with |- context [match ?l with [] => _ | _ :: _ => s1 end] => destruct l end; exact B.
    - (* redirect *)
      unfold exec_redirect. destruct (sanitize_address _); [|apply take_queue_fate, S0, still_refl].
      destruct (_ && _); [|apply take_queue_fate, S0, still_refl]. destruct (parts s); [exact Logic.I|].
      destruct (Nat.ltb _ _); [|apply take_queue_fate, S0, still_refl].
      destruct (_ && _); [apply take_queue_fate, S0, still_refl|]. cbv zeta.
      set (s1 := if copy then s else _). assert (B1 : still s s1).
      { unfold s1. destruct copy; [apply still_refl|]. destruct (r_final s) as [[]|]; split; reflexivity. }
      pose proof (build_message_id_still s1) as B. destruct (build_message_id E s1) as [s2 e].
      apply take_queue_fate, S0. exact (still_trans _ _ _ B1 B).
    - destruct (r_test s); apply S0; split; reflexivity.
    - destruct (r_test s); apply S0; split; reflexivity.
    - (* eval *) apply with_value_fate. intros v s1 H. apply S0. exact H.
    - (* foreverypart *) destruct (r_iter s); [|apply S0; split; reflexivity]. destruct (r_iters s) as [|[p0 it] rest]; apply S0; split; reflexivity.
    - apply S0, pop_parts_still.
    - apply with_value_fate. intros v s1 H. apply S0. destruct (to_bool v); exact H.
    - apply with_value_fate. intros v s1 H. apply S0. eapply still_trans; [exact H|]. apply assign_still. reflexivity.
    - apply take_queue_fate, S0, assign_still. reflexivity.
    - destruct (Mime.convert _ _ _ _) as [[]|]; [apply S0; split; reflexivity|exact Logic.I].
    - apply take_queue_fate, S0. unfold exec_set. apply assign_still. apply vw_match.
    - destruct (parts s); [exact Logic.I|]. destruct (exec_notify _ _ _ _) as [[[? ?] ?]|]; apply take_queue_fate, S0; split; reflexivity.
    - destruct (parts s); [exact Logic.I|]. destruct (exec_vacation _ _ _ _ _) as [[? ?] ?]. apply take_queue_fate, S0; split; reflexivity.
    - apply S0. unfold exec_flags. apply assign_still. apply vw_match.
    - (* include *)
      unfold exec_include. destruct (v_is_empty _); [apply S0, still_refl|]. cbv zeta.
      destruct (_ || _); [|apply S0, still_refl]. destruct (Nat.ltb _ _); [|right; right; right; apply finish_loop_stack].
      destruct (opt_or _ _); [|apply S0, still_refl]. right. left. eexists. split; reflexivity.
    - apply pop_frame_fate.
  Qed.

  (** The match variables of a frame through the fates of a state. *)
  Lemma matches_at_still d s s' : still s s' -> matches_at d s' = matches_at d s.
  Proof. intros [A B]. unfold matches_at, depth. rewrite A, B. reflexivity. Qed.
  Lemma matches_at_pushed d s s' : d <= depth s -> pushed s s' -> matches_at d s' = matches_at d s.
  Proof.
    intros D (f & A & B). unfold matches_at, depth in *. rewrite A. simpl length.
    destruct (Nat.eqb (S (length (r_stack s))) d) eqn:Q; [apply Nat.eqb_eq in Q; lia|].
    destruct (Nat.eqb (length (r_stack s)) d) eqn:Q2.
    - apply Nat.eqb_eq in Q2. rewrite Q2. replace (S d - d - 1) with 0 by lia. simpl. rewrite B. reflexivity.
    - apply Nat.eqb_neq in Q2. replace (S (length (r_stack s)) - d - 1) with (S (length (r_stack s) - d - 1)) by lia. reflexivity.
  Qed.
  Lemma matches_at_popped d s s' : d <= depth s' -> popped s s' -> matches_at d s' = matches_at d s.
  Proof.
    intros D (f & A & B). symmetry. apply matches_at_pushed; [exact D|]. exists f. auto.
  Qed.
  Lemma matches_at_fate d s s' : 1 <= d -> d <= depth s -> d <= depth s' -> fate s s' -> matches_at d s' = matches_at d s.
  Proof.
    intros D1 D2 D3 [F|[F|[F|F]]].
    - apply matches_at_still; exact F.
    - apply matches_at_pushed; assumption.
    - apply matches_at_popped; assumption.
    - unfold depth in D3. rewrite F in D3. simpl in D3. lia.
  Qed.

  Lemma clear_loop_other fuel : forall p m i, N.testbit p (N.of_nat i) = false ->
    nth_error (clear_loop fuel p m) i = nth_error m i.
  Proof.
    induction fuel as [|f IH]; intros p m i H; cbn [clear_loop]; [reflexivity|].
    destruct (N.eqb p 0) eqn:Ep; [reflexivity|]. apply N.eqb_neq in Ep. cbv zeta.
    rewrite IH.
    - assert (N.to_nat (N.log2 p) <> i).
      { intros <-. rewrite N2Nat.id, N.bit_log2 in H by exact Ep. discriminate. }
      destruct (nth_error m (N.to_nat (N.log2 p))) as [v|]; [|reflexivity]. destruct (v_is_empty v); [reflexivity|].
      rewrite nth_upd. apply Nat.eqb_neq in H0. rewrite H0. reflexivity.
    - rewrite top_bit by exact Ep. destruct (N.eqb _ _); [reflexivity|exact H].
  Qed.

  (** An instruction at depth [d] that does not write [n] keeps it; one deeper keeps all. *)
  Lemma frame_changed d s s' n : depth s = d -> r_stack s' = r_stack s ->
    nth_error (c_match (r_vars s')) n = nth_error (c_match (r_vars s)) n -> match_at d n s' = match_at d n s.
  Proof. intros D S0 M. unfold match_at, matches_at, depth in *. rewrite S0, D, Nat.eqb_refl. exact M. Qed.
  Lemma frame_deeper d s s' : d < depth s -> r_stack s' = r_stack s -> matches_at d s' = matches_at d s.
  Proof.
    intros D S0. unfold matches_at, depth in *. rewrite S0.
    destruct (Nat.eqb _ _) eqn:Q; [apply Nat.eqb_eq in Q; lia|reflexivity].
  Qed.
  Lemma exec_instr_keeps d n i s s' : 1 <= d -> d <= depth s -> d <= depth s' -> (depth s = d -> ~ writes n i) ->
    (exec_instr E i s = SCont s' \/ exists o, exec_instr E i s = SYield s' o) -> match_at d n s' = match_at d n s.
  Proof.
    intros D1 D2 D3 W R.
    assert (G : (exists t, i = IxTest t) \/ (exists p a k, i = IxClear p a k) \/
       ((forall t, i <> IxTest t) /\ forall p a k, i <> IxClear p a k)).
    { destruct i; eauto 7; right; right; split; discriminate. }
    assert (U : r_stack s' = r_stack s -> (depth s = d -> nth_error (c_match (r_vars s')) n = nth_error (c_match (r_vars s)) n) ->
       match_at d n s' = match_at d n s).
    { intros S0 M. destruct (Nat.eq_dec (depth s) d) as [Q|Q]; [apply frame_changed; auto|].
      unfold match_at. rewrite (frame_deeper d s s'); [reflexivity|lia|exact S0]. }
    destruct G as [[t ->]|[(p & a & k & ->)|[NT NC]]].
    - cbn [exec_instr] in R. destruct (exec_test E s t) as [|b s0|e neg|e] eqn:X.
      + destruct R as [R|[o R]]; discriminate.
      + destruct R as [R|[o R]]; [|discriminate]. injection R as <-.
        destruct (test_sane E s t b s0 X) as (A & set & [_ B] & C). apply U; [exact A|]. intro Q. specialize (W Q).
        simpl. rewrite C, set_match_nth. destruct (last_for n set None) eqn:La.
        * exfalso. apply W. apply B. destruct (in_dec Nat.eq_dec n (map fst set)) as [I0|I0]; [exact I0|].
          rewrite (last_for_not_in n set I0) in La. discriminate.
        * destruct (nth_error (c_match (r_vars s)) n); reflexivity.
      + destruct R as [R|[o R]]; [discriminate|]. injection R as <- _. apply U; reflexivity.
      + destruct R as [R|[o R]]; [discriminate|]. injection R as <- _. unfold depth in D3. rewrite finish_loop_stack in D3. simpl in D3. lia.
    - cbn [exec_instr] in R. cbv zeta in R. destruct R as [R|[o R]]; [|discriminate]. injection R as <-. apply U; [reflexivity|].
      intro Q. specialize (W Q). simpl in W |- *. apply Bool.not_true_is_false in W.
      destruct (N.eqb p 0); [reflexivity|]. apply clear_loop_other. exact W.
    - pose proof (exec_instr_fate i s NT NC) as F. unfold match_at.
      rewrite (matches_at_fate d s s' D1 D2 D3); [reflexivity|]. destruct R as [R|[o R]]; rewrite R in F; exact F.
  Qed.
  Lemma step_keeps d n s s' : 1 <= d -> d <= depth s -> d <= depth s' ->
    (depth s = d -> forall i, next_instr s = Some i -> ~ writes n i) ->
    (step E s = SCont s' \/ exists o, step E s = SYield s' o) -> match_at d n s' = match_at d n s.
  Proof.
    intros D1 D2 D3 W R. unfold step in R. destruct (r_stack s) as [|f rest] eqn:St.
    { destruct R as [R|[o R]]; discriminate. }
    destruct (Nat.ltb _ _); [destruct R as [R|[o R]]; discriminate|].
    destruct (next_instr s) as [i|] eqn:Ni.
    - cbv zeta in R. destruct (Nat.ltb _ _).
      + destruct R as [R|[o R]]; [discriminate|]. injection R as <- _. unfold depth in D3. rewrite finish_loop_stack in D3. simpl in D3. lia.
      + match type of R with exec_instr E i ?x = _ \/ _ => set (s1 := x) in * end.
        assert (St1 : still s s1) by (split; reflexivity).
        assert (Ds : depth s1 = depth s) by reflexivity.
        transitivity (match_at d n s1).
        * apply (exec_instr_keeps d n i); [exact D1|rewrite Ds; exact D2|exact D3| |exact R]. rewrite Ds. intro Q. apply (W Q). reflexivity.
        * unfold match_at. rewrite (matches_at_still d s s1 St1). reflexivity.
    - pose proof (pop_frame_fate s) as F. unfold match_at.
      rewrite (matches_at_fate d s s' D1 D2 D3); [reflexivity|]. destruct R as [R|[o R]]; rewrite R in F; exact F.
  Qed.
  Lemma quiet_keeps d n s s' : 1 <= d -> quiet E d n s s' -> match_at d n s' = match_at d n s.
  Proof.
    intros D1 Q. induction Q as [s|s s1 s' D2 D3 W R Q IH|s i s' D2 Q IH|s q s' D2 Q IH].
    - reflexivity.
    - rewrite IH. apply step_keeps; assumption.
    - rewrite IH. unfold match_at. destruct i as [| |v|n0 x]; try (rewrite (matches_at_still d s); [reflexivity|split; reflexivity]).
      unfold feed. destruct (_ && _); [|reflexivity]. rewrite (matches_at_pushed d s); [reflexivity|exact D2|]. eexists. split; reflexivity.
    - rewrite IH. unfold match_at. rewrite (matches_at_still d s); [reflexivity|split; reflexivity].
  Qed.
End Kept.

Lemma test_captured E s t c m neg b s' :
  match_of t = Some (c, m, neg) -> one_key t -> (wanted t < 2 ^ 64)%N ->
  exec_test E s t = XBool b s' ->
  exists set, stored set (c_match (r_vars s)) (c_match (r_vars s')) /\
    (xorb b neg = true -> wanted t <> 0%N -> capturing t ->
       exists value key, looks_at E s t value /\ In key (keys_of E s t) /\ captured (E_L E) (E_rx E) t value key set) /\
    (xorb b neg = false \/ wanted t = 0%N \/ ~ capturing t -> set = []).
Proof.
  intros Mt Ok Wt X.
  assert (Wm : wanted t = mask m).
  { unfold wanted. rewrite Mt. destruct m; reflexivity. }
  destruct (match t with TeBody _ _ _ _ _ _ | TeNotifyCapability _ _ _ _ _ _ => true | _ => false end) eqn:Cp.
  - exists []. split; [|split].
    + destruct (test_sane E s t b s' X) as (_ & set & [A B] & C).
      assert (c_match (r_vars s') = c_match (r_vars s)) as ->; [|split; [reflexivity|]; split; [intros n x []|reflexivity]].
      destruct t; try discriminate; unfold exec_test in X.
      * assert (Q : forall f, of_tres s neg0 (body_test (E_L E) (E_rx E) (parts s) (r_part s) f (E_body E bt) c0 m0 neg0 (evs E s keys)) = XBool b s' ->
           c_match (r_vars s') = c_match (r_vars s)).
        { intro f. unfold body_test. destruct (deep_parts _ _) as [ps|]; [|discriminate]. simpl.
          destruct m0; try (destruct (values_loop _ _ _ _ _ _ _)); try discriminate; intro Q; injection Q as <- <-; auto. }
        destruct (if subject then _ else _) as [|[] y] in X; [discriminate|injection X as <- <-; auto|].
        destruct bt; eauto. destruct (ct_filters E s types); eauto. injection X as <- <-. auto.
      * destruct (_ && _) in X; [|injection X as <- <-; auto].
        destruct m0; try (destruct (first_key _ _ _ _ _ _ _) in X; [discriminate|]); injection X as <- <-; auto.
    + intros _ _ H. exfalso. destruct t; try discriminate; exact H.
    + reflexivity.
  - assert (Ct : capturing t) by (destruct t; try discriminate; exact Logic.I).
    destruct (test_taken E s t c m neg b s' Mt Ct Ok X) as (set & -> & B). exists set. split; [|split].
    + apply set_match_exact. destruct (xorb b neg && _); [destruct B as (? & ? & _ & _ & _ & B & _); exact B|subst; constructor].
    + intros H1 H2 _. rewrite H1 in B. apply N.eqb_neq in H2. rewrite Wm in H2. rewrite H2 in B. simpl in B.
      destruct B as (v & k & B1 & B2 & B3 & _). exists v, k. split; [exact B1|]. split; [exact B2|exact (B3 Wt)].
    + intros [H|[H|H]]; [rewrite H in B; exact B| |contradiction].
      rewrite Wm in H. rewrite H, N.eqb_refl, andb_false_r in B. exact B.
Qed.
Lemma test_others E s t b s' n : exec_test E s t = XBool b s' -> N.testbit (wanted t) (N.of_nat n) = false ->
  nth_error (c_match (r_vars s')) n = nth_error (c_match (r_vars s)) n.
Proof.
  intros X W. destruct (test_sane E s t b s' X) as (A & set & [_ B] & C). rewrite C, set_match_nth.
  destruct (last_for n set None) eqn:La; [|destruct (nth_error _ n); reflexivity].
  exfalso. destruct (in_dec Nat.eq_dec n (map fst set)) as [I0|I0].
  - rewrite (B n I0) in W. discriminate.
  - rewrite (last_for_not_in n set I0) in La. discriminate.
Qed.
Lemma recall E t c m neg s s1 s2 :
  match_of t = Some (c, m, neg) -> one_key t -> (wanted t < 2 ^ 64)%N -> capturing t -> wanted t <> 0%N ->
  1 <= depth s -> exec_test E s t = XBool (negb neg) s1 ->
  exists value key set,
    looks_at E s t value /\ In key (keys_of E s t) /\ captured (E_L E) (E_rx E) t value key set /\
    forall n x, In (n, x) set -> n < length (c_match (r_vars s)) ->
      forall test_result, quiet E (depth s) n (w_test test_result s1) s2 -> depth s2 = depth s ->
      tx E s2 (XVariable (TMatch n)) = x.
Proof.
  intros Mt Ok Wt Ct Wn D X.
  destruct (test_captured E s t c m neg _ s1 Mt Ok Wt X) as (set & (S1 & S2 & S3) & C1 & _).
  destruct C1 as (v & k & A & B & C); [destruct neg; reflexivity|exact Wn|exact Ct|].
  exists v, k, set. split; [exact A|]. split; [exact B|]. split; [exact C|].
  intros n x I0 Hn tr Q D2. specialize (S2 n x I0 Hn). apply (quiet_keeps E (depth s) n _ _ D) in Q.
  unfold match_at, matches_at in Q. rewrite D2, Nat.eqb_refl in Q.
  destruct (test_sane E s t _ s1 X) as (St & _).
  assert (depth (w_test tr s1) = depth s) as Q2 by (unfold depth; simpl; rewrite St; reflexivity).
  rewrite Q2, Nat.eqb_refl in Q. simpl in Q. rewrite S2 in Q.
  unfold tx, Run.ev. cbn [eval_value]. unfold variable. rewrite vw_match, Q. reflexivity.
Qed.
