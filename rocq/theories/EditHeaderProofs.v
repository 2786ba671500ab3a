(** Proofs about header editing. *)
From Verif Require Import Base Lib Var Value Glob GlobSpec Comparator ComparatorSpec ComparatorProofs
  ComparatorProofs2 Message MessageSpec MessageProofs MessageProofs2 EditHeader EditHeaderSpec.
From Coq Require Import Sorting.Sorted.

(** *** remove_crlf *)
Definition no_crlf (s : text) : text := filter (fun c => negb (N.eqb c c_lf || N.eqb c c_cr)) s.

Lemma remove_crlf_go_spec max : forall s used, used <= max ->
  exists rest, no_crlf s = remove_crlf_go max used s ++ rest /\ used + blen (remove_crlf_go max used s) <= max /\
    match rest with [] => True | c :: _ => max < used + blen (remove_crlf_go max used s) + len_utf8 c end.
Proof.
  induction s as [|c s IH]; intros used H; cbn [remove_crlf_go no_crlf filter].
  { exists []. simpl. repeat split; lia. }
  destruct (N.eqb c c_lf || N.eqb c c_cr) eqn:E; cbn [negb]; [apply IH, H|].
  destruct (Nat.leb (used + len_utf8 c) max) eqn:F.
  - apply Nat.leb_le in F. destruct (IH _ F) as (rest & A & B & C). unfold no_crlf in A. exists rest. rewrite A.
    split; [reflexivity|]. cbn [blen]. split; [lia|]. destruct rest; [exact I|lia].
  - apply Nat.leb_gt in F. eexists. split; [reflexivity|]. simpl. split; [lia|lia].
Qed.
Lemma remove_crlf_cut max s : cut_to max (no_crlf s) (remove_crlf max s).
Proof.
  destruct (remove_crlf_go_spec max s 0 (Nat.le_0_l _)) as (rest & A & B & C). exists rest. auto.
Qed.
Lemma remove_crlf_clean max s : Forall (fun c => ~ breaks_header c) (remove_crlf max s).
Proof.
  destruct (remove_crlf_cut max s) as (rest & A & _). apply Forall_forall. intros c I.
  assert (J : In c (no_crlf s)) by (rewrite A; apply in_or_app; auto).
  apply filter_In in J as [_ J]. unfold breaks_header. apply negb_true_iff, orb_false_iff in J as [J1 J2].
  apply N.eqb_neq in J1, J2. tauto.
Qed.

(** *** list updates *)
Lemma nth_error_ext' {A} : forall l l' : list A, (forall i, nth_error l i = nth_error l' i) -> l = l'.
Proof.
  induction l as [|x l IH]; intros [|y l'] H; [reflexivity|specialize (H 0); discriminate|specialize (H 0); discriminate|].
  f_equal; [specialize (H 0); simpl in H; congruence|]. apply IH. intro i. exact (H (S i)).
Qed.
Lemma update_nth_spec {A} (f : A -> option A) : forall l i x y,
  nth_error l i = Some x -> f x = Some y ->
  exists l', update_nth i f l = Some l' /\ length l' = length l /\ nth_error l' i = Some y /\
    (forall j, j <> i -> nth_error l' j = nth_error l j).
Proof.
  induction l as [|a l IH]; intros i x y E F; [destruct i; discriminate|]. destruct i as [|i]; simpl in *.
  - injection E as ->. rewrite F. simpl. eexists. split; [reflexivity|]. split; [reflexivity|]. split; [reflexivity|].
    intros [|j] H; [congruence|reflexivity].
  - destruct (IH i x y E F) as (l' & -> & A1 & A2 & A3). simpl. eexists. split; [reflexivity|]. simpl.
    split; [lia|]. split; [exact A2|]. intros [|j] H; [reflexivity|]. apply A3. congruence.
Qed.
Lemma update_nth_sum {A} (f : A -> option A) (g : A -> nat) : forall l i x y l',
  nth_error l i = Some x -> f x = Some y -> update_nth i f l = Some l' ->
  list_sum (map g l) + g y = list_sum (map g l') + g x.
Proof.
  induction l as [|a l IH]; intros i x y l' E F U; [destruct i; discriminate|]. destruct i as [|i]; simpl in *.
  - injection E as ->. rewrite F in U. injection U as <-. simpl. lia.
  - destruct (update_nth i f l) as [l1|] eqn:U1; [|discriminate]. injection U as <-. simpl.
    specialize (IH i x y l1 E F U1). lia.
Qed.

(** *** removal *)
Lemma without_remove gone pos : forall hs k hs1 h,
  without gone k hs hs1 -> (forall x, gone x -> pos < x) -> k <= pos -> nth_error hs (pos - k) = Some h ->
  exists hs2, remove_at (pos - k) hs1 = Some hs2 /\ without (fun x => x = pos \/ gone x) k hs hs2 /\
    list_sum (map header_size hs1) = header_size h + list_sum (map header_size hs2).
Proof.
  intros hs k hs1 h W. revert h. induction W as [i|i g l l' G W IH|i g l l' G W IH]; intros h LT K E.
  - destruct (pos - i); discriminate.
  - apply LT in G. lia.
  - destruct (Nat.eq_dec i pos) as [->|NE].
    + rewrite Nat.sub_diag in *. simpl in E. injection E as ->. simpl. exists l'. split; [reflexivity|]. split; [|reflexivity].
      apply w_drop; [left; reflexivity|].
      assert (X : forall j l l', without gone j l l' -> pos < j -> without (fun x => x = pos \/ gone x) j l l').
      { clear. induction 1; intro J; [constructor|apply w_drop; [right; assumption|apply IHwithout; lia]
          |apply w_keep; [intros [Y|Y]; [lia|contradiction]|apply IHwithout; lia]]. }
      apply X; [exact W|lia].
    + assert (P : pos - i = S (pos - S i)) by lia. rewrite P in E |- *. simpl in E.
      destruct (IH h LT ltac:(lia) E) as (hs2 & R & W2 & S2). simpl. rewrite R. simpl. eexists. split; [reflexivity|].
      split; [apply w_keep; [intros [Y|Y]; [lia|contradiction]|exact W2]|]. simpl. lia.
Qed.
Lemma without_none gone : forall hs k, (forall x, ~ gone x) -> without gone k hs hs.
Proof. induction hs as [|h hs IH]; intros k H; [constructor|]. apply w_keep; [apply H|apply IH, H]. Qed.
Lemma without_ext gone gone' k hs hs' : (forall x, k <= x -> gone x <-> gone' x) ->
  without gone k hs hs' -> without gone' k hs hs'.
Proof.
  intros H W. induction W as [i|i g l l' G W IH|i g l l' G W IH]; [constructor| |].
  - apply w_drop; [apply H; [lia|exact G]|apply IH]. intros x X. apply H. lia.
  - apply w_keep; [intro X; apply G, H; [lia|exact X]|apply IH]. intros x X. apply H. lia.
Qed.

Definition mark_ok (parts : list part) (x : located) : Prop :=
  exists p, nth_error parts (l_part x) = Some p /\ nth_error (p_headers p) (l_pos x) = Some (l_header x).
Definition before (a b : located) : Prop := l_part a = l_part b -> l_pos a < l_pos b.

Lemma remove_marked_spec parts : forall marks,
  StronglySorted before marks -> Forall (mark_ok parts) marks ->
  exists ps, remove_marked parts (map (fun x => (l_part x, l_pos x)) marks) = Some ps /\ length ps = length parts /\
    (forall j p, nth_error parts j = Some p -> exists p', nth_error ps j = Some p' /\ same_but_headers p p' /\
       without (fun pos => In (j, pos) (map (fun x => (l_part x, l_pos x)) marks)) 0 (p_headers p) (p_headers p')) /\
    headers_size parts = headers_size ps + list_sum (map (fun x => header_size (l_header x)) marks).
Proof.
  induction marks as [|m marks IH]; intros S F.
  - exists parts. cbn [map remove_marked fold_right]. repeat split; [|simpl; lia]. intros j p E. exists p.
    split; [exact E|]. split; [split; reflexivity|]. apply without_none. intros x [].
  - inversion S as [|? ? S1 S2]; subst. inversion F as [|? ? (p0 & E0 & EH) F2]; subst.
    destruct (IH S1 F2) as (ps & R & LN & B & SZ).
    destruct (B _ _ E0) as (p1 & E1 & SB & W).
    rewrite Forall_forall in S2.
    destruct (without_remove _ (l_pos m) _ 0 _ (l_header m) W) as (hs2 & RM & W2 & SUM).
    { intros x I. apply in_map_iff in I as (y & X & I). injection X as X1 X2. subst x. apply (S2 y I). auto. }
    { lia. }
    { rewrite Nat.sub_0_r. exact EH. }
    rewrite Nat.sub_0_r in RM.
    destruct (update_nth_spec (fun p => option_map (fun hs => set_headers hs p) (remove_at (l_pos m) (p_headers p)))
                ps (l_part m) p1 (set_headers hs2 p1) E1) as (ps' & U & U1 & U2 & U3).
    { rewrite RM. reflexivity. }
    exists ps'. split; [cbn [map remove_marked fold_right] in *; unfold remove_marked in R; rewrite R; exact U|].
    split; [lia|]. split.
    + intros j p E. destruct (Nat.eq_dec j (l_part m)) as [->|NE].
      * assert (p = p0) as -> by congruence. eexists. split; [exact U2|]. split.
        { destruct SB as [A1 A2]. destruct p1. split; assumption. }
        replace (p_headers (set_headers hs2 p1)) with hs2 by (destruct p1; reflexivity).
        eapply without_ext; [|exact W2]. intros x _. cbn [map In]. split.
        -- intros [->|I]; auto.
        -- intros [X|I]; [left; congruence|right; exact I].
      * destruct (B j p E) as (p' & A1 & A2 & A3). exists p'. rewrite U3 by exact NE. split; [exact A1|]. split; [exact A2|].
        eapply without_ext; [|exact A3]. intros x _. cbn [map In]. split; [auto|]. intros [X|I]; [congruence|exact I].
    + assert (FX : (fun p => option_map (fun hs => set_headers hs p) (remove_at (l_pos m) (p_headers p))) p1 = Some (set_headers hs2 p1))
        by (cbv beta; rewrite RM; reflexivity).
      assert (US := update_nth_sum _ (fun p => list_sum (map header_size (p_headers p))) ps (l_part m) p1 (set_headers hs2 p1) ps' E1
        FX U). cbv beta in US.
      replace (p_headers (set_headers hs2 p1)) with hs2 in US by (destruct p1; reflexivity).
      unfold headers_size in *. cbn [map list_sum fold_right]. unfold list_sum in *. lia.
Qed.

(** *** what is marked *)
Lemma sorted_map {A B} (f : A -> B) (R : A -> A -> Prop) (S : B -> B -> Prop) l :
  (forall a b, R a b -> S (f a) (f b)) -> StronglySorted R l -> StronglySorted S (map f l).
Proof.
  intros H X. induction X as [|a l X IH FX]; simpl; constructor; [exact IH|].
  apply Forall_map. eapply Forall_impl; [|exact FX]. simpl. auto.
Qed.
Lemma sorted_app {A} (R : A -> A -> Prop) l1 l2 : StronglySorted R l1 -> StronglySorted R l2 ->
  (forall a b, In a l1 -> In b l2 -> R a b) -> StronglySorted R (l1 ++ l2).
Proof.
  intros S1 S2 H. induction S1 as [|a l1 S1 IH F]; simpl; [exact S2|]. constructor.
  - apply IH. intros x y I J. apply H; [right; exact I|exact J].
  - apply Forall_app. split; [exact F|]. apply Forall_forall. intros y J. apply H; [left; reflexivity|exact J].
Qed.
Lemma sorted_sub {A} (R : A -> A -> Prop) (f : A -> bool) l : StronglySorted R l -> StronglySorted R (filter f l).
Proof.
  induction 1 as [|a l S IH F]; simpl; [constructor|]. destruct (f a); [|exact IH]. constructor; [exact IH|].
  apply Forall_forall. intros y I. apply filter_In in I as [I _]. rewrite Forall_forall in F. apply F, I.
Qed.

Lemma find_one_sorted parts current name index anychild l : well_formed parts -> current < length parts ->
  find_headers parts current [name] index anychild = Some l ->
  StronglySorted before l /\ Forall (mark_ok parts) l.
Proof.
  intros WF H E. split.
  - destruct (subparts_looked parts current anychild WF H) as (sl & ES & ND & _). unfold find_headers in E.
    rewrite ES in E. simpl in E. injection E as <-. clear ES. induction sl as [|[i p] sl IH]; cbn [flat_map]; [constructor|].
    cbn [map fst] in ND. inversion ND as [|? ? N1 N2]; subst. cbn [fst snd]. rewrite app_nil_r.
    apply sorted_app; [|apply IH, N2|].
    + assert (G : forall sel : list (nat * header), StronglySorted lt (map fst sel) ->
        StronglySorted before (map (fun ph => {| l_part := i; l_pos := fst ph; l_header := snd ph |}) sel)).
      { induction sel as [|x sel IHs]; simpl; intro S; [constructor|]. inversion S as [|? ? S1 F1]; subst. constructor; [apply IHs, S1|].
        apply Forall_map. apply Forall_forall. intros y I. unfold before. simpl. intros _.
        rewrite Forall_forall in F1. apply F1, in_map, I. }
      apply G, select_order.
    + intros a b I J. apply in_map_iff in I as (x & <- & _). apply in_flat_map in J as ([i2 p2] & J1 & J2).
      cbn [fst snd] in J2. rewrite app_nil_r in J2. apply in_map_iff in J2 as (y & <- & _). unfold before. simpl. intros ->.
      exfalso. apply N1. exact (in_map fst _ _ J1).
  - destruct (find_headers_spec parts current [name] index anychild WF H) as (l' & E' & F). rewrite E in E'. injection E' as <-.
    apply Forall_forall. intros [i pos h] I. apply F in I as (p & n & [LA _] & _ & (S & _)). exists p. auto.
Qed.

Section E.
  Variable L : rustlib.
  Variable rx : text -> text -> option (list (option text)).
  Variable M : mailparser.
  Hypothesis lower_nonempty : forall c, chr_lower L c <> [].

  (** Does a header's value satisfy the patterns of deleteheader? *)
  Definition satisfies (c : comparator) (m : mtype) (patterns : list var) (h : header) : Prop :=
    patterns = [] \/ exists v k, In v (header_values M h MoNone) /\ In k patterns /\
      key_matches L rx c (plain_mtype m) (KStr v) (KVar k).

  Lemma delete_matches_spec c m ks h : exists b, delete_matches L rx M c m ks h = Some b /\
    (b = true <-> satisfies c m ks h).
  Proof.
    unfold delete_matches, satisfies. destruct ks as [|k0 ks]; [exists true; split; [reflexivity|tauto]|].
    destruct (values_loop_spec L rx lower_nonempty c (plain_mtype m) (k0 :: ks)) with (vs := header_values M h MoNone) (caps := @nil (nat * text))
      as (b & x & E & HB).
    { intros k _. destruct m; simpl; auto. }
    exists b. unfold plain_mtype in E. rewrite E. split; [reflexivity|]. rewrite HB. split; [auto|]. intros [X|X]; [discriminate|exact X].
  Qed.

  Lemma to_delete_spec c m ks : forall l, exists f r, to_delete L rx M c m ks l = Some r /\ r = filter f l /\
    (forall x, In x l -> f x = true <-> satisfies c m ks (l_header x)).
  Proof.
    set (f := fun x => match delete_matches L rx M c m ks (l_header x) with Some b => b | None => false end).
    assert (HF : forall x, f x = true <-> satisfies c m ks (l_header x)).
    { intro x. unfold f. destruct (delete_matches_spec c m ks (l_header x)) as (b & -> & HB). exact HB. }
    intro l. exists f, (filter f l). split; [|split; [reflexivity|intros; apply HF]].
    induction l as [|x l IH]; [reflexivity|]. cbn [to_delete filter]. rewrite IH.
    assert (EF : f x = match delete_matches L rx M c m ks (l_header x) with Some b => b | None => false end) by reflexivity.
    destruct (delete_matches_spec c m ks (l_header x)) as (b & E & _). rewrite E in *. rewrite EF. reflexivity.
  Qed.

  Lemma delete_exact protected name hn index anychild c m ks part_id st :
    well_formed (ms_parts st) -> part_id < length (ms_parts st) ->
    hn_parse M name = Some hn -> (forall q, In q protected -> hn_eqb hn q = false) ->
    headers_size (ms_parts st) <= ms_size st ->
    let gone j p pos := exists h, looked_at (ms_parts st) part_id anychild j p /\
                         selected index hn (p_headers p) pos h /\ satisfies c m ks h in
    exists st', delete_header L rx M protected name index anychild c m ks part_id st = Some st' /\
      length (ms_parts st') = length (ms_parts st) /\
      (forall j p, nth_error (ms_parts st) j = Some p ->
         exists p', nth_error (ms_parts st') j = Some p' /\ same_but_headers p p' /\
           without (gone j p) 0 (p_headers p) (p_headers p')) /\
      ms_size st - headers_size (ms_parts st) = ms_size st' - headers_size (ms_parts st') /\
      headers_size (ms_parts st') <= ms_size st' /\
      (ms_changed st' = true <-> ms_changed st = true \/ exists j p pos, gone j p pos).
  Proof.
    intros WF H HP NP SZ gone. unfold delete_header. rewrite HP.
    assert (PF : existsb (hn_eqb hn) protected = false).
    { apply not_true_is_false. intro X. apply existsb_exists in X as (q & I & X). rewrite (NP q I) in X. discriminate. }
    rewrite PF.
    destruct (find_headers_spec (ms_parts st) part_id [hn] index anychild WF H) as (l & E & F). rewrite E.
    destruct (find_one_sorted _ _ _ _ _ _ WF H E) as [SO OK].
    destruct (to_delete_spec c m ks l) as (f & r & -> & -> & Hf).
    destruct (remove_marked_spec (ms_parts st) (filter f l)) as (ps & -> & LN & B & SUM).
    { apply sorted_sub, SO. }
    { apply Forall_forall. intros x I. apply filter_In in I as [I _]. rewrite Forall_forall in OK. apply OK, I. }
    assert (LT : Nat.ltb (ms_size st) (list_sum (map (fun x => header_size (l_header x)) (filter f l))) = false)
      by (apply Nat.ltb_ge; lia).
    cbv zeta. rewrite LT. eexists. split; [reflexivity|]. cbn [ms_parts ms_changed ms_size]. split; [exact LN|].
    assert (MARK : forall j p pos, nth_error (ms_parts st) j = Some p ->
      (In (j, pos) (map (fun x => (l_part x, l_pos x)) (filter f l)) <-> gone j p pos)).
    { intros j p pos EJ. split.
      - intro I. apply in_map_iff in I as ([j' pos' h] & X & I). simpl in X. injection X as -> ->.
        apply filter_In in I as [I FX]. assert (SX := proj1 (Hf _ I) FX). apply F in I as (p2 & n & LA & [<-|[]] & SEL).
        assert (p2 = p) by (destruct LA as [LA _]; congruence). subst p2. exists h. auto.
      - intros (h & LA & SEL & SAT). assert (I : In {| l_part := j; l_pos := pos; l_header := h |} l).
        { apply F. exists p, hn. simpl. auto. }
        apply in_map_iff. eexists. split; [|apply filter_In; split; [exact I|apply (Hf _ I); exact SAT]]. reflexivity. }
    split.
    { intros j p EJ. destruct (B j p EJ) as (p' & A1 & A2 & A3). exists p'. split; [exact A1|]. split; [exact A2|].
      eapply without_ext; [|exact A3]. intros x _. apply MARK, EJ. }
    split; [lia|]. split; [lia|].
    destruct (filter f l) as [|x r] eqn:EF.
    - split; [auto|]. intros [X|(j & p & pos & G)]; [exact X|]. exfalso.
      assert (EJ : nth_error (ms_parts st) j = Some p) by (destruct G as (h & [LA _] & _); exact LA).
      apply (MARK j p pos EJ) in G. contradiction.
    - split; [|reflexivity]. intros _. right.
      assert (I : In x (filter f l)) by (rewrite EF; left; reflexivity). apply filter_In in I as [I FX].
      assert (SX := proj1 (Hf _ I) FX). destruct x as [j pos h]. apply F in I as (p & n & LA & [<-|[]] & SEL).
      exists j, p, pos, h. auto.
  Qed.

  Lemma delete_refused protected name index anychild c m ks part_id st :
    (forall hn, hn_parse M name = Some hn -> exists q, In q protected /\ hn_eqb hn q = true) ->
    delete_header L rx M protected name index anychild c m ks part_id st = Some st.
  Proof.
    intro H. unfold delete_header. destruct (hn_parse M name) as [hn|] eqn:E; [|reflexivity].
    destruct (H hn eq_refl) as (q & I & Q).
    assert (X : existsb (hn_eqb hn) protected = true) by (apply existsb_exists; eauto). rewrite X. reflexivity.
  Qed.

  Lemma without_named gone q : forall k hs hs', without gone k hs hs' ->
    (forall pos h, nth_error hs pos = Some h -> gone (k + pos) -> hn_eqb (h_name h) q = false) ->
    named q hs' = named q hs.
  Proof.
    intros k hs hs' W. induction W as [i|i g l l' G W IH|i g l l' G W IH]; intro H; [reflexivity| |].
    - simpl. rewrite (H 0 g eq_refl) by (rewrite Nat.add_0_r; exact G). apply IH. intros pos h E GG.
      apply (H (S pos) h E). rewrite Nat.add_succ_r. exact GG.
    - simpl. rewrite IH; [reflexivity|]. intros pos h E GG. apply (H (S pos) h E). rewrite Nat.add_succ_r. exact GG.
  Qed.

  Lemma delete_keeps_protected protected name index anychild c m ks part_id st st' q :
    well_formed (ms_parts st) -> part_id < length (ms_parts st) ->
    headers_size (ms_parts st) <= ms_size st ->
    delete_header L rx M protected name index anychild c m ks part_id st = Some st' ->
    In q protected ->
    map (fun p => named q (p_headers p)) (ms_parts st') = map (fun p => named q (p_headers p)) (ms_parts st).
  Proof.
    intros WF H SZ E Q.
    destruct (hn_parse M name) as [hn|] eqn:HP.
    2: { unfold delete_header in E. rewrite HP in E. congruence. }
    destruct (existsb (hn_eqb hn) protected) eqn:PX.
    { unfold delete_header in E. rewrite HP, PX in E. congruence. }
    assert (NP : forall q, In q protected -> hn_eqb hn q = false).
    { intros q' I. apply not_true_is_false. intro X. assert (existsb (hn_eqb hn) protected = true) by (apply existsb_exists; eauto). congruence. }
    destruct (delete_exact protected name hn index anychild c m ks part_id st WF H HP NP SZ) as (st2 & E2 & LN & B & _).
    rewrite E in E2. injection E2 as <-.
    apply nth_error_ext'. intro j. rewrite !nth_error_map.
    destruct (nth_error (ms_parts st) j) as [p|] eqn:EJ.
    - destruct (B j p EJ) as (p' & -> & _ & W). simpl. f_equal. eapply without_named; [exact W|].
      intros pos h EP (h' & _ & (EP' & NM & _) & _). cbn [plus] in EP'. assert (h' = h) as -> by congruence.
      unfold hn_eqb in *. apply teqb_ic_spec in NM. apply not_true_is_false. intro X. apply teqb_ic_spec in X.
      specialize (NP q Q). assert (teqb_ic hn q = true) by (apply teqb_ic_spec; congruence). congruence.
    - assert (EN : nth_error (ms_parts st') j = None) by (apply nth_error_None; apply nth_error_None in EJ; lia).
      rewrite EN. reflexivity.
  Qed.

End E.

Section A.
  Variable L : rustlib.
  Variable M : mailparser.
  (** *** addheader *)
  Lemma lower_fix c d : ends_name c -> lower_ascii c = lower_ascii d -> c = d.
  Proof.
    intros H E. assert (B : (c = 58 \/ c = 32 \/ c = 9 \/ c = 13 \/ c = 10)%N).
    { unfold ends_name, breaks_header in H. unfold c_space, c_cr, c_lf in H. tauto. }
    assert (LC : lower_ascii c = c). { destruct B as [B|[B|[B|[B|B]]]]; subst c; reflexivity. }
    rewrite LC in E. unfold lower_ascii in E. destruct (is_upper_ascii d) eqn:U; [|exact E].
    unfold is_upper_ascii, between in U. apply andb_true_iff in U as [U1 U2]. apply N.leb_le in U1, U2. lia.
  Qed.

  Lemma add_exact protected max name value last part_id st p :
    (forall c, chr_is_alnum L c = true -> ~ ends_name c) ->
    (forall n h, hn_parse M n = Some h -> teqb_ic h n = true) ->
    nth_error (ms_parts st) part_id = Some p ->
    exists st', add_header L M protected max name value last part_id st = Some st' /\
      (st' = st \/
       exists h,
         nth_error (ms_parts st') part_id =
           Some (set_headers (if last then p_headers p ++ [h] else h :: p_headers p) p) /\
         (forall j, j <> part_id -> nth_error (ms_parts st') j = nth_error (ms_parts st) j) /\
         length (ms_parts st') = length (ms_parts st) /\
         ms_changed st' = true /\
         ms_size st' - headers_size (ms_parts st') = ms_size st - headers_size (ms_parts st) /\
         ms_size st' = ms_size st + header_size h /\
         h_raw h = false /\ h_name h <> [] /\
         (forall q, In q protected -> hn_eqb (h_name h) q = false) /\
         Forall (fun c => ~ ends_name c) (h_name h) /\
         teqb_ic (h_name h) (filter (fun c => chr_is_alnum L c || N.eqb c 45) name) = true /\
         exists v, h_val h = HText v /\ Forall (fun c => ~ breaks_header c) v /\ cut_to max (no_crlf value) v).
  Proof.
    intros AL HN EP. unfold add_header.
    set (clean := filter (fun c => chr_is_alnum L c || N.eqb c 45) name).
    assert (SAME : exists st', Some st = Some st' /\ st' = st) by eauto.
    destruct clean as [|c0 cl] eqn:EC.
    { exists st. split; [reflexivity|left; reflexivity]. }
    destruct (hn_parse M (c0 :: cl)) as [hn|] eqn:HP.
    2: { exists st. split; [reflexivity|left; reflexivity]. }
    destruct (existsb (hn_eqb hn) protected) eqn:PX.
    { exists st. split; [reflexivity|left; reflexivity]. }
    unfold insert_header. cbn [ms_parts ms_changed ms_size].
    set (v := remove_crlf max value).
    set (hs := if last then p_headers p ++ [new_header hn v] else new_header hn v :: p_headers p).
    destruct (update_nth_spec (fun p => Some (set_headers (if last then p_headers p ++ [new_header hn v] else new_header hn v :: p_headers p) p))
                (ms_parts st) part_id p (set_headers hs p) EP eq_refl) as (ps & U & U1 & U2 & U3).
    rewrite U. simpl option_map. eexists. split; [reflexivity|]. right. exists (new_header hn v).
    cbn [ms_parts ms_changed ms_size]. split; [exact U2|]. split; [exact U3|]. split; [exact U1|].
    split; [reflexivity|].
    assert (US := update_nth_sum _ (fun p => list_sum (map header_size (p_headers p))) _ _ _ (set_headers hs p) _ EP eq_refl U).
    cbv beta in US. replace (p_headers (set_headers hs p)) with hs in US by (destruct p; reflexivity).
    assert (HS : list_sum (map header_size hs) = list_sum (map header_size (p_headers p)) + (blen hn + blen v + 4)).
    { unfold hs. destruct last; [rewrite map_app, list_sum_app|]; cbn [map list_sum fold_right header_size new_header h_raw h_name h_val hv_len];
        unfold list_sum; lia. }
    split; [unfold headers_size; lia|]. split; [reflexivity|]. split; [reflexivity|].
    assert (IC := HN _ _ HP). cbn [h_name new_header]. split.
    { intros ->. apply teqb_ic_spec in IC. discriminate. }
    split.
    { intros q I. apply not_true_is_false. intro X. assert (existsb (hn_eqb hn) protected = true) by (apply existsb_exists; eauto). congruence. }
    split; [|split; [exact IC|exists v; split; [reflexivity|]; split; [apply remove_crlf_clean|apply remove_crlf_cut]]].
    apply Forall_forall. intros c I EN. apply teqb_ic_spec in IC. unfold lower_text in IC.
    assert (J : In (lower_ascii c) (map lower_ascii (c0 :: cl))) by (rewrite <- IC; apply in_map, I).
    apply in_map_iff in J as (d & D & J). symmetry in D. apply (lower_fix c d EN) in D. subst d.
    rewrite <- EC in J. unfold clean in J. apply filter_In in J as [_ J]. apply orb_true_iff in J as [J|J].
    - exact (AL c J EN).
    - apply N.eqb_eq in J. subst c. destruct EN as [X|[X|[X|[X|X]]]]; discriminate.
  Qed.

  (** When addheader does add. *)
  Lemma add_adds protected max name value last part_id st p hn :
    nth_error (ms_parts st) part_id = Some p ->
    hn_parse M (filter (fun c => chr_is_alnum L c || N.eqb c 45) name) = Some hn ->
    filter (fun c => chr_is_alnum L c || N.eqb c 45) name <> [] ->
    (forall q, In q protected -> hn_eqb hn q = false) ->
    exists st', add_header L M protected max name value last part_id st = Some st' /\
      nth_error (ms_parts st') part_id =
        Some (set_headers (if last then p_headers p ++ [new_header hn (remove_crlf max value)]
                           else new_header hn (remove_crlf max value) :: p_headers p) p).
  Proof.
    intros EP HP NE NP. unfold add_header. destruct (filter _ name) as [|c0 cl]; [congruence|]. rewrite HP.
    assert (PF : existsb (hn_eqb hn) protected = false).
    { apply not_true_is_false. intro X. apply existsb_exists in X as (q & I & X). rewrite (NP q I) in X. discriminate. }
    rewrite PF. unfold insert_header. cbn [ms_parts ms_changed ms_size].
    destruct (update_nth_spec (fun p => Some (set_headers (if last then p_headers p ++ [new_header hn (remove_crlf max value)] else new_header hn (remove_crlf max value) :: p_headers p) p))
                (ms_parts st) part_id p _ EP eq_refl) as (ps & U & U1 & U2 & U3).
    rewrite U. simpl option_map. eexists. split; [reflexivity|]. exact U2.
  Qed.
End A.

(** *** sequences of edits *)
Definition edit_part (e : edit) : nat := match e with EAdd _ _ _ p => p | EDelete _ _ _ _ _ _ p => p end.

Lemma wf_same_bodies parts parts' : length parts' = length parts ->
  (forall j p, nth_error parts j = Some p -> exists p', nth_error parts' j = Some p' /\ p_body p' = p_body p) ->
  well_formed parts -> well_formed parts'.
Proof.
  intros LN B WF.
  assert (BK : forall j p', nth_error parts' j = Some p' -> exists p, nth_error parts j = Some p /\ p_body p' = p_body p).
  { intros j p' E. destruct (nth_error parts j) as [p|] eqn:EJ.
    - destruct (B j p EJ) as (p2 & E2 & X). exists p. split; [reflexivity|congruence].
    - apply nth_error_None in EJ. assert (j < length parts') by (apply nth_error_Some; congruence). lia. }
  assert (CH : forall a b, child parts' a b -> child parts a b).
  { intros a b (p' & E & I). destruct (BK a p' E) as (p & EP & X). exists p. split; [exact EP|].
    unfold part_children in *. rewrite <- X. exact I. }
  destruct WF as [W1 W2 W3]. constructor.
  - intros a b C. rewrite LN. apply W1, CH, C.
  - intros a1 a2 b C1 C2. eapply W2; apply CH; eassumption.
  - intros a p' E. destruct (BK a p' E) as (p & EP & X). specialize (W3 a p EP). unfold part_children in *. rewrite X. exact W3.
Qed.

Lemma run_edits_ok L rx M protected max : (forall c, chr_lower L c <> []) ->
  (forall c, chr_is_alnum L c = true -> ~ ends_name c) ->
  (forall n h, hn_parse M n = Some h -> teqb_ic h n = true) ->
  forall es st,
  well_formed (ms_parts st) -> headers_size (ms_parts st) <= ms_size st ->
  (forall e, In e es -> edit_part e < length (ms_parts st)) ->
  exists st', run_edits L rx M protected max es st = Some st' /\
    well_formed (ms_parts st') /\ headers_size (ms_parts st') <= ms_size st' /\
    length (ms_parts st') = length (ms_parts st) /\
    ms_size st' - headers_size (ms_parts st') = ms_size st - headers_size (ms_parts st) /\
    (forall q, In q protected ->
       map (fun p => named q (p_headers p)) (ms_parts st') = map (fun p => named q (p_headers p)) (ms_parts st)).
Proof.
  intros LNE AL HN. induction es as [|e es IH]; intros st WF SZ PT.
  { exists st. simpl. auto 8. }
  assert (STEP : exists st1,
    run_edits L rx M protected max (e :: es) st = run_edits L rx M protected max es st1 /\
    well_formed (ms_parts st1) /\ headers_size (ms_parts st1) <= ms_size st1 /\
    length (ms_parts st1) = length (ms_parts st) /\
    ms_size st1 - headers_size (ms_parts st1) = ms_size st - headers_size (ms_parts st) /\
    (forall q, In q protected ->
       map (fun p => named q (p_headers p)) (ms_parts st1) = map (fun p => named q (p_headers p)) (ms_parts st))).
  { specialize (PT e (or_introl eq_refl)). destruct e as [n v l pid|n i a c m k pid]; cbn [edit_part run_edits] in *.
    - destruct (nth_error (ms_parts st) pid) as [p|] eqn:EP; [|apply nth_error_None in EP; lia].
      destruct (add_exact L M protected max n v l pid st p AL HN EP) as (st1 & E & D).
      exists st1. rewrite E. split; [reflexivity|].
      destruct D as [->|(h & A1 & A2 & A3 & A4 & A5 & A6 & A7 & A8 & A9 & _)]; [auto 8|].
      assert (HS : headers_size (ms_parts st1) = headers_size (ms_parts st) + header_size h).
      { clear - A1 A2 A3 EP. unfold headers_size. remember (ms_parts st1) as P1. remember (ms_parts st) as P0. clear HeqP1 HeqP0.
        revert P1 pid A1 A2 A3 EP. induction P0 as [|x P0 IHP]; intros [|y P1] pid A1 A2 A3 EP; try (destruct pid; discriminate).
        destruct pid as [|pid]; simpl in *.
        - injection EP as ->. injection A1 as ->. assert (P1 = P0) as ->.
          { apply nth_error_ext'. intro j. apply (A2 (S j)). lia. }
          destruct p as [hs ct b]. simpl. destruct l; [rewrite map_app, list_sum_app|]; simpl; lia.
        - assert (y = x) as ->. { specialize (A2 0 ltac:(lia)). simpl in A2. congruence. }
          rewrite (IHP P1 pid A1); [lia| |lia|exact EP]. intros j J. apply (A2 (S j)). lia. }
      split; [|split; [lia|split; [exact A3|split; [exact A5|]]]].
      + apply (wf_same_bodies (ms_parts st)); [exact A3| |exact WF]. intros j q EJ. destruct (Nat.eq_dec j pid) as [->|NE].
        * rewrite A1. eexists. split; [reflexivity|]. assert (q = p) by congruence. subst. destruct p; reflexivity.
        * rewrite A2 by exact NE. eauto.
      + intros q Q. apply nth_error_ext'. intro j. rewrite !nth_error_map. destruct (Nat.eq_dec j pid) as [->|NE].
        * rewrite A1, EP. cbn [option_map]. f_equal. specialize (A9 q Q).
          destruct p as [hs ct b]. cbn [set_headers p_headers]. unfold named. destruct l; [rewrite filter_app|]; cbn [filter]; rewrite A9;
            [rewrite app_nil_r|]; reflexivity.
        * rewrite A2 by exact NE. reflexivity.
    - destruct (hn_parse M n) as [hn|] eqn:HP.
      + destruct (existsb (hn_eqb hn) protected) eqn:PX.
        * exists st. unfold delete_header. rewrite HP, PX. auto 8.
        * assert (NP : forall q, In q protected -> hn_eqb hn q = false).
          { intros q' I. apply not_true_is_false. intro X.
            assert (existsb (hn_eqb hn) protected = true) by (apply existsb_exists; eauto). congruence. }
          destruct (delete_exact L rx M LNE protected n hn i a c m k pid st WF PT HP NP SZ) as (st1 & E & LN & B & S1 & S2 & _).
          exists st1. rewrite E. split; [reflexivity|]. split; [|split; [exact S2|split; [exact LN|split; [lia|]]]].
          -- apply (wf_same_bodies (ms_parts st)); [exact LN| |exact WF]. intros j p EJ.
             destruct (B j p EJ) as (p' & E' & [_ SB] & _). eauto.
          -- intros q Q. eapply delete_keeps_protected; eauto.
      + exists st. unfold delete_header. rewrite HP. auto 8. }
  destruct STEP as (st1 & -> & W1 & Z1 & L1 & D1 & N1).
  destruct (IH st1 W1 Z1) as (st2 & E2 & W2 & Z2 & L2 & D2 & N2).
  { intros e' I. rewrite L1. apply PT. right. exact I. }
  exists st2. split; [exact E2|]. split; [exact W2|]. split; [exact Z2|]. split; [lia|]. split; [lia|].
  intros q Q. rewrite N2, N1 by exact Q. reflexivity.
Qed.
