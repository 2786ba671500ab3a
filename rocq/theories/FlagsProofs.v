(** Proofs about flag actions and tests. *)
From Verif Require Import Base Lib Var Value SetVar SetSpec SetProofs Glob Comparator Flags FlagsSpec.
From Coq Require Import Permutation.

(** *** Splitting and joining *)
Lemma split_nospace f : ~ In c_space f -> split_sp f = [f].
Proof.
  induction f as [|c f IH]; intro H; [reflexivity|]. simpl.
  destruct (N.eqb c c_space) eqn:E; [apply N.eqb_eq in E; subst; exfalso; apply H; left; reflexivity|].
  rewrite IH; [reflexivity|]. intro I. apply H. right. exact I.
Qed.
Lemma split_cons_word f t : ~ In c_space f -> split_sp (f ++ c_space :: t) = f :: split_sp t.
Proof.
  induction f as [|c f IH]; intro H; simpl; [reflexivity|].
  destruct (N.eqb c c_space) eqn:E; [apply N.eqb_eq in E; subst; exfalso; apply H; left; reflexivity|].
  rewrite IH; [reflexivity|]. intro I. apply H. right. exact I.
Qed.

Lemma flag_text_split fl t : flag_text fl t -> fl <> [] -> split_sp t = fl.
Proof.
  induction 1 as [|f [H1 H2]|f fl t [H1 H2] NE H IH]; intro N; [congruence|apply split_nospace, H2|].
  simpl app. rewrite split_cons_word by exact H2. rewrite IH by exact NE. reflexivity.
Qed.
Lemma flag_text_nil t : flag_text [] t -> t = [].
Proof. intro H. inversion H. reflexivity. Qed.
Lemma flag_text_nonempty fl t : flag_text fl t -> fl <> [] -> t <> [].
Proof.
  intros H N. inversion H; subst; [congruence|destruct H0; assumption|].
  destruct f; [destruct H0; congruence|discriminate].
Qed.
Lemma flag_text_proper fl t : flag_text fl t -> Forall proper_flag fl.
Proof. induction 1; constructor; auto. Qed.
Lemma flag_text_join fl : Forall proper_flag fl -> flag_text fl (join_sp fl).
Proof.
  induction 1 as [|f fl H F IH]; [constructor|]. destruct fl as [|g fl]; [constructor; exact H|].
  change (join_sp (f :: g :: fl)) with (f ++ [c_space] ++ join_sp (g :: fl)).
  constructor; [exact H|discriminate|exact IH].
Qed.
Lemma flag_text_det fl t1 t2 : flag_text fl t1 -> flag_text fl t2 -> t1 = t2.
Proof.
  intro H. revert t2. induction H as [|f H|f fl t H NE H' IH]; intros t2 H2; inversion H2; subst; try congruence.
  do 2 f_equal. apply IH. assumption.
Qed.
Lemma flag_text_app fl t f : flag_text fl t -> fl <> [] -> proper_flag f ->
  flag_text (fl ++ [f]) ((t ++ [c_space]) ++ f).
Proof.
  intros H N P. induction H as [|g G|g fl t G NE H IH]; [congruence| |].
  - simpl app. rewrite <- app_assoc. apply ft_more; [exact G|discriminate|constructor; exact P].
  - simpl app. replace (((g ++ c_space :: t) ++ [c_space]) ++ f) with (g ++ [c_space] ++ ((t ++ [c_space]) ++ f)).
    + apply ft_more; [exact G|destruct fl; discriminate|apply IH, NE].
    + simpl. rewrite <- !app_assoc. reflexivity.
Qed.
Lemma flag_text_size fl t : flag_text fl t -> blen t <= flags_size fl.
Proof.
  unfold flags_size. induction 1 as [|f H|f fl t H NE H' IH]; cbn [map list_sum fold_right]; [simpl; lia|lia|].
  rewrite !blen_app. simpl blen. change (len_utf8 c_space) with 1. unfold list_sum in IH. lia.
Qed.

(** Flags seen by the host and by the tests. *)
Lemma flags_of_text L fl t : flag_text fl t -> flags_of_var L (Some (VStr t)) = fl.
Proof.
  intro H. unfold flags_of_var. destruct fl as [|f fl].
  - apply flag_text_nil in H. subst. reflexivity.
  - assert (N : t <> []) by (eapply flag_text_nonempty; [exact H|discriminate]).
    destruct t; [congruence|]. simpl v_is_empty. cbn [v_text]. apply flag_text_split; [exact H|discriminate].
Qed.

Section F.
  Variable L : rustlib.
  Notation lower := (str_lower L).

  Lemma existsb_teqb x l : existsb (teqb x) l = true <-> In x l.
  Proof.
    rewrite existsb_exists. split.
    - intros (y & Hy & E). apply teqb_spec in E. congruence.
    - intro H. exists x. split; [exact H|apply teqb_refl].
  Qed.

  Lemma map_app1 (fl : list text) f : map lower (fl ++ [f]) = map lower fl ++ [lower f].
  Proof. apply map_app. Qed.

  Lemma NoDup_snoc {A} (l : list A) x : NoDup l -> ~ In x l -> NoDup (l ++ [x]).
  Proof.
    intros H N. apply NoDup_Add with (a := x) (l := l).
    - rewrite <- (app_nil_r l) at 1. apply Add_app.
    - split; assumption.
  Qed.

  (** The flags of setflag and addflag. *)
  Lemma add_loop_spec toks : Forall proper_flag toks -> forall fl t lcs,
    flag_text fl t -> (forall x, In x lcs <-> In x (map lower fl)) ->
    no_dup_ci L fl ->
    exists fl', flag_text fl' (add_loop L toks t lcs) /\ no_dup_ci L fl' /\
      (forall f, has_ci L f fl' <-> has_ci L f fl \/ has_ci L f toks) /\
      (forall f, In f fl' -> In f fl \/ In f toks).
  Proof.
    induction 1 as [|f toks P F IH]; intros fl t lcs HT HL ND; cbn [add_loop].
    - exists fl. repeat split; auto; unfold has_ci; simpl; tauto.
    - destruct (existsb (teqb (lower f)) lcs) eqn:E.
      + apply existsb_teqb in E. destruct (IH fl t lcs HT HL ND) as (fl' & A & B & C & D).
        exists fl'. repeat split; auto.
        * intro H. apply C in H as [H|H]; [left; exact H|right; right; exact H].
        * intros [H|[H|H]]; apply C; [left; exact H| |right; exact H].
          left. unfold has_ci. rewrite <- H. apply HL in E. exact E.
        * intros g G. apply D in G as [G|G]; [left; exact G|right; right; exact G].
      + assert (N : ~ In (lower f) (map lower fl)).
        { intro H. assert (In (lower f) lcs) as H' by (apply HL; exact H).
          apply existsb_teqb in H'. congruence. }
        assert (HT' : flag_text (fl ++ [f]) ((match t with [] => [] | _ :: _ => t ++ [c_space] end) ++ f)).
        { destruct fl as [|g fl].
          - apply flag_text_nil in HT. subst t. simpl. constructor. exact P.
          - assert (t <> []) by (eapply flag_text_nonempty; [exact HT|discriminate]).
            destruct t as [|c0 t]; [congruence|]. apply flag_text_app; [exact HT|discriminate|exact P]. }
        destruct (IH (fl ++ [f]) _ (lcs ++ [lower f]) HT') as (fl' & A & B & C & D).
        * intro x. rewrite in_app_iff, map_app1, in_app_iff, HL. simpl. tauto.
        * unfold no_dup_ci. rewrite map_app1. apply NoDup_snoc; assumption.
        * exists fl'. repeat split; auto.
          -- intro H. apply C in H as [H|H]; [|right; right; exact H].
             unfold has_ci in *. rewrite map_app1, in_app_iff in H. simpl in *. destruct H as [H|[H|[]]]; auto.
          -- intro H. apply C. unfold has_ci in *. rewrite map_app1, in_app_iff. simpl in *. tauto.
          -- intros g G. apply D in G as [G|G]; [|right; right; exact G].
             apply in_app_or in G as [G|[->|[]]]; [left; exact G|right; left; reflexivity].
  Qed.

  (** *** removeflag *)
  Lemma position_spec {A} (g : A -> bool) l :
    match position g l with
    | Some i => exists l1 x l2, l = l1 ++ x :: l2 /\ length l1 = i /\ g x = true
    | None => forall x, In x l -> g x = false
    end.
  Proof.
    induction l as [|x l IH]; simpl; [intros x []|]. destruct (g x) eqn:E.
    - exists [], x, l. auto.
    - destruct (position g l) as [i|]; simpl.
      + destruct IH as (l1 & y & l2 & -> & Hl & G). exists (x :: l1), y, l2. simpl. auto.
      + intros y [<-|H]; auto.
  Qed.
  Lemma swap_remove_perm {A} (l1 : list A) x l2 : Permutation (l1 ++ l2) (swap_remove (length l1) (l1 ++ x :: l2)).
  Proof.
    unfold swap_remove. destruct (rev (l1 ++ x :: l2)) as [|y r] eqn:E.
    { apply (f_equal (@length A)) in E. rewrite rev_length, app_length in E. simpl in E. lia. }
    assert (UP : upd (length l1) y (l1 ++ x :: l2) = l1 ++ y :: l2).
    { clear. induction l1 as [|z l1 IH]; simpl; [reflexivity|rewrite IH; reflexivity]. }
    rewrite UP, app_length. simpl length. replace (length l1 + S (length l2) - 1) with (length l1 + length l2) by lia.
    apply (f_equal (@rev A)) in E. rewrite rev_involutive in E. simpl in E.
    destruct l2 as [|z l2 _] using rev_ind.
    - rewrite Nat.add_0_r. rewrite firstn_app, Nat.sub_diag, firstn_all. simpl. apply Permutation_refl.
    - replace (l1 ++ x :: l2 ++ [z]) with ((l1 ++ x :: l2) ++ [z]) in E by (rewrite <- app_assoc; reflexivity).
      apply app_inj_tail in E as [_ ->]. rewrite app_length. simpl length.
      replace (l1 ++ y :: l2 ++ [y]) with ((l1 ++ y :: l2) ++ [y]) by (rewrite <- app_assoc; reflexivity).
      rewrite firstn_app.
      replace (length l1 + (length l2 + 1) - length (l1 ++ y :: l2)) with 0 by (rewrite app_length; simpl; lia).
      rewrite firstn_all2 by (rewrite app_length; simpl; lia). simpl. rewrite app_nil_r.
      rewrite app_assoc. eapply Permutation_trans; [apply Permutation_app_comm|]. simpl. apply Permutation_middle.
  Qed.

  Definition paired (l : list (text * text)) : Prop := Forall (fun p => snd p = lower (fst p)) l.
  Lemma remove_loop_spec toks : forall cur,
    paired cur -> no_dup_ci L (map fst cur) ->
    let out := map fst (remove_loop L toks cur) in
    no_dup_ci L out /\ (forall f, In f out -> In f (map fst cur)) /\
    (forall f, has_ci L f out <-> has_ci L f (map fst cur) /\ ~ has_ci L f toks).
  Proof.
    induction toks as [|k toks IH]; intros cur P ND; cbn [remove_loop].
    - simpl. repeat split; auto; unfold has_ci; simpl; tauto.
    - pose proof (position_spec (fun p : text * text => teqb (snd p) (lower k)) cur) as HP.
      destruct (position (fun p : text * text => teqb (snd p) (lower k)) cur) as [i|].
      + destruct HP as (l1 & [x xl] & l2 & -> & Hl & E). simpl in E. apply teqb_spec in E. subst i xl.
        pose proof (swap_remove_perm l1 (x, lower k) l2) as PM.
        assert (Px : lower k = lower x).
        { unfold paired in P. rewrite Forall_forall in P. apply (P (x, lower k)). apply in_or_app. right. left. reflexivity. }
        assert (P' : paired (swap_remove (length l1) (l1 ++ (x, lower k) :: l2))).
        { unfold paired. eapply Permutation_Forall; [exact PM|]. unfold paired in P. apply Forall_app in P as [P1 P2].
          inversion P2; subst. apply Forall_app. split; assumption. }
        assert (PMf := Permutation_map fst PM).
        assert (ND0 : NoDup (map lower (map fst (l1 ++ l2))) /\ ~ In (lower x) (map lower (map fst (l1 ++ l2)))).
        { unfold no_dup_ci in ND. rewrite !map_app in ND. simpl in ND. rewrite !map_app.
          apply NoDup_remove in ND. exact ND. }
        destruct ND0 as [ND1 ND2].
        assert (ND' : no_dup_ci L (map fst (swap_remove (length l1) (l1 ++ (x, lower k) :: l2)))).
        { unfold no_dup_ci. eapply Permutation_NoDup; [apply Permutation_map, PMf|exact ND1]. }
        destruct (IH _ P' ND') as (A & B & C). split; [exact A|]. split.
        * intros f H. apply B in H. eapply Permutation_in in H; [|apply Permutation_sym, PMf].
          rewrite map_app in *. apply in_app_or in H as [H|H]; apply in_or_app; [left|right; right]; exact H.
        * intro f. rewrite C. unfold has_ci. simpl.
          assert (M : In (lower f) (map lower (map fst (swap_remove (length l1) (l1 ++ (x, lower k) :: l2)))) <->
                      In (lower f) (map lower (map fst (l1 ++ l2)))).
          { split; apply Permutation_in; [apply Permutation_sym|]; apply Permutation_map, PMf. }
          rewrite M. rewrite !map_app, !in_app_iff. simpl. rewrite Px.
          rewrite !map_app, !in_app_iff in ND2.
          destruct (list_eq_dec N.eq_dec (lower x) (lower f)) as [Q|Q].
          -- rewrite Q in *. tauto.
          -- tauto.
      + destruct (IH cur P ND) as (A & B & C). split; [exact A|]. split; [exact B|].
        intro f. rewrite C. unfold has_ci. simpl. split; [|tauto].
        intros [H1 H2]. split; [exact H1|]. intros [H|H]; [|contradiction].
        apply in_map_iff in H1 as (g & G1 & G2). apply in_map_iff in G2 as ([g' gl] & G3 & G4). simpl in G3. subst g'.
        specialize (HP _ G4). simpl in HP. unfold paired in P. rewrite Forall_forall in P. specialize (P _ G4). simpl in P.
        assert (teqb gl (lower k) = true) by (apply teqb_spec; congruence). congruence.
  Qed.

  (** *** One action *)
  (** Lower-casing a non-empty text does not give the lower case of the empty
      one (true of [str::to_lowercase]). *)
  Variable lower_empty : forall f, lower f = lower [] -> f = [].

  Lemma add_loop_lcs toks : Forall proper_flag toks -> forall lcs lcs' t',
    (forall f, In f toks -> In (lower f) lcs <-> In (lower f) lcs') -> add_loop L toks t' lcs = add_loop L toks t' lcs'.
  Proof.
    induction 1 as [|f toks P F IH]; intros lcs lcs' t' H; [reflexivity|]. cbn [add_loop].
    assert (E : existsb (teqb (lower f)) lcs = existsb (teqb (lower f)) lcs').
    { apply eq_true_iff_eq. rewrite !existsb_teqb. apply H. left. reflexivity. }
    rewrite E. destruct (existsb (teqb (lower f)) lcs').
    - apply IH. intros g G. apply H. right. exact G.
    - apply IH. intros g G. rewrite !in_app_iff. pose proof (H g (or_intror G)). tauto.
  Qed.

  Lemma edit_flags_ok a fl t toks : flag_text fl t -> no_dup_ci L fl -> Forall proper_flag toks ->
    exists fl', flag_text fl' (edit_flags L a t toks) /\ new_flags_ok L a fl toks fl' /\
      (forall f, In f fl' -> In f fl \/ In f toks).
  Proof.
    intros HT ND F.
    assert (NE : forall f, In f toks -> lower f <> lower []).
    { intros f Hf E. rewrite Forall_forall in F. destruct (F f Hf) as [Q _]. apply Q, lower_empty, E. }
    destruct a; cbn [edit_flags].
    - destruct (add_loop_spec toks F [] [] []) as (fl' & A & B & C & D).
      + constructor.
      + intro x. simpl. tauto.
      + constructor.
      + exists fl'. split; [exact A|]. split.
        * split; [exact B|]. intro f. rewrite C. unfold has_ci. simpl. tauto.
        * intros f H. apply D in H as [[]|H]. right. exact H.
    - destruct fl as [|g fl].
      + apply flag_text_nil in HT. subst t. cbn [split_sp map].
        destruct (add_loop_spec toks F [] [] []) as (fl' & A & B & C & D).
        { constructor. } { intro x. simpl. tauto. } { constructor. }
        rewrite (add_loop_lcs toks F [lower []] [] []).
        * exists fl'. split; [exact A|]. split; [split; [exact B|exact C]|exact D].
        * intros f Hf. simpl. split; [intros [H|[]]|intros []]. apply (NE f Hf). congruence.
      + rewrite (flag_text_split _ _ HT) by discriminate.
        destruct (add_loop_spec toks F (g :: fl) t (map lower (g :: fl)) HT) as (fl' & A & B & C & D);
          [intro x; tauto|exact ND|].
        exists fl'. split; [exact A|]. split; [split; [exact B|exact C]|exact D].
    - destruct fl as [|g fl].
      + apply flag_text_nil in HT. subst t. cbn [split_sp].
        assert (R : forall l, (forall f, In f l -> lower f <> lower []) -> remove_loop L l [([] : text, lower [])] = [([] : text, lower [])]).
        { clear. induction l as [|f l IH]; intro H; [reflexivity|]. cbn [remove_loop position snd].
          destruct (teqb (lower []) (lower f)) eqn:E.
          - apply teqb_spec in E. exfalso. apply (H f); [left; reflexivity|congruence].
          - cbn [option_map]. apply IH. intros g G. apply H. right. exact G. }
        change (join_sp (map fst (remove_loop L toks (map (fun f => (f, lower f)) [[]])))) with
          (join_sp (map fst (remove_loop L toks [([] : text, lower [])]))).
        rewrite (R toks NE). cbn [map fst join_sp]. exists []. split; [constructor|].
        split; [split; [constructor|]|intros f []]. intro f. unfold has_ci. simpl. tauto.
      + rewrite (flag_text_split _ _ HT) by discriminate.
        set (cur := map (fun f => (f, lower f)) (g :: fl)).
        assert (P : paired cur) by (unfold paired, cur; apply Forall_forall; intros p Hp; apply in_map_iff in Hp as (f & <- & _); reflexivity).
        assert (M : map fst cur = g :: fl) by (unfold cur; rewrite map_map; apply map_id).
        destruct (remove_loop_spec toks cur P) as (A & B & C); [rewrite M; exact ND|].
        rewrite M in *. exists (map fst (remove_loop L toks cur)). split; [|split; [split; [exact A|exact C]|]].
        * apply flag_text_join. apply Forall_forall. intros f Hf. apply B in Hf.
          apply flag_text_proper in HT. rewrite Forall_forall in HT. apply HT, Hf.
        * intros f Hf. left. apply B, Hf.
  Qed.

  Lemma flags_size_app a b : flags_size (a ++ b) = flags_size a + flags_size b.
  Proof. unfold flags_size. rewrite map_app, list_sum_app. reflexivity. Qed.
  Lemma flags_size_incl fl m : NoDup fl -> incl fl m -> flags_size fl <= flags_size m.
  Proof.
    revert m. induction fl as [|f fl IH]; intros m N I; [apply Nat.le_0_l|].
    inversion N as [|? ? N1 N2]; subst.
    assert (H : In f m) by (apply I; left; reflexivity). apply in_split in H as (m1 & m2 & ->).
    assert (I' : incl fl (m1 ++ m2)).
    { intros g G. assert (K : In g (m1 ++ f :: m2)) by (apply I; right; exact G).
      apply in_app_or in K as [K|[K|K]]; apply in_or_app; [left; exact K|subst; contradiction|right; exact K]. }
    specialize (IH _ N2 I'). rewrite flags_size_app in *.
    change (f :: fl) with ([f] ++ fl). change (f :: m2) with ([f] ++ m2). rewrite !flags_size_app. lia.
  Qed.
  Lemma no_dup_ci_NoDup fl : no_dup_ci L fl -> NoDup fl.
  Proof. apply NoDup_map_inv. Qed.

  Lemma holds_seen c n fl : holds c n fl -> flags_of_var L (variable c n) = fl.
  Proof. intros [(t & -> & H)|[-> ->]]; [apply flags_of_text, H|reflexivity]. Qed.
  Lemma assignable_get c n : assignable c n -> get_variable c n = variable c n.
  Proof. destruct n; simpl; intro H; try contradiction; reflexivity. Qed.
  Lemma holds_text c n fl : assignable c n -> holds c n fl -> flag_text fl (var_text L (get_variable c n)).
  Proof.
    intros A H. rewrite (assignable_get c n A). destruct H as [(t & -> & H)|[-> ->]]; [exact H|constructor].
  Qed.

  Lemma longest_fits max s p : blen s <= max -> longest_prefix max s p -> p = s.
  Proof.
    intros H ([r E] & _ & M). specialize (M s). assert (length s <= length p).
    { apply M; [exists []; rewrite app_nil_r; reflexivity|exact H]. }
    subst s. rewrite app_length in H0. destruct r; [rewrite app_nil_r; reflexivity|simpl in H0; lia].
  Qed.

  Lemma exec_flags_ok max c a n strings fl :
    assignable c n -> holds c n fl -> no_dup_ci L fl ->
    Forall proper_flag (flag_tokens L c strings) ->
    flags_size fl + flags_size (flag_tokens L c strings) <= max ->
    exists fl', holds (fst (exec_flags L max c a (Some n) strings)) n fl' /\
      new_flags_ok L a fl (flag_tokens L c strings) fl' /\
      (forall f, In f fl' -> In f fl \/ In f (flag_tokens L c strings)).
  Proof.
    intros A H ND F SZ. unfold exec_flags.
    destruct (edit_flags_ok a fl (var_text L (get_variable c n)) (flag_tokens L c strings)) as (fl' & B & C & D);
      [apply holds_text; assumption|exact ND|exact F|].
    exists fl'. split; [|split; [exact C|exact D]].
    destruct (set_variable_stored L max c n (edit_flags L a (var_text L (get_variable c n)) (flag_tokens L c strings)) A)
      as (p & E & LP).
    left. exists p. split; [exact E|]. apply longest_fits in LP; [subst p; exact B|].
    apply flag_text_size in B. assert (flags_size fl' <= flags_size (fl ++ flag_tokens L c strings)).
    { apply flags_size_incl; [apply no_dup_ci_NoDup, C|]. intros f Hf. apply in_or_app. apply D, Hf. }
    rewrite flags_size_app in H0. lia.
  Qed.

  Lemma assignable_set max c n m v : assignable c n -> assignable (fst (set_variable L max c m v)) n.
  Proof. destruct n, m; simpl; auto. rewrite upd_length. auto. Qed.

  Lemma flag_run_no_dup max n c toks c' : flag_run L max n c toks c' ->
    forall fl seen, assignable c n -> holds c n fl -> no_dup_ci L fl -> incl fl seen ->
    Forall proper_flag toks -> flags_size seen + flags_size toks <= max ->
    exists fl', holds c' n fl' /\ no_dup_ci L fl'.
  Proof.
    induction 1 as [c|c a strings rest c' H IH|c c1 toks c' E A1 H IH];
      intros fl seen A HO ND I F SZ.
    - exists fl. split; assumption.
    - apply Forall_app in F as [F1 F2]. rewrite flags_size_app in SZ.
      pose proof (flags_size_incl fl seen (no_dup_ci_NoDup _ ND) I).
      destruct (exec_flags_ok max c a n strings fl A HO ND F1) as (fl' & B & [C _] & D); [lia|].
      apply (IH fl' (seen ++ flag_tokens L c strings)); auto.
      + unfold exec_flags. apply assignable_set, A.
      + intros f Hf. apply in_or_app. apply D in Hf as [Hf|Hf]; [left; apply I, Hf|right; exact Hf].
      + rewrite flags_size_app. lia.
    - apply (IH fl seen); auto. destruct HO as [(t & Ht & HO)|[Ht HO]]; [left; exists t|right]; rewrite E; auto.
  Qed.

  (** *** hasflag *)
  Lemma hasflag_flags_is cmp check flags caps :
    hasflag_flags L cmp MIs check flags caps = CRes (existsb (fun f => cmp_is L cmp (KStr f) (KStr check)) flags) caps.
  Proof.
    induction flags as [|f flags IH]; cbn [hasflag_flags existsb hasflag1]; [reflexivity|].
    destruct (cmp_is L cmp (KStr f) (KStr check)); [reflexivity|exact IH].
  Qed.
  Lemma hasflag_checks_is cmp checks flags caps :
    hasflag_checks L cmp MIs checks flags caps =
    CRes (existsb (fun k => existsb (fun f => cmp_is L cmp (KStr f) (KStr k)) flags) checks) caps.
  Proof.
    induction checks as [|k checks IH]; cbn [hasflag_checks existsb]; [reflexivity|].
    rewrite hasflag_flags_is. destruct (existsb _ flags); [reflexivity|exact IH].
  Qed.
  Lemma hasflag_is c vars strings cmp is_not :
    exists b, hasflag L c vars strings cmp MIs is_not = TBool b [] /\
      (xorb b is_not = true <->
       exists k f n, In k (flag_tokens L c strings) /\
         In n (match vars with [] => [default_flags] | _ => vars end) /\
         In f (flags_of_var L (get_variable c n)) /\ cmp_is L cmp (KStr f) (KStr k) = true).
  Proof.
    unfold hasflag. rewrite hasflag_checks_is. eexists. split; [reflexivity|].
    rewrite xorb_assoc, xorb_nilpotent, xorb_false_r. rewrite existsb_exists. split.
    - intros (k & Hk & H). apply existsb_exists in H as (f & Hf & E). apply in_flat_map in Hf as (n & Hn & Hf).
      exists k, f, n. auto.
    - intros (k & f & n & Hk & Hn & Hf & E). exists k. split; [exact Hk|]. apply existsb_exists. exists f.
      split; [apply in_flat_map; exists n; auto|exact E].
  Qed.
End F.

(** *** Flags given as one string *)
Lemma words_go_proper s : forall cur, ~ In c_space cur -> Forall proper_flag (words_go s cur).
Proof.
  assert (E : forall cur, ~ In c_space cur -> Forall proper_flag (match cur with [] => [] | _ => [cur] end)).
  { intros [|c cur] H; repeat constructor; auto. discriminate. }
  induction s as [|c s IH]; intros cur H; cbn [words_go]; [apply E, H|].
  destruct (is_ws_ascii c) eqn:W.
  - apply Forall_app. split; [apply E, H|apply IH; intros []].
  - apply IH. intro I. apply in_app_or in I as [I|[I|[]]]; [contradiction|]. subst c. discriminate.
Qed.
Lemma single_string_proper L c x : Forall proper_flag (flag_tokens L c [x]).
Proof. apply words_go_proper. intros []. Qed.

Lemma flags_run_unique L max n c given c' :
  (forall f, str_lower L f = str_lower L [] -> f = []) ->
  assignable c n -> holds c n [] -> flag_run L max n c given c' ->
  Forall proper_flag given -> flags_size given <= max ->
  exists fl, flags_of_var L (variable c' n) = fl /\ holds c' n fl /\ no_dup_ci L fl.
Proof.
  intros LE A H R F S. destruct (flag_run_no_dup L LE max n c given c' R [] [] A H) as (fl & B & C); auto.
  - constructor.
  - intros x [].
  - exists fl. split; [apply holds_seen, B|split; assumption].
Qed.
Lemma flag_action_sets L max c a n strings old :
  (forall f, str_lower L f = str_lower L [] -> f = []) ->
  assignable c n -> holds c n old -> no_dup_ci L old ->
  Forall proper_flag (flag_tokens L c strings) ->
  flags_size old + flags_size (flag_tokens L c strings) <= max ->
  exists new,
    holds (fst (exec_flags L max c a (Some n) strings)) n new /\
    flags_of_var L (variable (fst (exec_flags L max c a (Some n) strings)) n) = new /\
    no_dup_ci L new /\
    forall f, has_ci L f new <->
      match a with
      | FSet => has_ci L f (flag_tokens L c strings)
      | FAdd => has_ci L f old \/ has_ci L f (flag_tokens L c strings)
      | FRemove => has_ci L f old /\ ~ has_ci L f (flag_tokens L c strings)
      end.
Proof.
  intros LE A H N F S. destruct (exec_flags_ok L LE max c a n strings old A H N F S) as (fl & B & [C D] & _).
  exists fl. split; [exact B|]. split; [apply holds_seen, B|split; assumption].
Qed.
