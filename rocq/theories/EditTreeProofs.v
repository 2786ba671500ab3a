(** Proofs: after any edits the tree is what is built. *)
From Coq Require Import Lia.
From Verif Require Import Base Lib Var Value Glob Comparator SetProofs Message EditHeader EditHeaderProofs
  Mime Build BuildSpec BuildProofs BuildProofs2 BuildProofs3 BuildProofs4 BuildProofs5 BuildProofs6 EditTreeSpec.
Import ListNotations.
Local Open Scope list_scope.

Lemma shown_bytes raw h : hdr_ok raw h -> field_bytes raw h = Some (shown raw h).
Proof.
  intros H. unfold field_bytes, shown. destruct (Nat.eqb_spec (fh_end h) 0) as [Z|Z]; [reflexivity|].
  destruct H as [H|[H1 H2]]; [contradiction|]. unfold written_as, written. apply Nat.eqb_neq in Z. rewrite Z.
  destruct (Nat.eqb (fh_field h) (fh_start h)); rewrite slice_ok by lia; reflexivity.
Qed.
Lemma shown_fields raw hs : Forall (hdr_ok raw) hs -> same_fields raw hs (map (shown raw) hs).
Proof. induction 1; constructor; [apply shown_bytes; assumption|assumption]. Qed.

Lemma boundary_same hs hs' : filter own_type hs' = filter own_type hs -> boundary_of hs' = boundary_of hs.
Proof. intro H. unfold boundary_of, own_ct. unfold own_type in H. unfold hn_eqb. rewrite H. reflexivity. Qed.

(** *** Header edits *)
Lemma fields_rep raw parts parts' : headers_ok raw parts' -> Forall2 edited parts parts' ->
  (forall i p p', nth_error parts i = Some p -> nth_error parts' i = Some p' -> filter own_type (fp_headers p') = filter own_type (fp_headers p)) ->
  forall i t, rep raw parts i t ->
    rep raw parts' i (with_fields (fun id => map (shown raw) (match nth_error parts' id with Some p => fp_headers p | None => [] end)) t).
Proof.
  intros HO F KT. set (W := fun id => map (shown raw) (match nth_error parts' id with Some p => fp_headers p | None => [] end)).
  enough (G : (forall r ps i t, rep r ps i t -> r = raw -> ps = parts -> rep raw parts' i (with_fields W t)) /\
    (forall r ps k subs l k', chain r ps k subs l k' -> r = raw -> ps = parts -> chain raw parts' k subs (map (fun gt => (fst gt, with_fields W (snd gt))) l) k') /\
    (forall r ps subs l, fresh r ps subs l -> r = raw -> ps = parts -> fresh raw parts' subs (map (with_fields W) l)))
    by (destruct G as (G1 & _); intros; eauto).
  assert (K : forall i p, nth_error parts i = Some p -> exists p', nth_error parts' i = Some p' /\ same_fields raw (fp_headers p') (W i) /\
    filter own_type (fp_headers p') = filter own_type (fp_headers p) /\
    fp_oh p' = fp_oh p /\ fp_oe p' = fp_oe p /\ fp_ob p' = fp_ob p /\ fp_body p' = fp_body p /\ fp_enc p' = fp_enc p).
  { intros i p Hp. destruct (Forall2_nth _ _ _ F _ _ Hp) as (p' & Hp' & (hs' & Hq & _)). exists p'. split; [exact Hp'|].
    destruct (HO p' (nth_error_In _ _ Hp')) as (Ho & _). split; [unfold W; rewrite Hp'; apply shown_fields, Ho|].
    split; [eapply KT; eassumption|]. subst p'. destruct p; repeat split; reflexivity. }
  apply rep_all.
  - intros r ps i p fs bytes Hp Hf Hob Hl Hs -> ->. destruct (K i p Hp) as (p' & Hp' & Hf' & _ & E1 & E2 & E3 & E4 & E5).
    cbn [with_fields]. eapply R_orig; eauto; rewrite ?E3, ?E4, ?E2; eauto.
  - intros r ps i p fs Hp Hf Hob Hl -> ->. destruct (K i p Hp) as (p' & Hp' & Hf' & _ & E1 & E2 & E3 & E4 & E5).
    cbn [with_fields]. rewrite <- E5, <- E4. eapply R_new; eauto; rewrite ?E3, ?E4; eauto.
  - intros r ps i p fs subs l k post Hp Hf Hob Hb Hc IH Hs -> ->. destruct (K i p Hp) as (p' & Hp' & Hf' & _ & E1 & E2 & E3 & E4 & E5).
    cbn [with_fields]. eapply (R_multi raw parts' i p' _ subs _ k); eauto; rewrite ?E3, ?E4, ?E2; eauto.
  - intros r ps i p fs subs l b Hp Hf Hob Hoe Hb Hbd Hc IH -> ->. destruct (K i p Hp) as (p' & Hp' & Hf' & T & E1 & E2 & E3 & E4 & E5).
    cbn [with_fields]. rewrite <- E5. eapply (R_mixed raw parts' i p' _ subs); eauto; rewrite ?E3, ?E4, ?E2; eauto. rewrite <- Hbd. apply boundary_same, T.
  - intros r ps i p fs raw' ps' p' t Hp Hf Hob Hoe Hb Hq Hr IH -> ->.
    destruct (K i p Hp) as (q' & Hp' & Hf' & _ & E1 & E2 & E3 & E4 & E5).
    cbn [with_fields]. rewrite <- E5. eapply (R_whole raw parts' i q' _ raw' ps' p' t); eauto; rewrite ?E3, ?E4, ?E2; eauto.
  - intros. constructor.
  - intros r ps k i p gg t subs l k' Hp Hg Hr IHr Hoe Hc IHc -> ->. destruct (K i p Hp) as (p' & Hp' & _ & _ & E1 & E2 & _).
    cbn [map fst snd]. apply (ch_cons _ _ _ _ p'); auto; rewrite ?E1, ?E2; auto.
  - intros. constructor.
  - intros r ps i p t subs l Hp Hoe Hr IHr Hc IHc -> ->. destruct (K i p Hp) as (p' & Hp' & _ & _ & E1 & E2 & _).
    cbn [map]. apply (fr_cons _ _ _ p'); auto. congruence.
Qed.

Definition stands (st : fstate) (t : tree) (tail : list N) : Prop :=
  exists p, nth_error (fs_parts st) 0 = Some p /\ rep (fs_raw st) (fs_parts st) 0 t /\ headers_ok (fs_raw st) (fs_parts st) /\
    rest_of (fs_raw st) (fp_oe p) = tail.

Lemma headers_at_same st : (fun id => match nth_error (fs_parts st) id with Some p => fp_headers p | None => [] end) = headers_at st.
Proof. reflexivity. Qed.
Lemma edit_evolved L rx M st st' : header_edit L rx M st st' -> evolved st st'.
Proof. intros [? ? ? ? ? ? H|? ? ? ? ? ? ? ? H]; [eapply fadd_evolved|eapply fdelete_evolved]; exact H. Qed.

Lemma tree_history L rx M st t tail : tree_of L rx M st t tail -> history L rx M st.
Proof.
  induction 1.
  - eapply h_start; eassumption.
  - destruct H0; [eapply h_add|eapply h_delete]; eassumption.
  - eapply h_replace; [eassumption|left; reflexivity|eassumption].
  - eapply h_replace; [eassumption|right; intros q Q; match goal with N : nth_error _ _ = Some _, F : leaf _ |- _ => rewrite N in Q; injection Q as <-; exact F end|eassumption].
  - eapply h_enclose; eassumption.
  - eapply h_convert; eassumption.
Qed.
Lemma history_ok L rx M st : history L rx M st -> headers_ok (fs_raw st) (fs_parts st).
Proof. intros H. apply history_sound in H as (p & t & _ & _ & HO). exact HO. Qed.

Lemma tree_stands L rx M st t tail : tree_of L rx M st t tail -> stands st t tail.
Proof.
  intro T. assert (HO := history_ok _ _ _ _ (tree_history _ _ _ _ _ _ T)). induction T.
  - destruct (sound_tree _ _ _ H) as (p & Hp & R & E). exists p. auto.
  - destruct (IHT (history_ok _ _ _ _ (tree_history _ _ _ _ _ _ T))) as (p & Hp & R & _ & E).
    destruct (edit_evolved _ _ _ _ _ H) as (Hr & F). destruct (Forall2_nth _ _ _ F _ _ Hp) as (p' & Hp' & (hs' & Hq & _)).
    exists p'. split; [exact Hp'|]. split; [|split; [exact HO|]].
    + rewrite Hr in *. unfold headers_at. apply (fields_rep _ (fs_parts st)); auto.
      intros i q q' Q Q'. specialize (H0 i). unfold headers_at in H0. rewrite Q, Q' in H0. exact H0.
    + rewrite Hr. replace (fp_oe p') with (fp_oe p) by (subst p'; destruct p; reflexivity). exact E.
  - destruct (IHT (history_ok _ _ _ _ (tree_history _ _ _ _ _ _ T))) as (p & Hp & R & HO' & E').
    destruct (HO' p (nth_error_In _ _ Hp)) as (Hok & Hnr).
    pose proof (replace_root_rep E s f b mime st st' p Hp Hok Hnr H) as R'.
    destruct (replace_root E s f b mime st st' p Hp Hok Hnr H) as (Hr & hs & Hps & _).
    eexists. split; [rewrite Hps; reflexivity|]. split; [|split; [exact HO|]].
    + unfold headers_at. rewrite Hp. exact R'.
    + rewrite Hr. exact E'.
  - destruct (IHT (history_ok _ _ _ _ (tree_history _ _ _ _ _ _ T))) as (p0 & Hp & R & HO' & E').
    pose proof (replace_leaf_rep E s f b mime id st st' p t H H0 H1 R H2) as R'.
    assert (Hsz : old_size p <= fs_size st + blen b).
    { unfold freplace in H2. rewrite (nested_leaf _ _ _ H H0 H1) in H2. cbn [sort_desc fold_right remove_all] in H2. rewrite H0 in H2.
      destruct (Nat.ltb_spec (fs_size st + blen b) (old_size p)); [discriminate|lia]. }
    destruct (replace_leaf E s f b mime id st p H H0 H1 Hsz) as (st2 & E2 & Hr & _ & _ & _ & Ho & _). rewrite H2 in E2. injection E2 as <-.
    exists p0. split; [apply Ho; [congruence|exact Hp]|]. split; [exact R'|]. split; [exact HO|]. rewrite Hr. exact E'.
  - destruct (IHT (history_ok _ _ _ _ (tree_history _ _ _ _ _ _ T))) as (p & Hp & R & HO' & E').
    pose proof (enclose_rep L M E hs s b st st' t p H1 Hp R) as R'. rewrite E' in R'. rewrite (boundary_enclosing L M E st hs s H H0) in R'.
    destruct (enclose_parts L M E hs s b st) as (st2 & E2 & Hr & _ & Hps & _). rewrite H1 in E2. injection E2 as <-.
    eexists. split; [rewrite Hps; reflexivity|]. split; [exact R'|]. split; [exact HO|]. reflexivity.
  - destruct (IHT (history_ok _ _ _ _ (tree_history _ _ _ _ _ _ T))) as (p & Hp & R & HO' & E').
    destruct (convert_rep E from to st d st' cv t H H0 R) as (Hr & R').
    rewrite (exchange_ext _ _ (conv_node_result E cv (fs_parts st))) in R'.
    pose proof H0 as C. unfold fconvert in C. rewrite H in C.
    destruct (fconvert_parts E cv (fs_parts st) (fs_size st) false) as [((ps, n), d')|] eqn:Ec; [|discriminate].
    injection C as <- <-. destruct (fconvert_parts_map _ _ _ _ _ _ _ _ Ec) as (-> & _). cbn [fs_raw fs_parts] in *.
    exists (conv_part E cv p). cbn [fs_raw fs_parts]. split; [rewrite nth_error_map, Hp; reflexivity|]. split; [exact R'|]. split; [exact HO|].
    unfold conv_part. destruct (fconvert_body E cv p) as [(bb, ct)|]; exact E'.
Qed.
Lemma tree_builds L rx M st t tail : tree_of L rx M st t tail -> builds st (render t ++ tail).
Proof. intro T. destruct (tree_stands _ _ _ _ _ _ T) as (p & Hp & R & _ & <-). apply rep_builds; assumption. Qed.
