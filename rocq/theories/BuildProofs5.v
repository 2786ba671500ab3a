(** Proofs: convert, and messages with a history. *)
From Verif Require Import Base Lib Var Value Glob Comparator SetProofs Message EditHeader EditHeaderProofs
  Mime Build BuildSpec BuildProofs BuildProofs2 BuildProofs3 BuildProofs4.

(** *** convert *)
Definition converted (p : fpart) (b : fbody) (ct : text) : fpart :=
  FPart [new_fheader true (lit "Content-Type") ct] None b true (fp_oh p) 0 (fp_oe p).
Lemma fconvert_simple E cv p b ct : fconvert_body E cv p = Some (b, ct) -> simple b /\ simple (fp_body p).
Proof.
  unfold fconvert_body, convert_body. destruct p as [hs c body enc oh ob oe]. cbn [view p_body p_ct fp_body].
  destruct body, cv; cbn; try discriminate; try (intro H; injection H as <- <-; split; exact Logic.I).
  destruct c as [c|]; [|discriminate]. destruct (ct_subtype c) as [sb|]; [|discriminate].
  destruct (teqb_ic sb _); [|discriminate]. intro H; injection H as <- <-; split; exact Logic.I.
Qed.
Definition conv_part (E : mimeenv) (cv : conversion) (p : fpart) : fpart :=
  match fconvert_body E cv p with Some (b, ct) => converted p b ct | None => p end.
Lemma fconvert_parts_map E cv : forall ps n d ps' n' d', fconvert_parts E cv ps n d = Some (ps', n', d') ->
  ps' = map (conv_part E cv) ps /\ d' = d || existsb (fun p => match fconvert_body E cv p with Some _ => true | None => false end) ps.
Proof.
  induction ps as [|p ps IH]; intros n d ps' n' d' H; cbn [fconvert_parts] in H.
  - injection H as <- <- <-. cbn. rewrite orb_false_r. auto.
  - cbn [map existsb]. unfold conv_part at 1. destruct (fconvert_body E cv p) as [(b, ct)|] eqn:Ec.
    + cbv zeta in H. destruct (Nat.ltb _ _); [discriminate|].
      destruct (fconvert_parts E cv ps _ true) as [((q, m), e)|] eqn:Er; [|discriminate]. injection H as <- <- <-.
      destruct (IH _ _ _ _ _ Er) as (-> & ->). cbn. rewrite orb_true_r. auto.
    + destruct (fconvert_parts E cv ps n d) as [((q, m), e)|] eqn:Er; [|discriminate]. injection H as <- <- <-.
      destruct (IH _ _ _ _ _ Er) as (-> & ->). auto.
Qed.

(** The new node of a part that is converted. *)
Definition conv_node (E : mimeenv) (cv : conversion) (parts : list fpart) (i : nat) : option tree :=
  match nth_error parts i with
  | Some p => match fconvert_body E cv p with
              | Some (b, ct) => Some (Node i [field (lit "Content-Type") ct] true (Leaf (contents b)))
              | None => None
              end
  | None => None
  end.
Lemma convert_rep E from to st d st' cv t : conversion_of from to = Some cv -> fconvert E from to st = Some (d, st') ->
  rep (fs_raw st) (fs_parts st) 0 t ->
  fs_raw st' = fs_raw st /\ rep (fs_raw st') (fs_parts st') 0 (exchange (conv_node E cv (fs_parts st)) t).
Proof.
  intros Hcv H R. unfold fconvert in H. rewrite Hcv in H.
  destruct (fconvert_parts E cv (fs_parts st) (fs_size st) false) as [((ps, n), d')|] eqn:Ec; [|discriminate].
  injection H as <- <-. cbn [fs_raw fs_parts]. split; [reflexivity|].
  destruct (fconvert_parts_map _ _ _ _ _ _ _ _ Ec) as (-> & _).
  eapply rep_exchange; [|exact R]. intros i p Hp.
  assert (Hp' : nth_error (map (conv_part E cv) (fs_parts st)) i = Some (conv_part E cv p)) by (rewrite nth_error_map, Hp; reflexivity).
  exists (conv_part E cv p). split; [exact Hp'|]. unfold conv_node. rewrite Hp.
  unfold conv_part in *. destruct (fconvert_body E cv p) as [(b, ct)|] eqn:Eb; [|auto].
  split; [reflexivity|]. split; [reflexivity|]. destruct (fconvert_simple _ _ _ _ _ Eb) as (Hb & _).
  apply (R_new _ _ i (converted p b ct) [field (lit "Content-Type") ct] Hp'); [constructor; [reflexivity|constructor]|reflexivity|exact Hb].
Qed.

(** *** Any history *)
Definition headers_ok (raw : list N) (parts : list fpart) : Prop :=
  forall p, In p parts -> Forall (hdr_ok raw) (fp_headers p) /\ Forall not_renamed (fp_headers p).
Definition morph (raw : list N) (p p' : fpart) : Prop :=
  fp_oh p' = fp_oh p /\ fp_oe p' = fp_oe p /\
  (fp_ob p' = fp_ob p /\ fp_body p' = fp_body p \/ fp_ob p' = 0 /\ simple (fp_body p')).
Lemma morph_rep raw parts parts' : headers_ok raw parts' -> Forall2 (morph raw) parts parts' ->
  (forall i t, rep raw parts i t -> exists t', rep raw parts' i t').
Proof.
  intros HO F.
  enough (G : (forall r ps i t, rep r ps i t -> r = raw -> ps = parts -> exists t', rep raw parts' i t') /\
    (forall r ps k subs l k', chain r ps k subs l k' -> r = raw -> ps = parts -> exists l', chain raw parts' k subs l' k') /\
    (forall r ps subs l, fresh r ps subs l -> r = raw -> ps = parts -> exists l', fresh raw parts' subs l'))
    by (destruct G as (G1 & _); intros; eauto).
  assert (K : forall i p, nth_error parts i = Some p -> exists p' fs, nth_error parts' i = Some p' /\ same_fields raw (fp_headers p') fs /\ morph raw p p').
  { intros i p Hp. destruct (Forall2_nth _ _ _ F _ _ Hp) as (p' & Hp' & Hm).
    destruct (HO p' (nth_error_In _ _ Hp')) as (Ho & _). destruct (hdrs_bytes _ _ Ho) as (fs & Hfs). eauto 6. }
  apply rep_all.
  - intros r ps i p fs bytes Hp Hf Hob Hl Hs -> ->. destruct (K i p Hp) as (p' & fs' & Hp' & Hf' & E1 & E2 & [(E3 & E4)|(E3 & E4)]).
    + eexists. eapply R_orig; eauto; rewrite ?E3, ?E4, ?E2; eauto.
    + eexists. eapply R_new; eauto.
  - intros r ps i p fs Hp Hf Hob Hl -> ->. destruct (K i p Hp) as (p' & fs' & Hp' & Hf' & E1 & E2 & [(E3 & E4)|(E3 & E4)]).
    + eexists. eapply R_new; eauto; congruence.
    + eexists. eapply R_new; eauto.
  - intros r ps i p fs subs l k post Hp Hf Hob Hb Hc IH Hs -> ->. destruct (IH eq_refl eq_refl) as (l' & Hc').
    destruct (K i p Hp) as (p' & fs' & Hp' & Hf' & E1 & E2 & [(E3 & E4)|(E3 & E4)]).
    + eexists. eapply (R_multi raw parts' i p' fs' subs l' k); eauto; rewrite ?E3, ?E4, ?E2; eauto.
    + eexists. eapply R_new; eauto.
  - intros r ps i p fs subs l b Hp Hf Hob Hoe Hb Hbd Hc IH -> ->. destruct (IH eq_refl eq_refl) as (l' & Hc').
    destruct (K i p Hp) as (p' & fs' & Hp' & Hf' & E1 & E2 & [(E3 & E4)|(E3 & E4)]).
    + eexists. eapply (R_mixed raw parts' i p' fs' subs l'); eauto; rewrite ?E3, ?E4, ?E2; eauto.
    + eexists. eapply R_new; eauto.
  - intros r ps i p fs raw' ps' p' t Hp Hf Hob Hoe Hb Hq Hr IH -> ->.
    destruct (K i p Hp) as (q' & fs' & Hp' & Hf' & E1 & E2 & [(E3 & E4)|(E3 & E4)]).
    + eexists. eapply (R_whole raw parts' i q' fs' raw' ps' p' t); eauto; rewrite ?E3, ?E4, ?E2; eauto.
    + eexists. eapply R_new; eauto.
  - intros. exists []. constructor.
  - intros r ps k i p gg t subs l k' Hp Hg Hr IHr Hoe Hc IHc -> ->. destruct (IHr eq_refl eq_refl) as (t' & Hr').
    destruct (IHc eq_refl eq_refl) as (l' & Hc'). destruct (K i p Hp) as (p' & _ & Hp' & _ & E1 & E2 & _).
    exists ((gg, t') :: l'). apply (ch_cons _ _ _ _ p'); auto; rewrite ?E1, ?E2; auto.
  - intros. exists []. constructor.
  - intros r ps i p t subs l Hp Hoe Hr IHr Hc IHc -> ->. destruct (IHr eq_refl eq_refl) as (t' & Hr').
    destruct (IHc eq_refl eq_refl) as (l' & Hc'). destruct (K i p Hp) as (p' & _ & Hp' & _ & E1 & E2 & _).
    exists (t' :: l'). apply (fr_cons _ _ _ p'); auto. congruence.
Qed.

Definition sound (st : fstate) : Prop :=
  exists p t, nth_error (fs_parts st) 0 = Some p /\ rep (fs_raw st) (fs_parts st) 0 t /\ headers_ok (fs_raw st) (fs_parts st).

Lemma edited_ok raw ps ps' : headers_ok raw ps -> Forall2 edited ps ps' -> headers_ok raw ps'.
Proof.
  intros H F p' Hp'. destruct (Forall2_in_r _ _ _ F _ Hp') as (p & Hp & (hs' & -> & _ & Hn)). destruct (H p Hp) as (H1 & H2).
  replace (fp_headers (set_fheaders hs' p)) with hs' by (destruct p; reflexivity).
  rewrite Forall_forall in H1, H2. split; apply Forall_forall; intros h Hh; destruct (Hn h Hh) as [Ho|(o & n & v & ->)]; auto.
  - left; reflexivity.
  - intros _. left; reflexivity.
Qed.
Lemma edited_morph raw p p' : edited p p' -> morph raw p p'.
Proof. intros (hs' & -> & _). destruct p; repeat split; left; auto. Qed.
Lemma Forall2_imp {A B} (R S : A -> B -> Prop) : (forall x y, R x y -> S x y) -> forall l l', Forall2 R l l' -> Forall2 S l l'.
Proof. intros H l l' F. induction F; constructor; auto. Qed.

Lemma sound_evolved st st' : sound st -> evolved st st' -> sound st'.
Proof.
  intros (p & t & Hp & R & HO) (Hr & F). pose proof (edited_ok _ _ _ HO F) as HO'.
  destruct (morph_rep _ _ _ HO' (Forall2_imp _ _ (edited_morph (fs_raw st)) _ _ F) _ _ R) as (t' & R').
  destruct (Forall2_nth _ _ _ F _ _ Hp) as (p' & Hp' & _). exists p', t'. rewrite Hr. auto.
Qed.

Lemma frename_ok raw n h : hdr_ok raw h -> hdr_ok raw (frename n h).
Proof. intros [H|H]; [left; exact H|right; cbn; lia]. Qed.
Lemma fkept_ok raw s f : forall hs, Forall (hdr_ok raw) hs -> Forall not_renamed hs ->
  Forall (hdr_ok raw) (fst (fst (fkept s f hs))) /\ Forall not_renamed (fst (fst (fkept s f hs))).
Proof.
  assert (N : forall n h, not_renamed (frename n h)) by (intros n h H; discriminate H).
  induction hs as [|h hs IH]; intros H1 H2; [split; constructor|]. inversion H1; subst. inversion H2; subst.
  destruct (IH H4 H6) as (I1 & I2). cbn [fkept]. destruct (fkept s f hs) as ((r, n), d). cbn [fst] in I1, I2.
  repeat match goal with
  | |- context [if ?b then _ else _] => destruct b
  end; cbn [fst]; split; auto using frename_ok.
Qed.
Lemma news_ok raw id l : Forall (hdr_ok raw) (news id l) /\ Forall not_renamed (news id l).
Proof.
  assert (X : forall h, In h (news id l) -> fh_end h = 0).
  { intros h Hh. unfold news in Hh. apply in_flat_map in Hh. destruct Hh as ((i & n & v) & _ & Hh). cbn [fst snd] in Hh.
    destruct (Nat.eqb i id); [|contradiction]. destruct Hh as [<-|[]]. reflexivity. }
  split; apply Forall_forall; intros h Hh; specialize (X h Hh); [left; exact X|intros _; left; exact X].
Qed.

Lemma parsed_sound st t tail : parsed (fs_raw st) (fs_parts st) t tail -> (forall i, i < length (fs_parts st) -> In i (ids t)) -> sound st.
Proof.
  intros (p & Hp & _ & Hl & _) HI. destruct (laid_rep _ _ _ _ Hl) as (R & _). exists p, t. split; [exact Hp|]. split; [exact R|].
  intros q Hq. destruct (In_nth_error _ _ Hq) as (i & Hi).
  destruct (proj1 (laid_ids _ _) _ _ Hl i) as (q' & k & fs & e & Hq' & T); [apply HI; apply nth_error_Some; congruence|].
  rewrite Hi in Hq'. injection Hq' as <-.
  assert (X : forall h, In h (fp_headers q) -> fh_field h < fh_start h <= fh_end h /\ fh_end h <= length (fs_raw st)).
  { clear - T. induction T; intros x Hx; [contradiction|]. destruct Hx as [<-|Hx]; [|auto].
    split; [assumption|]. apply slice_le in H1. lia. }
  split; apply Forall_forall; intros h Hh; specialize (X h Hh).
  - right. lia.
  - intros _. right. lia.
Qed.

Lemma history_sound L rx M st : history L rx M st -> sound st.
Proof.
  induction 1.
  - eapply parsed_sound; eauto.
  - eapply sound_evolved; [eassumption|]. eapply fadd_evolved; eauto.
  - eapply sound_evolved; [eassumption|]. eapply fdelete_evolved; eauto.
  - destruct IHhistory as (p & t & Hp & R & HO). destruct (Nat.eq_dec id 0) as [->|Hid].
    + destruct (HO p (nth_error_In _ _ Hp)) as (Hok & Hnr).
      pose proof (replace_root_rep E s f b mime st st' p Hp Hok Hnr H1) as R'.
      destruct (replace_root E s f b mime st st' p Hp Hok Hnr H1) as (Hr & hs & Hps & _ & Hhs & _).
      exists (FPart hs None (FText b) (negb mime) (fp_oh p) 0 (fp_oe p)). eexists. split; [rewrite Hps; reflexivity|]. split; [exact R'|].
      rewrite Hps, Hr. intros q [<-|[]]. cbn [fp_headers]. rewrite Hhs.
      destruct (fkept_ok (fs_raw st) (given_subject s) (given_subject f) _ Hok Hnr) as (K1 & K2).
      match goal with |- context [news 0 ?l] => destruct (news_ok (fs_raw st) 0 l) as (N1 & N2) end.
      split; apply Forall_app; auto.
    + destruct H0 as [?|H0]; [contradiction|].
      destruct (nth_error (fs_parts st) id) as [q|] eqn:Hq.
      * specialize (H0 q eq_refl). pose proof (replace_leaf_rep E s f b mime id st st' q t Hid Hq H0 R H1) as R'.
        assert (Hsz : old_size q <= fs_size st + blen b).
        { unfold freplace in H1. rewrite (nested_leaf _ _ _ Hid Hq H0) in H1. cbn [sort_desc fold_right remove_all] in H1. rewrite Hq in H1.
          destruct (Nat.ltb_spec (fs_size st + blen b) (old_size q)); [discriminate|lia]. }
        destruct (replace_leaf E s f b mime id st q Hid Hq H0 Hsz) as (st2 & E2 & Hr & _ & _ & Hlen & Ho & Hn). rewrite H1 in E2. injection E2 as <-.
        exists p. eexists. split; [apply Ho; [congruence|exact Hp]|]. split; [exact R'|]. rewrite Hr.
        intros x Hx. destruct (In_nth_error _ _ Hx) as (j & Hj). destruct (Nat.eq_dec j id) as [->|Hjd].
        -- rewrite Hn in Hj. injection Hj as <-. cbn [fp_headers]. destruct mime; [split; constructor|].
           split; (constructor; [|constructor]); [left; reflexivity|intros _; left; reflexivity].
        -- assert (Hlt : j < length (fs_parts st)) by (rewrite <- Hlen; apply nth_error_Some; congruence).
           destruct (nth_error (fs_parts st) j) as [y|] eqn:Ey; [|apply nth_error_None in Ey; lia].
           rewrite (Ho j y Hjd Ey) in Hj. injection Hj as <-. apply HO. eapply nth_error_In; eauto.
      * unfold freplace in H1. unfold nested_ids in H1. apply Nat.eqb_neq in Hid as Hid'. rewrite Hid' in H1.
        rewrite nth_error_map, Hq in H1. cbn [option_map app sort_desc fold_right remove_all] in H1. rewrite Hq in H1. discriminate.
  - destruct IHhistory as (p & t & Hp & R & HO). pose proof (enclose_rep L M E hs s b st st' t p H0 Hp R) as R'.
    destruct (enclose_parts L M E hs s b st) as (st2 & E2 & Hr & _ & Hps & _). rewrite H0 in E2. injection E2 as <-.
    eexists. eexists. split; [rewrite Hps; reflexivity|]. split; [exact R'|]. rewrite Hps, Hr.
    intros q Hq. cbn [In] in Hq. destruct Hq as [<-|[<-|[<-|[]]]]; cbn [fp_headers].
    + unfold enclosing. split; apply Forall_forall; intros h Hh; apply in_map_iff in Hh; destruct Hh as (x & <- & _); [left; reflexivity|intros _; left; reflexivity].
    + split; (constructor; [|constructor]); [left; reflexivity|intros _; left; reflexivity].
    + split; (constructor; [|constructor]); [left; reflexivity|intros _; left; reflexivity].
  - destruct IHhistory as (p & t & Hp & R & HO). pose proof H0 as H1. unfold fconvert in H1. destruct (conversion_of from to) as [cv|] eqn:Ecv.
    + destruct (convert_rep E from to st d st' cv t Ecv H0 R) as (Hr & R').
      destruct (fconvert_parts E cv (fs_parts st) (fs_size st) false) as [((ps, n), d')|] eqn:Ec; [|discriminate].
      injection H1 as <- <-. cbn [fs_raw fs_parts] in *. destruct (fconvert_parts_map _ _ _ _ _ _ _ _ Ec) as (-> & _).
      eexists. eexists. cbn [fs_parts fs_raw]. split; [rewrite nth_error_map, Hp; reflexivity|]. split; [exact R'|].
      intros q Hq. apply in_map_iff in Hq. destruct Hq as (x & <- & Hx). unfold conv_part.
      destruct (fconvert_body E cv x) as [(bb, ct)|]; [|apply HO; exact Hx]. cbn [converted fp_headers].
      split; (constructor; [|constructor]); [left; reflexivity|intros _; left; reflexivity].
    + injection H1 as <- <-. exists p, t. auto.
Qed.

Lemma history_builds L rx M st : history L rx M st -> exists bytes, builds st bytes.
Proof. intro H. destruct (history_sound _ _ _ _ H) as (p & t & Hp & R & _). eexists. eapply rep_builds; eauto. Qed.
Lemma builds_fun st a b : builds st a -> builds st b -> a = b.
Proof. intros (n & Hn) (m & Hm). specialize (Hn (n + m) ltac:(lia)). specialize (Hm (n + m) ltac:(lia)). congruence. Qed.
