(** Proofs: replace, enclose and convert, and the bytes of the built message. *)
From Verif Require Import Base Lib Var Value Glob Comparator SetProofs Message EditHeader EditHeaderProofs
  Mime Build BuildSpec BuildProofs BuildProofs2.

(** *** Exchanging parts *)
Lemma rep_exchange raw parts parts' g :
  (forall i p, nth_error parts i = Some p -> exists p', nth_error parts' i = Some p' /\ fp_oh p' = fp_oh p /\ fp_oe p' = fp_oe p /\
     match g i with None => p' = p | Some new => rep raw parts' i new end) ->
  (forall i t, rep raw parts i t -> rep raw parts' i (exchange g t)) /\
  (forall k subs l k', chain raw parts k subs l k' ->
     chain raw parts' k subs (map (fun gt => (fst gt, exchange g (snd gt))) l) k') /\
  (forall subs l, fresh raw parts subs l -> fresh raw parts' subs (map (exchange g) l)).
Proof.
  intro H.
  enough (G : (forall r ps i t, rep r ps i t -> r = raw -> ps = parts -> rep raw parts' i (exchange g t)) /\
    (forall r ps k subs l k', chain r ps k subs l k' -> r = raw -> ps = parts ->
       chain raw parts' k subs (map (fun gt => (fst gt, exchange g (snd gt))) l) k') /\
    (forall r ps subs l, fresh r ps subs l -> r = raw -> ps = parts -> fresh raw parts' subs (map (exchange g) l)))
    by (destruct G as (G1 & G2 & G3); repeat split; intros; eauto).
  apply rep_all.
  - intros r ps i p fs bytes Hp Hf Hob Hl Hs -> ->. destruct (H i p Hp) as (p' & Hp' & _ & _ & Hg). cbn [exchange].
    destruct (g i); [exact Hg|]. subst p'. eapply R_orig; eauto.
  - intros r ps i p fs Hp Hf Hob Hl -> ->. destruct (H i p Hp) as (p' & Hp' & _ & _ & Hg). cbn [exchange].
    destruct (g i); [exact Hg|]. subst p'. eapply R_new; eauto.
  - intros r ps i p fs subs l k post Hp Hf Hob Hb Hc IH Hs -> ->. destruct (H i p Hp) as (p' & Hp' & _ & _ & Hg). cbn [exchange].
    destruct (g i); [exact Hg|]. subst p'. eapply R_multi; eauto.
  - intros r ps i p fs subs l b Hp Hf Hob Hoe Hb Hbd Hc IH -> ->. destruct (H i p Hp) as (p' & Hp' & _ & _ & Hg). cbn [exchange].
    destruct (g i); [exact Hg|]. subst p'. eapply R_mixed; eauto.
  - intros r ps i p fs raw' ps' p' t Hp Hf Hob Hoe Hb Hq Hr IH -> ->. destruct (H i p Hp) as (q' & Hp' & _ & _ & Hg). cbn [exchange].
    destruct (g i); [exact Hg|]. subst q'. eapply R_whole; eauto.
  - intros; constructor.
  - intros r ps k i p gg t subs l k' Hp Hg Hr IHr Hoe Hc IHc -> ->. destruct (H i p Hp) as (p' & Hp' & Hoh' & Hoe' & _).
    cbn [map fst snd]. apply (ch_cons _ _ _ _ p'); auto; rewrite ?Hoh', ?Hoe'; auto.
  - intros; constructor.
  - intros r ps i p t subs l Hp Hoe Hr IHr Hc IHc -> ->. destruct (H i p Hp) as (p' & Hp' & Hoh' & Hoe' & _).
    cbn [map]. apply (fr_cons _ _ _ p'); auto; congruence.
Qed.

(** *** Inserted headers *)
Definition news (id : nat) (l : list (nat * (text * text))) : list fheader :=
  flat_map (fun x => if Nat.eqb (fst x) id then [new_fheader true (fst (snd x)) (snd (snd x))] else []) l.
Lemma update_nth_some {A} (f : A -> A) : forall l i, i < length l -> exists l',
  update_nth i (fun x => Some (f x)) l = Some l' /\ length l' = length l /\
  forall j x, nth_error l j = Some x -> nth_error l' j = Some (if Nat.eqb i j then f x else x).
Proof.
  induction l as [|x l IH]; intros i Hi; cbn in Hi; [lia|]. destruct i as [|i].
  - eexists. cbn. split; [reflexivity|]. split; [reflexivity|]. intros [|j] y Hy; cbn in *; [injection Hy as <-; reflexivity|exact Hy].
  - destruct (IH i) as (l' & E & Hl & H); [lia|]. exists (x :: l'). cbn. rewrite E. split; [reflexivity|]. split; [cbn; congruence|].
    intros [|j] y Hy; cbn in *; [exact Hy|auto].
Qed.
Lemma finsert_all_spec : forall l st, (forall x, In x l -> fst x < length (fs_parts st)) ->
  exists st', finsert_all l st = Some st' /\ fs_raw st' = fs_raw st /\ fs_changed st' = fs_changed st /\
    fs_size st' = fs_size st + list_sum (map (fun x => blen (fst (snd x)) + blen (snd (snd x)) + 4) l) /\
    length (fs_parts st') = length (fs_parts st) /\
    forall id p, nth_error (fs_parts st) id = Some p ->
      nth_error (fs_parts st') id = Some (set_fheaders (fp_headers p ++ news id l) p).
Proof.
  induction l as [|[i [n v]] l IH]; intros st H.
  - exists st. cbn. split; [reflexivity|]. split; [reflexivity|]. split; [reflexivity|]. split; [lia|]. split; [reflexivity|].
    intros id p Hp. rewrite app_nil_r. destruct p; exact Hp.
  - cbn [finsert_all]. unfold finsert. pose proof (H _ (or_introl eq_refl)) as Hi. cbn [fst] in Hi.
    destruct (update_nth_some (fun p => set_fheaders (fp_headers p ++ [new_fheader true n v]) p) _ _ Hi) as (ps & E & Hl & Hn).
    rewrite E. cbn [option_map].
    destruct (IH {| fs_raw := fs_raw st; fs_parts := ps; fs_changed := fs_changed st; fs_size := fs_size st + (blen n + blen v + 4) |})
      as (st' & E' & Hr & Hc & Hs & Hl' & Hn').
    { intros x Hx. cbn [fs_parts]. rewrite Hl. apply H. right. exact Hx. }
    exists st'. split; [exact E'|]. split; [exact Hr|]. split; [exact Hc|]. split; [|split].
    + rewrite Hs. cbn [fs_size map fst snd]. unfold list_sum. cbn [fold_right]. lia.
    + rewrite Hl'. exact Hl.
    + intros id p Hp. rewrite (Hn' id _ (Hn id p Hp)). cbn [news flat_map fst snd].
      destruct (Nat.eqb i id); [|reflexivity]. f_equal. destruct p; cbn [set_fheaders fp_headers]. rewrite <- app_assoc. reflexivity.
Qed.
Lemma news_fields raw id l : same_fields raw (news id l)
  (flat_map (fun x => if Nat.eqb (fst x) id then [field (fst (snd x)) (snd (snd x))] else []) l).
Proof.
  induction l as [|[i [n v]] l IH]; [constructor|]. cbn [news flat_map fst snd]. destruct (Nat.eqb i id); [|exact IH].
  cbn [app]. constructor; [reflexivity|exact IH].
Qed.
Lemma news_all raw id (l : list (text * text)) : same_fields raw (news id (map (fun x => (id, x)) l)) (map (fun x => field (fst x) (snd x)) l).
Proof.
  induction l as [|[n v] l IH]; [constructor|]. cbn [map news flat_map fst snd]. rewrite Nat.eqb_refl. cbn [app]. constructor; [reflexivity|exact IH].
Qed.

(** *** replace of a part without subparts *)
Lemma nested_leaf parts id p : id <> 0 -> nth_error parts id = Some p -> leaf (fp_body p) -> nested_ids (map view parts) id false = Some [].
Proof.
  intros Hi Hp Hl. unfold nested_ids. apply Nat.eqb_neq in Hi. rewrite Hi. rewrite nth_error_map, Hp. cbn [option_map].
  destruct p as [hs ct b enc oh ob oe]. cbn [view p_body fp_body] in *. destruct b; try reflexivity. exfalso. eapply Hl. reflexivity.
Qed.

Lemma replace_leaf E s f b mime id st p : id <> 0 -> nth_error (fs_parts st) id = Some p -> leaf (fp_body p) ->
  old_size p <= fs_size st + blen b ->
  exists st', freplace E s f b mime id st = Some st' /\ fs_raw st' = fs_raw st /\ fs_changed st' = true /\
    fs_size st' = fs_size st + blen b - old_size p + (if mime then 0 else length plain_ct) /\
    length (fs_parts st') = length (fs_parts st) /\
    (forall j q, j <> id -> nth_error (fs_parts st) j = Some q -> nth_error (fs_parts st') j = Some q) /\
    nth_error (fs_parts st') id = Some (FPart (if mime then [] else [new_fheader true (lit "Content-Type") (lit "text/plain; charset=utf-8")])
                                          None (FText b) (negb mime) (fp_oh p) 0 (fp_oe p)).
Proof.
  intros Hi Hp Hl Hs. unfold freplace. rewrite (nested_leaf _ _ _ Hi Hp Hl). cbn [sort_desc fold_right remove_all]. rewrite Hp.
  destruct (Nat.ltb_spec (fs_size st + blen b) (old_size p)); [lia|]. apply Nat.eqb_neq in Hi as Hi'. rewrite Hi'.
  assert (Hlt : id < length (fs_parts st)) by (apply nth_error_Some; congruence).
  destruct (update_nth_some (fun p => FPart [] None (FText b) (negb mime) (fp_oh p) 0 (fp_oe p)) _ _ Hlt) as (ps & Eu & Hlen & Hn).
  rewrite Eu. unfold replace_inserts. rewrite Hi'. cbn [app].
  set (st1 := {| fs_raw := fs_raw st; fs_parts := ps; fs_changed := true; fs_size := fs_size st + blen b - old_size p + 0 |}).
  destruct (finsert_all_spec (if mime then [] else [(id, (lit "Content-Type", lit "text/plain; charset=utf-8"))]) st1) as (st' & E' & Hr & Hc & Hz & Hl' & Hn').
  { intros x Hx. destruct mime; [contradiction|]. destruct Hx as [<-|[]]. cbn [fst st1 fs_parts]. lia. }
  exists st'. split; [exact E'|]. split; [exact Hr|]. split; [exact Hc|]. split; [|split; [|split]].
  - rewrite Hz. subst st1. cbn [fs_size]. destruct mime; [cbn; lia|].
    change (length plain_ct) with 41. change (list_sum _) with 41. lia.
  - rewrite Hl'. exact Hlen.
  - intros j q Hj Hq. pose proof (Hn j q Hq) as H1. assert (E1 : Nat.eqb id j = false) by (apply Nat.eqb_neq; congruence). rewrite E1 in H1.
    rewrite (Hn' j q H1). f_equal. replace (news j _) with (@nil fheader); [rewrite app_nil_r; destruct q; reflexivity|].
    destruct mime; [reflexivity|]. unfold news. cbn [flat_map fst]. rewrite E1. reflexivity.
  - pose proof (Hn id p Hp) as H1. rewrite Nat.eqb_refl in H1. rewrite (Hn' id _ H1). f_equal. cbn [fp_headers set_fheaders app].
    destruct mime; [reflexivity|]. unfold news. cbn [flat_map fst snd]. rewrite Nat.eqb_refl. reflexivity.
Qed.

Lemma replace_leaf_rep E s f b mime id st st' p t : id <> 0 -> nth_error (fs_parts st) id = Some p -> leaf (fp_body p) ->
  rep (fs_raw st) (fs_parts st) 0 t -> freplace E s f b mime id st = Some st' ->
  rep (fs_raw st') (fs_parts st') 0 (exchange (swapped id (Node id (if mime then [] else [plain_ct]) (negb mime) (Leaf (utf8 b)))) t).
Proof.
  intros Hi Hp Hl R Hst.
  assert (Hsz : old_size p <= fs_size st + blen b).
  { unfold freplace in Hst. rewrite (nested_leaf _ _ _ Hi Hp Hl) in Hst. cbn [sort_desc fold_right remove_all] in Hst. rewrite Hp in Hst.
    destruct (Nat.ltb_spec (fs_size st + blen b) (old_size p)); [discriminate|lia]. }
  destruct (replace_leaf E s f b mime id st p Hi Hp Hl Hsz) as (st2 & E2 & Hr & _ & _ & _ & Ho & Hn). rewrite Hst in E2. injection E2 as <-.
  rewrite Hr. eapply rep_exchange; [|exact R]. intros i q Hq. unfold swapped. destruct (Nat.eqb_spec i id).
  - subst i. rewrite Hp in Hq. injection Hq as <-. eexists. split; [exact Hn|]. split; [reflexivity|]. split; [reflexivity|].
    match type of Hn with _ = Some ?P => apply (R_new (fs_raw st) (fs_parts st') id P (if mime then [] else [plain_ct]) Hn) end.
    + cbn [fp_headers]. destruct mime; constructor; [reflexivity|constructor].
    + reflexivity.
    + exact Logic.I.
  - exists q. split; [apply Ho; auto|]. auto.
Qed.

(** *** replace of the whole message *)
Lemma sort_desc_seq : forall n a, sort_desc (seq a n) = rev (seq a n).
Proof.
  assert (H : forall l a, (forall x, In x l -> a < x) -> insert_desc a l = l ++ [a]).
  { induction l as [|m l IH]; intros a Ha; [reflexivity|]. cbn [insert_desc app]. destruct (Nat.leb_spec m a).
    - specialize (Ha m (or_introl eq_refl)). lia.
    - rewrite IH; [reflexivity|]. intros x Hx. apply Ha. right. exact Hx. }
  induction n; intro a; [reflexivity|]. cbn [seq rev]. unfold sort_desc in *. cbn [fold_right]. rewrite IHn. apply H.
  intros x Hx. apply in_rev in Hx. apply in_seq in Hx. lia.
Qed.
Lemma remove_at_last {A} : forall (l : list A) x, remove_at (length l) (l ++ [x]) = Some l.
Proof. induction l; intro x; [reflexivity|]. cbn. rewrite IHl. reflexivity. Qed.
Lemma remove_children {A} (p : A) : forall l, remove_all (rev (seq 1 (length l))) (p :: l) = Some [p].
Proof.
  induction l as [|x l IH] using rev_ind; [reflexivity|]. rewrite app_length. cbn [length]. rewrite Nat.add_1_r, seq_S, rev_app_distr.
  cbn [rev app remove_all]. change (p :: l ++ [x]) with ((p :: l) ++ [x]). change (1 + length l) with (length (p :: l)).
  rewrite remove_at_last. exact IH.
Qed.
Lemma nested_root parts : nested_ids (map view parts) 0 false = Some (seq 1 (length parts - 1)).
Proof.
  unfold nested_ids. cbn [Nat.eqb]. rewrite map_length. destruct (Nat.ltb_spec 1 (length parts)); [reflexivity|].
  replace (length parts - 1) with 0 by lia. reflexivity.
Qed.

Definition hdr_ok (raw : list N) (h : fheader) : Prop :=
  fh_end h = 0 \/ fh_field h <= fh_start h <= fh_end h /\ fh_end h <= length raw.
Lemma slice_ok raw a b : a <= b -> b <= length raw -> slice raw a b = Some (firstn (b - a) (skipn a raw)).
Proof. intros H1 H2. unfold slice. apply Nat.leb_le in H1, H2. rewrite H1, H2. reflexivity. Qed.
Lemma hdr_bytes raw h : hdr_ok raw h -> exists f, field_bytes raw h = Some f.
Proof.
  unfold field_bytes. intros [H|(H1 & H2)]; [rewrite H; eexists; reflexivity|]. destruct (Nat.eqb (fh_end h) 0); [eauto|].
  destruct (Nat.eqb (fh_field h) (fh_start h)).
  - rewrite (slice_ok raw (fh_start h) (fh_end h)) by lia. cbn. eauto.
  - rewrite (slice_ok raw (fh_field h) (fh_end h)) by lia. eauto.
Qed.
Lemma hdrs_bytes raw hs : Forall (hdr_ok raw) hs -> exists fs, same_fields raw hs fs.
Proof.
  induction 1; [exists []; constructor|]. destruct IHForall as (fs & F). destruct (hdr_bytes _ _ H) as (f & Hf). exists (f :: fs). constructor; auto.
Qed.
Definition not_renamed (h : fheader) : Prop := fh_other h = false -> fh_end h = 0 \/ fh_field h < fh_start h.
Lemma kept_fields raw s f : forall hs, Forall (hdr_ok raw) hs -> Forall not_renamed hs ->
  same_fields raw (fst (fst (fkept s f hs))) (flat_map (after_replace raw s f) hs).
Proof.
  assert (R : forall n h, hdr_ok raw h -> field_bytes raw (frename n h) = Some (written_as raw n h)).
  { intros n h [H|(H1 & H2)]; unfold field_bytes, written_as; cbn [frename fh_end fh_field fh_start fh_view rename h_name h_val].
    - rewrite H. reflexivity.
    - destruct (Nat.eqb (fh_end h) 0); [reflexivity|]. rewrite Nat.eqb_refl. rewrite slice_ok by lia. reflexivity. }
  assert (W : forall h, hdr_ok raw h -> not_renamed h -> fh_other h = false -> field_bytes raw h = Some (written raw h)).
  { intros h H N O. unfold field_bytes, written. destruct (Nat.eqb_spec (fh_end h) 0); [reflexivity|].
    destruct (N O) as [?|N']; [contradiction|]. destruct (Nat.eqb_spec (fh_field h) (fh_start h)); [lia|].
    destruct H as [?|(H1 & H2)]; [contradiction|]. apply slice_ok; lia. }
  induction hs as [|h hs IH]; intros H1 H2; [constructor|]. inversion H1; subst. inversion H2; subst.
  cbn [fkept flat_map]. specialize (IH H4 H6). destruct (fkept s f hs) as ((r, n), d). cbn [fst] in IH.
  unfold after_replace at 1. cbv zeta. cbn [map existsb].
  unfold hn_eqb. destruct (fh_other h) eqn:O; cbn [negb andb orb].
  { cbn [fst app]. exact IH. }
  destruct (teqb_ic (h_name (fh_view h)) (lit "Subject")).
  { destruct s; cbn [fst app]; constructor; auto. }
  destruct (teqb_ic (h_name (fh_view h)) (lit "From")).
  { destruct f; cbn [fst app]; constructor; auto. }
  destruct (teqb_ic (h_name (fh_view h)) (lit "To")); [cbn [fst app orb]; constructor; auto|].
  destruct (teqb_ic (h_name (fh_view h)) (lit "Cc")); [cbn [fst app orb]; constructor; auto|].
  destruct (teqb_ic (h_name (fh_view h)) (lit "Bcc")); [cbn [fst app orb]; constructor; auto|].
  destruct (teqb_ic (h_name (fh_view h)) (lit "Received")); [cbn [fst app orb]; constructor; auto|].
  cbn [orb]. destruct (teqb_ic (h_name (fh_view h)) (lit "Date")); cbn [fst app]; [constructor; auto|exact IH].
Qed.
Lemma kept_date s f : forall hs, snd (fkept s f hs) = negb (existsb (fun h => negb (fh_other h) && teqb_ic (h_name (fh_view h)) (lit "Date")) hs).
Proof.
  assert (X : forall a n m, teqb_ic a n = true -> teqb_ic n m = false -> teqb_ic a m = false).
  { unfold teqb_ic. intros a n m H1 H2. apply teqb_spec in H1. rewrite H1. exact H2. }
  induction hs as [|h hs IH]; [reflexivity|]. cbn [fkept existsb]. destruct (fkept s f hs) as ((r, n), d). cbn [snd] in IH.
  cbn [map existsb]. unfold hn_eqb. destruct (fh_other h); cbn [negb andb orb snd]; [exact IH|].
  destruct (teqb_ic (h_name (fh_view h)) (lit "Subject")) eqn:E1; [rewrite (X _ _ (lit "Date") E1 eq_refl); destruct s; exact IH|].
  destruct (teqb_ic (h_name (fh_view h)) (lit "From")) eqn:E2; [rewrite (X _ _ (lit "Date") E2 eq_refl); destruct f; exact IH|].
  destruct (teqb_ic (h_name (fh_view h)) (lit "To")) eqn:E3; [rewrite (X _ _ (lit "Date") E3 eq_refl); exact IH|].
  destruct (teqb_ic (h_name (fh_view h)) (lit "Cc")) eqn:E4; [rewrite (X _ _ (lit "Date") E4 eq_refl); exact IH|].
  destruct (teqb_ic (h_name (fh_view h)) (lit "Bcc")) eqn:E5; [rewrite (X _ _ (lit "Date") E5 eq_refl); exact IH|].
  destruct (teqb_ic (h_name (fh_view h)) (lit "Received")) eqn:E6; [rewrite (X _ _ (lit "Date") E6 eq_refl); exact IH|].
  cbn [orb]. destruct (teqb_ic (h_name (fh_view h)) (lit "Date")); [reflexivity|exact IH].
Qed.
