(** Proofs: the statements of PropertiesBuild.v. *)
From Verif Require Import Base Lib Var Value Glob Comparator SetProofs Message EditHeader EditHeaderProofs
  Mime Build BuildSpec BuildProofs BuildProofs2 BuildProofs3 BuildProofs4 BuildProofs5.

Lemma build_more : forall f raw parts bd iter stack last out r,
  build_go f raw parts bd iter stack last out = r -> r <> BuildFuel -> forall k, build_go (f + k) raw parts bd iter stack last out = r.
Proof.
  induction f as [|f IH]; intros raw parts bd iter stack last out r H Hr k; [cbn in H; congruence|].
  cbn [Nat.add build_go] in *.
  repeat match type of H with
  | match ?x with _ => _ end = _ => destruct x
  | (if ?x then _ else _) = _ => destruct x
  end; try (eapply IH; eassumption); assumption.
Qed.
Lemma build_enough f st r : build_message f (fs_raw st) (fs_parts st) = r -> r <> BuildFuel ->
  forall n, f <= n -> build_message n (fs_raw st) (fs_parts st) = r.
Proof. intros H Hr n Hn. replace n with (f + (n - f)) by lia. apply build_more; assumption. Qed.
Lemma builds_by f st b : build_message f (fs_raw st) (fs_parts st) = Built b -> builds st b.
Proof. intro H. exists f. intros n Hn. eapply build_enough; eauto. discriminate. Qed.

Lemma sound_tree st t tail : parsed (fs_raw st) (fs_parts st) t tail -> exists p, nth_error (fs_parts st) 0 = Some p /\
  rep (fs_raw st) (fs_parts st) 0 t /\ rest_of (fs_raw st) (fp_oe p) = tail.
Proof.
  intros (p & Hp & _ & Hl & ->). destruct (laid_rep _ _ _ _ Hl) as (R & H). destruct (H p Hp) as (Hoe & _). exists p.
  split; [exact Hp|]. split; [exact R|]. unfold rest_of. destruct (fp_oe p); [congruence|reflexivity].
Qed.

Lemma replace_leaf_builds E s f b mime id st st' p t tail :
  parsed (fs_raw st) (fs_parts st) t tail -> id <> 0 -> nth_error (fs_parts st) id = Some p -> leaf (fp_body p) ->
  freplace E s f b mime id st = Some st' ->
  builds st' (render (exchange (swapped id (Node id (if mime then [] else [plain_ct]) (negb mime) (Leaf (utf8 b)))) t) ++ tail).
Proof.
  intros HP Hi Hp Hl H. destruct (sound_tree _ _ _ HP) as (p0 & Hp0 & R & <-).
  pose proof (replace_leaf_rep E s f b mime id st st' p t Hi Hp Hl R H) as R'.
  assert (Hsz : old_size p <= fs_size st + blen b).
  { unfold freplace in H. rewrite (nested_leaf _ _ _ Hi Hp Hl) in H. cbn [sort_desc fold_right remove_all] in H. rewrite Hp in H.
    destruct (Nat.ltb_spec (fs_size st + blen b) (old_size p)); [discriminate|lia]. }
  destruct (replace_leaf E s f b mime id st p Hi Hp Hl Hsz) as (st2 & E2 & Hr & _ & _ & _ & Ho & _). rewrite H in E2. injection E2 as <-.
  rewrite <- Hr. apply rep_builds; [apply Ho; [congruence|exact Hp0]|exact R'].
Qed.

Lemma replace_root_builds L rx M E s f b mime st st' : history L rx M st -> freplace E s f b mime 0 st = Some st' ->
  exists p, nth_error (fs_parts st) 0 = Some p /\
  builds st' (concat (root_fields E (fs_raw st) s f mime (fp_headers p)) ++ (if mime then [] else crlf) ++ utf8 b ++
              rest_of (fs_raw st) (fp_oe p)).
Proof.
  intros HH H. destruct (history_sound _ _ _ _ HH) as (p & t & Hp & _ & HO). destruct (HO p (nth_error_In _ _ Hp)) as (Hok & Hnr).
  pose proof (replace_root_rep E s f b mime st st' p Hp Hok Hnr H) as R'.
  destruct (replace_root E s f b mime st st' p Hp Hok Hnr H) as (Hr & hs & Hps & _).
  exists p. split; [exact Hp|].
  assert (Hp' : nth_error (fs_parts st') 0 = Some (FPart hs None (FText b) (negb mime) (fp_oh p) 0 (fp_oe p))) by (rewrite Hps; reflexivity).
  pose proof (rep_builds st' _ _ Hp' R') as B. cbn [render fp_oe] in B. rewrite <- !app_assoc in B. rewrite Hr in B.
  destruct mime; exact B.
Qed.

Lemma split_quote : forall b : text, ~ In 34%N b -> split_at (lit """") (b ++ lit """") = Some (b, []).
Proof.
  induction b as [|c b IH]; intro H; [reflexivity|]. cbn [app split_at].
  assert (E : starts_with (c :: b ++ lit """") (lit """") = false).
  { change (lit """") with [34%N]. cbn [starts_with]. destruct (N.eqb_spec c 34); [exfalso; apply H; left; congruence|reflexivity]. }
  rewrite E. rewrite IH by (intro X; apply H; right; exact X). reflexivity.
Qed.
Lemma boundary_enclosing L M E st hs s : ~ In 34%N (me_boundary E) ->
  (forall h g, In h hs -> In g (enclose_given L M E h) -> teqb_ic (fst (snd g)) (lit "Content-Type") = false) ->
  boundary_of (enclosing L M E st hs s) = me_boundary E.
Proof.
  intros Hq Hg. unfold boundary_of, own_ct, enclosing, enclosing_fields.
  set (P := fun h => Nat.eqb (fh_end h) 0 && (fh_other h && hn_eqb (h_name (fh_view h)) (lit "Content-Type"))).
  set (mk := fun x : text * text => new_fheader true (fst x) (snd x)).
  assert (G : filter P (map mk (map snd (flat_map (enclose_given L M E) hs))) = []).
  { assert (X : forall g, In g (flat_map (enclose_given L M E) hs) -> P (mk (snd g)) = false).
    { intros g Hgi. apply in_flat_map in Hgi. destruct Hgi as (h & H1 & H2). exact (Hg h g H1 H2). }
    induction (flat_map (enclose_given L M E) hs) as [|g l IH]; [reflexivity|]. cbn [map filter].
    rewrite (X g (or_introl eq_refl)). apply IH. intros g' Hg'. apply X. right. exact Hg'. }
  cbv zeta. rewrite !map_app, !filter_app, G.
  assert (Z : forall (b : bool) n v, P (mk (n, v)) = false -> filter P (map mk (if b then [] else [(n, v)])) = []).
  { intros b n v HP. destruct b; [reflexivity|]. cbn [map filter]. rewrite HP. reflexivity. }
  rewrite (Z _ (lit "From") _ eq_refl), (Z _ (lit "Date") _ eq_refl), (Z _ (lit "Message-ID") _ eq_refl).
  match goal with |- context [map mk [(?n1, ?v1); (?n2, ?v2)]] =>
    change (filter P (map mk [(n1, v1); (n2, v2)])) with [mk (n1, v1)] end.
  cbn [app map last mk fst snd new_fheader fh_view new_header h_val].
  assert (S1 : split_at (lit "boundary=""") (lit "multipart/mixed; boundary=""" ++ me_boundary E ++ lit """") =
               Some (lit "multipart/mixed; ", me_boundary E ++ lit """")) by reflexivity.
  rewrite S1. cbv iota beta. pose proof (split_quote _ Hq) as S2. unfold text in *. rewrite S2. reflexivity.
Qed.

Lemma enclose_builds L rx M E hs s b st B : history L rx M st -> builds st B ->
  ~ In 34%N (me_boundary E) ->
  (forall h g, In h hs -> In g (enclose_given L M E h) -> teqb_ic (fst (snd g)) (lit "Content-Type") = false) ->
  exists st', fenclose L M E hs s b st = Some st' /\
    builds st' (concat (map (fun x => field (fst x) (snd x)) (enclosing_fields L M E st hs s)) ++
                delimiter (me_boundary E) ++ plain_ct ++ crlf ++ utf8 b ++
                delimiter (me_boundary E) ++ field (lit "Content-Type") (lit "message/rfc822") ++ crlf ++ B ++
                closing (me_boundary E)).
Proof.
  intros HH HB Hq Hg. destruct (history_sound _ _ _ _ HH) as (p & t & Hp & R & _).
  rewrite (builds_fun _ _ _ HB (rep_builds _ _ _ Hp R)) in *.
  destruct (enclose_parts L M E hs s b st) as (st' & E' & Hr & _ & Hps & _). exists st'. split; [exact E'|].
  pose proof (enclose_rep L M E hs s b st st' t p E' Hp R) as R'.
  assert (H0 : exists q, nth_error (fs_parts st') 0 = Some q /\ fp_oe q = 0) by (rewrite Hps; eexists; split; reflexivity).
  destruct H0 as (q & Hq0 & Hoe). pose proof (rep_builds st' _ _ Hq0 R') as Bd. rewrite Hoe in Bd.
  rewrite (boundary_enclosing L M E st hs s Hq Hg) in Bd.
  cbn [render flat_map app] in Bd. unfold rest_of at 2 in Bd. cbn [Nat.ltb Nat.leb] in Bd.
  cbn [concat] in Bd. rewrite !app_nil_r in Bd. rewrite <- !app_assoc in Bd. rewrite <- !app_assoc. exact Bd.
Qed.

Lemma conv_node_result E cv parts i : conv_node E cv parts i = conversion_result E cv parts i.
Proof.
  unfold conv_node, conversion_result. destruct (nth_error parts i) as [[hs ct body enc oh ob oe]|]; [|reflexivity].
  unfold fconvert_body, convert_body. cbn [view p_body p_ct]. destruct body, cv; try reflexivity.
  destruct ct as [[ty [sb|] at_]|]; [|reflexivity|reflexivity]. cbn [ct_subtype]. destruct (teqb_ic sb (lit "plain")); reflexivity.
Qed.
Lemma exchange_ext g g' : (forall i, g i = g' i) -> forall t, exchange g t = exchange g' t.
Proof.
  intro H. fix IH 1. intros [id fs blank c]. cbn [exchange]. rewrite H. destruct (g' id); [reflexivity|]. f_equal.
  destruct c as [b|l post|b l|t tail]; try reflexivity.
  - f_equal. induction l as [|[x t] l IHl]; [reflexivity|]. cbn [map fst snd]. f_equal; [f_equal; apply IH|exact IHl].
  - f_equal. induction l as [|t l IHl]; [reflexivity|]. cbn [map]. f_equal; [apply IH|exact IHl].
Qed.
Lemma convert_builds E from to st d st' cv t tail : parsed (fs_raw st) (fs_parts st) t tail ->
  conversion_of from to = Some cv -> fconvert E from to st = Some (d, st') ->
  builds st' (render (exchange (conversion_result E cv (fs_parts st)) t) ++ tail).
Proof.
  intros HP Hcv H. destruct (sound_tree _ _ _ HP) as (p & Hp & R & <-).
  destruct (convert_rep E from to st d st' cv t Hcv H R) as (Hr & R').
  rewrite (exchange_ext _ _ (conv_node_result E cv (fs_parts st))) in R'.
  unfold fconvert in H. rewrite Hcv in H.
  destruct (fconvert_parts E cv (fs_parts st) (fs_size st) false) as [((ps, n), d')|] eqn:Ec; [|discriminate].
  injection H as <- <-. destruct (fconvert_parts_map _ _ _ _ _ _ _ _ Ec) as (-> & _). cbn [fs_raw fs_parts] in *.
  match goal with |- builds ?s _ => assert (Hp' : nth_error (fs_parts s) 0 = Some (conv_part E cv p)) by (cbn [fs_parts]; rewrite nth_error_map, Hp; reflexivity);
    pose proof (rep_builds s _ _ Hp' R') as B end.
  replace (fp_oe (conv_part E cv p)) with (fp_oe p) in B; [exact B|].
  unfold conv_part. destruct (fconvert_body E cv p) as [(bb, ct)|]; reflexivity.
Qed.

Lemma split_at_none sep : forall a c, split_at sep (a ++ sep ++ c) <> None.
Proof.
  assert (P : forall s c, starts_with (s ++ c) s = true).
  { induction s as [|x s IH]; intro c; [destruct c; reflexivity|]. cbn. rewrite N.eqb_refl. apply IH. }
  induction a as [|x a IH]; intro c.
  - cbn [app]. destruct (sep ++ c) as [|y s] eqn:E.
    + destruct sep; [discriminate|discriminate].
    + cbn [split_at]. rewrite <- E, P. discriminate.
  - cbn [app split_at]. destruct (starts_with (x :: a ++ sep ++ c) sep); [discriminate|].
    specialize (IH c). destruct (split_at sep (a ++ sep ++ c)); [discriminate|congruence].
Qed.

Lemma edits_exact L rx M prot max es st st' t tail :
  parsed (fs_raw st) (fs_parts st) t tail ->
  run_fedits L rx M prot max es st = Some st' ->
  builds st' (render (with_fields (fun id => map (written (fs_raw st)) (headers_at st' id)) t) ++ tail) /\
  run_edits L rx M prot max es (fview st) = Some (fview st') /\
  (forall id p, nth_error (fs_parts st) id = Some p -> sublist (filter original (headers_at st' id)) (filter original (fp_headers p))).
Proof.
  intros HP H. split; [eapply edits_build; eassumption|]. split.
  - rewrite <- fedits_view, H. reflexivity.
  - intros id q Hq. destruct (fedits_evolved _ _ _ _ _ _ _ _ H) as (_ & F).
    destruct (Forall2_nth _ _ _ F _ _ Hq) as (q' & Hq' & (hs' & -> & Hsub & _)).
    unfold headers_at. rewrite Hq'. replace (fp_headers (set_fheaders hs' q)) with hs' by (destruct q; reflexivity). exact Hsub.
Qed.

Lemma enclose_short L rx M E hs s b st B : history L rx M st -> builds st B -> fs_size st = length B ->
  ~ In 34%N (me_boundary E) -> me_boundary E <> [] ->
  (forall h g, In h hs -> In g (enclose_given L M E h) -> teqb_ic (fst (snd g)) (lit "Content-Type") = false) ->
  exists st' B', fenclose L M E hs s b st = Some st' /\ builds st' B' /\ fs_size st' + 4 = length B'.
Proof.
  intros HH HB Hsz Hq Hb Hg. destruct (enclose_builds L rx M E hs s b st B HH HB Hq Hg) as (st' & E' & HB').
  destruct (enclose_parts L M E hs s b st) as (st2 & E2 & _ & _ & _ & Hs). rewrite E' in E2. injection E2 as <-.
  exists st'. eexists. split; [exact E'|]. split; [exact HB'|]. rewrite Hs, Hsz.
  assert (F : forall l : list (text * text), length (concat (map (fun x => field (fst x) (snd x)) l)) =
              list_sum (map (fun x => blen (fst x) + blen (snd x) + 4) l)).
  { induction l as [|[n v] l IH]; [reflexivity|]. cbn [map concat list_sum fold_right fst snd]. rewrite app_length. unfold list_sum in IH. rewrite IH.
    unfold field. rewrite !app_length, !blen_utf8. change (blen (lit ": ")) with 2. change (length crlf) with 2. lia. }
  rewrite !app_length, F, blen_utf8.
  assert (D : length (delimiter (me_boundary E)) = blen (me_boundary E) + 6).
  { unfold delimiter. destruct (me_boundary E) as [|c l] eqn:Eb; [congruence|].
    rewrite !app_length, !blen_utf8. change (blen (lit "--")) with 2. change (length crlf) with 2. lia. }
  assert (C : length (closing (me_boundary E)) = blen (me_boundary E) + 8).
  { unfold closing. destruct (me_boundary E) as [|c l] eqn:Eb; [congruence|].
    rewrite !app_length, !blen_utf8. change (blen (lit "--")) with 2. change (length crlf) with 2. lia. }
  rewrite D, C. change (length plain_ct) with 41. change (length crlf) with 2.
  change (length (field (lit "Content-Type") (lit "message/rfc822"))) with 30. lia.
Qed.
