(** Proofs: replace of the whole message, enclose, convert, and histories. *)
From Verif Require Import Base Lib Var Value Glob Comparator SetProofs Message EditHeader EditHeaderProofs
  Mime Build BuildSpec BuildProofs BuildProofs2 BuildProofs3.


Lemma same_fields_app raw a b c d : same_fields raw a b -> same_fields raw c d -> same_fields raw (a ++ c) (b ++ d).
Proof. apply Forall2_app. Qed.

Lemma replace_root E s f b mime st st' p :
  nth_error (fs_parts st) 0 = Some p -> Forall (hdr_ok (fs_raw st)) (fp_headers p) -> Forall not_renamed (fp_headers p) ->
  freplace E s f b mime 0 st = Some st' ->
  fs_raw st' = fs_raw st /\ exists hs, fs_parts st' = [FPart hs None (FText b) (negb mime) (fp_oh p) 0 (fp_oe p)] /\
    same_fields (fs_raw st) hs (root_fields E (fs_raw st) s f mime (fp_headers p)) /\
    hs = fst (fst (fkept (given_subject s) (given_subject f) (fp_headers p))) ++
         news 0 (replace_inserts E s f mime 0 (snd (fkept (given_subject s) (given_subject f) (fp_headers p)))) /\
    fs_size st' = fs_size st + blen b - old_size p + snd (fst (fkept (given_subject s) (given_subject f) (fp_headers p))) +
      list_sum (map (fun x => blen (fst (snd x)) + blen (snd (snd x)) + 4)
        (replace_inserts E s f mime 0 (snd (fkept (given_subject s) (given_subject f) (fp_headers p))))).
Proof.
  intros Hp Hok Hnr H. unfold freplace in H. rewrite nested_root in H.
  destruct (fs_parts st) as [|p0 ps] eqn:Eps; [discriminate|]. cbn in Hp. injection Hp as ->.
  cbn [length] in H. replace (S (length ps) - 1) with (length ps) in H by lia. rewrite sort_desc_seq, remove_children in H.
  cbn [nth_error Nat.eqb] in H. destruct (Nat.ltb (fs_size st + blen b) (old_size p)); [discriminate|].
  fold (given_subject s) in H. fold (given_subject f) in H.
  pose proof (kept_fields (fs_raw st) (given_subject s) (given_subject f) (fp_headers p) Hok Hnr) as KF.
  pose proof (kept_date (given_subject s) (given_subject f) (fp_headers p)) as KD.
  destruct (fkept (given_subject s) (given_subject f) (fp_headers p)) as ((hs0, n), d). cbn [fst snd] in KF, KD |- *.
  cbn [update_nth option_map] in H.
  match type of H with finsert_all ?l ?s = _ => destruct (finsert_all_spec l s) as (st2 & E2 & Hr & _ & Hs & Hl & Hn) end.
  { intros x Hx. cbn. unfold replace_inserts in Hx. cbn [Nat.eqb] in Hx.
    repeat (apply in_app_or in Hx; destruct Hx as [Hx|Hx]);
    repeat match type of Hx with
    | In _ (match ?x with _ => _ end) => destruct x; cbn [In] in Hx
    | In _ (if ?x then _ else _) => destruct x; cbn [In] in Hx
    end; cbn [In] in Hx; intuition (subst; cbn; lia). }
  rewrite H in E2. injection E2 as <-. split; [exact Hr|].
  exists (hs0 ++ news 0 (replace_inserts E s f mime 0 d)). split; [|split; [|split; [reflexivity|]]].
  - specialize (Hn 0 _ eq_refl). cbn [set_fheaders fp_headers] in Hn.
    destruct (fs_parts st') as [|q [|q' l']]; cbn in Hl; try discriminate. cbn in Hn. injection Hn as ->. reflexivity.
  - unfold root_fields. apply same_fields_app; [exact KF|]. unfold replace_inserts. cbn [Nat.eqb]. rewrite KD.
    match goal with |- same_fields _ (news 0 ?l) _ => pose proof (news_fields (fs_raw st) 0 l) as NF end.
    rewrite !flat_map_app in NF. unfold news in *. rewrite !flat_map_app in *.
    destruct f as [[|f0 f]|]; destruct s as [[|s0 s]|];
      destruct (existsb (fun h => negb (fh_other h) && teqb_ic (h_name (fh_view h)) (lit "Date")) (fp_headers p)); destruct mime; exact NF.
  - rewrite Hs. cbn [fs_size]. reflexivity.
Qed.

Lemma replace_root_rep E s f b mime st st' p :
  nth_error (fs_parts st) 0 = Some p -> Forall (hdr_ok (fs_raw st)) (fp_headers p) -> Forall not_renamed (fp_headers p) ->
  freplace E s f b mime 0 st = Some st' ->
  rep (fs_raw st') (fs_parts st') 0 (Node 0 (root_fields E (fs_raw st) s f mime (fp_headers p)) (negb mime) (Leaf (utf8 b))).
Proof.
  intros Hp Hok Hnr H. destruct (replace_root E s f b mime st st' p Hp Hok Hnr H) as (Hr & hs & Hps & Hf & _).
  rewrite Hr, Hps.
  apply (R_new (fs_raw st) [FPart hs None (FText b) (negb mime) (fp_oh p) 0 (fp_oe p)] 0 _ _ eq_refl Hf eq_refl Logic.I).
Qed.

(** *** enclose *)

Definition enclosing (L : rustlib) (M : mailparser) (E : mimeenv) (st : fstate) (hs : list text) (s : option text) : list fheader :=
  map (fun x => new_fheader true (fst x) (snd x)) (enclosing_fields L M E st hs s).

Lemma news0 l : news 0 (map (fun x => (0, x)) l) = map (fun x => new_fheader true (fst x) (snd x)) l.
Proof. induction l as [|x l IH]; [reflexivity|]. cbn. f_equal. exact IH. Qed.

Lemma news_given (l : list (text * (text * text))) : news 0 (map (fun g => (0, snd g)) l) = map (fun x => new_fheader true (fst x) (snd x)) (map snd l).
Proof. induction l as [|g l IH]; [reflexivity|]. cbn. f_equal. exact IH. Qed.
Lemma news_other id (l : list (text * (text * text))) : news (S id) (map (fun g => (0, snd g)) l) = [].
Proof. induction l as [|g l IH]; [reflexivity|]. exact IH. Qed.

Lemma news_app id a b : news id (a ++ b) = news id a ++ news id b.
Proof. apply flat_map_app. Qed.
Lemma news_if (b : bool) x : news 0 (if b then [] else [(0, x)]) = map (fun x => new_fheader true (fst x) (snd x)) (if b then [] else [x]).
Proof. destruct b; reflexivity. Qed.
Lemma news_if_other id (b : bool) x : news (S id) (if b then [] else [(0, x)]) = [].
Proof. destruct b; reflexivity. Qed.

Lemma enclose_parts L M E hs s b st : exists st', fenclose L M E hs s b st = Some st' /\ fs_raw st' = [] /\ fs_changed st' = true /\
  fs_parts st' =
    [FPart (enclosing L M E st hs s) None (FMulti [1; 2]) false 0 0 0;
     FPart [new_fheader true (lit "Content-Type") (lit "text/plain; charset=utf-8")] None (FText b) true 0 0 0;
     FPart [new_fheader true (lit "Content-Type") (lit "message/rfc822")] None (FMessage (fs_raw st) (fs_parts st)) true 0 0 0] /\
  fs_size st' = fs_size st + (blen (me_boundary E) + 6) * 3 + blen b + 2 +
    list_sum (map (fun x => blen (fst x) + blen (snd x) + 4) (enclosing_fields L M E st hs s)) + 71.
Proof.
  unfold fenclose.
  match goal with |- context [finsert_all ?l ?s] => set (ins := l); set (st0 := s) end.
  destruct (finsert_all_spec ins st0) as (st' & E' & Hr & Hc & Hs & Hl & Hn).
  { intros x Hx. cbn. subst ins. apply in_app_or in Hx. destruct Hx as [Hx|Hx].
    - cbn [In] in Hx. intuition (subst; cbn; lia).
    - apply in_app_or in Hx. destruct Hx as [Hx|Hx]; [apply in_map_iff in Hx; destruct Hx as (g & <- & _); cbn; lia|].
      repeat (apply in_app_or in Hx; destruct Hx as [Hx|Hx]);
      match type of Hx with In _ (if ?x then _ else _) => destruct x end; cbn [In] in Hx; intuition (subst; cbn; lia). }
  assert (N0 : news 0 ins = enclosing L M E st hs s).
  { subst ins. unfold enclosing, enclosing_fields. rewrite !news_app, !map_app, news_given, !news_if. reflexivity. }
  assert (NN : forall id, id <> 0 -> news id ins = news id [(1, (lit "Content-Type", lit "text/plain; charset=utf-8"));
        (2, (lit "Content-Type", lit "message/rfc822"))]).
  { intros id Hid. destruct id as [|id]; [congruence|]. subst ins. rewrite !news_app.
    rewrite news_other, !news_if_other, !app_nil_r. reflexivity. }
  exists st'. split; [exact E'|]. split; [exact Hr|]. split; [exact Hc|]. split.
  - pose proof (Hn 0 _ eq_refl) as H0. pose proof (Hn 1 _ eq_refl) as H1. pose proof (Hn 2 _ eq_refl) as H2.
    rewrite N0 in H0. rewrite NN in H1, H2 by lia. cbn [news flat_map fst snd Nat.eqb app] in H1, H2.
    destruct (fs_parts st') as [|q0 [|q1 [|q2 [|q3 l3]]]]; cbn in Hl; try discriminate.
    cbn in H0, H1, H2. injection H0 as ->. injection H1 as ->. injection H2 as ->. reflexivity.
  - rewrite Hs. subst st0. cbn [fs_size]. rewrite <- !Nat.add_assoc. do 4 f_equal.
    subst ins. unfold enclosing_fields. rewrite !map_app, !list_sum_app, !map_map. cbn [map fst snd].
    assert (X : forall (b : bool) n v, list_sum (map (fun x : nat * (text * text) => blen (fst (snd x)) + blen (snd (snd x)) + 4) (if b then [] else [(0, (n, v))])) =
      list_sum (map (fun x : text * text => blen (fst x) + blen (snd x) + 4) (if b then [] else [(n, v)]))) by (intros []; reflexivity).
    rewrite !X. unfold list_sum at 1 6. cbn [fold_right].
    change (blen (lit "Content-Type") + blen (lit "text/plain; charset=utf-8") + 4) with 41.
    change (blen (lit "Content-Type") + blen (lit "message/rfc822") + 4) with 30. lia.
Qed.

Lemma new_fields raw l : same_fields raw (map (fun x => new_fheader true (fst x) (snd x)) l) (map (fun x => field (fst x) (snd x)) l).
Proof. induction l; constructor; [reflexivity|assumption]. Qed.

Lemma enclose_rep L M E hs s b st st' t p : fenclose L M E hs s b st = Some st' ->
  nth_error (fs_parts st) 0 = Some p -> rep (fs_raw st) (fs_parts st) 0 t ->
  rep (fs_raw st') (fs_parts st') 0
    (Node 0 (map (fun x => field (fst x) (snd x)) (enclosing_fields L M E st hs s)) false
       (Mixed (boundary_of (enclosing L M E st hs s))
          [Node 1 [plain_ct] true (Leaf (utf8 b));
           Node 2 [field (lit "Content-Type") (lit "message/rfc822")] true (Whole t (rest_of (fs_raw st) (fp_oe p)))])).
Proof.
  intros H Hp R. destruct (enclose_parts L M E hs s b st) as (st2 & E2 & Hr & _ & Hps & _). rewrite H in E2. injection E2 as <-.
  rewrite Hr, Hps. clear Hps.
  set (P0 := FPart (enclosing L M E st hs s) None (FMulti [1; 2]) false 0 0 0).
  set (P1 := FPart [new_fheader true (lit "Content-Type") (lit "text/plain; charset=utf-8")] None (FText b) true 0 0 0).
  set (P2 := FPart [new_fheader true (lit "Content-Type") (lit "message/rfc822")] None (FMessage (fs_raw st) (fs_parts st)) true 0 0 0).
  apply (R_mixed [] [P0; P1; P2] 0 P0 _ [1; 2]); try reflexivity; [apply new_fields|].
  apply (fr_cons _ _ 1 P1); [reflexivity|reflexivity| |apply (fr_cons _ _ 2 P2); [reflexivity|reflexivity| |constructor]].
  - apply (R_new [] [P0; P1; P2] 1 P1 [plain_ct] eq_refl); [constructor; [reflexivity|constructor]|reflexivity|exact Logic.I].
  - apply (R_whole [] [P0; P1; P2] 2 P2 _ (fs_raw st) (fs_parts st) p t eq_refl); try reflexivity; [constructor; [reflexivity|constructor]|exact Hp|exact R].
Qed.
