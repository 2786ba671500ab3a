(** Proofs about the building of the message. *)
From Verif Require Import Base Lib Var Value Glob Comparator Message EditHeader Mime Build BuildSpec.

Definition simple (b : fbody) : Prop := match b with FText _ | FHtml _ | FBinary _ => True | _ => False end.
Definition same_fields (raw : list N) : list fheader -> list (list N) -> Prop :=
  Forall2 (fun h f => field_bytes raw h = Some f).

(** The tree a table of parts stands for. *)
Inductive rep : list N -> list fpart -> nat -> tree -> Prop :=
| R_orig : forall raw parts i p fs bytes,
    nth_error parts i = Some p -> same_fields raw (fp_headers p) fs -> fp_ob p <> 0 -> leaf (fp_body p) ->
    slice raw (fp_ob p) (fp_oe p) = Some bytes -> rep raw parts i (Node i fs true (Leaf bytes))
| R_new : forall raw parts i p fs,
    nth_error parts i = Some p -> same_fields raw (fp_headers p) fs -> fp_ob p = 0 -> simple (fp_body p) ->
    rep raw parts i (Node i fs (fp_enc p) (Leaf (contents (fp_body p))))
| R_multi : forall raw parts i p fs subs l k post,
    nth_error parts i = Some p -> same_fields raw (fp_headers p) fs -> fp_ob p <> 0 -> fp_body p = FMulti subs ->
    chain raw parts (fp_ob p) subs l k -> slice raw k (fp_oe p) = Some post ->
    rep raw parts i (Node i fs true (Multi l post))
| R_mixed : forall raw parts i p fs subs l b,
    nth_error parts i = Some p -> same_fields raw (fp_headers p) fs -> fp_ob p = 0 -> fp_oe p = 0 ->
    fp_body p = FMulti subs -> boundary_of (fp_headers p) = b -> fresh raw parts subs l ->
    rep raw parts i (Node i fs (fp_enc p) (Mixed b l))
| R_whole : forall raw parts i p fs raw' parts' p' t,
    nth_error parts i = Some p -> same_fields raw (fp_headers p) fs -> fp_ob p = 0 -> fp_oe p = 0 ->
    fp_body p = FMessage raw' parts' -> nth_error parts' 0 = Some p' -> rep raw' parts' 0 t ->
    rep raw parts i (Node i fs (fp_enc p) (Whole t (rest_of raw' (fp_oe p'))))
with chain : list N -> list fpart -> nat -> list nat -> list (list N * tree) -> nat -> Prop :=
| ch_nil : forall raw parts k, chain raw parts k [] [] k
| ch_cons : forall raw parts k i p g t subs l k',
    nth_error parts i = Some p -> slice raw k (fp_oh p) = Some g -> rep raw parts i t -> fp_oe p <> 0 ->
    chain raw parts (fp_oe p) subs l k' -> chain raw parts k (i :: subs) ((g, t) :: l) k'
with fresh : list N -> list fpart -> list nat -> list tree -> Prop :=
| fr_nil : forall raw parts, fresh raw parts [] []
| fr_cons : forall raw parts i p t subs l,
    nth_error parts i = Some p -> fp_oe p = 0 -> rep raw parts i t -> fresh raw parts subs l ->
    fresh raw parts (i :: subs) (t :: l).
Scheme rep_mut := Induction for rep Sort Prop
  with chain_mut := Induction for chain Sort Prop
  with fresh_mut := Induction for fresh Sort Prop.
Combined Scheme rep_all from rep_mut, chain_mut, fresh_mut.

Lemma fields_concat : forall raw hs fs, same_fields raw hs fs -> fields_bytes raw hs = Some (concat fs).
Proof. induction 1; cbn; [reflexivity|]. rewrite H, IHForall2. reflexivity. Qed.

Lemma slice_le raw a b x : slice raw a b = Some x -> a <= b <= length raw.
Proof.
  unfold slice. destruct (Nat.leb_spec a b), (Nat.leb_spec b (length raw)); cbn; try discriminate. lia.
Qed.

Lemma chain_pos : forall raw parts k subs l k', chain raw parts k subs l k' -> k <> 0 -> k' <> 0.
Proof. induction 1; auto. Qed.

Lemma go_part raw parts p i iter bd stack last out f a fs :
  nth_error parts i = Some p -> lead raw bd (top_is_message stack) last p = Some a ->
  same_fields raw (fp_headers p) fs ->
  build_go (S f) raw parts bd (i :: iter) stack last out =
  let out := out ++ a ++ concat fs ++ (if negb (Nat.eqb (fp_ob p) 0) || fp_enc p then crlf else []) in
  if negb (Nat.eqb (fp_ob p) 0) then
    match fp_body p with
    | FMulti subs => build_go f raw parts bd subs ((SiNone, fp_oe p, iter) :: stack) (fp_ob p) out
    | _ => match slice raw (fp_ob p) (fp_oe p) with
           | Some c => build_go f raw parts bd iter stack (fp_oe p) (out ++ c)
           | None => BuildPanic
           end
    end
  else
    match fp_body p with
    | FMessage raw' parts' =>
        build_go f raw' parts' bd [0] ((SiMessage raw parts, fp_oe p, iter) :: stack) last out
    | FMulti subs =>
        build_go f raw parts (boundary_of (fp_headers p)) subs
          ((SiBoundary bd, fp_oe p, iter) :: stack) last out
    | b => build_go f raw parts bd iter stack (fp_oe p) (out ++ contents b)
    end.
Proof.
  intros H1 H2 H3. cbn [build_go tl]. rewrite H1. rewrite H2. rewrite (fields_concat _ _ _ H3). reflexivity.
Qed.

Lemma go_none raw parts bd oe iter stack last out f c :
  slice raw last oe = Some c ->
  build_go (S f) raw parts bd [] ((SiNone, oe, iter) :: stack) last out = build_go f raw parts bd iter stack oe (out ++ c).
Proof. intro H. cbn [build_go]. rewrite H. reflexivity. Qed.
Lemma go_boundary raw parts bd b' oe iter stack last out f :
  build_go (S f) raw parts bd [] ((SiBoundary b', oe, iter) :: stack) last out =
  build_go f raw parts b' iter stack last (out ++ closing bd).
Proof. cbn [build_go]. destruct bd; reflexivity. Qed.
Lemma go_message raw parts bd raw' parts' oe iter stack last out f :
  build_go (S f) raw parts bd [] ((SiMessage raw' parts', oe, iter) :: stack) last out =
  build_go f raw' parts' bd iter stack 0 (out ++ rest_of raw last).
Proof. reflexivity. Qed.

Lemma build_all :
  (forall raw parts i t, rep raw parts i t ->
     forall p, nth_error parts i = Some p ->
     forall bd iter stack last out a, lead raw bd (top_is_message stack) last p = Some a -> (fp_oe p = 0 -> last = 0) ->
     exists n, forall fuel, build_go (n + fuel) raw parts bd (i :: iter) stack last out =
                            build_go fuel raw parts bd iter stack (fp_oe p) (out ++ a ++ render t)) /\
  (forall raw parts k subs l k', chain raw parts k subs l k' -> k <> 0 ->
     forall bd stack out, exists n, forall fuel,
       build_go (n + fuel) raw parts bd subs stack k out =
       build_go fuel raw parts bd [] stack k' (out ++ flat_map (fun gt => fst gt ++ render (snd gt)) l)) /\
  (forall raw parts subs l, fresh raw parts subs l ->
     forall bd stack out, top_is_message stack = false -> exists n, forall fuel,
       build_go (n + fuel) raw parts bd subs stack 0 out =
       build_go fuel raw parts bd [] stack 0 (out ++ flat_map (fun t => delimiter bd ++ render t) l)).
Proof.
  apply rep_all.
  - (* orig *) intros raw parts i p fs bytes Hp Hf Hob Hl Hs q Hq bd iter stack last out a Ha _.
    rewrite Hp in Hq. injection Hq as <-. exists 1. intro fuel. cbn [Nat.add].
    rewrite (go_part _ _ _ _ _ _ _ _ _ _ _ _ Hp Ha Hf). apply Nat.eqb_neq in Hob. rewrite Hob. cbn [negb orb].
    rewrite Hs. cbn [render]. cbv zeta. rewrite <- ?app_assoc. destruct (fp_body p) eqn:Eb; try reflexivity.
    exfalso. apply (Hl subparts). reflexivity.
  - (* new *) intros raw parts i p fs Hp Hf Hob Hl q Hq bd iter stack last out a Ha _.
    rewrite Hp in Hq. injection Hq as <-. exists 1. intro fuel. cbn [Nat.add].
    rewrite (go_part _ _ _ _ _ _ _ _ _ _ _ _ Hp Ha Hf). rewrite Hob. cbn [negb orb Nat.eqb].
    cbn [render]. cbv zeta. rewrite <- ?app_assoc. destruct (fp_body p) eqn:Eb; cbn [contents simple] in *; rewrite <- ?app_assoc; try reflexivity; contradiction Hl.
  - (* multi *) intros raw parts i p fs subs l k post Hp Hf Hob Hb Hc IH Hs q Hq bd iter stack last out a Ha _.
    rewrite Hp in Hq. injection Hq as <-.
    destruct (IH Hob bd ((SiNone, fp_oe p, iter) :: stack) (out ++ a ++ concat fs ++ crlf)) as (n & Hn).
    exists (1 + (n + 1)). intro fuel. cbn [Nat.add]. rewrite <- Nat.add_assoc.
    rewrite (go_part _ _ _ _ _ _ _ _ _ _ _ _ Hp Ha Hf). pose proof Hob as Hz. apply Nat.eqb_neq in Hz. rewrite Hz. cbn [negb orb].
    rewrite Hb. cbv zeta. rewrite Hn. cbn [Nat.add]. rewrite (go_none _ _ _ _ _ _ _ _ _ _ Hs).
    cbn [render]. rewrite <- !app_assoc. reflexivity.
  - (* mixed *) intros raw parts i p fs subs l b Hp Hf Hob Hoe Hb Hbd Hc IH q Hq bd iter stack last out a Ha Hl.
    rewrite Hp in Hq. injection Hq as <-. rewrite (Hl Hoe) in *.
    destruct (IH b ((SiBoundary bd, fp_oe p, iter) :: stack) (out ++ a ++ concat fs ++ (if fp_enc p then crlf else [])) eq_refl) as (n & Hn).
    exists (1 + (n + 1)). intro fuel. cbn [Nat.add]. rewrite <- Nat.add_assoc.
    rewrite (go_part _ _ _ _ _ _ _ _ _ _ _ _ Hp Ha Hf). rewrite Hob. cbn [negb orb Nat.eqb]. rewrite Hb, Hbd. cbv zeta.
    rewrite Hn. cbn [Nat.add]. rewrite go_boundary. rewrite Hoe.
    cbn [render]. rewrite <- !app_assoc. reflexivity.
  - (* whole *) intros raw parts i p fs raw' parts' p' t Hp Hf Hob Hoe Hb Hp' Hr IH q Hq bd iter stack last out a Ha Hl.
    rewrite Hp in Hq. injection Hq as <-. rewrite (Hl Hoe) in *.
    destruct (IH p' Hp' bd [] ((SiMessage raw parts, fp_oe p, iter) :: stack) 0
                (out ++ a ++ concat fs ++ (if fp_enc p then crlf else [])) []) as (n & Hn).
    { unfold lead. cbn [Nat.ltb Nat.leb top_is_message negb]. rewrite andb_false_r. reflexivity. }
    { reflexivity. }
    exists (1 + (n + 1)). intro fuel. cbn [Nat.add]. rewrite <- Nat.add_assoc.
    rewrite (go_part _ _ _ _ _ _ _ _ _ _ _ _ Hp Ha Hf). rewrite Hob. cbn [negb orb Nat.eqb]. rewrite Hb. cbv zeta.
    rewrite Hn. cbn [Nat.add]. rewrite go_message. rewrite Hoe. cbn [render app]. rewrite <- !app_assoc. reflexivity.
  - intros raw parts k _ bd stack out. exists 0. intro fuel. cbn. rewrite app_nil_r. reflexivity.
  - intros raw parts k i p g t subs l k' Hp Hg Hr IHr Hoe Hc IHc Hk bd stack out.
    assert (Ha : lead raw bd (top_is_message stack) k p = Some g).
    { unfold lead. destruct k; [congruence|]. cbn [Nat.ltb Nat.leb]. exact Hg. }
    destruct (IHr p Hp bd subs stack k out g Ha) as (n & Hn); [congruence|].
    destruct (IHc Hoe bd stack (out ++ g ++ render t)) as (m & Hm).
    exists (n + m). intro fuel. rewrite <- Nat.add_assoc. rewrite Hn, Hm. cbn [flat_map fst snd]. rewrite <- !app_assoc. reflexivity.
  - intros raw parts bd stack out Hm. exists 0. intro fuel. cbn. rewrite app_nil_r. reflexivity.
  - intros raw parts i p t subs l Hp Hoe Hr IHr Hc IHc bd stack out Hm.
    assert (Ha : lead raw bd (top_is_message stack) 0 p = Some (delimiter bd)).
    { unfold lead. cbn [Nat.ltb Nat.leb]. rewrite Hm, Hoe. destruct bd; reflexivity. }
    destruct (IHr p Hp bd subs stack 0 out _ Ha (fun _ => eq_refl)) as (n & Hn).
    destruct (IHc bd stack (out ++ delimiter bd ++ render t) Hm) as (m & Hm').
    exists (n + m). intro fuel. rewrite <- Nat.add_assoc. rewrite Hn, Hoe, Hm'. cbn [flat_map]. rewrite <- !app_assoc. reflexivity.
Qed.

Lemma rep_builds st t p : nth_error (fs_parts st) 0 = Some p -> rep (fs_raw st) (fs_parts st) 0 t ->
  builds st (render t ++ rest_of (fs_raw st) (fp_oe p)).
Proof.
  intros Hp Hr. destruct build_all as (B & _).
  destruct (B _ _ _ _ Hr _ Hp [] [] [] 0 [] []) as (n & Hn); [reflexivity|reflexivity|].
  exists (n + 1). intros fuel Hf. unfold build_message.
  replace fuel with (n + S (fuel - n - 1)) by lia. rewrite Hn. cbn [build_go app]. reflexivity.
Qed.

(** *** From the contract of the parser *)
Scheme laid_mut := Induction for laid Sort Prop with laidall_mut := Induction for laid_all Sort Prop.
Combined Scheme laid_both from laid_mut, laidall_mut.

Lemma tiled_fields : forall raw k hs fs e, tiled raw k hs fs e -> same_fields raw hs fs.
Proof.
  induction 1; [constructor|]. constructor; [|assumption].
  unfold field_bytes. destruct (Nat.eqb_spec (fh_end h) 0); [lia|]. destruct (Nat.eqb_spec (fh_field h) (fh_start h)); [lia|].
  rewrite H. assumption.
Qed.
Lemma skip_skip {A} : forall x y (l : list A), skipn x (skipn y l) = skipn (x + y) l.
Proof.
  intros x y. revert x. induction y; intros x l; [rewrite Nat.add_0_r; reflexivity|].
  rewrite Nat.add_succ_r. destruct l; [rewrite !skipn_nil; reflexivity|]. cbn [skipn]. apply IHy.
Qed.
Lemma slice_join raw a b c x y : slice raw a b = Some x -> slice raw b c = Some y -> slice raw a c = Some (x ++ y).
Proof.
  unfold slice. destruct (Nat.leb_spec a b), (Nat.leb_spec b (length raw)); cbn; try discriminate.
  destruct (Nat.leb_spec b c), (Nat.leb_spec c (length raw)); cbn; try discriminate.
  intros E1 E2. injection E1 as <-. injection E2 as <-. destruct (Nat.leb_spec a c); [|lia]. cbn. f_equal.
  replace (c - a) with ((b - a) + (c - b)) by lia.
  rewrite <- (firstn_skipn (b - a) (firstn (b - a + (c - b)) (skipn a raw))). rewrite firstn_firstn, skipn_firstn_comm.
  rewrite Nat.min_l by lia. rewrite skip_skip. replace (b - a + (c - b) - (b - a)) with (c - b) by lia.
  replace (b - a + a) with b by lia. reflexivity.
Qed.
Lemma slice_empty raw a : a <= length raw -> slice raw a a = Some [].
Proof. intro H. unfold slice. rewrite Nat.leb_refl. apply Nat.leb_le in H. rewrite H. rewrite Nat.sub_diag. reflexivity. Qed.
Lemma tiled_slice : forall raw k hs fs e, tiled raw k hs fs e -> e <= length raw -> slice raw k e = Some (concat fs).
Proof.
  induction 1; intro He; [apply slice_empty; assumption|].
  cbn [concat]. eapply slice_join; [eassumption|]. auto.
Qed.

Lemma laid_rep :
  (forall raw parts i t, laid raw parts i t -> rep raw parts i t /\
     (forall p, nth_error parts i = Some p -> fp_oe p <> 0 /\ slice raw (fp_oh p) (fp_oe p) = Some (render t))) .
Proof.
  intros raw parts.
  enough (H : (forall i t, laid raw parts i t -> rep raw parts i t /\
     (forall p, nth_error parts i = Some p -> fp_oe p <> 0 /\ slice raw (fp_oh p) (fp_oe p) = Some (render t))) /\
   (forall k subs l k', laid_all raw parts k subs l k' -> k <> 0 -> k' <= length raw -> chain raw parts k subs l k' /\
      slice raw k k' = Some (flat_map (fun gt => fst gt ++ render (snd gt)) l))) by (intros; apply H; assumption).
  apply laid_both.
  - intros id hs ct b enc oh ob oe fs e bytes Hn Hl Ht Hs1 Hs2.
    assert (Hob : ob <> 0).
    { unfold slice in Hs1. destruct (Nat.leb_spec e ob), (Nat.leb_spec ob (length raw)); try discriminate. cbn in Hs1.
      injection Hs1 as Hs1. intro. subst ob. cbn in Hs1. discriminate. }
    split.
    + apply (R_orig raw parts id _ fs bytes Hn); cbn; auto. eapply tiled_fields; eauto.
    + intros p Hp. rewrite Hn in Hp. injection Hp as <-. cbn [fp_oe fp_oh].
      pose proof (slice_le _ _ _ _ Hs1). pose proof (slice_le _ _ _ _ Hs2). split; [lia|].
      cbn [render]. eapply slice_join; [eapply tiled_slice; [eassumption|lia]|]. eapply slice_join; eassumption.
  - intros id hs ct subs enc oh ob oe fs e l k post Hn Ht Hs1 Hc IH Hs2.
    assert (Hob : ob <> 0).
    { unfold slice in Hs1. destruct (Nat.leb_spec e ob), (Nat.leb_spec ob (length raw)); try discriminate. cbn in Hs1.
      injection Hs1 as Hs1. intro. subst ob. cbn in Hs1. discriminate. }
    pose proof (slice_le _ _ _ _ Hs1). pose proof (slice_le _ _ _ _ Hs2).
    destruct (IH Hob) as (C1 & C2); [lia|]. pose proof (slice_le _ _ _ _ C2).
    split.
    + apply (R_multi raw parts id _ fs subs l k post Hn); [eapply tiled_fields; eauto|exact Hob|reflexivity|exact C1|exact Hs2].
    + intros p Hp. rewrite Hn in Hp. injection Hp as <-. cbn [fp_oe fp_oh]. split; [lia|].
      cbn [render]. eapply slice_join; [eapply tiled_slice; [eassumption|lia]|]. eapply slice_join; [eassumption|].
      eapply slice_join; eassumption.
  - intros k Hk Hl. split; [constructor|]. apply slice_empty. assumption.
  - intros k i p g t subs l k' Hp Hg Hl (IHr & IHs) Hc IH Hk Hk'. destruct (IHs p Hp) as (Hoe & Hs).
    destruct (IH Hoe Hk') as (C1 & C2). split.
    + econstructor; eauto.
    + cbn [flat_map fst snd]. rewrite <- app_assoc. eapply slice_join; [eassumption|]. eapply slice_join; eassumption.
Qed.

(** Without edits the built message is the original one. *)
Lemma parsed_raw raw parts t tail : parsed raw parts t tail -> raw = render t ++ tail.
Proof.
  intros (p & Hp & Ho & Hl & ->). destruct (laid_rep _ _ _ _ Hl) as (_ & H). destruct (H p Hp) as (_ & Hs).
  rewrite Ho in Hs. unfold slice in Hs. destruct (Nat.leb 0 (fp_oe p) && Nat.leb (fp_oe p) (length raw)); [|discriminate].
  injection Hs as <-. cbn [skipn]. rewrite Nat.sub_0_r. symmetry. apply firstn_skipn.
Qed.
Lemma parsed_builds st t tail : parsed (fs_raw st) (fs_parts st) t tail -> builds st (fs_raw st).
Proof.
  intros H. pose proof (parsed_raw _ _ _ _ H) as E. destruct H as (p & Hp & Ho & Hl & ->).
  destruct (laid_rep _ _ _ _ Hl) as (R & H). destruct (H p Hp) as (Hoe & _).
  pose proof (rep_builds st t p Hp R) as B. unfold rest_of in B. destruct (fp_oe p); [congruence|]. cbn [Nat.ltb Nat.leb] in B.
  rewrite E. exact B.
Qed.
