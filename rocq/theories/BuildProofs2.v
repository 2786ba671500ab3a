(** Proofs: header edits and the bytes of the built message. *)
From Coq Require Import Permutation.
From Verif Require Import Base Lib Var Value Glob Comparator SetProofs Message MessageSpec EditHeader EditHeaderSpec EditHeaderProofs
  Mime Build BuildSpec BuildProofs.

(** *** The tests see the same message *)
Lemma update_nth_map {A B} (v : A -> B) (f : A -> option A) (g : B -> option B) :
  (forall x, option_map v (f x) = g (v x)) ->
  forall l i, option_map (map v) (update_nth i f l) = update_nth i g (map v l).
Proof.
  intros H. induction l as [|x l IH]; intros [|i]; cbn; try reflexivity.
  - rewrite <- H. destruct (f x); reflexivity.
  - rewrite <- IH. destruct (update_nth i f l); reflexivity.
Qed.
Lemma remove_at_map {A B} (v : A -> B) : forall l i, option_map (map v) (remove_at i l) = remove_at i (map v l).
Proof.
  induction l as [|x l IH]; intros [|i]; cbn; try reflexivity. rewrite <- IH. destruct (remove_at i l); reflexivity.
Qed.
Lemma view_headers p : p_headers (view p) = map fh_view (fp_headers p).
Proof. destruct p; reflexivity. Qed.
Lemma view_set hs p : view (set_fheaders hs p) = set_headers (map fh_view hs) (view p).
Proof. destruct p; reflexivity. Qed.

Lemma finsert_view other st id n v l : option_map fview (finsert other st id n v l) = insert_header (fview st) id n v l.
Proof.
  unfold finsert, insert_header. cbn [ms_parts fview].
  rewrite <- (update_nth_map view (fun p => Some (set_fheaders (if l then fp_headers p ++ [new_fheader other n v]
                                     else new_fheader other n v :: fp_headers p) p))).
  - destruct (update_nth id _ (fs_parts st)); reflexivity.
  - intro x. cbn [option_map]. rewrite view_set, view_headers. destruct l; [rewrite map_app|]; reflexivity.
Qed.
Lemma fremove_view ps : forall marks, option_map (map view) (fremove_marked ps marks) = remove_marked (map view ps) marks.
Proof.
  induction marks as [|m marks IH]; [reflexivity|]. cbn [fremove_marked remove_marked fold_right] in *.
  unfold fremove_marked, remove_marked in *. rewrite <- IH. destruct (fold_right _ (Some ps) marks) as [ps'|]; [|reflexivity].
  cbn [option_map]. apply update_nth_map. intro x. rewrite view_headers, <- remove_at_map.
  destruct (remove_at (snd m) (fp_headers x)); [cbn [option_map]; rewrite view_set|]; reflexivity.
Qed.
Lemma fadd_view L M prot max n v l id st : option_map fview (fadd_header L M prot max n v l id st) = add_header L M prot max n v l id (fview st).
Proof.
  unfold fadd_header, add_header. destruct (filter _ n) as [|c0 cl]; [reflexivity|].
  destruct (hn_parse M (c0 :: cl)); [|reflexivity]. destruct (existsb _ prot); [reflexivity|].
  rewrite finsert_view. reflexivity.
Qed.
Lemma fdelete_view L rx M prot n i a c m k id st :
  option_map fview (fdelete_header L rx M prot n i a c m k id st) = delete_header L rx M prot n i a c m k id (fview st).
Proof.
  unfold fdelete_header, delete_header. destruct (hn_parse M n) as [hn|]; [|reflexivity].
  destruct (existsb (hn_eqb hn) prot); [reflexivity|]. cbn [ms_parts fview].
  destruct (find_headers _ id [hn] i a) as [found|]; [|reflexivity].
  destruct (to_delete L rx M c m k found) as [marked|]; [|reflexivity].
  rewrite <- fremove_view. destruct (fremove_marked _ _); [|reflexivity]. cbn [option_map ms_size fview].
  destruct (Nat.ltb _ _); reflexivity.
Qed.
Lemma fedits_view L rx M prot max : forall es st,
  option_map fview (run_fedits L rx M prot max es st) = run_edits L rx M prot max es (fview st).
Proof.
  induction es as [|[n v l p|n i a c m k p] es IH]; intro st; [reflexivity| |]; cbn [run_fedits run_edits].
  - rewrite <- fadd_view. destruct (fadd_header _ _ _ _ _ _ _ _ _); [cbn [option_map]; apply IH|reflexivity].
  - rewrite <- fdelete_view. destruct (fdelete_header _ _ _ _ _ _ _ _ _ _ _ _); [cbn [option_map]; apply IH|reflexivity].
Qed.

(** *** The headers of an edited part *)
Lemma sublist_refl {A} (l : list A) : sublist l l.
Proof. induction l; constructor; assumption. Qed.
Lemma sublist_trans {A} (a b c : list A) : sublist a b -> sublist b c -> sublist a c.
Proof.
  intros H1 H2. revert a H1. induction H2; intros a H1; [exact H1|constructor; auto|].
  inversion H1; subst; [apply sub_skip; auto|apply sub_keep; auto].
Qed.
Lemma sublist_in {A} (a b : list A) x : sublist a b -> In x a -> In x b.
Proof. induction 1; cbn; intuition. Qed.
Lemma remove_at_sub {A} (f : A -> bool) : forall l i l', remove_at i l = Some l' -> sublist (filter f l') (filter f l).
Proof.
  induction l as [|x l IH]; intros [|i] l' H; cbn in H; try discriminate.
  - injection H as <-. cbn. destruct (f x); [apply sub_skip|]; apply sublist_refl.
  - destruct (remove_at i l) eqn:E; [|discriminate]. injection H as <-. cbn. destruct (f x); [apply sub_keep|]; eauto.
Qed.

Definition edited (p p' : fpart) : Prop :=
  exists hs', p' = set_fheaders hs' p /\ sublist (filter original hs') (filter original (fp_headers p)) /\
    (forall h, In h hs' -> In h (fp_headers p) \/ exists o n v, h = new_fheader o n v).
Lemma edited_refl p : edited p p.
Proof. exists (fp_headers p). split; [destruct p; reflexivity|]. split; [apply sublist_refl|auto]. Qed.
Lemma edited_trans a b c : edited a b -> edited b c -> edited a c.
Proof.
  intros (h1 & -> & S1 & N1) (h2 & -> & S2 & N2). exists h2. split; [destruct a; reflexivity|]. split.
  - eapply sublist_trans; [exact S2|]. destruct a; exact S1.
  - intros h Hh. destruct (N2 h Hh) as [H|H]; [|auto]. apply N1. destruct a; exact H.
Qed.
Lemma Forall2_refl {A} (R : A -> A -> Prop) : (forall x, R x x) -> forall l, Forall2 R l l.
Proof. intros H l. induction l; constructor; auto. Qed.
Lemma Forall2_trans {A} (R : A -> A -> Prop) : (forall x y z, R x y -> R y z -> R x z) ->
  forall a b c, Forall2 R a b -> Forall2 R b c -> Forall2 R a c.
Proof.
  intros H a b c H1. revert c. induction H1; intros c H2; inversion H2; subst; constructor; eauto.
Qed.
Lemma update_edited (f : fpart -> option fpart) : (forall x y, f x = Some y -> edited x y) ->
  forall l i l', update_nth i f l = Some l' -> Forall2 edited l l'.
Proof.
  intros H. induction l as [|x l IH]; intros [|i] l' E; cbn in E; try discriminate.
  - destruct (f x) eqn:Ef; [|discriminate]. injection E as <-. constructor; [auto|apply Forall2_refl, edited_refl].
  - destruct (update_nth i f l) eqn:Ef; [|discriminate]. injection E as <-. constructor; [apply edited_refl|eauto].
Qed.

Definition evolved (st st' : fstate) : Prop := fs_raw st' = fs_raw st /\ Forall2 edited (fs_parts st) (fs_parts st').
Lemma evolved_refl st : evolved st st.
Proof. split; [reflexivity|apply Forall2_refl, edited_refl]. Qed.
Lemma evolved_trans a b c : evolved a b -> evolved b c -> evolved a c.
Proof. intros (A1 & A2) (B1 & B2). split; [congruence|]. eapply Forall2_trans; eauto using edited_trans. Qed.

Lemma finsert_evolved other st id n v l st' : finsert other st id n v l = Some st' -> evolved st st'.
Proof.
  unfold finsert. destruct (update_nth id _ (fs_parts st)) eqn:E; [|discriminate]. cbn. intro H. injection H as <-.
  split; [reflexivity|]. cbn. eapply update_edited; [|exact E]. intros x y Hy. injection Hy as <-.
  eexists. split; [reflexivity|]. destruct l.
  - rewrite filter_app. cbn. rewrite app_nil_r. split; [apply sublist_refl|]. intros h Hh.
    apply in_app_or in Hh. destruct Hh as [Hh|[<-|[]]]; eauto.
  - cbn. split; [apply sublist_refl|]. intros h [<-|Hh]; eauto.
Qed.
Lemma fadd_evolved L M prot max n v l id st st' : fadd_header L M prot max n v l id st = Some st' -> evolved st st'.
Proof.
  unfold fadd_header. destruct (filter _ n) as [|c0 cl]; [intro H; injection H as <-; apply evolved_refl|].
  destruct (hn_parse M (c0 :: cl)); [|intro H; injection H as <-; apply evolved_refl].
  destruct (existsb _ prot); [intro H; injection H as <-; apply evolved_refl|].
  intro H. apply finsert_evolved in H. exact H.
Qed.
Lemma fremove_evolved ps : forall marks ps', fremove_marked ps marks = Some ps' -> Forall2 edited ps ps'.
Proof.
  induction marks as [|m marks IH]; intros ps' H; cbn in H.
  - injection H as <-. apply Forall2_refl, edited_refl.
  - destruct (fold_right _ (Some ps) marks) as [q|] eqn:E; [|discriminate].
    eapply Forall2_trans; [exact edited_trans|apply IH; exact E|].
    eapply update_edited; [|exact H]. intros x y Hy. cbv beta in Hy.
    destruct (remove_at (snd m) (fp_headers x)) eqn:Er; [|discriminate]. injection Hy as <-.
    eexists. split; [reflexivity|]. split; [eapply remove_at_sub; eauto|].
    intros h Hh. left. pose proof (remove_at_sub (fun _ => true) _ _ _ Er) as Q.
    eapply sublist_in in Q; [eapply incl_filter; exact Q|]. apply filter_In. auto.
Qed.
Lemma fdelete_evolved L rx M prot n i a c m k id st st' : fdelete_header L rx M prot n i a c m k id st = Some st' -> evolved st st'.
Proof.
  unfold fdelete_header. destruct (hn_parse M n) as [hn|]; [|intro H; injection H as <-; apply evolved_refl].
  destruct (existsb (hn_eqb hn) prot); [intro H; injection H as <-; apply evolved_refl|].
  destruct (find_headers _ id [hn] i a) as [found|]; [|discriminate].
  destruct (to_delete L rx M c m k found) as [marked|]; [|discriminate].
  destruct (fremove_marked _ _) eqn:E; [|discriminate]. destruct (Nat.ltb _ _); [discriminate|].
  intro H; injection H as <-. split; [reflexivity|]. cbn. eapply fremove_evolved; eauto.
Qed.
Lemma fedits_evolved L rx M prot max : forall es st st', run_fedits L rx M prot max es st = Some st' -> evolved st st'.
Proof.
  induction es as [|[n v l p|n i a c m k p] es IH]; intros st st' H; cbn [run_fedits] in H.
  - injection H as <-. apply evolved_refl.
  - destruct (fadd_header _ _ _ _ _ _ _ _ _) eqn:E; [|discriminate]. eapply evolved_trans; [eapply fadd_evolved; eauto|eauto].
  - destruct (fdelete_header _ _ _ _ _ _ _ _ _ _ _ _) eqn:E; [|discriminate].
    eapply evolved_trans; [eapply fdelete_evolved; eauto|eauto].
Qed.

(** *** What is built *)
Lemma slice_val raw a b x : slice raw a b = Some x -> x = firstn (b - a) (skipn a raw).
Proof. unfold slice. destruct (_ && _); [congruence|discriminate]. Qed.
Lemma tiled_in : forall raw k hs fs e, tiled raw k hs fs e -> forall h, In h hs ->
  field_bytes raw h = Some (written raw h) /\ original h = true /\ h_raw (fh_view h) = true /\
  h_bytes (fh_view h) = length (written raw h).
Proof.
  induction 1; intros x Hx; [contradiction|]. destruct Hx as [<-|Hx]; [|auto].
  assert (Hw : written raw h = f).
  { unfold written. destruct (Nat.eqb_spec (fh_end h) 0); [lia|]. rewrite H. symmetry. apply slice_val. assumption. }
  repeat split.
  - unfold field_bytes. destruct (Nat.eqb_spec (fh_end h) 0); [lia|]. destruct (Nat.eqb_spec (fh_field h) (fh_start h)); [lia|].
    rewrite Hw, H. assumption.
  - unfold original. destruct (Nat.eqb_spec (fh_end h) 0); [lia|reflexivity].
  - assumption.
  - rewrite H3, Hw. pose proof (slice_le _ _ _ _ H1). rewrite (slice_val _ _ _ _ H1), firstn_length, skipn_length. lia.
Qed.
Lemma new_written raw h : original h = false -> field_bytes raw h = Some (written raw h).
Proof.
  unfold original, field_bytes, written. destruct (Nat.eqb (fh_end h) 0); [reflexivity|discriminate].
Qed.

Definition all_fields (raw : list N) (parts : list fpart) (id : nat) : list (list N) :=
  map (written raw) (match nth_error parts id with Some p => fp_headers p | None => [] end).

Lemma edited_fields raw k hs fs e p p' : tiled raw k (fp_headers p) fs e -> edited p p' -> hs = fp_headers p' ->
  same_fields raw hs (map (written raw) hs).
Proof.
  intros T (hs' & -> & S & _) ->.
  assert (H : Forall (fun h => field_bytes raw h = Some (written raw h)) hs').
  { apply Forall_forall. intros h Hh. destruct (original h) eqn:E; [|apply new_written; exact E].
    eapply (tiled_in _ _ _ _ _ T). eapply incl_filter. eapply sublist_in; [exact S|]. apply filter_In. auto. }
  replace (fp_headers (set_fheaders hs' p)) with hs' by (destruct p; reflexivity).
  clear - H. induction H; cbn; constructor; auto.
Qed.

Lemma Forall2_nth {A B} (R : A -> B -> Prop) : forall l l', Forall2 R l l' -> forall i x, nth_error l i = Some x ->
  exists y, nth_error l' i = Some y /\ R x y.
Proof. induction 1; intros [|i] z Hz; cbn in *; try discriminate; [injection Hz as <-; eauto|eauto]. Qed.

Lemma laid_edited raw parts parts' : Forall2 edited parts parts' ->
  (forall i t, laid raw parts i t -> rep raw parts' i (with_fields (all_fields raw parts') t)) /\
  (forall k subs l k', laid_all raw parts k subs l k' ->
     chain raw parts' k subs (map (fun gt => (fst gt, with_fields (all_fields raw parts') (snd gt))) l) k').
Proof.
  intro F. apply laid_both.
  - intros id hs ct b enc oh ob oe fs e bytes Hn Hl Ht Hs1 Hs2.
    destruct (Forall2_nth _ _ _ F _ _ Hn) as (p' & Hp' & (hs' & Hq & Hsub)).
    pose proof (edited_fields raw oh (fp_headers p') fs e (FPart hs ct b enc oh ob oe) p' Ht (ex_intro _ hs' (conj Hq Hsub)) eq_refl) as SF.
    cbn [with_fields]. unfold all_fields at 1. rewrite Hp'.
    assert (Hob : ob <> 0).
    { unfold slice in Hs1. destruct (Nat.leb_spec e ob), (Nat.leb_spec ob (length raw)); try discriminate. cbn in Hs1.
      injection Hs1 as Hs1. intro. subst ob. cbn in Hs1. discriminate. }
    apply (R_orig raw parts' id p'); [assumption|assumption| | |]; subst p'; cbn; assumption.
  - intros id hs ct subs enc oh ob oe fs e l k post Hn Ht Hs1 Hc IH Hs2.
    destruct (Forall2_nth _ _ _ F _ _ Hn) as (p' & Hp' & (hs' & Hq & Hsub)).
    pose proof (edited_fields raw oh (fp_headers p') fs e (FPart hs ct (FMulti subs) enc oh ob oe) p' Ht (ex_intro _ hs' (conj Hq Hsub)) eq_refl) as SF.
    cbn [with_fields]. unfold all_fields at 1. rewrite Hp'.
    assert (Hob : ob <> 0).
    { unfold slice in Hs1. destruct (Nat.leb_spec e ob), (Nat.leb_spec ob (length raw)); try discriminate. cbn in Hs1.
      injection Hs1 as Hs1. intro. subst ob. cbn in Hs1. discriminate. }
    apply (R_multi raw parts' id p' _ subs _ k); [assumption|assumption| | | |]; subst p'; cbn; try assumption; reflexivity.
  - intros k. constructor.
  - intros k i p g t subs l k' Hp Hg Hl IHr Hc IH. destruct (Forall2_nth _ _ _ F _ _ Hp) as (p' & Hp' & (hs' & Hq & Hsub)).
    destruct (laid_rep _ _ _ _ Hl) as (_ & HH). destruct (HH p Hp) as (Hoe & _).
    cbn [map fst snd]. apply (ch_cons _ _ _ _ p'); auto; subst p'; destruct p; cbn in *; auto.
Qed.

Lemma edits_build L rx M prot max es st st' t tail :
  parsed (fs_raw st) (fs_parts st) t tail -> run_fedits L rx M prot max es st = Some st' ->
  builds st' (render (with_fields (fun id => map (written (fs_raw st)) (headers_at st' id)) t) ++ tail).
Proof.
  intros (p & Hp & Ho & Hl & ->) H. apply fedits_evolved in H. destruct H as (Hr & F).
  pose proof (proj1 (laid_edited (fs_raw st) _ _ F) _ _ Hl) as R.
  destruct (Forall2_nth _ _ _ F _ _ Hp) as (p' & Hp' & (hs' & Hq & _)).
  destruct (laid_rep _ _ _ _ Hl) as (_ & HH). destruct (HH p Hp) as (Hoe & _).
  assert (Hoe' : fp_oe p' = fp_oe p) by (subst p'; destruct p; reflexivity).
  rewrite <- Hr in R. pose proof (rep_builds st' _ p' Hp' R) as B. rewrite Hoe', Hr in B.
  unfold rest_of in B. destruct (fp_oe p); [congruence|]. exact B.
Qed.

(** *** Size *)
Fixpoint fixed (t : tree) : nat :=
  match t with
  | Node _ _ blank c =>
      (if blank then 2 else 0) +
      match c with
      | Leaf b => length b
      | Multi l post => list_sum (map (fun gt => length (fst gt) + fixed (snd gt)) l) + length post
      | Mixed b l => list_sum (map (fun t => length (delimiter b) + fixed t) l) + length (closing b)
      | Whole t tail => length (render t) + length tail
      end
  end.
Definition fsum (f : nat -> list (list N)) (l : list nat) : nat := list_sum (map (fun i => length (concat (f i))) l).
Lemma fsum_app f a b : fsum f (a ++ b) = fsum f a + fsum f b.
Proof. unfold fsum. rewrite map_app, list_sum_app. reflexivity. Qed.

Lemma laid_length f raw parts :
  (forall i t, laid raw parts i t -> length (render (with_fields f t)) = fixed t + fsum f (ids t)) /\
  (forall k subs l k', laid_all raw parts k subs l k' ->
     length (flat_map (fun gt => fst gt ++ render (snd gt)) (map (fun gt => (fst gt, with_fields f (snd gt))) l)) =
     list_sum (map (fun gt => length (fst gt) + fixed (snd gt)) l) + fsum f (flat_map (fun gt => ids (snd gt)) l)).
Proof.
  apply laid_both.
  - intros. cbn [with_fields render fixed ids]. rewrite !app_length. unfold fsum. cbn. lia.
  - intros id hs ct subs enc oh ob oe fs e l k post Hn Ht Hs1 Hc IH Hs2. cbn [with_fields render fixed ids]. rewrite !app_length, IH.
    change (fsum f (id :: flat_map (fun gt => ids (snd gt)) l)) with (length (concat (f id)) + fsum f (flat_map (fun gt => ids (snd gt)) l)).
    cbn [length crlf]. lia.
  - intros. reflexivity.
  - intros. cbn [map flat_map fst snd]. rewrite !app_length, H0. cbn [list_sum]. rewrite fsum_app.
    unfold list_sum in *. cbn [fold_right]. rewrite H. lia.
Qed.

Lemma list_sum_perm l l' : Permutation l l' -> list_sum l = list_sum l'.
Proof. unfold list_sum. induction 1; cbn; lia. Qed.
Lemma concat_length_sum {A} (l : list (list A)) : length (concat l) = list_sum (map (@length A) l).
Proof. unfold list_sum. induction l; cbn; [reflexivity|]. rewrite app_length. lia. Qed.
Lemma sum_seq {A} (f : A -> nat) : forall (l : list A) n,
  list_sum (map (fun i => match nth_error l (i - n) with Some x => f x | None => 0 end) (seq n (length l))) = list_sum (map f l).
Proof.
  unfold list_sum. induction l as [|x l IH]; intro n; [reflexivity|]. cbn [length seq map fold_right]. rewrite Nat.sub_diag. cbn [nth_error].
  f_equal. rewrite <- (IH (S n)). f_equal. apply map_ext_in. intros i Hi. apply in_seq in Hi.
  replace (i - n) with (S (i - S n)) by lia. reflexivity.
Qed.
Lemma blen_utf8 s : length (utf8 s) = blen s.
Proof. unfold utf8. induction s; [reflexivity|]. cbn [flat_map blen]. rewrite app_length, utf8_char_length, IHs. reflexivity. Qed.

Lemma laid_ids raw parts :
  (forall i t, laid raw parts i t -> forall id, In id (ids t) ->
     exists p k fs e, nth_error parts id = Some p /\ tiled raw k (fp_headers p) fs e) /\
  (forall k subs l k', laid_all raw parts k subs l k' -> forall id, In id (flat_map (fun gt => ids (snd gt)) l) ->
     exists p k fs e, nth_error parts id = Some p /\ tiled raw k (fp_headers p) fs e).
Proof.
  apply laid_both.
  - intros id hs ct b enc oh ob oe fs e bytes Hn Hl Ht Hs1 Hs2 j [<-|[]]. exists (FPart hs ct b enc oh ob oe), oh, fs, e. auto.
  - intros id hs ct subs enc oh ob oe fs e l k post Hn Ht Hs1 Hc IH Hs2 j [<-|Hj]; [|auto].
    exists (FPart hs ct (FMulti subs) enc oh ob oe), oh, fs, e. auto.
  - intros k j [].
  - intros k i p g t subs l k' Hp Hg Hl IHr Hc IH j Hj. cbn [flat_map snd] in Hj. apply in_app_or in Hj. destruct Hj; auto.
Qed.

Lemma headers_fsum raw parts : (forall p h, In p parts -> In h (fp_headers p) -> header_size (fh_view h) = length (written raw h)) ->
  headers_size (map view parts) = fsum (all_fields raw parts) (seq 0 (length parts)).
Proof.
  intro H. unfold headers_size, fsum. rewrite map_map.
  rewrite <- (sum_seq (fun x => list_sum (map header_size (p_headers (view x)))) parts 0). f_equal. apply map_ext_in.
  intros i Hi. rewrite Nat.sub_0_r. unfold all_fields. destruct (nth_error parts i) as [p|] eqn:E; [|reflexivity].
  rewrite view_headers, map_map, concat_length_sum, map_map. f_equal. apply map_ext_in. intros h Hh. apply (H p h); [|exact Hh].
  eapply nth_error_In; eauto.
Qed.

Lemma Forall2_len {A B} (R : A -> B -> Prop) l l' : Forall2 R l l' -> length l' = length l.
Proof. induction 1; cbn; congruence. Qed.
Lemma Forall2_in_r {A B} (R : A -> B -> Prop) l l' : Forall2 R l l' -> forall y, In y l' -> exists x, In x l /\ R x y.
Proof. induction 1; intros z Hz; [contradiction|]. destruct Hz as [<-|Hz]; [exists x; cbn; auto|]. destruct (IHForall2 z Hz) as (w & ? & ?). exists w. cbn. auto. Qed.

Lemma evolved_sizes raw parts parts' t : laid raw parts 0 t -> Permutation (ids t) (seq 0 (length parts)) ->
  Forall2 edited parts parts' ->
  length (render (with_fields (all_fields raw parts') t)) = fixed t + headers_size (map view parts').
Proof.
  intros Hl HP F. rewrite (proj1 (laid_length (all_fields raw parts') raw parts) _ _ Hl). f_equal.
  rewrite headers_fsum with (raw := raw).
  - rewrite (Forall2_len _ _ _ F). unfold fsum. apply list_sum_perm. apply Permutation_map. exact HP.
  - intros p' h Hp' Hh. destruct (Forall2_in_r _ _ _ F _ Hp') as (p & Hp & (hs' & -> & _ & Hn)).
    replace (fp_headers (set_fheaders hs' p)) with hs' in Hh by (destruct p; reflexivity).
    destruct (Hn h Hh) as [Ho|(o & n & v & ->)].
    + destruct (In_nth_error _ _ Hp) as (i & Hi). assert (Hi' : In i (ids t)).
      { eapply Permutation_in; [apply Permutation_sym; exact HP|]. apply in_seq.
        assert (i < length parts) by (apply nth_error_Some; congruence). lia. }
      destruct (proj1 (laid_ids raw parts) _ _ Hl _ Hi') as (q & k & fs & e & Hq & T). rewrite Hi in Hq. injection Hq as <-.
      destruct (tiled_in _ _ _ _ _ T _ Ho) as (_ & _ & Hr & Hb). unfold header_size. rewrite Hr. exact Hb.
    + unfold header_size, written. cbn [new_fheader fh_view fh_end new_header h_raw h_name h_val hv_len as_text Nat.eqb].
      unfold field. rewrite !app_length, !blen_utf8. change (blen (lit ": ")) with 2. change (length crlf) with 2. lia.
Qed.

Lemma parsed_edited_self raw parts i t : laid raw parts i t -> with_fields (all_fields raw parts) t = t.
Proof.
  enough (H : (forall i t, laid raw parts i t -> with_fields (all_fields raw parts) t = t) /\
    (forall k subs l k', laid_all raw parts k subs l k' -> map (fun gt => (fst gt, with_fields (all_fields raw parts) (snd gt))) l = l)) by apply H.
  assert (TF : forall k hs fs e, tiled raw k hs fs e -> map (written raw) hs = fs).
  { induction 1; [reflexivity|]. cbn. f_equal; [|assumption]. unfold written. destruct (Nat.eqb_spec (fh_end h) 0); [lia|].
    rewrite H. symmetry. apply slice_val. assumption. }
  apply laid_both.
  - intros id hs ct b enc oh ob oe fs e bytes Hn Hl Ht Hs1 Hs2. cbn [with_fields]. unfold all_fields. rewrite Hn. cbn [fp_headers].
    rewrite (TF _ _ _ _ Ht). reflexivity.
  - intros id hs ct subs enc oh ob oe fs e l k post Hn Ht Hs1 Hc IH Hs2. cbn [with_fields]. unfold all_fields at 1. rewrite Hn. cbn [fp_headers].
    rewrite (TF _ _ _ _ Ht), IH. reflexivity.
  - reflexivity.
  - intros. cbn [map fst snd]. rewrite H, H0. reflexivity.
Qed.

Lemma edits_size L rx M prot max : (forall c, chr_lower L c <> []) ->
  (forall c, chr_is_alnum L c = true -> ~ ends_name c) ->
  (forall n h, hn_parse M n = Some h -> teqb_ic h n = true) ->
  forall es st t tail, parsed (fs_raw st) (fs_parts st) t tail -> Permutation (ids t) (seq 0 (length (fs_parts st))) ->
  well_formed (map view (fs_parts st)) -> fs_size st = length (fs_raw st) ->
  (forall e, In e es -> edit_part e < length (fs_parts st)) ->
  exists st', run_fedits L rx M prot max es st = Some st' /\
    builds st' (render (with_fields (fun id => map (written (fs_raw st)) (headers_at st' id)) t) ++ tail) /\
    fs_size st' = length (render (with_fields (fun id => map (written (fs_raw st)) (headers_at st' id)) t) ++ tail) /\
    length (fs_parts st') = length (fs_parts st) /\
    (forall id p, nth_error (fs_parts st) id = Some p ->
       sublist (filter original (headers_at st' id)) (fp_headers p)).
Proof.
  intros HL HA HN es st t tail HP Hperm HW HS HE.
  pose proof (parsed_raw _ _ _ _ HP) as Hraw. destruct HP as (p & Hp & Ho & Hl & Ht).
  pose proof (evolved_sizes _ _ _ _ Hl Hperm (Forall2_refl _ edited_refl (fs_parts st))) as E0.
  rewrite (parsed_edited_self _ _ _ _ Hl) in E0.
  assert (Hlen : length (fs_raw st) = fixed t + headers_size (map view (fs_parts st)) + length tail).
  { rewrite <- E0, <- app_length, <- Hraw. reflexivity. }
  destruct (run_edits_ok L rx M prot max HL HA HN es (fview st)) as (ms & Hms & W & Hle & Hln & Hsz & _).
  { exact HW. } { cbn [fview ms_parts ms_size]. rewrite HS. lia. } { intros e He. cbn [fview ms_parts]. rewrite map_length. auto. }
  rewrite <- fedits_view in Hms. destruct (run_fedits L rx M prot max es st) as [st'|] eqn:ER; [|discriminate].
  injection Hms as <-. exists st'. split; [reflexivity|].
  assert (HP : parsed (fs_raw st) (fs_parts st) t tail) by (exists p; auto).
  pose proof (edits_build _ _ _ _ _ _ _ _ _ _ HP ER) as B. split; [exact B|].
  pose proof (fedits_evolved _ _ _ _ _ _ _ _ ER) as (Hr & F).
  pose proof (evolved_sizes _ _ _ _ Hl Hperm F) as E1.
  split; [|split].
  - rewrite app_length. change (fun id => map (written (fs_raw st)) (headers_at st' id)) with (all_fields (fs_raw st) (fs_parts st')).
    rewrite E1. cbn [fview ms_size ms_parts] in *. lia.
  - eapply Forall2_len; eauto.
  - intros id q Hq. destruct (Forall2_nth _ _ _ F _ _ Hq) as (q' & Hq' & (hs' & -> & Hsub & _)).
    unfold headers_at. rewrite Hq'. replace (fp_headers (set_fheaders hs' q)) with hs' by (destruct q; reflexivity).
    eapply sublist_trans; [exact Hsub|]. clear. induction (fp_headers q) as [|x l IH]; cbn; [constructor|].
    destruct (original x); [apply sub_keep|apply sub_skip]; exact IH.
Qed.
