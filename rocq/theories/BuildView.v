(** The edits of a run ([Mime.replace], [Mime.enclose], [Mime.convert], on what the tests see
    of a message) and those of the message with its offsets ([freplace], ...) agree. *)
From Verif Require Import Base Lib Var Value Comparator Message EditHeader Mime Build BuildProofs2.

(** The names [replace] looks for. *)
Definition looked_for : list text := map lit ["Subject"; "From"; "To"; "Cc"; "Bcc"; "Received"; "Date"]%string.
(** The accounting of the run knows the offsets of the parts, and none of the header
    fields [replace] looks for was put there by an earlier [replace] or [enclose]. *)
Definition accounted (E : mimeenv) (st : fstate) : Prop :=
  forall p, In p (fs_parts st) -> me_psize E (view p) = old_size p /\
  forall h, In h (fp_headers p) -> h_bytes (fh_view h) = fh_end h - fh_field h /\
    (fh_other h = true -> existsb (hn_eqb (h_name (fh_view h))) looked_for = false).

Lemma kept_view s f : forall hs,
  (forall h, In h hs -> h_bytes (fh_view h) = fh_end h - fh_field h /\
    (fh_other h = true -> existsb (hn_eqb (h_name (fh_view h))) looked_for = false)) ->
  kept_headers s f (map fh_view hs) = let '(r, n, d) := fkept s f hs in (map fh_view r, n, d).
Proof.
  induction hs as [|h hs IH]; intros H; [reflexivity|]. cbn [map kept_headers fkept].
  rewrite (IH (fun x I => H x (or_intror I))). destruct (fkept s f hs) as [[r n] d].
  destruct (H h (or_introl eq_refl)) as [B O]. cbn [existsb map].
  destruct (fh_other h).
  - specialize (O eq_refl). unfold looked_for in O. cbn [existsb map] in O. repeat rewrite Bool.orb_false_iff in O.
    destruct O as (O1 & O2 & O3 & O4 & O5 & O6 & O7 & _). cbn [negb andb orb]. rewrite O1, O2, O3, O4, O5, O6, O7. reflexivity.
  - cbn [negb andb]. rewrite B.
    destruct (hn_eqb _ (lit "Subject")); [destruct s; reflexivity|].
    destruct (hn_eqb _ (lit "From")); [destruct f; reflexivity|].
    destruct (_ || _); [reflexivity|]. destruct (hn_eqb _ (lit "Date")); reflexivity.
Qed.

Lemma remove_view : forall ids ps, option_map (map view) (remove_all ids ps) = remove_all ids (map view ps).
Proof.
  assert (R : forall i (ps : list fpart), option_map (map view) (remove_at i ps) = remove_at i (map view ps)).
  { induction i as [|i IH]; intros [|p ps]; cbn; auto. rewrite <- IH. destruct (remove_at i ps); reflexivity. }
  induction ids as [|i ids IH]; intros ps; [reflexivity|]. cbn [remove_all]. rewrite <- R.
  destruct (remove_at i ps); cbn [option_map]; auto.
Qed.
Lemma remove_in {A} : forall ids (ps l : list A), remove_all ids ps = Some l -> forall p, In p l -> In p ps.
Proof.
  assert (R : forall i (ps l : list A), remove_at i ps = Some l -> forall p, In p l -> In p ps).
  { induction i as [|i IH]; intros [|p ps] l E x I; cbn in E; try discriminate.
    - injection E as <-. right. exact I.
    - destruct (remove_at i ps) eqn:X; [|discriminate]. cbn in E. injection E as <-. destruct I as [<-|I]; [left; reflexivity|right; eapply IH; eauto]. }
  induction ids as [|i ids IH]; intros ps l E x I; cbn in E; [congruence|].
  destruct (remove_at i ps) eqn:X; [|discriminate]. eapply R; eauto.
Qed.
Lemma inserts_view : forall l st, option_map fview (finsert_all l st) = insert_all l (fview st).
Proof.
  induction l as [|[p [n v]] l IH]; intros st; [reflexivity|]. cbn [finsert_all insert_all].
  rewrite <- (finsert_view true). destruct (finsert true st p n v true); cbn [option_map]; auto.
Qed.

Lemma replace_view E s f b mime id st : accounted E st ->
  option_map fview (freplace E s f b mime id st) = replace E s f b mime id (fview st).
Proof.
  intros A. unfold freplace, replace. cbn [fview ms_parts ms_size].
  destruct (nested_ids (map view (fs_parts st)) id false) as [ids|]; [|reflexivity].
  rewrite <- remove_view. destruct (remove_all (sort_desc ids) (fs_parts st)) as [ps|] eqn:R; [|reflexivity]. cbn [option_map].
  rewrite nth_error_map. destruct (nth_error ps id) as [p|] eqn:N; [|reflexivity]. cbn [option_map].
  destruct (A p) as [P H]; [eapply remove_in; [exact R|eapply nth_error_In; exact N]|]. rewrite P.
  destruct (Nat.ltb _ (old_size p)); [reflexivity|].
  rewrite view_headers.
  assert (K : (if Nat.eqb id 0 then kept_headers (match s with Some _ => true | None => false end) (match f with Some _ => true | None => false end) (map fh_view (fp_headers p)) else ([], 0, true)) =
    let '(r, n, d) := (if Nat.eqb id 0 then fkept (match s with Some _ => true | None => false end) (match f with Some _ => true | None => false end) (fp_headers p) else ([], 0, true)) in (map fh_view r, n, d)).
  { destruct (Nat.eqb id 0); [|reflexivity]. apply kept_view. exact H. }
  rewrite K. destruct (if Nat.eqb id 0 then fkept _ _ _ else _) as [[r n] d].
  assert (U : option_map (map view) (update_nth id (fun p => Some (FPart r None (FText b) (negb mime) (fp_oh p) 0 (fp_oe p))) ps) =
              update_nth id (fun _ => Some (Part (map fh_view r) None (BText b))) (map view ps)).
  { clear. revert ps. induction id as [|i IH]; intros [|p ps]; cbn; auto. rewrite <- IH. destruct (update_nth i _ ps); reflexivity. }
  rewrite <- U. destruct (update_nth id _ ps) as [ps'|]; [|reflexivity]. cbn [option_map]. rewrite inserts_view. reflexivity.
Qed.

Lemma enclose_view L M E hs s b st : option_map fview (fenclose L M E hs s b st) = enclose L M E hs s b (fview st).
Proof. unfold fenclose, enclose. cbv zeta. rewrite inserts_view. reflexivity. Qed.

Lemma convert_parts_view E cv : forall ps size did, (forall p, In p ps -> me_psize E (view p) = old_size p) ->
  option_map (fun r => (map view (fst (fst r)), snd (fst r), snd r)) (fconvert_parts E cv ps size did) = convert_parts E cv (map view ps) size did.
Proof.
  induction ps as [|p ps IH]; intros size did H; [reflexivity|]. cbn [fconvert_parts convert_parts map].
  assert (IH' := fun size did => IH size did (fun x I => H x (or_intror I))). clear IH.
  assert (X : forall t ct, convert_body E cv (view p) = Some (t, ct) -> exists u, t = BText u \/ t = BHtml u).
  { intros t ct. unfold convert_body. destruct (p_body (view p)), cv; try discriminate; intros E1; try (injection E1 as <- _; eauto).
    destruct (p_ct (view p)) as [c|]; [|discriminate]. destruct (ct_subtype c); [|discriminate]. destruct (teqb_ic _ _); [|discriminate].
    injection E1 as <- _. eauto. }
  unfold fconvert_body. destruct (convert_body E cv (view p)) as [[t ct]|] eqn:C.
  - destruct (X t ct eq_refl) as (u & [-> | ->]); cbn [fbody_len body_len]; rewrite (H p (or_introl eq_refl));
      (destruct (Nat.ltb _ (old_size p)); [reflexivity|]); rewrite <- IH';
      destruct (fconvert_parts E cv ps _ true) as [[[r n] d]|]; reflexivity.
  - rewrite <- IH'. destruct (fconvert_parts E cv ps size did) as [[[r n] d]|]; reflexivity.
Qed.
Lemma convert_view E from to st : accounted E st ->
  option_map (fun r => (fst r, fview (snd r))) (fconvert E from to st) = convert E from to (fview st).
Proof.
  intros A. unfold fconvert, convert. destruct (conversion_of from to) as [cv|]; [|reflexivity]. cbn [fview ms_parts ms_size].
  rewrite <- convert_parts_view by (intros p I; apply (A p I)).
  destruct (fconvert_parts E cv (fs_parts st) (fs_size st) false) as [[[r n] d]|]; reflexivity.
Qed.
