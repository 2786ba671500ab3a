From Verif Require Import Base Glob GlobSpec.

(** * Items: decompositions as cut functions *)

Definition is_many (it : pitem) : bool := match it with PMany _ => true | _ => false end.

Definition step_ok (V : list (ch * ch)) (it : pitem) (a b : nat) : Prop :=
  match it with
  | PMany _ => a <= b
  | POne => b = S a
  | PChar c => b = S a /\ exists x, nth_error V a = Some x /\ fst x = c
  end.

Definition valid (pat : list pitem) (V : list (ch * ch)) (E : nat -> nat) : Prop :=
  E 0 = 0 /\ E (length pat) = length V /\
  forall i it, nth_error pat i = Some it -> step_ok V it (E i) (E (S i)).

Lemma step_ok_le V it a b : step_ok V it a b -> a <= b.
Proof. destruct it; simpl; intros; lia. Qed.

Lemma valid_mono pat V E : valid pat V E -> forall i j, i <= j -> j <= length pat -> E i <= E j.
Proof.
  intros (H0 & Hn & Hs) i j Hij Hj. induction j as [|j IH].
  - replace i with 0 by lia. lia.
  - destruct (Nat.eq_dec i (S j)) as [->|]; [lia|].
    assert (Hj' : j < length pat) by lia.
    apply nth_error_Some in Hj'. destruct (nth_error pat j) as [it|] eqn:Eit; [|congruence].
    specialize (Hs _ _ Eit). apply step_ok_le in Hs. specialize (IH ltac:(lia) ltac:(lia)). lia.
Qed.

Definition cut (pat : list pitem) (mp : list nat) (i : nat) : nat :=
  match i with
  | 0 => 0
  | S j => match nth_error pat j with
           | Some (PMany _) => nth j mp 0
           | _ => S (nth j mp 0)
           end
  end.

Arguments cut : simpl never.

Lemma set_nth_length i v l : length (set_nth i v l) = length l.
Proof.
  unfold set_nth. rewrite app_length, firstn_length.
  destruct (skipn i l) as [|x r] eqn:E.
  - assert (length (skipn i l) = 0) by (rewrite E; reflexivity). rewrite skipn_length in H. simpl. lia.
  - assert (length (skipn i l) = S (length r)) by (rewrite E; reflexivity). rewrite skipn_length in H.
    simpl. lia.
Qed.

Lemma set_nth_same i v l : i < length l -> nth i (set_nth i v l) 0 = v.
Proof.
  intro H. unfold set_nth. rewrite app_nth2; rewrite firstn_length_le by lia; [|lia].
  rewrite Nat.sub_diag. destruct (skipn i l) as [|x r] eqn:E; [|reflexivity].
  assert (length (skipn i l) = 0) by (rewrite E; reflexivity). rewrite skipn_length in H0. lia.
Qed.

Lemma set_nth_other i j v l : i <> j -> nth j (set_nth i v l) 0 = nth j l 0.
Proof.
  revert i j. induction l as [|x l IH]; intros i j Hij.
  - unfold set_nth. rewrite firstn_nil, skipn_nil. reflexivity.
  - destruct i as [|i], j as [|j]; try lia; unfold set_nth; simpl.
    + reflexivity.
    + reflexivity.
    + apply (IH i j). lia.
Qed.

Lemma cut_set_other pat mp i v j : j <= i -> cut pat (set_nth i v mp) j = cut pat mp j.
Proof.
  intro H. destruct j as [|j]; [reflexivity|]. unfold cut.
  rewrite set_nth_other by lia. reflexivity.
Qed.

Section Loop.
  Variable pat : list pitem.
  Variable V : list (ch * ch).

  Definition back (s : gst) : Prop := 0 < next_nx s /\ px s = next_px s.

  Record Inv (s : gst) (mp : list nat) : Prop := {
    inv_len : length mp = length pat;
    inv_px : px s <= length pat;
    inv_nx : nx s <= length V;
    inv_nnx : next_nx s <= S (length V);
    inv_steps : forall i it, i < px s -> nth_error pat i = Some it ->
        step_ok V it (cut pat mp i) (cut pat mp (S i));
    inv_min : forall E, valid pat V E -> forall i, i <= px s -> cut pat mp i <= E i;
    inv_nostar : next_nx s = 0 -> forall i it, i < px s -> nth_error pat i = Some it -> is_many it = false;
    inv_star : 0 < next_nx s -> exists n, nth_error pat (next_px s) = Some (PMany n);
    inv_case :
      (back s /\ nx s = next_nx s /\ cut pat mp (px s) <= nx s /\
       forall E, valid pat V E -> nx s <= E (S (px s)))
      \/ (cut pat mp (px s) = nx s /\
          (0 < next_nx s -> next_px s < px s /\ S (cut pat mp (S (next_px s))) = next_nx s /\
             forall i it, next_px s < i -> i < px s -> nth_error pat i = Some it -> is_many it = false)) }.

  Lemma inv_init : Inv gst0 (map (fun _ => 0) pat).
  Proof.
    constructor; simpl; try lia.
    - apply map_length.
    - intros E HE i Hi. replace i with 0 by lia. unfold cut. lia.
    - right. split; [reflexivity|lia].
  Qed.

  (* between the last star and px, a rival decomposition that agrees at the star agrees all along *)
  Lemma agree_block (E : nat -> nat) mp a b :
    valid pat V E -> b <= length pat -> a <= b ->
    (forall i it, i < b -> nth_error pat i = Some it -> step_ok V it (cut pat mp i) (cut pat mp (S i))) ->
    (forall i it, a <= i -> i < b -> nth_error pat i = Some it -> is_many it = false) ->
    E a = cut pat mp a -> E b = cut pat mp b.
  Proof.
    intros (H0 & Hn & Hs) Hb Hab Hst Hns Ha. induction b as [|b IH].
    - replace a with 0 in Ha by lia. exact Ha.
    - destruct (Nat.eq_dec a (S b)) as [<-|]; [exact Ha|].
      assert (Hlt : b < length pat) by lia. apply nth_error_Some in Hlt.
      destruct (nth_error pat b) as [it|] eqn:Eit; [|congruence].
      assert (IHb : E b = cut pat mp b).
      { apply IH; try lia; [intros; eapply Hst; eauto; lia | intros; eapply Hns; eauto; lia]. }
      pose proof (Hs _ _ Eit) as S1. pose proof (Hst b it ltac:(lia) Eit) as S2.
      pose proof (Hns b it ltac:(lia) ltac:(lia) Eit) as S3.
      destruct it; simpl in *; try discriminate; lia.
  Qed.

  (* mismatch at (px, nx): no rival may pass with the star where it is *)
  Definition stuck (s : gst) : Prop :=
    (exists it, nth_error pat (px s) = Some it /\ forall b, ~ step_ok V it (nx s) b) \/
    (px s = length pat /\ nx s < length V) \/
    (exists it, nth_error pat (px s) = Some it /\ is_many it = false /\ nx s = length V).

  Lemma stuck_rival s mp : Inv s mp -> stuck s ->
    (forall n, nth_error pat (px s) <> Some (PMany n)) ->
    forall E, valid pat V E -> 0 < next_nx s /\ next_nx s <= E (S (next_px s)).
  Proof.
    intros I Hst Hnm E HE.
    destruct (inv_case _ _ I) as [(B & _) | (Hc & Hn)].
    { exfalso. destruct B as [B1 B2]. destruct (inv_star _ _ I B1) as [n Hn].
      rewrite <- B2 in Hn. apply (Hnm n). exact Hn. }
    assert (Hcontra : E (px s) = nx s -> False).
    { intro Heq. destruct HE as (H0 & HnE & Hs). destruct Hst as [(it & Hit & Hno)|[(Hp & Hlt)|(it & Hit & Hm & Hx)]].
      - specialize (Hs _ _ Hit). rewrite Heq in Hs. exact (Hno _ Hs).
      - rewrite Hp, HnE in Heq. lia.
      - pose proof (Hs _ _ Hit) as S1.
        assert (E (S (px s)) <= length V).
        { rewrite <- HnE. apply (valid_mono pat V E); [split; [|split]; assumption| |lia].
          assert (nth_error pat (px s) <> None) by congruence. apply nth_error_Some in H. lia. }
        destruct it; simpl in *; try discriminate; lia. }
    destruct (Nat.eq_dec (next_nx s) 0) as [Hz|Hnz].
    - exfalso. apply Hcontra. rewrite <- Hc.
      apply (agree_block E mp 0 (px s) HE (inv_px _ _ I)); [lia|..].
      + intros; eapply (inv_steps _ _ I); eauto.
      + intros i it _ Hi Hit. eapply (inv_nostar _ _ I); eauto.
      + destruct HE as (H0 & _). exact H0.
    - split; [lia|]. destruct (Hn ltac:(lia)) as (Hlt & Hcut & Hblk).
      pose proof (inv_min _ _ I E HE (S (next_px s)) ltac:(lia)) as Hmin.
      destruct (Nat.eq_dec (E (S (next_px s))) (cut pat mp (S (next_px s)))) as [Heq|]; [|lia].
      exfalso. apply Hcontra. rewrite <- Hc.
      apply (agree_block E mp (S (next_px s)) (px s) HE (inv_px _ _ I)); [lia|..].
      + intros; eapply (inv_steps _ _ I); eauto.
      + intros i it Hi1 Hi2 Hit. eapply Hblk; eauto.
      + exact Heq.
  Qed.

  Lemma inv_backtrack s mp : Inv s mp -> stuck s ->
    (forall n, nth_error pat (px s) <> Some (PMany n)) ->
    match backtrack (length V) s with
    | GDone _ => forall E, ~ valid pat V E
    | GGo s' => Inv s' mp
    end.
  Proof.
    intros I Hst Hnm. unfold backtrack.
    pose proof (stuck_rival _ _ I Hst Hnm) as HR.
    destruct (Nat.ltb_spec 0 (next_nx s)) as [H0|H0]; simpl.
    2:{ intros E HE. specialize (HR _ HE). lia. }
    destruct (inv_case _ _ I) as [(B & _) | (Hc & Hn)].
    { exfalso. destruct B as [B1 B2]. destruct (inv_star _ _ I B1) as [n Hn].
      rewrite <- B2 in Hn. apply (Hnm n). exact Hn. }
    destruct (Hn H0) as (Hlt & Hcut & Hblk).
    destruct (inv_star _ _ I H0) as [n Hsn].
    destruct (Nat.leb_spec (next_nx s) (length V)) as [H1|H1].
    - constructor; simpl.
      + apply (inv_len _ _ I).
      + pose proof (inv_px _ _ I). lia.
      + lia.
      + lia.
      + intros i it Hi. apply (inv_steps _ _ I). lia.
      + intros E HE i Hi. apply (inv_min _ _ I E HE). lia.
      + intro; lia.
      + intros _. exists n. exact Hsn.
      + left. split; [split; simpl; auto|]. split; [reflexivity|]. split.
        * pose proof (inv_steps _ _ I _ _ Hlt Hsn) as S1. apply step_ok_le in S1. lia.
        * intros E HE. apply (HR E HE).
    - intros E HE. destruct (HR _ HE) as [_ HR'].
      pose proof (valid_mono _ _ _ HE (S (next_px s)) (length pat)) as Hm.
      pose proof (inv_px _ _ I). specialize (Hm ltac:(lia) ltac:(lia)).
      destruct HE as (_ & HnE & _). lia.
  Qed.

  Lemma inv_advance s mp it : Inv s mp -> nth_error pat (px s) = Some it -> is_many it = false ->
    step_ok V it (nx s) (S (nx s)) -> nx s < length V ->
    Inv {| px := S (px s); nx := S (nx s); next_px := next_px s; next_nx := next_nx s |}
        (set_nth (px s) (nx s) mp).
  Proof.
    intros I Hit Hnm Hok Hnx.
    assert (Hp : px s < length pat) by (apply nth_error_Some; congruence).
    destruct (inv_case _ _ I) as [(B & _) | (Hc & Hn)].
    { exfalso. destruct B as [B1 B2]. destruct (inv_star _ _ I B1) as [n Hn].
      rewrite <- B2, Hit in Hn. inversion Hn; subst. discriminate. }
    assert (Hcut' : cut pat (set_nth (px s) (nx s) mp) (S (px s)) = S (nx s)).
    { unfold cut. rewrite Hit. rewrite set_nth_same by (rewrite (inv_len _ _ I); exact Hp).
      destruct it; [discriminate|reflexivity|reflexivity]. }
    constructor; simpl.
    - rewrite set_nth_length. apply (inv_len _ _ I).
    - lia.
    - lia.
    - apply (inv_nnx _ _ I).
    - intros i it' Hi Hit'. destruct (Nat.eq_dec i (px s)) as [->|].
      + rewrite Hit in Hit'. inversion Hit'; subst it'.
        rewrite Hcut', cut_set_other by lia. rewrite Hc. exact Hok.
      + rewrite !cut_set_other by lia. apply (inv_steps _ _ I); [lia|exact Hit'].
    - intros E HE i Hi. destruct (Nat.eq_dec i (S (px s))) as [->|].
      + rewrite Hcut'. pose proof (inv_min _ _ I E HE (px s) ltac:(lia)) as M.
        destruct HE as (_ & _ & Hs). specialize (Hs _ _ Hit). rewrite Hc in M.
        destruct it; simpl in *; try discriminate; lia.
      + rewrite cut_set_other by lia. apply (inv_min _ _ I E HE). lia.
    - intros Hz i it' Hi Hit'. destruct (Nat.eq_dec i (px s)) as [->|].
      + congruence.
      + eapply (inv_nostar _ _ I); eauto. lia.
    - intro H0. apply (inv_star _ _ I H0).
    - right. split; [exact Hcut'|]. intro H0. destruct (Hn H0) as (Hlt & Hcut & Hblk).
      split; [lia|]. split.
      + rewrite cut_set_other by lia. exact Hcut.
      + intros i it' Hi1 Hi2 Hit'. destruct (Nat.eq_dec i (px s)) as [->|]; [congruence|].
        eapply Hblk; eauto. lia.
  Qed.

  Lemma inv_many s mp n : Inv s mp -> nth_error pat (px s) = Some (PMany n) ->
    Inv {| px := S (px s); nx := nx s; next_px := px s; next_nx := S (nx s) |}
        (set_nth (px s) (nx s) mp).
  Proof.
    intros I Hit.
    assert (Hp : px s < length pat) by (apply nth_error_Some; congruence).
    assert (Hcut' : cut pat (set_nth (px s) (nx s) mp) (S (px s)) = nx s).
    { unfold cut. rewrite Hit. apply set_nth_same. rewrite (inv_len _ _ I). exact Hp. }
    assert (Hle : cut pat mp (px s) <= nx s).
    { destruct (inv_case _ _ I) as [(_ & _ & H & _)|(H & _)]; lia. }
    assert (Hmin : forall E, valid pat V E -> nx s <= E (S (px s))).
    { intros E HE. destruct (inv_case _ _ I) as [(_ & _ & _ & H)|(H & _)]; [apply H; exact HE|].
      pose proof (inv_min _ _ I E HE (px s) ltac:(lia)) as M.
      destruct HE as (_ & _ & Hs). specialize (Hs _ _ Hit). simpl in Hs. lia. }
    pose proof (inv_nx _ _ I).
    constructor; simpl.
    - rewrite set_nth_length. apply (inv_len _ _ I).
    - lia.
    - lia.
    - lia.
    - intros i it' Hi Hit'. destruct (Nat.eq_dec i (px s)) as [->|].
      + rewrite Hit in Hit'. inversion Hit'; subst it'.
        rewrite Hcut', cut_set_other by lia. simpl. exact Hle.
      + rewrite !cut_set_other by lia. apply (inv_steps _ _ I); [lia|exact Hit'].
    - intros E HE i Hi. destruct (Nat.eq_dec i (S (px s))) as [->|].
      + rewrite Hcut'. apply Hmin. exact HE.
      + rewrite cut_set_other by lia. apply (inv_min _ _ I E HE). lia.
    - intro; lia.
    - intros _. exists n. exact Hit.
    - right. split; [exact Hcut'|]. intros _. split; [lia|]. split; [rewrite Hcut'; reflexivity|].
      intros i it' Hi1 Hi2. lia.
  Qed.

  Definition measure (s : gst) : nat :=
    (S (length V) - next_nx s) * (S (S (length pat))) +
    (if (Nat.ltb 0 (next_nx s) && Nat.eqb (px s) (next_px s))%bool then 0 else S (length pat - px s)).

  Definition good_cut (mp : list nat) : Prop :=
    length mp = length pat /\ valid pat V (cut pat mp) /\
    forall E, valid pat V E -> forall i, i <= length pat -> cut pat mp i <= E i.

  Lemma nth_none_len (s : gst) mp : Inv s mp -> nth_error pat (px s) = None -> px s = length pat.
  Proof. intros I H. apply nth_error_None in H. pose proof (inv_px _ _ I). lia. Qed.

  Lemma backtrack_measure s s' : backtrack (length V) s = GGo s' -> ~ back s -> measure s' < measure s.
  Proof.
    unfold backtrack. intros H Hb.
    destruct (Nat.ltb 0 (next_nx s) && Nat.leb (next_nx s) (length V)) eqn:E; [|discriminate].
    inversion H; subst s'; clear H. unfold measure; cbn [px nx next_px next_nx].
    apply andb_true_iff in E as [E1 E2]. rewrite E1, Nat.eqb_refl. cbn [andb].
    apply Nat.ltb_lt in E1.
    destruct (Nat.eqb_spec (px s) (next_px s)) as [Heq|Hne].
    - exfalso. apply Hb. split; [lia|exact Heq].
    - lia.
  Qed.

  Lemma inv_not_back s mp : Inv s mp -> (forall n, nth_error pat (px s) <> Some (PMany n)) -> ~ back s.
  Proof.
    intros I Hnm [B1 B2]. destruct (inv_star _ _ I B1) as [n Hn]. rewrite <- B2 in Hn.
    exact (Hnm n Hn).
  Qed.

  Lemma step_sound s mp : Inv s mp ->
    match cap_step pat V s mp with
    | (GDone true, mp') => good_cut mp'
    | (GDone false, _) => forall E, ~ valid pat V E
    | (GGo s', mp') => Inv s' mp' /\ measure s' < measure s
    end.
  Proof.
    intro I. unfold cap_step.
    destruct (Nat.ltb (px s) (length pat) || Nat.ltb (nx s) (length V)) eqn:Econd.
    - assert (Hbk : stuck s -> (forall n, nth_error pat (px s) <> Some (PMany n)) ->
        match (backtrack (length V) s, mp) with
        | (GDone true, mp') => good_cut mp'
        | (GDone false, _) => forall E, ~ valid pat V E
        | (GGo s', mp') => Inv s' mp' /\ measure s' < measure s
        end).
      { intros Hst Hnm. pose proof (inv_backtrack _ _ I Hst Hnm) as HB.
        destruct (backtrack (length V) s) as [b|s'] eqn:EB.
        - unfold backtrack in EB. destruct (_ && _); inversion EB; subst. exact HB.
        - split; [exact HB|]. apply backtrack_measure; [exact EB|].
          eapply inv_not_back; eauto. }
      assert (Hadv : forall it, nth_error pat (px s) = Some it -> is_many it = false ->
        step_ok V it (nx s) (S (nx s)) -> nx s < length V ->
        Inv {| px := S (px s); nx := S (nx s); next_px := next_px s; next_nx := next_nx s |}
            (set_nth (px s) (nx s) mp) /\
        measure {| px := S (px s); nx := S (nx s); next_px := next_px s; next_nx := next_nx s |} < measure s).
      { intros it Hit Hm Hok Hnx. split; [eapply inv_advance; eauto|].
        assert (~ back s) as NB.
        { eapply inv_not_back; eauto. intros n Hn. rewrite Hit in Hn. inversion Hn; subst. discriminate. }
        assert (px s < length pat) by (apply nth_error_Some; congruence).
        unfold measure; cbn [px nx next_px next_nx].
        destruct (Nat.ltb_spec 0 (next_nx s)) as [H0|H0]; cbn [andb].
        - destruct (Nat.eqb_spec (px s) (next_px s)); [exfalso; apply NB; split; assumption|].
          destruct (Nat.eqb_spec (S (px s)) (next_px s)); lia.
        - lia. }
      destruct (nth_error pat (px s)) as [it|] eqn:Hit.
      + destruct it as [n| |c].
        * split; [eapply inv_many; eauto|].
          assert (px s < length pat) by (apply nth_error_Some; congruence).
          unfold measure; cbn [px nx next_px next_nx].
          replace (S (px s) =? px s) with false by (symmetry; apply Nat.eqb_neq; lia).
          replace (0 <? S (nx s)) with true by reflexivity. cbn [andb].
          pose proof (inv_nx _ _ I) as Hnx. pose proof (inv_nnx _ _ I) as Hnnx.
          destruct (inv_case _ _ I) as [((B1 & B2) & Hn & Hc & _)|(Hc & Hn)].
          -- replace (0 <? next_nx s) with true by (symmetry; apply Nat.ltb_lt; lia).
             rewrite B2, Nat.eqb_refl. cbn [andb]. rewrite Hn.
             replace (S (length V) - next_nx s) with (S (S (length V) - S (next_nx s))) by lia.
             rewrite Nat.mul_succ_l. lia.
          -- assert (next_nx s <= S (nx s)).
             { destruct (Nat.eq_dec (next_nx s) 0); [lia|]. destruct (Hn ltac:(lia)) as (Hlt & Hcut & Hb).
               assert (Hmono : forall j, S (next_px s) <= j -> j <= px s ->
                         cut pat mp (S (next_px s)) <= cut pat mp j).
               { induction j as [|j IHj]; intros H1 H2; [lia|].
                 destruct (Nat.eq_dec (S (next_px s)) (S j)) as [->|]; [lia|].
                 assert (Hj : j < length pat) by lia. apply nth_error_Some in Hj.
                 destruct (nth_error pat j) as [it|] eqn:Ej; [|congruence].
                 pose proof (inv_steps _ _ I j it ltac:(lia) Ej) as S1. apply step_ok_le in S1.
                 specialize (IHj ltac:(lia) ltac:(lia)). lia. }
               specialize (Hmono (px s) ltac:(lia) ltac:(lia)). lia. }
             assert ((S (length V) - S (nx s)) * S (S (length pat)) <=
                     (S (length V) - next_nx s) * S (S (length pat)))
               by (apply Nat.mul_le_mono_r; lia).
             destruct (Nat.ltb_spec 0 (next_nx s)) as [Hz0|Hz0]; cbn [andb].
             ++ destruct (Hn Hz0) as (Hlt & _).
                replace (px s =? next_px s) with false by (symmetry; apply Nat.eqb_neq; lia). lia.
             ++ lia.
        * destruct (Nat.ltb_spec (nx s) (length V)) as [Hlt|Hge].
          -- apply (Hadv POne); auto. reflexivity.
          -- apply Hbk.
             ++ right. right. exists POne. pose proof (inv_nx _ _ I). repeat split; auto. lia.
             ++ intros n Hn. discriminate.
        * assert (Hnm : forall n, Some (PChar c) <> Some (PMany n)) by (intros n Hn; discriminate).
          destruct (nth_error V (nx s)) as [x|] eqn:Ex.
          -- destruct (N.eqb_spec (fst x) c) as [Heq|Hne].
             ++ apply (Hadv (PChar c)); auto.
                ** simpl. split; [reflexivity|]. exists x. split; assumption.
                ** apply nth_error_Some. congruence.
             ++ apply Hbk; [|exact Hnm]. left. exists (PChar c). split; [exact Hit|].
                intros b [_ (y & Hy & Hy')]. rewrite Ex in Hy. inversion Hy; subst. contradiction.
          -- apply Hbk; [|exact Hnm]. right. right. exists (PChar c).
             apply nth_error_None in Ex. pose proof (inv_nx _ _ I). repeat split; auto. lia.
      + apply Hbk; [|intros n Hn; discriminate].
        right. left. pose proof (nth_none_len _ _ I Hit) as Hl. split; [exact Hl|].
        apply orb_true_iff in Econd as [H|H]; apply Nat.ltb_lt in H; lia.
    - apply orb_false_iff in Econd as [E1 E2]. apply Nat.ltb_ge in E1, E2.
      pose proof (inv_px _ _ I). pose proof (inv_nx _ _ I).
      assert (Hpx : px s = length pat) by lia. assert (Hnx : nx s = length V) by lia.
      assert (NB : forall n, nth_error pat (px s) <> Some (PMany n)).
      { intros n Hn. assert (px s < length pat) by (apply nth_error_Some; congruence). lia. }
      destruct (inv_case _ _ I) as [(B & _)|(Hc & _)].
      { exfalso. exact (inv_not_back _ _ I NB B). }
      split; [apply (inv_len _ _ I)|]. split.
      + split; [reflexivity|]. split; [rewrite <- Hpx, Hc; exact Hnx|].
        intros i it Hit. apply (inv_steps _ _ I); [|exact Hit]. rewrite Hpx.
        apply nth_error_Some. congruence.
      + intros E HE i Hi. apply (inv_min _ _ I E HE). lia.
  Qed.

  Lemma loop_sound : forall fuel s mp, Inv s mp -> measure s < fuel ->
    match cap_loop fuel pat V s mp with
    | None => False
    | Some (true, mp') => good_cut mp'
    | Some (false, _) => forall E, ~ valid pat V E
    end.
  Proof.
    induction fuel as [|f IH]; intros s mp I Hm; [lia|].
    cbn [cap_loop]. pose proof (step_sound _ _ I) as HS.
    destruct (cap_step pat V s mp) as [[b|s'] mp'].
    - destruct b; exact HS.
    - destruct HS as [I' Hlt]. apply IH; [exact I'|lia].
  Qed.

  Lemma cap_loop_sound :
    match cap_loop (match_fuel pat (length V)) pat V gst0 (map (fun _ => 0) pat) with
    | None => False
    | Some (true, mp') => good_cut mp'
    | Some (false, _) => forall E, ~ valid pat V E
    end.
  Proof.
    apply loop_sound; [apply inv_init|]. unfold measure, match_fuel; cbn [px nx next_px next_nx gst0].
    rewrite Nat.sub_0_r. cbn [andb Nat.ltb Nat.leb]. 
    rewrite (Nat.mul_comm (S (S (length pat)))).
    rewrite (Nat.mul_succ_l (S (length V))). lia.
  Qed.
End Loop.

(** [matches] runs the same loop as [capture], without positions. *)
Lemma match_loop_cap fuel pat V s mp :
  match_loop fuel pat (map fst V) s =
  match cap_loop fuel pat V s mp with Some (b, _) => Some b | None => None end.
Proof.
  revert s mp. induction fuel as [|f IH]; intros s mp; [reflexivity|].
  cbn [match_loop cap_loop]. unfold match_step, cap_step. rewrite map_length.
  destruct (Nat.ltb (px s) (length pat) || Nat.ltb (nx s) (length V)); [|reflexivity].
  destruct (nth_error pat (px s)) as [it|].
  - destruct it as [n| |c].
    + apply IH.
    + destruct (Nat.ltb (nx s) (length V)); [apply IH|].
      unfold backtrack. destruct (_ && _); [apply IH|reflexivity].
    + rewrite nth_error_map. destruct (nth_error V (nx s)) as [x|]; cbn [option_map].
      * destruct (N.eqb (fst x) c); [apply IH|].
        unfold backtrack. destruct (_ && _); [apply IH|reflexivity].
      * unfold backtrack. destruct (_ && _); [apply IH|reflexivity].
  - unfold backtrack. destruct (_ && _); [apply IH|reflexivity].
Qed.

(** * Items: decompositions as lists of pieces *)
Inductive idec : list pitem -> list (ch * ch) -> list (list (ch * ch)) -> Prop :=
| id_nil : idec [] [] []
| id_many : forall n p u v us, idec p v us -> idec (PMany n :: p) (u ++ v) (u :: us)
| id_one : forall p x v us, idec p v us -> idec (POne :: p) (x :: v) ([x] :: us)
| id_char : forall c p x v us, fst x = c -> idec p v us -> idec (PChar c :: p) (x :: v) ([x] :: us).

Fixpoint cutsum (us : list (list (ch * ch))) (i : nat) {struct i} : nat :=
  match i, us with
  | 0, _ => 0
  | S j, [] => 0
  | S j, u :: us' => length u + cutsum us' j
  end.

(* valid with an offset, to do induction on the pattern *)
Lemma idec_valid pat V us : idec pat V us -> valid pat V (cutsum us).
Proof.
  induction 1 as [|n p u v us H IH|p x v us H IH|c p x v us Hc H IH].
  - split; [reflexivity|]. split; [reflexivity|]. intros i it Hi. destruct i; discriminate.
  - destruct IH as (H0 & Hn & Hs). split; [reflexivity|]. split.
    + simpl. rewrite app_length, Hn. reflexivity.
    + intros [|i] it Hit; simpl in Hit.
      * inversion Hit; subst. simpl. lia.
      * specialize (Hs _ _ Hit). cbn [cutsum]. destruct it; simpl in *; try lia.
        destruct Hs as (H1 & y & H2 & H3). split; [lia|]. exists y. split; [|exact H3].
        rewrite nth_error_app2 by lia. replace (length u + cutsum us i - length u) with (cutsum us i) by lia.
        exact H2.
  - destruct IH as (H0 & Hn & Hs). split; [reflexivity|]. split.
    + simpl. rewrite Hn. reflexivity.
    + intros [|i] it Hit; simpl in Hit.
      * inversion Hit; subst. cbn [cutsum length]. reflexivity.
      * specialize (Hs _ _ Hit). cbn [cutsum length]. destruct it; simpl in *; try lia.
        destruct Hs as (H1 & y & H2 & H3). split; [lia|]. exists y. split; assumption.
  - destruct IH as (H0 & Hn & Hs). split; [reflexivity|]. split.
    + simpl. rewrite Hn. reflexivity.
    + intros [|i] it Hit; simpl in Hit.
      * inversion Hit; subst. cbn [cutsum length]. simpl. split; [reflexivity|].
        exists x. split; reflexivity.
      * specialize (Hs _ _ Hit). cbn [cutsum length]. destruct it; simpl in *; try lia.
        destruct Hs as (H1 & y & H2 & H3). split; [lia|]. exists y. split; assumption.
Qed.

Definition pieces (V : list (ch * ch)) (E : nat -> nat) (n : nat) : list (list (ch * ch)) :=
  map (fun i => firstn (E (S i) - E i) (skipn (E i) V)) (seq 0 n).

Lemma firstn_skipn_split {A} (l : list A) a b : a <= b ->
  skipn a l = firstn (b - a) (skipn a l) ++ skipn b l.
Proof.
  intro H. rewrite <- (firstn_skipn (b - a) (skipn a l)) at 1. f_equal.
  rewrite skipn_skipn'. f_equal. lia.
Qed.

Lemma valid_idec_gen V E : forall pat off,
  E (off + length pat) = length V ->
  (forall i it, nth_error pat i = Some it -> step_ok V it (E (off + i)) (E (off + S i))) ->
  idec pat (skipn (E off) V)
    (map (fun i => firstn (E (S i) - E i) (skipn (E i) V)) (seq off (length pat))).
Proof.
  induction pat as [|it pat IH]; intros off Hn Hs.
  - cbn [length] in *. rewrite Nat.add_0_r in Hn. rewrite Hn, skipn_all. constructor.
  - cbn [length seq map].
    assert (IH' : idec pat (skipn (E (S off)) V)
      (map (fun i => firstn (E (S i) - E i) (skipn (E i) V)) (seq (S off) (length pat)))).
    { apply IH.
      - cbn [length] in Hn. replace (S off + length pat) with (off + S (length pat)) by lia. exact Hn.
      - intros i it' Hit. specialize (Hs (S i) it' Hit).
        replace (S off + i) with (off + S i) by lia. replace (S off + S i) with (off + S (S i)) by lia.
        exact Hs. }
    pose proof (Hs 0 it eq_refl) as H0. rewrite Nat.add_0_r, Nat.add_1_r in H0.
    assert (Hle : E (S off) <= length V).
    { cbn [length] in Hn. rewrite <- Hn.
      assert (Hmono : forall k, k <= length pat -> E (S off) <= E (S off + k)).
      { induction k as [|k IHk]; intro Hk; [rewrite Nat.add_0_r; lia|].
        assert (Hk' : k < length pat) by lia. apply nth_error_Some in Hk'.
        destruct (nth_error pat k) as [it'|] eqn:Ek; [|congruence].
        specialize (Hs (S k) it' Ek). apply step_ok_le in Hs.
        specialize (IHk ltac:(lia)). replace (S off + k) with (off + S k) in IHk by lia.
        replace (S off + S k) with (off + S (S k)) by lia. lia. }
      specialize (Hmono (length pat) (le_n _)). replace (off + S (length pat)) with (S off + length pat) by lia.
      exact Hmono. }
    destruct it as [n| |c]; simpl in H0.
    + rewrite (firstn_skipn_split V (E off) (E (S off)) H0) at 1. constructor. exact IH'.
    + rewrite H0. replace (S (E off) - E off) with 1 by lia.
      destruct (skipn (E off) V) as [|x r] eqn:Esk.
      { assert (length (skipn (E off) V) = 0) by (rewrite Esk; reflexivity).
        rewrite skipn_length in H. lia. }
      cbn [firstn]. constructor.
      replace r with (skipn (E (S off)) V); [exact IH'|].
      rewrite H0. replace (S (E off)) with (1 + E off) by lia.
      rewrite <- skipn_skipn', Esk. reflexivity.
    + destruct H0 as (H0 & y & Hy & Hyc). rewrite H0. replace (S (E off) - E off) with 1 by lia.
      destruct (skipn (E off) V) as [|x r] eqn:Esk.
      { assert (length (skipn (E off) V) = 0) by (rewrite Esk; reflexivity).
        rewrite skipn_length in H. lia. }
      assert (Hx : nth_error V (E off) = Some x).
      { rewrite <- (firstn_skipn (E off) V), Esk.
        rewrite nth_error_app2; rewrite firstn_length_le by lia; [|lia].
        rewrite Nat.sub_diag. reflexivity. }
      rewrite Hx in Hy. inversion Hy; subst y.
      cbn [firstn]. constructor; [exact Hyc|].
      replace r with (skipn (E (S off)) V); [exact IH'|].
      rewrite H0. replace (S (E off)) with (1 + E off) by lia.
      rewrite <- skipn_skipn', Esk. reflexivity.
Qed.

Lemma valid_idec pat V E : valid pat V E -> idec pat V (pieces V E (length pat)).
Proof.
  intros (H0 & Hn & Hs). unfold pieces.
  pose proof (valid_idec_gen V E pat 0 Hn Hs) as H. rewrite H0 in H. exact H.
Qed.

Lemma idec_concat pat V us : idec pat V us -> concat us = V.
Proof. induction 1; simpl; congruence. Qed.

Lemma idec_length pat V us : idec pat V us -> length us = length pat.
Proof. induction 1; simpl; congruence. Qed.

Lemma pieces_cutsum V E : forall n off, 
  (forall i, i < n -> E (off + i) <= E (S (off + i))) -> E (off + n) <= length V ->
  forall i, i <= n ->
  E off + cutsum (map (fun i => firstn (E (S i) - E i) (skipn (E i) V)) (seq off n)) i = E (off + i).
Proof.
  induction n as [|n IH]; intros off Hmono Hn i Hi.
  - replace i with 0 by lia. cbn [cutsum]. rewrite !Nat.add_0_r. reflexivity.
  - destruct i as [|i]; [cbn [cutsum]; rewrite !Nat.add_0_r; reflexivity|].
    cbn [seq map cutsum].
    assert (Hm : forall k, k <= S n -> E (off + k) <= E (off + S n)).
    { intros k Hk. assert (forall d, d <= S n - k -> E (off + k) <= E (off + k + d)) as HH.
      { induction d as [|d IHd]; intro Hd; [rewrite Nat.add_0_r; lia|].
        specialize (IHd ltac:(lia)). specialize (Hmono (k + d) ltac:(lia)).
        replace (off + (k + d)) with (off + k + d) in Hmono by lia.
        replace (off + k + S d) with (S (off + k + d)) by lia. lia. }
      specialize (HH (S n - k) (le_n _)). replace (off + k + (S n - k)) with (off + S n) in HH by lia. exact HH. }
    rewrite firstn_length_le.
    2:{ rewrite skipn_length. pose proof (Hm 1 ltac:(lia)) as H1. rewrite Nat.add_1_r in H1. lia. }
    specialize (IH (S off)).
    assert (IH1 : forall i0, i0 < n -> E (S off + i0) <= E (S (S off + i0))).
    { intros j Hj. specialize (Hmono (S j) ltac:(lia)). replace (off + S j) with (S off + j) in Hmono by lia. exact Hmono. }
    specialize (IH IH1). replace (S off + n) with (off + S n) in IH by lia. specialize (IH Hn i ltac:(lia)).
    replace (S off + i) with (off + S i) in IH by lia. rewrite <- IH.
    pose proof (Hmono 0 ltac:(lia)) as H0. rewrite Nat.add_0_r in H0.
    revert H0. generalize (E off) (E (S off)). intros e1 e2 H0.
    generalize (cutsum (map (fun i0 : nat => firstn (E (S i0) - E i0) (skipn (E i0) V)) (seq (S off) n)) i).
    intro z. lia.
Qed.

Lemma valid_pieces_cutsum pat V E : valid pat V E ->
  forall i, i <= length pat -> cutsum (pieces V E (length pat)) i = E i.
Proof.
  intros HE i Hi. pose proof HE as (H0 & Hn & Hs).
  pose proof (pieces_cutsum V E (length pat) 0) as H. rewrite H0 in H. apply H; [|simpl; lia|exact Hi].
  intros j Hj. apply (valid_mono pat V E HE); simpl; lia.
Qed.

(** Pieces of the wildcards, item by item; the leading stars of a run are empty. *)
Fixpoint wild (items : list pitem) (us : list (list (ch * ch))) : list (list (ch * ch)) :=
  match items, us with
  | PMany n :: items', u :: us' => repeat [] (n - 1) ++ u :: wild items' us'
  | POne :: items', u :: us' => u :: wild items' us'
  | PChar _ :: items', _ :: us' => wild items' us'
  | _, _ => []
  end.

(** All ways to distribute the piece of a run over its stars. *)
Inductive crel : list pitem -> list (list (ch * ch)) -> list (list (ch * ch)) -> Prop :=
| cr_nil : crel [] [] []
| cr_many : forall k items us ws pcs, length pcs = S k -> crel items us ws ->
    crel (PMany (S k) :: items) (concat pcs :: us) (pcs ++ ws)
| cr_one : forall items us ws x, crel items us ws -> crel (POne :: items) ([x] :: us) ([x] :: ws)
| cr_char : forall c items us ws x, crel items us ws -> crel (PChar c :: items) ([x] :: us) ws.

Lemma lexle_refl l : lexle l l.
Proof. induction l; [constructor|apply lex_eq; assumption]. Qed.

Lemma lexle_run k n u pcs l l' : length pcs = S k -> k = n ->
  (length u < length (concat pcs) \/ (length u = length (concat pcs) /\ lexle l l')) ->
  lexle (map (@length (ch * ch)) (repeat [] n ++ [u]) ++ l) (map (@length (ch * ch)) pcs ++ l').
Proof.
  revert n pcs. induction k as [|k IH]; intros n pcs Hl Hn H; subst n.
  - destruct pcs as [|p [|]]; try discriminate. simpl in *. rewrite app_nil_r in H.
    destruct H as [H|[H H']]; [apply lex_lt; exact H|rewrite H; apply lex_eq; exact H'].
  - destruct pcs as [|p pcs]; [discriminate|]. simpl. destruct p as [|x p].
    + apply lex_eq. apply IH; [simpl in Hl; lia|reflexivity|]. exact H.
    + apply lex_lt. simpl. lia.
Qed.

Lemma crel_lexle items us0 ws0 : crel items us0 ws0 -> forall V us, idec items V us ->
  (forall i, i <= length items -> cutsum us i <= cutsum us0 i) ->
  lexle (map (@length _) (wild items us)) (map (@length _) ws0).
Proof.
  induction 1 as [|k items us0 ws0 pcs Hl H IH|items us0 ws0 x0 H IH|c items us0 ws0 x0 H IH];
    intros V us Hd Hc.
  - constructor.
  - inversion Hd as [|n p u v us' Hd'| |]; subst. cbn [wild].
    replace (S k - 1) with k by lia.
    change (u :: wild items us') with ([u] ++ wild items us'). rewrite app_assoc, map_app, (map_app _ pcs).
    apply (lexle_run k k); [exact Hl|reflexivity|].
    pose proof (Hc 1 ltac:(simpl; lia)) as H1. simpl in H1.
    destruct (Nat.eq_dec (length u) (length (concat pcs))) as [Heq|]; [right|left].
    + split; [exact Heq|]. apply (IH _ _ Hd'). intros i Hi.
      specialize (Hc (S i) ltac:(simpl; lia)). simpl in Hc. lia.
    + simpl in *. lia.
  - inversion Hd as [| |p x v us' Hd'|]; subst. cbn [wild map length].
    apply lex_eq. apply (IH _ _ Hd'). intros i Hi.
    specialize (Hc (S i) ltac:(simpl; lia)). simpl in Hc. lia.
  - inversion Hd as [| | |c' p x v us' Hx Hd']; subst. cbn [wild].
    apply (IH _ _ Hd'). intros i Hi.
    specialize (Hc (S i) ltac:(simpl; lia)). simpl in Hc. lia.
Qed.

(** * From pattern texts to items *)
Section Compile.
  Variable is_upper : ch -> bool.
  Variable char_lower : ch -> text.
  Variable tl : bool.
  Let fold := pfold is_upper char_lower tl.
  Let comp := compile_go is_upper char_lower tl.

  Definition pending (esc : bool) (stars : nat) (p : text) : text :=
    if esc then c_bslash :: p else repeat c_star stars ++ p.

  Lemma star_run p (V : list (ch * ch)) ws k u : globw fold p V ws ->
    globw fold (repeat c_star (S k) ++ p) (u ++ V) (repeat [] k ++ u :: ws).
  Proof.
    intro H. induction k as [|k IH].
    - simpl. apply gw_star. exact H.
    - cbn [repeat app] in *. change (u ++ V) with ([] ++ (u ++ V)). apply gw_star. exact IH.
  Qed.

  Lemma star_run_inv k : forall p (V : list (ch * ch)) ws, globw fold (repeat c_star k ++ p) V ws ->
    exists pcs V' ws', length pcs = k /\ V = concat pcs ++ V' /\ ws = pcs ++ ws' /\ globw fold p V' ws'.
  Proof.
    induction k as [|k IH]; intros p V ws H.
    - exists [], V, ws. repeat split. exact H.
    - cbn [repeat app] in H. inversion H; subst; try (unfold c_star, c_quest, c_bslash in *; congruence).
      match goal with Hg : globw fold (repeat c_star k ++ p) _ _ |- _ => destruct (IH _ _ _ Hg) as (pcs & V' & ws' & Hl & HV & Hw & Hg') end.
      exists (u :: pcs), V', ws'. simpl. repeat split; try congruence.
      rewrite HV. apply app_assoc.
  Qed.

  Lemma idec_lits l q V us : idec (map PChar l ++ q) V us ->
    exists s V' us', V = s ++ V' /\ map fst s = l /\ us = map (fun x => [x]) s ++ us' /\ idec q V' us'.
  Proof.
    revert V us. induction l as [|c l IH]; intros V us H.
    - exists [], V, us. repeat split. exact H.
    - cbn [map app] in H. inversion H as [| | |c' p x v us1 Hx Hd']; subst.
      destruct (IH _ _ Hd') as (s & V' & us' & H1 & H2 & H3 & H4).
      exists (x :: s), V', us'. simpl. repeat split; congruence.
  Qed.

  Lemma lits_idec s q V us : idec q V us ->
    idec (map PChar (map fst s) ++ q) (s ++ V) (map (fun x => [x]) s ++ us).
  Proof. intro H. induction s as [|x s IH]; [exact H|]. simpl. constructor; [reflexivity|exact IH]. Qed.

  Lemma wild_lits s q us :
    wild (map PChar (map fst s) ++ q) (map (fun x => [x]) s ++ us) = wild q us.
  Proof. induction s as [|x s IH]; [reflexivity|exact IH]. Qed.

  Lemma crel_lits s q us ws : crel q us ws ->
    crel (map PChar (map fst s) ++ q) (map (fun x => [x]) s ++ us) ws.
  Proof. intro H. induction s as [|x s IH]; [exact H|]. simpl. constructor. exact IH. Qed.

  Lemma flush_globw stars q V us p :
    (forall V us, idec q V us -> globw fold p V (wild q us)) ->
    idec (flush stars ++ q) V us -> globw fold (repeat c_star stars ++ p) V (wild (flush stars ++ q) us).
  Proof.
    intros Hq H. destruct stars as [|k]; simpl in H.
    - apply Hq. exact H.
    - inversion H as [|n p' u v us' Hd'| |]; subst. cbn [flush app wild].
      replace (S k - 1) with k by lia. apply star_run. apply Hq. exact Hd'.
  Qed.

  Lemma flush_crel stars q p V ws :
    (forall V ws, globw fold p V ws -> exists us, idec q V us /\ crel q us ws) ->
    globw fold (repeat c_star stars ++ p) V ws ->
    exists us, idec (flush stars ++ q) V us /\ crel (flush stars ++ q) us ws.
  Proof.
    intros Hq H. destruct (star_run_inv _ _ _ _ H) as (pcs & V' & ws' & Hl & HV & Hw & Hg).
    destruct (Hq _ _ Hg) as (us & Hd & Hc). destruct stars as [|k]; cbn [flush app].
    - destruct pcs; [|discriminate]. simpl in *. subst. exists us. split; assumption.
    - exists (concat pcs :: us). subst. split; constructor; assumption.
  Qed.

  Lemma compile_sound : forall p esc stars V us, (esc = true -> stars = 0) ->
    idec (comp esc stars p) V us -> globw fold (pending esc stars p) V (wild (comp esc stars p) us).
  Proof.
    induction p as [|c p IH]; intros esc stars V us He H.
    - cbn [comp compile_go] in *. unfold comp in *. cbn [compile_go] in *. destruct esc.
      + rewrite (He eq_refl) in *. simpl in H. inversion H; subst. simpl. constructor.
      + unfold pending. rewrite <- (app_nil_r (flush stars)) in H |- *.
        apply flush_globw; [|exact H]. intros V' us' Hd. inversion Hd; subst. constructor.
    - unfold comp in *. cbn [compile_go] in *.
      destruct (negb esc && N.eqb c c_star) eqn:Estar.
      + apply andb_true_iff in Estar as [E1 E2]. apply N.eqb_eq in E2. subst c.
        destruct esc; [discriminate|].
        apply IH in H; [|discriminate]. unfold pending in *.
        replace (repeat c_star stars ++ c_star :: p) with (repeat c_star (S stars) ++ p).
        2:{ cbn [repeat]. rewrite repeat_cons, <- app_assoc. reflexivity. }
        exact H.
      + destruct esc.
        * (* escaped literal *)
          rewrite (He eq_refl) in *. cbn [negb andb flush app] in *.
          destruct (idec_lits _ _ _ _ H) as (s & V' & us' & H1 & H2 & H3 & H4). subst V us.
          rewrite <- H2. rewrite wild_lits. unfold pending.
          apply gw_esc; [exact H2|]. apply (IH false 0) in H4; [|discriminate]. exact H4.
        * cbn [negb andb] in *. unfold pending. apply flush_globw; [|exact H]. clear H V us.
          intros V us H. destruct (N.eqb_spec c c_quest) as [->|Hq].
          -- inversion H as [| |p' x v us' Hd'|]; subst. cbn [wild]. apply gw_quest.
             apply (IH false 0) in Hd'; [|discriminate]. exact Hd'.
          -- destruct (N.eqb_spec c c_bslash) as [->|Hb].
             ++ apply (IH true 0) in H; [|reflexivity]. exact H.
             ++ destruct (idec_lits _ _ _ _ H) as (s & V' & us' & H1 & H2 & H3 & H4). subst V us.
                rewrite <- H2. rewrite wild_lits.
                apply gw_lit; try assumption.
                ** apply N.eqb_neq. exact Estar.
                ** apply (IH false 0) in H4; [|discriminate]. exact H4.
  Qed.

  Lemma compile_complete : forall p esc stars V ws, (esc = true -> stars = 0) ->
    globw fold (pending esc stars p) V ws ->
    exists us, idec (comp esc stars p) V us /\ crel (comp esc stars p) us ws.
  Proof.
    induction p as [|c p IH]; intros esc stars V ws He H.
    - unfold comp in *. cbn [compile_go]. destruct esc.
      + rewrite (He eq_refl). simpl in *. inversion H; subst;
          try (unfold c_star, c_quest, c_bslash in *; congruence).
        exists []. split; constructor.
      + rewrite <- (app_nil_r (flush stars)). apply (flush_crel stars [] []); [|exact H].
        intros V' ws' Hg. inversion Hg; subst. exists []. split; constructor.
    - unfold comp in *. cbn [compile_go].
      destruct (negb esc && N.eqb c c_star) eqn:Estar.
      + apply andb_true_iff in Estar as [E1 E2]. apply N.eqb_eq in E2. subst c.
        destruct esc; [discriminate|]. apply IH; [discriminate|]. unfold pending in *.
        replace (repeat c_star stars ++ c_star :: p) with (repeat c_star (S stars) ++ p) in H.
        2:{ cbn [repeat]. rewrite repeat_cons, <- app_assoc. reflexivity. }
        exact H.
      + destruct esc.
        * rewrite (He eq_refl). cbn [negb andb flush app]. unfold pending in H.
          inversion H as [| | |p0 c0 s V' ws' Hs Hg HA HB HC| |]; subst.
          2:{ unfold c_bslash in *. congruence. }
          destruct (IH false 0 V' ws) as (us & Hd & Hc); [discriminate|exact Hg|].
          unfold fold in Hs. rewrite <- Hs.
          exists (map (fun x => [x]) s ++ us). split; [apply lits_idec; exact Hd|apply crel_lits; exact Hc].
        * cbn [negb andb] in *. unfold pending in H. revert H. apply flush_crel. clear V ws.
          intros V ws H. destruct (N.eqb_spec c c_quest) as [->|Hq].
          -- inversion H; subst; try (unfold c_star, c_quest, c_bslash in *; congruence).
             destruct (IH false 0 v ws0) as (us & Hd & Hc); [discriminate|assumption|].
             exists ([x] :: us). split; constructor; assumption.
          -- destruct (N.eqb_spec c c_bslash) as [->|Hb].
             ++ apply (IH true 0); [reflexivity|exact H].
             ++ assert (c <> c_star) by (apply N.eqb_neq; exact Estar).
                inversion H; subst; try (unfold c_star, c_quest, c_bslash in *; congruence).
                destruct (IH false 0 v ws) as (us & Hd & Hc); [discriminate|assumption|].
                match goal with Hs : map fst s = _ |- _ => unfold fold in Hs; rewrite <- Hs end.
                exists (map (fun x => [x]) s ++ us). split; [apply lits_idec; exact Hd|apply crel_lits; exact Hc].
  Qed.

  Hypothesis char_lower_ne : forall c, char_lower c <> [].
  Lemma compile_no_adj : forall p esc stars, (esc = true -> stars = 0) ->
    forall i, is_many (nth i (comp esc stars p) POne) = true ->
              is_many (nth (S i) (comp esc stars p) POne) = false.
  Proof.
    assert (Hfl : forall stars q, (forall i, is_many (nth i q POne) = true -> is_many (nth (S i) q POne) = false) ->
       (stars = 0 \/ is_many (nth 0 q POne) = false) ->
       forall i, is_many (nth i (flush stars ++ q) POne) = true -> is_many (nth (S i) (flush stars ++ q) POne) = false).
    { intros [|k] q Hq H0 i; cbn [flush app]; [apply Hq|].
      destruct H0 as [H0|H0]; [discriminate|]. destruct i as [|i]; simpl; [intros _; exact H0|]. apply Hq. }
    assert (Hli : forall l q, (forall i, is_many (nth i q POne) = true -> is_many (nth (S i) q POne) = false) ->
       forall i, is_many (nth i (map PChar l ++ q) POne) = true -> is_many (nth (S i) (map PChar l ++ q) POne) = false).
    { induction l as [|x l IHl]; intros q Hq i; [apply Hq|]. cbn [map app].
      destruct i as [|i]; [simpl; discriminate|]. simpl. apply IHl. exact Hq. }
    assert (Hhd : forall q, is_many (nth 0 (comp true 0 q) POne) = false).
    { intros [|c q]; [reflexivity|]. unfold comp. cbn [compile_go negb andb flush app].
      unfold pfold. destruct (tl && is_upper c); [|reflexivity].
      destruct (char_lower c) as [|x l] eqn:E; [exfalso; exact (char_lower_ne c E)|reflexivity]. }
    induction p as [|c p IH]; intros esc stars He.
    - unfold comp. cbn [compile_go]. rewrite <- (app_nil_r (flush stars)). apply Hfl.
      + intros [|i]; discriminate.
      + right. reflexivity.
    - unfold comp in *. cbn [compile_go]. destruct (negb esc && N.eqb c c_star) eqn:Estar.
      + apply IH. destruct esc; discriminate.
      + apply Hfl.
        * destruct (negb esc && N.eqb c c_quest); [|destruct (negb esc && N.eqb c c_bslash)].
          -- intros [|i]; [discriminate|]. simpl. apply IH. discriminate.
          -- apply IH. reflexivity.
          -- apply Hli. apply IH. discriminate.
        * destruct esc; [left; apply He; reflexivity|right].
          destruct (negb false && N.eqb c c_quest); [reflexivity|].
          destruct (negb false && N.eqb c c_bslash); [apply Hhd|].
          unfold pfold. destruct (tl && is_upper c); [|reflexivity].
          destruct (char_lower c) as [|x l] eqn:E; [exfalso; exact (char_lower_ne c E)|reflexivity].
  Qed.
End Compile.


Lemma globw_glob (fold : ch -> text) p (V : list (ch * ch)) ws : globw fold p V ws -> glob fold p (map fst V).
Proof.
  induction 1; simpl; rewrite ?map_app; try (constructor; assumption).
  - rewrite H. apply glob_esc. assumption.
  - rewrite H2. apply glob_lit; assumption.
Qed.

Definition dup (c : ch) : ch * ch := (c, c).
Lemma map_fst_dup v : map fst (map dup v) = v.
Proof. rewrite map_map. simpl. apply map_id. Qed.

Lemma glob_globw (fold : ch -> text) p v : glob fold p v -> exists ws, globw fold p (map dup v) ws.
Proof.
  induction 1 as [|p u v H [ws IH]|p c v H [ws IH]|p c v H [ws IH]| |p c v H1 H2 H3 H [ws IH]];
    rewrite ?map_app.
  - exists []. constructor.
  - exists (map dup u :: ws). constructor. exact IH.
  - exists ([dup c] :: ws). simpl. constructor. exact IH.
  - exists ws. apply gw_esc; [apply map_fst_dup|exact IH].
  - exists []. constructor.
  - exists ws. apply gw_lit; try assumption. apply map_fst_dup.
Qed.

Section Main.
  Variable is_upper : ch -> bool.
  Variable char_lower : ch -> text.
  Variable str_lower : text -> text.

  Lemma items_exact pattern tl (V : list (ch * ch)) :
    (exists E, valid (compile is_upper char_lower pattern tl) V E) <->
    (exists ws, globw (pfold is_upper char_lower tl) pattern V ws).
  Proof.
    split.
    - intros [E HE]. apply valid_idec in HE.
      apply (compile_sound is_upper char_lower tl pattern false 0) in HE; [|discriminate].
      eexists. exact HE.
    - intros [ws H]. apply (compile_complete is_upper char_lower tl pattern false 0) in H; [|discriminate].
      destruct H as (us & Hd & _). exists (cutsum us). apply idec_valid. exact Hd.
  Qed.

  Lemma glob_valid pattern tl (V : list (ch * ch)) :
    (exists E, valid (compile is_upper char_lower pattern tl) V E) <->
    glob (pfold is_upper char_lower tl) pattern (map fst V).
  Proof.
    rewrite items_exact. split.
    - intros [ws H]. apply globw_glob in H. exact H.
    - intro H.
      (* change the annotation *)
      apply glob_globw in H. destruct H as [ws H].
      assert (Hv : exists E, valid (compile is_upper char_lower pattern tl) (map dup (map fst V)) E)
        by (apply items_exact; exists ws; exact H).
      apply items_exact. destruct Hv as (E & H0 & Hn & Hs). exists E. split; [exact H0|]. split.
      + rewrite Hn, !map_length. reflexivity.
      + intros i it Hit. specialize (Hs i it Hit). destruct it; simpl in *; try exact Hs.
        destruct Hs as (H1 & x & H2 & H3). split; [exact H1|].
        rewrite map_map, nth_error_map in H2.
        destruct (nth_error V (E i)) as [y|]; [|discriminate]. simpl in H2. inversion H2; subst x.
        exists y. split; [reflexivity|exact H3].
  Qed.

  Lemma match_loop_exact pattern tl (V : list (ch * ch)) :
    let pat := compile is_upper char_lower pattern tl in
    match match_loop (match_fuel pat (length V)) pat (map fst V) gst0 with
    | Some true => glob (pfold is_upper char_lower tl) pattern (map fst V)
    | Some false => ~ glob (pfold is_upper char_lower tl) pattern (map fst V)
    | None => False
    end.
  Proof.
    intro pat. rewrite (match_loop_cap _ pat V gst0 (map (fun _ => 0) pat)).
    pose proof (cap_loop_sound pat V) as H.
    destruct (cap_loop _ pat V gst0 _) as [[[|] mp]|]; [| |exact H].
    - apply glob_valid. exists (cut pat mp). apply H.
    - intro Hg. apply glob_valid in Hg. destruct Hg as [E HE]. exact (H E HE).
  Qed.

  Definition folded_value (tl : bool) (value : text) : text :=
    if tl then str_lower value else value.

  Lemma gmatches_exact pattern tl value :
    let r := gmatches str_lower (compile is_upper char_lower pattern tl) tl value in
    (r = Some true <-> glob (pfold is_upper char_lower tl) pattern (folded_value tl value)) /\
    (r = Some false <-> ~ glob (pfold is_upper char_lower tl) pattern (folded_value tl value)).
  Proof.
    intro r. subst r. unfold gmatches. fold (folded_value tl value). set (v := folded_value tl value).
    pose proof (match_loop_exact pattern tl (map dup v)) as H. cbv zeta in H.
    rewrite map_length, map_fst_dup in H.
    destruct (match_loop _ _ v gst0) as [[|]|]; [| |contradiction]; split; split; intro H'; try congruence; try tauto.
  Qed.

  Definition clean (V : list (ch * ch)) : Prop := Forall (fun x => snd x <> replacement_char) V.

  Lemma orig_clean u : clean u -> orig_text u = map snd u.
  Proof.
    unfold orig_text. induction 1 as [|x u Hx Hu IH]; [reflexivity|]. simpl.
    destruct (N.eqb_spec (snd x) replacement_char); [contradiction|]. simpl. rewrite IH. reflexivity.
  Qed.

  Lemma empty_caps_ok positions n : forall wp, wp + n <= 64 ->
    empty_caps positions wp n = Some (GlobSpec.numbered positions wp (repeat [] n), wp + n).
  Proof.
    induction n as [|n IH]; intros wp H; cbn [empty_caps repeat numbered].
    - rewrite Nat.add_0_r. reflexivity.
    - replace (wp <? 64) with true by (symmetry; apply Nat.ltb_lt; lia).
      rewrite IH by lia. replace (S wp + n) with (wp + S n) by lia.
      unfold bit; destruct (N.testbit positions (N.of_nat wp)); reflexivity.
  Qed.

  Lemma number_app positions : forall a b k,
    numbered positions k (a ++ b) = numbered positions k a ++ numbered positions (k + length a) b.
  Proof.
    induction a as [|t a IH]; intros b k; cbn [numbered app length].
    - rewrite Nat.add_0_r. reflexivity.
    - rewrite IH. replace (S k + length a) with (k + S (length a)) by lia.
      unfold bit; destruct (N.testbit positions (N.of_nat k)); reflexivity.
  Qed.

  Definition nwild (items : list pitem) : nat :=
    fold_right (fun it n => match it with PMany k => (k - 1) + 1 + n | POne => 1 + n | PChar _ => n end) 0 items.

  Lemma Forall_firstn' {A} (P : A -> Prop) n l : Forall P l -> Forall P (firstn n l).
  Proof. intro H. revert n. induction H; intros [|n]; simpl; constructor; auto. Qed.
  Lemma Forall_skipn' {A} (P : A -> Prop) n l : Forall P l -> Forall P (skipn n l).
  Proof. intro H. revert n. induction H; intros [|n]; simpl; auto; constructor; auto. Qed.

  (** Captured texts of the pieces, as the code builds them. *)
  Fixpoint wtexts (items : list pitem) (us : list (list (ch * ch))) : list text :=
    match items, us with
    | PMany n :: items', u :: us' => repeat [] (n - 1) ++ orig_text u :: wtexts items' us'
    | POne :: items', u :: us' => match u with x :: _ => one_text x | [] => [] end :: wtexts items' us'
    | PChar _ :: items', _ :: us' => wtexts items' us'
    | _, _ => []
    end.

  Lemma wtexts_clean items V us : idec items V us -> clean V ->
    wtexts items us = map (map snd) (wild items us).
  Proof.
    induction 1 as [|n p u v us H IH|p x v us H IH|c p x v us Hc H IH]; intro HV; cbn [wtexts wild map].
    - reflexivity.
    - apply Forall_app in HV as [H1 H2]. rewrite map_app, map_repeat'. cbn [map].
      rewrite orig_clean by exact H1. rewrite IH by exact H2. reflexivity.
    - inversion HV as [|? ? H1 H2]; subst. rewrite IH by exact H2. f_equal.
      unfold one_text. destruct (N.eqb_spec (snd x) replacement_char); [contradiction|reflexivity].
    - inversion HV as [|? ? H1 H2]; subst. apply IH. exact H2.
  Qed.

  Lemma collect_ok positions V E : forall items off mps wp lp,
    E (off + length items) = length V ->
    (forall i it, nth_error items i = Some it -> step_ok V it (E (off + i)) (E (off + S i))) ->
    length mps = length items ->
    (forall i it, nth_error items i = Some it ->
       nth i mps 0 = if is_many it then E (off + S i) else E (off + i)) ->
    (forall i, is_many (nth i items POne) = true -> is_many (nth (S i) items POne) = false) ->
    (is_many (nth 0 items POne) = true -> lp = E off) ->
    wp + nwild items <= 64 ->
    cap_collect positions V (combine items mps) wp lp =
    CapOk (numbered positions wp
      (wtexts items
         (map (fun i => firstn (E (S i) - E i) (skipn (E i) V)) (seq off (length items))))).
  Proof.
    induction items as [|it items IH]; intros off mps wp lp Hn Hs Hl Hm Hadj Hlp Hw.
    - reflexivity.
    - destruct mps as [|m mps]; [discriminate|]. cbn [combine cap_collect length seq map].
      cbn [length] in Hn, Hl.
      pose proof (Hs 0 it eq_refl) as S0. rewrite Nat.add_0_r, Nat.add_1_r in S0.
      pose proof (Hm 0 it eq_refl) as M0. cbn [nth] in M0. rewrite Nat.add_0_r, Nat.add_1_r in M0.
      assert (Hle : E (S off) <= length V).
      { rewrite <- Hn.
        assert (Hmono : forall k, k <= length items -> E (S off) <= E (S off + k)).
        { induction k as [|k IHk]; intro Hk; [rewrite Nat.add_0_r; lia|].
          assert (Hk' : k < length items) by lia. apply nth_error_Some in Hk'.
          destruct (nth_error items k) as [it'|] eqn:Ek; [|congruence].
          specialize (Hs (S k) it' Ek). apply step_ok_le in Hs.
          specialize (IHk ltac:(lia)). replace (S off + k) with (off + S k) in IHk by lia.
          replace (S off + S k) with (off + S (S k)) by lia. lia. }
        specialize (Hmono (length items) (le_n _)).
        replace (off + S (length items)) with (S off + length items) by lia. exact Hmono. }
      assert (IH' : forall wp' lp', (is_many (nth 0 items POne) = true -> lp' = E (S off)) ->
                wp' + nwild items <= 64 ->
                cap_collect positions V (combine items mps) wp' lp' =
                CapOk (numbered positions wp' (wtexts items
                   (map (fun i => firstn (E (S i) - E i) (skipn (E i) V)) (seq (S off) (length items)))))).
      { intros wp' lp' Hlp' Hw'. apply IH; auto.
        - replace (S off + length items) with (off + S (length items)) by lia. exact Hn.
        - intros i it' Hit. specialize (Hs (S i) it' Hit).
          replace (S off + i) with (off + S i) by lia. replace (S off + S i) with (off + S (S i)) by lia. exact Hs.
        - intros i it' Hit. specialize (Hm (S i) it' Hit). cbn [nth] in Hm.
          replace (S off + i) with (off + S i) by lia. replace (S off + S i) with (off + S (S i)) by lia. exact Hm.
        - intros i Hi. exact (Hadj (S i) Hi). }
      pose proof (Hadj 0) as Hadj0. cbn [nth] in Hadj0.
      cbn [nwild fold_right] in Hw. fold (nwild items) in Hw.
      destruct it as [n| |c]; cbn [is_many] in *; unfold max_match_variables.
      + (* star run *)
        specialize (Hadj0 eq_refl). specialize (Hlp eq_refl).
        replace (wp <=? 63) with true by (symmetry; apply Nat.leb_le; lia).
        rewrite empty_caps_ok by lia.
        replace (wp + (n - 1) <? 64) with true by (symmetry; apply Nat.ltb_lt; lia).
        rewrite M0, Hlp. unfold slice.
        replace (E off <=? E (S off)) with true by (symmetry; apply Nat.leb_le; exact S0).
        replace (E (S off) <=? length V) with true by (symmetry; apply Nat.leb_le; exact Hle).
        cbn [andb].
        cbn [wtexts]. rewrite number_app, repeat_length. cbn [numbered].
        rewrite IH'; [|intro Hc; rewrite Hc in Hadj0; discriminate|lia].
        unfold bit; destruct (N.testbit positions (N.of_nat (wp + (n - 1)))); reflexivity.
      + replace (wp <=? 63) with true by (symmetry; apply Nat.leb_le; lia).
        simpl in S0. rewrite M0.
        assert (Hx : exists x, nth_error V (E off) = Some x).
        { destruct (nth_error V (E off)) as [x|] eqn:Ex; [exists x; reflexivity|].
          apply nth_error_None in Ex. lia. }
        destruct Hx as [x Hx]. rewrite Hx.
        assert (Hpc : firstn (E (S off) - E off) (skipn (E off) V) = [x]).
        { rewrite S0. replace (S (E off) - E off) with 1 by lia.
          apply nth_error_split in Hx. destruct Hx as (l1 & l2 & HV' & Hl1). rewrite HV', <- Hl1.
          rewrite skipn_app, skipn_all, Nat.sub_diag. reflexivity. }
        cbn [wtexts numbered]. rewrite Hpc.
        rewrite IH'; [|intro Hc; rewrite S0; reflexivity|lia].
        unfold bit; destruct (N.testbit positions (N.of_nat wp)); reflexivity.
      + destruct (Nat.leb_spec wp 63) as [Hwp|Hwp].
        * cbn [wtexts]. apply IH'; [|lia]. intros _. simpl in S0. lia.
        * (* the 64th wildcard number is past the end: nothing left to capture *)
          assert (Hz : nwild items = 0) by lia.
          cbn [wtexts]. assert (Hwz : forall l us, nwild l = 0 -> wtexts l us = []).
          { induction l as [|it l IHl]; intros us0 Hz'; [reflexivity|].
            cbn [nwild fold_right] in Hz'. fold (nwild l) in Hz'.
            destruct it; [lia|lia|]. destruct us0; [reflexivity|]. cbn [wtexts]. apply IHl. exact Hz'. }
          rewrite Hwz by exact Hz. reflexivity.
  Qed.

  Lemma wild_crel_self items us V : idec items V us -> (forall n, In (PMany n) items -> n <> 0) ->
    crel items us (wild items us).
  Proof.
    induction 1 as [|n p u v us H IH|p x v us H IH|c p x v us Hc H IH]; intro Hn.
    - constructor.
    - cbn [wild]. destruct n as [|k]; [exfalso; exact (Hn 0 (or_introl eq_refl) eq_refl)|].
      replace (S k - 1) with k by lia.
      change (repeat [] k ++ u :: wild p us) with (repeat [] k ++ [u] ++ wild p us). rewrite app_assoc.
      assert (Hu : u = concat (repeat [] k ++ [u])).
      { clear. induction k as [|k IHk]; simpl; [rewrite app_nil_r; reflexivity|exact IHk]. }
      rewrite Hu at 1. constructor.
      + rewrite app_length, repeat_length. simpl. lia.
      + apply IH. intros m Hm. apply Hn. right. exact Hm.
    - cbn [wild]. constructor. apply IH. intros m Hm. apply Hn. right. exact Hm.
    - cbn [wild]. constructor. apply IH. intros m Hm. apply Hn. right. exact Hm.
  Qed.

  Hypothesis char_lower_ne : forall c, char_lower c <> [].

  Lemma mps_of_cut pat mp : length mp = length pat ->
    forall V, valid pat V (cut pat mp) ->
    forall i it, nth_error pat i = Some it ->
      nth i mp 0 = if is_many it then cut pat mp (S i) else cut pat mp i.
  Proof.
    intros Hl V (H0 & Hn & Hs) i it Hit. specialize (Hs i it Hit).
    unfold cut at 2 in Hs. rewrite Hit in Hs. unfold cut at 1. rewrite Hit.
    destruct it; cbn [is_many]; [reflexivity|simpl in Hs; lia|simpl in Hs; lia].
  Qed.

  (** The capturing comparison, on a vector of (folded, original) characters. *)
  Lemma capture_gen pattern tl value positions :
    let V := cap_value is_upper char_lower tl value in
    let pat := compile is_upper char_lower pattern tl in
    nwild pat <= 63 ->
    match gcapture is_upper char_lower pat tl value positions with
    | CapOk l => exists us, idec pat V us /\
          l = numbered positions 0 (value :: wtexts pat us) /\
          globw (pfold is_upper char_lower tl) pattern V (wild pat us) /\
          forall ws', globw (pfold is_upper char_lower tl) pattern V ws' ->
             lexle (map (@length _) (wild pat us)) (map (@length _) ws')
    | CapFalse => forall ws, ~ globw (pfold is_upper char_lower tl) pattern V ws
    | CapOverflow | CapFuel => False
    end.
  Proof.
    intros V pat Hw. unfold gcapture. fold V. pose proof (cap_loop_sound pat V) as HL.
    destruct (cap_loop (match_fuel pat (length V)) pat V gst0 (map (fun _ => 0) pat)) as [[[|] mp]|];
      [| |contradiction].
    - destruct HL as (Hl & Hval & Hmin).
      set (E := cut pat mp) in *.
      assert (Hcol : cap_collect positions V (combine pat mp) 1 0 =
        CapOk (numbered positions 1 (wtexts pat (pieces V E (length pat))))).
      { destruct Hval as (H0 & Hn & Hs). apply (collect_ok positions V E pat 0 mp 1 0); auto.
        - intros i it Hit. apply (mps_of_cut pat mp Hl V); [split; [|split]; assumption|exact Hit].
        - intros i Hi. apply (compile_no_adj is_upper char_lower tl char_lower_ne pattern false 0); [discriminate|exact Hi].
        - lia. }
      rewrite Hcol.
      pose proof (valid_idec _ _ _ Hval) as Hd.
      exists (pieces V E (length pat)). split; [exact Hd|]. split; [|split].
      + unfold bit. cbn [numbered]. destruct (N.testbit positions (N.of_nat 0)); reflexivity.
      + apply (compile_sound is_upper char_lower tl pattern false 0) in Hd; [exact Hd|discriminate].
      + intros ws' Hg'. apply (compile_complete is_upper char_lower tl pattern false 0) in Hg'; [|discriminate].
        destruct Hg' as (us' & Hd' & Hc').
        apply (crel_lexle _ _ _ Hc' V _ Hd). intros i Hi.
        rewrite (valid_pieces_cutsum _ _ _ Hval) by exact Hi.
        apply (Hmin (cutsum us') (idec_valid _ _ _ Hd') i Hi).
    - intros ws Hg. destruct (proj2 (items_exact pattern tl V)) as [E HE]; [exists ws; exact Hg|].
      exact (HL E HE).
  Qed.

  Lemma nwild_app a b : nwild (a ++ b) = nwild a + nwild b.
  Proof.
    induction a as [|it a IH]; [reflexivity|]. cbn [app nwild fold_right]. fold (nwild (a ++ b)). fold (nwild a).
    destruct it; lia.
  Qed.

  Lemma nwild_compile tl : forall p esc stars, (esc = true -> stars = 0) ->
    nwild (compile_go is_upper char_lower tl esc stars p) =
    stars + (if esc then match p with [] => 0 | _ :: p' => wildcards p' end else wildcards p).
  Proof.
    assert (Hfl : forall k, nwild (flush k) = k).
    { intros [|k]; [reflexivity|]. unfold flush, nwild. cbn [fold_right]. lia. }
    assert (Hli : forall l, nwild (map PChar l) = 0) by (induction l; [reflexivity|exact IHl]).
    induction p as [|c p IH]; intros esc stars He.
    - cbn [compile_go]. rewrite Hfl. destruct esc; simpl; lia.
    - cbn [compile_go]. destruct (negb esc && N.eqb c c_star) eqn:Estar.
      + apply andb_true_iff in Estar as [E1 E2]. apply N.eqb_eq in E2. subst c. destruct esc; [discriminate|].
        rewrite IH by discriminate. cbn [wildcards]. 
        change (N.eqb c_star c_bslash) with false. change (N.eqb c_star c_star) with true. cbn [orb]. lia.
      + rewrite nwild_app, Hfl. f_equal. destruct esc; cbn [negb andb] in *.
        * rewrite nwild_app, Hli, IH by discriminate. reflexivity.
        * cbn [wildcards]. rewrite Estar. destruct (N.eqb_spec c c_quest) as [->|Hq].
          -- change (N.eqb c_quest c_bslash) with false. cbn [orb nwild fold_right].
             fold (nwild (compile_go is_upper char_lower tl false 0 p)). rewrite IH by discriminate. reflexivity.
          -- destruct (N.eqb c c_bslash).
             ++ rewrite IH by reflexivity. reflexivity.
             ++ rewrite nwild_app, Hli, IH by discriminate. reflexivity.
  Qed.

  Lemma cap_value_fst tl value : map fst (cap_value is_upper char_lower tl value) =
    flat_map (pfold is_upper char_lower tl) value.
  Proof.
    unfold cap_value. induction value as [|c v IH]; [reflexivity|]. cbn [flat_map]. rewrite map_app, IH. f_equal.
    unfold cap_char, pfold. destruct (tl && is_upper c); [|reflexivity].
    destruct (char_lower c) as [|l ls]; [reflexivity|]. cbn [map fst]. f_equal.
    rewrite map_map. simpl. apply map_id.
  Qed.

  Lemma cap_value_simple tl (fold1 : ch -> ch) value :
    (forall c, In c value -> pfold is_upper char_lower tl c = [fold1 c]) ->
    cap_value is_upper char_lower tl value = map (fun c => (fold1 c, c)) value.
  Proof.
    unfold cap_value. induction value as [|c v IH]; intro H; [reflexivity|]. cbn [flat_map map].
    rewrite IH by (intros; apply H; right; assumption).
    specialize (H c (or_introl eq_refl)). unfold pfold in H. unfold cap_char.
    destruct (tl && is_upper c).
    - rewrite H. reflexivity.
    - injection H as H1. cbn [app]. congruence.
  Qed.

  Lemma capture_exact pattern tl (fold1 : ch -> ch) value positions :
    let fold := pfold is_upper char_lower tl in
    let V := map (fun c => (fold1 c, c)) value in
    (forall c, In c value -> fold c = [fold1 c] /\ c <> replacement_char) ->
    wildcards pattern <= 63 ->
    match gcapture is_upper char_lower (compile is_upper char_lower pattern tl) tl value positions with
    | CapOk l => exists ws, globw fold pattern V ws /\
          l = numbered positions 0 (value :: map (map snd) ws) /\
          forall ws', globw fold pattern V ws' -> lexle (map (@length _) ws) (map (@length _) ws')
    | CapFalse => forall ws, ~ globw fold pattern V ws
    | CapOverflow | CapFuel => False
    end.
  Proof.
    intros fold V Hc Hw.
    assert (HV : cap_value is_upper char_lower tl value = V).
    { apply cap_value_simple. intros c Hin. apply Hc. exact Hin. }
    pose proof (capture_gen pattern tl value positions) as H. cbv zeta in H.
    rewrite HV in H. unfold compile in H at 1. rewrite nwild_compile in H by discriminate.
    specialize (H Hw).
    destruct (gcapture _ _ _ _ _ _) as [| | |l]; try exact H.
    destruct H as (us & Hd & Hl & Hg & Hmin).
    exists (wild (compile is_upper char_lower pattern tl) us). split; [exact Hg|]. split; [|exact Hmin].
    rewrite Hl. rewrite (wtexts_clean _ _ _ Hd); [reflexivity|].
    unfold clean, V. apply Forall_forall. intros x Hx. apply in_map_iff in Hx.
    destruct Hx as (c & <- & Hin). simpl. apply Hc. exact Hin.
  Qed.

  (** A capturing comparison accepts exactly what the plain one accepts. *)
  Lemma capture_agrees pattern casemap value positions :
    wildcards pattern <= 63 ->
    (casemap = true -> str_lower value = flat_map (pfold is_upper char_lower true) value) ->
    exists b caps,
      cmp_matches is_upper char_lower str_lower casemap value pattern 0 = MRes b None /\
      cmp_matches is_upper char_lower str_lower casemap value pattern positions = MRes b caps.
  Proof.
    intros Hw Hlow. unfold cmp_matches. change (N.eqb 0 0) with true. cbn iota.
    set (pat := compile is_upper char_lower pattern casemap).
    pose proof (gmatches_exact pattern casemap value) as Hm. cbv zeta in Hm. fold pat in Hm.
    assert (Hf : folded_value casemap value = map fst (cap_value is_upper char_lower casemap value)).
    { rewrite cap_value_fst. unfold folded_value. destruct casemap; [apply Hlow; reflexivity|].
      symmetry. clear. induction value as [|c v IH]; [reflexivity|]. cbn [flat_map pfold andb app]. rewrite IH. reflexivity. }
    pose proof (capture_gen pattern casemap value positions) as H. cbv zeta in H. fold pat in H.
    assert (Hnw : nwild pat <= 63).
    { unfold pat, compile. rewrite nwild_compile by discriminate. exact Hw. }
    specialize (H Hnw).
    assert (Hdec : exists b, gmatches str_lower pat casemap value = Some b).
    { destruct (gmatches str_lower pat casemap value) as [b|] eqn:E; [exists b; reflexivity|].
      destruct Hm as [[_ Hm1] [_ Hm2]]. exfalso.
      assert (~ glob (pfold is_upper char_lower casemap) pattern (folded_value casemap value)) as Hn
        by (intro Hg; specialize (Hm1 Hg); discriminate).
      specialize (Hm2 Hn). discriminate. }
    destruct Hdec as [b Hb]. rewrite Hb in *. exists b.
    destruct (N.eqb positions 0) eqn:Ep; [exists None; split; reflexivity|].
    destruct (gcapture _ _ _ _ _ _) as [| | |l]; try contradiction.
    - destruct b; [|exists None; split; reflexivity].
      exfalso. destruct Hm as [[Hm1 _] _]. specialize (Hm1 eq_refl). rewrite Hf in Hm1.
      apply glob_valid in Hm1. apply items_exact in Hm1. destruct Hm1 as [ws Hws]. exact (H ws Hws).
    - exists (Some l). destruct b; [split; reflexivity|].
      exfalso. destruct Hm as [_ [Hm2 _]]. apply (Hm2 eq_refl). rewrite Hf.
      apply glob_valid. apply items_exact. destruct H as (us & _ & _ & Hg & _). eexists. exact Hg.
  Qed.
End Main.
