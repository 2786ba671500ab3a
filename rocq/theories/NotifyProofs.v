(** Proofs about the notify action. *)
From Verif Require Import Base Lib Var Value Message Address Event Notify NotifySpec.
From Coq Require Import Lia.

Section N.
  Variable M : mailparser.
  Variable dec : list N -> option text.

  Definition pushes (q : mst) (bs : list N) : mst :=
    {| q_p := q_p q; q_st := q_st q; q_buf := q_buf q ++ bs; q_has := q_has q |}.
  Lemma pushes_nil q : pushes q [] = q.
  Proof. destruct q; unfold pushes; cbn. now rewrite app_nil_r. Qed.
  Lemma pushes_cons q c bs : pushes (push q c) bs = pushes q (c :: bs).
  Proof. unfold pushes, push; cbn. f_equal. now rewrite <- app_assoc. Qed.

  Lemma eqb_neq' (a b : N) : a <> b -> N.eqb a b = false.
  Proof. now rewrite N.eqb_neq. Qed.

  Ltac eqbs := repeat match goal with
    | |- context [N.eqb (Npos ?a) (Npos ?b)] =>
        let v := eval vm_compute in (N.eqb (Npos a) (Npos b)) in change (N.eqb (Npos a) (Npos b)) with v
    end; cbv iota.
  Ltac bools := repeat match goal with
    | H : _ && _ = true |- _ => apply Bool.andb_true_iff in H; destruct H
    | H : negb _ = true |- _ => apply Bool.negb_true_iff in H
    | H : _ || _ = false |- _ => apply Bool.orb_false_iff in H; destruct H
    end.

  Lemma go_pct h1 h2 a b s q :
    hexv h1 = Some a -> hexv h2 = Some b ->
    mailto_go M dec (37%N :: h1 :: h2 :: s) q =
    match step_pct dec q (a * 16 + b)%N with Some q' => mailto_go M dec s q' | None => None end.
  Proof. intros H1 H2. cbn [mailto_go]. rewrite N.eqb_refl, H1, H2. reflexivity. Qed.
  Lemma go_plain c s q :
    c <> 37%N ->
    mailto_go M dec (c :: s) q =
    match step_plain M dec q c with Some q' => mailto_go M dec s q' | None => None end.
  Proof. intros H. cbn [mailto_go]. now rewrite (eqb_neq' _ _ H). Qed.

  Lemma go_value u bs : written plain_value u bs -> forall q n rest, q_st q = SValue n ->
    mailto_go M dec (u ++ rest) q = mailto_go M dec rest (pushes q bs).
  Proof.
    induction 1 as [|c u bs P W IH|h1 h2 a b u bs H1 H2 W IH]; intros q n rest S; cbn [app].
    - now rewrite pushes_nil.
    - unfold plain_value in P. bools.
      rewrite go_plain by (now apply N.eqb_neq).
      assert (E : step_plain M dec q c = Some (push q c)).
      { unfold step_plain. rewrite S. rewrite H1, H0.
        repeat match goal with |- context [if ?b then _ else _] => destruct b end; reflexivity. }
      rewrite E, (IH _ n) by exact S. now rewrite pushes_cons.
    - rewrite (go_pct _ _ a b) by assumption.
      assert (E : step_pct dec q (a * 16 + b) = Some (push q (a * 16 + b)%N)).
      { unfold step_pct. now rewrite S. }
      rewrite E, (IH _ n) by exact S. now rewrite pushes_cons.
  Qed.

  Lemma plain_name_spec c : plain_name c = true ->
    N.eqb c 37 = false /\ N.eqb c 44 = false /\ N.eqb c 63 = false /\ N.eqb c 64 = false /\
    N.eqb c 61 = false /\ N.eqb c 38 = false.
  Proof.
    unfold plain_name, is_alnum_ascii, is_alpha_ascii, is_upper_ascii, is_lower_ascii, is_digit_ascii, between.
    intros H. repeat split; apply N.eqb_neq; intros ->; vm_compute in H; discriminate.
  Qed.

  Lemma go_name u bs : written plain_name u bs -> forall q rest, q_st q = SName ->
    mailto_go M dec (u ++ rest) q = mailto_go M dec rest (pushes q bs).
  Proof.
    induction 1 as [|c u bs P W IH|h1 h2 a b u bs H1 H2 W IH]; intros q rest S; cbn [app].
    - now rewrite pushes_nil.
    - destruct (plain_name_spec _ P) as (E1&E2&E3&E4&E5&E6).
      rewrite go_plain by (now apply N.eqb_neq).
      assert (E : step_plain M dec q c = Some (push q c)).
      { unfold step_plain. rewrite S, E2, E3, E4, E5, E6. unfold plain_name in P. now rewrite P. }
      rewrite E, (IH _) by exact S. now rewrite pushes_cons.
    - rewrite (go_pct _ _ a b) by assumption.
      assert (E : step_pct dec q (a * 16 + b) = Some (push q (a * 16 + b)%N)).
      { unfold step_pct. now rewrite S. }
      rewrite E, (IH _) by exact S. now rewrite pushes_cons.
  Qed.

  Lemma go_addr u bs : written plain_addr u bs -> clean_part bs -> forall q k h rest, q_st q = SAddr k h ->
    mailto_go M dec (u ++ rest) q = mailto_go M dec rest (pushes q bs).
  Proof.
    induction 1 as [|c u bs P W IH|h1 h2 a b u bs H1 H2 W IH]; intros CL q k h rest S; cbn [app].
    - now rewrite pushes_nil.
    - inversion CL as [|? ? [C1 C2] CL']; subst. unfold plain_addr, reserved in P. cbn [existsb] in P. bools.
      rewrite go_plain by (now apply N.eqb_neq).
      assert (E : step_plain M dec q c = Some (push q c)).
      { unfold step_plain. rewrite S.
        repeat match goal with H : N.eqb c _ = false |- _ => rewrite H; clear H end.
        now rewrite H0. }
      rewrite E, (IH CL' _ k h) by exact S. now rewrite pushes_cons.
    - inversion CL as [|? ? [C1 C2] CL']; subst.
      rewrite (go_pct _ _ a b) by assumption.
      assert (E : step_pct dec q (a * 16 + b) = Some (push q (a * 16 + b)%N)).
      { unfold step_pct. now rewrite S, (eqb_neq' _ _ C1), (eqb_neq' _ _ C2). }
      rewrite E, (IH CL' _ k h) by exact S. now rewrite pushes_cons.
  Qed.

  (** One address leaves the machine with its bytes in the buffer. *)
  Lemma go_address u bs : addr_written u bs -> forall q k rest,
    q_st q = SAddr k false -> q_buf q = [] ->
    mailto_go M dec (u ++ rest) q =
    mailto_go M dec rest {| q_p := q_p q; q_st := SAddr k true; q_buf := bs; q_has := q_has q |}.
  Proof.
    induction 1 as [ul l ud d W1 W2 NE C1 C2|ul l h1 h2 ud d W1 W2 H1 H2 C1 C2]; intros q k rest S B.
    - rewrite <- app_assoc. rewrite (go_addr _ _ W1 C1 q k false) by exact S. cbn [app].
      rewrite go_plain by discriminate. unfold step_plain. eqbs; cbn [pushes q_st q_buf].
      rewrite S, B. cbn [app]. destruct l as [|x l]; [congruence|].
      rewrite (go_addr _ _ W2 C2 _ k true) by reflexivity. unfold pushes; cbn [q_p q_st q_buf q_has].
      now rewrite <- app_assoc.
    - rewrite <- app_assoc. rewrite (go_addr _ _ W1 C1 q k false) by exact S. cbn [app].
      rewrite (go_pct _ _ 4 0) by assumption. change (4 * 16 + 0)%N with 64%N.
      unfold step_pct. eqbs; cbn [pushes q_st q_buf]. rewrite S, B. cbn [app].
      rewrite (go_addr _ _ W2 C2 _ k true) by reflexivity. unfold pushes; cbn [q_p q_st q_buf q_has].
      now rewrite <- app_assoc.
  Qed.

  (** The parameters after a sequence of addresses. *)
  Definition inserts (p : mailto) (l : list (akind * text)) : mailto :=
    fold_left (fun p ka => insert_address p (fst ka) (snd ka)) l p.
  Definition tagged (k : akind) (l : list text) := map (fun a => (k, a)) l.

  (** A list of addresses leaves the last one in the buffer. *)
  Lemma go_addresses u l : addrs_written dec u l -> forall q k rest,
    q_st q = SAddr k false -> q_buf q = [] ->
    exists l0 a bs, l = l0 ++ [a] /\ dec bs = Some a /\ bs <> [] /\
      mailto_go M dec (u ++ rest) q =
      mailto_go M dec rest {| q_p := inserts (q_p q) (tagged k l0); q_st := SAddr k true; q_buf := bs;
                              q_has := match l0 with [] => q_has q | _ => true end |}.
  Proof.
    assert (NE : forall u bs, addr_written u bs -> bs <> []).
    { intros v bs W. inversion W; destruct l0; discriminate. }
    induction 1 as [u bs a W D|u bs a us l W D WS IH|u bs a h1 h2 us l W D WS IH H1 H2]; intros q k rest S B.
    - exists [], a, bs. split; [reflexivity|]. split; [exact D|]. split; [eapply NE; eauto|].
      rewrite (go_address _ _ W q k) by assumption. reflexivity.
    - destruct (IH {| q_p := insert_address (q_p q) k a; q_st := SAddr k false; q_buf := []; q_has := true |} k rest eq_refl eq_refl)
        as (l0 & a' & bs' & -> & D' & NE' & E).
      exists (a :: l0), a', bs'. split; [reflexivity|]. split; [exact D'|]. split; [exact NE'|].
      rewrite <- app_assoc, (go_address _ _ W q k) by assumption. cbn [app].
      rewrite go_plain by discriminate. unfold step_plain. eqbs; cbn [q_st q_buf].
      unfold take_addr. cbn [q_buf q_p]. rewrite D. unfold goto. rewrite E. cbn [q_p q_has tagged map inserts fold_left fst snd].
      destruct l0; reflexivity.
    - destruct (IH {| q_p := insert_address (q_p q) k a; q_st := SAddr k false; q_buf := []; q_has := true |} k rest eq_refl eq_refl)
        as (l0 & a' & bs' & -> & D' & NE' & E).
      exists (a :: l0), a', bs'. split; [reflexivity|]. split; [exact D'|]. split; [exact NE'|].
      rewrite <- app_assoc, (go_address _ _ W q k) by assumption. cbn [app].
      rewrite (go_pct _ _ 2 12) by assumption. change (2 * 16 + 12)%N with 44%N.
      unfold step_pct. eqbs; cbn [q_st q_buf].
      unfold take_addr. cbn [q_buf q_p]. rewrite D. unfold goto. rewrite E. cbn [q_p q_has tagged map inserts fold_left fst snd].
      destruct l0; reflexivity.
  Qed.

  (** Effect of one field. *)
  Definition field_effect (p : mailto) (f : field) : mailto :=
    match f with
    | FRcpt k l => inserts p (tagged k l)
    | FBody v => set_param p None v
    | FHeader n v => set_param p (Some n) v
    | FEmpty => p
    end.
  Definition fields_effect (p : mailto) (fs : list field) : mailto := fold_left field_effect fs p.

  (** State reached in front of '&' or of the end of the URI. *)
  Definition ready (q : mst) (p : mailto) : Prop :=
    match q_st q with
    | SAddr k true => exists a, q_buf q <> [] /\ dec (q_buf q) = Some a /\ p = insert_address (q_p q) k a
    | SValue n => (q_buf q = [] /\ p = q_p q) \/ (exists v, q_buf q <> [] /\ dec (q_buf q) = Some v /\ p = set_param (q_p q) n v)
    | _ => False
    end.

  Lemma ready_amp q p rest : ready q p -> q_has q = true ->
    mailto_go M dec (38%N :: rest) q = mailto_go M dec rest {| q_p := p; q_st := SName; q_buf := []; q_has := true |}.
  Proof.
    intros R H. rewrite go_plain by discriminate. unfold step_plain. eqbs.
    unfold ready in R. destruct (q_st q) as [k [|]| |n]; try contradiction.
    - destruct R as (a & NE & D & ->). destruct (q_buf q) as [|x b] eqn:B; [congruence|].
      unfold take_addr. rewrite B, D. unfold goto. now rewrite H.
    - destruct R as [[B ->] | (v & NE & D & ->)].
      + rewrite B. unfold goto. now rewrite H.
      + destruct (q_buf q) as [|x b] eqn:B; [congruence|]. rewrite D. unfold goto. now rewrite H.
  Qed.
  Lemma ready_end q p : ready q p -> q_has q = true \/ (exists k, q_st q = SAddr k true) -> mailto_end dec q = Some p.
  Proof.
    intros R H. unfold mailto_end. unfold ready in R. destruct (q_st q) as [k [|]| |n]; try contradiction.
    - destruct R as (a & NE & D & ->). destruct (q_buf q) as [|x b] eqn:B; [congruence|]. now rewrite D.
    - assert (H' : q_has q = true) by (destruct H as [H | [k H]]; [exact H|discriminate]).
      destruct R as [[B ->] | (v & NE & D & ->)].
      + now rewrite B, H'.
      + destruct (q_buf q) as [|x b] eqn:B; [congruence|]. now rewrite D, H'.
  Qed.

  Lemma inserts_app p l1 l2 : inserts p (l1 ++ l2) = inserts (inserts p l1) l2.
  Proof. apply fold_left_app. Qed.

  Lemma ready_addresses u l q k rest : addrs_written dec u l ->
    q_st q = SAddr k false -> q_buf q = [] ->
    exists q', mailto_go M dec (u ++ rest) q = mailto_go M dec rest q' /\ ready q' (inserts (q_p q) (tagged k l)) /\
      q_st q' = SAddr k true /\ (q_has q = true -> q_has q' = true).
  Proof.
    intros W S B. destruct (go_addresses _ _ W q k rest S B) as (l0 & a & bs & -> & D & NE & E).
    eexists. split; [exact E|]. split; [|split].
    - unfold ready; cbn [q_st q_buf q_p]. exists a. split; [exact NE|]. split; [exact D|].
      unfold tagged. rewrite map_app, inserts_app. reflexivity.
    - reflexivity.
    - cbn [q_has]. destruct l0; auto.
  Qed.

  Lemma lower_lit s : lower_text (lit s) = lower_text (lit s). Proof. reflexivity. Qed.

  Lemma param_header n h : hn_parse M n = Some h ->
    ~ In (lower_text h) [lit "to"; lit "cc"; lit "bcc"; lit "body"] -> param_state M n = SValue (Some h).
  Proof.
    intros P NI. unfold param_state. rewrite P. unfold hn_eqb.
    repeat match goal with
    | |- context [teqb_ic h ?t] =>
        let E := fresh in destruct (teqb_ic h t) eqn:E;
          [exfalso; apply NI; apply teqb_ic_spec in E; rewrite E; cbn; tauto|]
    end. reflexivity.
  Qed.
  Lemma param_value n h : hn_parse M n = Some h ->
    ~ In (lower_text h) [lit "to"; lit "cc"; lit "bcc"] -> exists x, param_state M n = SValue x.
  Proof.
    intros P NI. unfold param_state. rewrite P. unfold hn_eqb.
    repeat match goal with
    | |- context [if teqb_ic h ?t then SAddr _ _ else _] =>
        let E := fresh in destruct (teqb_ic h t) eqn:E;
          [exfalso; apply NI; apply teqb_ic_spec in E; rewrite E; cbn; tauto|]
    end. destruct (teqb_ic h (lit "body")); eauto.
  Qed.
  Lemma param_kind n h k : hn_parse M n = Some h ->
    teqb_ic h (match k with ATo => lit "to" | ACc => lit "cc" | ABcc => lit "bcc" end) = true ->
    param_state M n = SAddr k false.
  Proof.
    intros P E. unfold param_state. rewrite P. unfold hn_eqb. apply teqb_ic_spec in E.
    unfold teqb_ic. rewrite E. destruct k; reflexivity.
  Qed.
  Lemma param_body n h : hn_parse M n = Some h -> teqb_ic h (lit "body") = true ->
    param_state M n = SValue None.
  Proof.
    intros P E. unfold param_state. rewrite P. unfold hn_eqb. apply teqb_ic_spec in E.
    unfold teqb_ic. rewrite E. reflexivity.
  Qed.

  Lemma go_eq un bn n q rest : written plain_name un bn -> bn <> [] -> dec bn = Some n ->
    q_st q = SName -> q_buf q = [] ->
    mailto_go M dec (un ++ 61%N :: rest) q =
    mailto_go M dec rest {| q_p := q_p q; q_st := param_state M n; q_buf := []; q_has := q_has q |}.
  Proof.
    intros W NE D S B. rewrite (go_name _ _ W) by exact S. rewrite go_plain by discriminate.
    unfold step_plain. eqbs; cbn [pushes q_st q_buf]. rewrite S, B. cbn [app].
    destruct bn as [|x bn]; [congruence|]. rewrite D. reflexivity.
  Qed.

  Lemma go_field u f q rest : field_written dec (hn_parse M) u f ->
    q_st q = SName -> q_buf q = [] -> q_has q = true ->
    exists q', mailto_go M dec (u ++ rest) q = mailto_go M dec rest q' /\ ready q' (field_effect (q_p q) f) /\
      q_has q' = true.
  Proof.
    intros W S B H. destruct W as [un bn n h k us l W NE D P K WS|un bn n h uv bv v W NE D P K WV NV DV
                                  |un bn n h uv bv v W NE D P K WV NV DV|un bn n h W NE D P K];
      rewrite <- app_assoc; cbn [app].
    - rewrite (go_eq _ _ _ _ _ W NE D S B), (param_kind _ _ k P K).
      match goal with |- context [mailto_go M dec (us ++ rest) ?q0] =>
        destruct (ready_addresses us l q0 k rest WS eq_refl eq_refl) as (q' & E & R & _ & H') end.
      exists q'. split; [exact E|]. split; [exact R|]. now apply H'.
    - rewrite (go_eq _ _ _ _ _ W NE D S B), (param_body _ _ P K).
      rewrite (go_value _ _ WV _ None) by reflexivity.
      eexists. split; [reflexivity|]. split; [|exact H].
      unfold ready; cbn [pushes q_st q_buf q_p app]. right. eauto.
    - rewrite (go_eq _ _ _ _ _ W NE D S B), (param_header _ _ P K).
      rewrite (go_value _ _ WV _ (Some h)) by reflexivity.
      eexists. split; [reflexivity|]. split; [|exact H].
      unfold ready; cbn [pushes q_st q_buf q_p app]. right. eauto.
    - rewrite (go_eq _ _ _ _ _ W NE D S B). destruct (param_value _ _ P K) as [x ->].
      eexists. split; [reflexivity|]. split; [|exact H].
      unfold ready; cbn [pushes q_st q_buf q_p app]. left. auto.
  Qed.

  Lemma go_fields u fs : fields_written dec (hn_parse M) u fs -> forall q,
    q_st q = SName -> q_buf q = [] -> q_has q = true ->
    exists q', mailto_go M dec u q = Some q' /\ ready q' (fields_effect (q_p q) fs) /\ q_has q' = true.
  Proof.
    induction 1 as [u f W|u f us fs W WS IH]; intros q S B H.
    - destruct (go_field _ _ q [] W S B H) as (q' & E & R & H'). rewrite app_nil_r in E.
      exists q'. split; [exact E|]. split; [exact R|exact H'].
    - destruct (go_field _ _ q (38%N :: us) W S B H) as (q' & E & R & H').
      rewrite (ready_amp _ _ _ R H') in E.
      edestruct IH as (q'' & E' & R' & H''); [| | |rewrite E' in E; exists q''; split; [exact E|]; split; [exact R'|exact H'']];
        reflexivity.
  Qed.

  (** *** What inserting means *)
  Definition kinds (p : mailto) (l : list (akind * text)) : Prop :=
    m_to p = of_kind ATo l /\ m_cc p = of_kind ACc l /\ m_bcc p = of_kind ABcc l.

  Lemma of_kind_app k l1 l2 : of_kind k (l1 ++ l2) = of_kind k l1 ++ of_kind k l2.
  Proof. apply flat_map_app. Qed.
  Lemma of_kind_in k l a : In a (of_kind k l) <-> In (k, a) l.
  Proof.
    unfold of_kind. rewrite in_flat_map. split.
    - intros [[k' a'] [I J]]. destruct k, k'; cbn in J; intuition (subst; assumption).
    - intros I. exists (k, a). split; [exact I|]. destruct k; cbn; auto.
  Qed.
  Lemma all_in p l : kinds p l -> forall a, In a (m_all p) <-> exists k, In (k, a) l.
  Proof.
    intros (E1 & E2 & E3) a. unfold m_all. rewrite E1, E2, E3, !in_app_iff, !of_kind_in.
    split; [intros [H|[H|H]]; eauto|intros [[] H]; auto].
  Qed.

  Lemma inserts_kinds : forall l p done seen, kinds p done ->
    (forall a, In a seen <-> exists k, In (k, a) done) ->
    kinds (inserts p l) (done ++ drop_known seen l) /\ m_body (inserts p l) = m_body p /\ m_headers (inserts p l) = m_headers p.
  Proof.
    induction l as [|[k a] l IH]; intros p done seen K S.
    - cbn. rewrite app_nil_r. auto.
    - cbn [drop_known]. change (inserts p ((k, a) :: l)) with (inserts (insert_address p k a) l).
      unfold insert_address.
      assert (X : existsb (fun a0 => teqb_ic a0 a) (m_all p) = existsb (teqb_ic a) seen).
      { apply Bool.eq_true_iff_eq. rewrite !existsb_exists. split; intros (b & I & E).
        - exists b. split; [apply S; now apply (all_in _ _ K)|now rewrite teqb_ic_sym].
        - exists b. split; [apply (all_in _ _ K); now apply S|now rewrite teqb_ic_sym]. }
      rewrite X. destruct (existsb (teqb_ic a) seen) eqn:EX.
      + apply IH; assumption.
      + match goal with |- kinds (inserts ?p' l) _ /\ _ => set (p1 := p') end.
        destruct (IH p1 (done ++ [(k, a)]) (a :: seen)) as (K' & B' & H').
        * destruct K as (E1 & E2 & E3). unfold kinds, p1. rewrite !of_kind_app.
          destruct k; cbn [m_to m_cc m_bcc of_kind flat_map fst snd]; rewrite ?app_nil_r, ?E1, ?E2, ?E3; auto.
        * intros b. cbn [In]. setoid_rewrite in_app_iff. cbn [In]. rewrite S. split.
          -- intros [<- | [k' I]]; [exists k; auto|exists k'; auto].
          -- intros [k' [I | [E | []]]]; [right; eauto|injection E as <- <-; auto].
        * rewrite <- app_assoc in K'. cbn [app] in K'. split; [exact K'|].
          rewrite B', H'. unfold p1. destruct k; auto.
  Qed.

  Lemma drop_known_app seen l1 l2 : forall done,
    (forall a, In a seen <-> exists k : akind, In (k, a) done) ->
    exists seen', (forall a, In a seen' <-> exists k, In (k, a) (done ++ drop_known seen l1)) /\
      drop_known seen (l1 ++ l2) = drop_known seen l1 ++ drop_known seen' l2.
  Proof.
    revert seen. induction l1 as [|[k a] l1 IH]; intros seen done S; cbn [app drop_known].
    - exists seen. rewrite app_nil_r. auto.
    - destruct (existsb (teqb_ic a) seen).
      + now apply IH.
      + destruct (IH (a :: seen) (done ++ [(k, a)])) as (seen' & S' & E).
        * intros b. cbn [In]. setoid_rewrite in_app_iff. cbn [In]. rewrite S. split.
          -- intros [<- | [k' I]]; [exists k; auto|exists k'; auto].
          -- intros [k' [I | [EE | []]]]; [right; eauto|injection EE as <- <-; auto].
        * exists seen'. rewrite E. split; [|reflexivity].
          intros b. rewrite S'. now rewrite <- app_assoc.
  Qed.

  Lemma fields_kinds : forall fs p done seen, kinds p done ->
    (forall a, In a seen <-> exists k, In (k, a) done) ->
    kinds (fields_effect p fs) (done ++ drop_known seen (flat_map field_rcpts fs)) /\
    m_body (fields_effect p fs) = last_body (m_body p) fs /\
    m_headers (fields_effect p fs) = m_headers p ++ map (fun nv => (MParsed (fst nv), snd nv)) (flat_map field_headers fs).
  Proof.
    induction fs as [|f fs IH]; intros p done seen K S.
    - cbn. rewrite !app_nil_r. auto.
    - cbn [fields_effect fold_left flat_map last_body]. fold (fields_effect (field_effect p f) fs).
      destruct f as [k l|v|n v|]; cbn [field_effect field_rcpts field_headers app].
      + destruct (inserts_kinds (tagged k l) p done seen K S) as (K1 & B1 & H1).
        destruct (drop_known_app seen (map (fun a => (k, a)) l) (flat_map field_rcpts fs) done S) as (seen' & S' & E).
        rewrite E. destruct (IH _ _ seen' K1) as (K2 & B2 & H2).
        { intros a. apply S'. }
        rewrite B1 in B2. rewrite H1 in H2. rewrite <- app_assoc in K2. auto.
      + apply (IH (set_param p None v)); [exact K|exact S].
      + destruct (IH (set_param p (Some n) v) done seen K S) as (K2 & B2 & H2).
        split; [exact K2|]. split; [exact B2|]. rewrite H2. cbn [set_param m_headers map fst snd].
        now rewrite <- app_assoc.
      + now apply IH.
  Qed.

  (** *** C54: decoding *)
  Lemma parse_mailto_addresses : forall u l, addrs_written dec u l ->
    exists p, parse_mailto M dec u = Some p /\
      kinds p (drop_known [] (tagged ATo l)) /\ m_body p = None /\ m_headers p = [].
  Proof.
    intros u l W. destruct (ready_addresses u l mailto_init ATo [] W eq_refl eq_refl) as (q & E & R & S & _).
    exists (inserts mailto0 (tagged ATo l)). split.
    - unfold parse_mailto. rewrite app_nil_r in E. rewrite E. cbn [mailto_go].
      apply (ready_end _ _ R). eauto.
    - apply (inserts_kinds (tagged ATo l) mailto0 [] []).
      + repeat split.
      + intros a. split; [intros []|intros [k []]].
  Qed.

  Lemma parse_mailto_fields : forall u l v fs, addrs_written dec u l -> fields_written dec (hn_parse M) v fs ->
    exists p, parse_mailto M dec (u ++ 63%N :: v) = Some p /\
      kinds p (drop_known [] (tagged ATo l ++ flat_map field_rcpts fs)) /\ m_body p = last_body None fs /\
      m_headers p = map (fun nv => (MParsed (fst nv), snd nv)) (flat_map field_headers fs).
  Proof.
    intros u l v fs W WF.
    destruct (ready_addresses u l mailto_init ATo (63%N :: v) W eq_refl eq_refl) as (q & E & R & S & _).
    assert (E1 : mailto_go M dec (63%N :: v) q =
                 mailto_go M dec v {| q_p := inserts mailto0 (tagged ATo l); q_st := SName; q_buf := []; q_has := true |}).
    { rewrite go_plain by discriminate. unfold step_plain. eqbs. rewrite S.
      unfold ready in R. rewrite S in R. destruct R as (a & NE & D & R).
      destruct (q_buf q) as [|x b] eqn:B; [congruence|]. unfold take_addr. rewrite B, D. unfold goto.
      cbn [q_p mailto_init] in R. now rewrite R. }
    rewrite E1 in E.
    edestruct (go_fields v fs WF) as (q' & E' & R' & H'); [| | |rewrite E' in E]; [reflexivity..|].
    cbn [q_p] in R'.
    exists (fields_effect (inserts mailto0 (tagged ATo l)) fs). split.
    - unfold parse_mailto. rewrite E. apply (ready_end _ _ R'). auto.
    - destruct (inserts_kinds (tagged ATo l) mailto0 [] []) as (K1 & B1 & H1).
      { repeat split. }
      { intros a. split; [intros []|intros [k []]]. }
      destruct (drop_known_app [] (tagged ATo l) (flat_map field_rcpts fs) []) as (seen' & S' & EQ).
      { intros a. split; [intros []|intros [k []]]. }
      rewrite EQ. destruct (fields_kinds fs _ _ seen' K1 S') as (K2 & B2 & H2).
      rewrite B1 in B2. rewrite H1 in H2. auto.
  Qed.

  (** *** C43: no duplicates, shape *)
  Hypothesis DEC : forall bs t, dec bs = Some t -> utf8 t = bs.

  Definition minv (q : mst) : Prop :=
    no_dup_addr (m_all (q_p q)) /\ Forall (fun a => one_at (utf8 a)) (m_all (q_p q)) /\
    match q_st q with
    | SAddr _ h => count_occ N.eq_dec (q_buf q) 64%N = (if h then 1 else 0) /\ ~ In 44%N (q_buf q)
    | _ => True
    end.

  Lemma nodup_insert : forall p k v, no_dup_addr (m_all p) -> no_dup_addr (m_all (insert_address p k v)).
  Proof.
    intros p k v ND. unfold insert_address. destruct (existsb (fun a => teqb_ic a v) (m_all p)) eqn:E; [exact ND|].
    assert (NI : ~ In (lower_text v) (map lower_text (m_all p))).
    { intros I. apply in_map_iff in I. destruct I as (a & EQ & I).
      assert (X : existsb (fun a => teqb_ic a v) (m_all p) = true).
      { apply existsb_exists. exists a. split; [exact I|]. now apply teqb_ic_spec. }
      congruence. }
    unfold no_dup_addr, m_all in *.
    assert (G : forall l1 l2 : list text, NoDup (map lower_text (l1 ++ l2)) -> ~ In (lower_text v) (map lower_text (l1 ++ l2)) ->
                NoDup (map lower_text (l1 ++ [v] ++ l2))).
    { intros l1 l2. rewrite !map_app. cbn [map app]. intros H1 H2. apply NoDup_Add with (a := lower_text v) (l := map lower_text l1 ++ map lower_text l2); [apply Add_app|auto]. }
    destruct k; cbn [m_to m_cc m_bcc].
    - rewrite <- app_assoc. now apply G.
    - rewrite <- app_assoc, app_assoc. apply G; now rewrite <- app_assoc.
    - rewrite (app_assoc (m_cc p)), app_assoc. rewrite <- (app_nil_r (_ ++ [v])), <- app_assoc.
      apply G; now rewrite app_nil_r.
  Qed.
  Lemma forall_insert (P : text -> Prop) p k v : Forall P (m_all p) -> P v -> Forall P (m_all (insert_address p k v)).
  Proof.
    intros F V. unfold insert_address. destruct (existsb _ _); [exact F|].
    unfold m_all in *. rewrite !Forall_app in F. destruct F as (F1 & F2 & F3).
    destruct k; cbn [m_to m_cc m_bcc]; rewrite !Forall_app; intuition.
  Qed.

  Lemma minv_take q k p st h : minv q -> q_st q = SAddr k true -> take_addr dec q k = Some p ->
    match st with SAddr _ b => b = false | _ => True end -> minv (goto q p st h).
  Proof.
    intros (ND & OA & B) S T ST. rewrite S in B. unfold take_addr in T.
    destruct (dec (q_buf q)) as [v|] eqn:D; [|discriminate]. injection T as <-.
    split; [|split]; cbn [goto q_p q_st q_buf].
    - now apply nodup_insert.
    - apply forall_insert; [exact OA|]. now rewrite (DEC _ _ D).
    - destruct st; auto. subst. cbn. auto.
  Qed.
  Lemma minv_goto q st h : minv q -> match st with SAddr _ b => b = false | _ => True end ->
    minv (goto q (q_p q) st h).
  Proof.
    intros (ND & OA & B) ST. split; [|split]; cbn [goto q_p q_st q_buf]; auto.
    destruct st; auto. subst; cbn; auto.
  Qed.
  Lemma minv_param q n v st h : minv q -> match st with SAddr _ b => b = false | _ => True end ->
    minv (goto q (set_param (q_p q) n v) st h).
  Proof.
    intros (ND & OA & B) ST. split; [|split]; cbn [goto q_p q_st q_buf]; auto.
    - destruct n; exact ND.
    - destruct n; exact OA.
    - destruct st; auto. subst; cbn; auto.
  Qed.
  Lemma minv_push q c : minv q -> (forall k h, q_st q = SAddr k h -> c <> 64%N /\ c <> 44%N) -> minv (push q c).
  Proof.
    intros (ND & OA & B) H. split; [|split]; cbn [push q_p q_st q_buf]; auto.
    destruct (q_st q) as [k h| |]; auto. destruct (H k h eq_refl) as [H1 H2].
    rewrite count_occ_app, in_app_iff. cbn [count_occ In]. destruct (N.eq_dec c 64); [congruence|].
    rewrite Nat.add_0_r. intuition.
  Qed.
  Lemma minv_at q k : minv q -> q_st q = SAddr k false ->
    minv {| q_p := q_p q; q_st := SAddr k true; q_buf := q_buf q ++ [64%N]; q_has := q_has q |}.
  Proof.
    intros (ND & OA & B) S. rewrite S in B. split; [|split]; cbn [q_p q_st q_buf]; auto.
    rewrite count_occ_app, in_app_iff. destruct B as [-> B]. cbn. intuition discriminate.
  Qed.

  Lemma minv_step_pct q c q' : minv q -> step_pct dec q c = Some q' -> minv q'.
  Proof.
    intros I E. unfold step_pct in E. destruct (q_st q) as [k h| |n] eqn:S.
    - destruct (N.eqb_spec c 44).
      + destruct h; [|discriminate]. destruct (take_addr dec q k) eqn:T; [|discriminate]. injection E as <-.
        eapply minv_take; eauto.
      + destruct (N.eqb_spec c 64).
        * destruct h; [discriminate|]. injection E as <-. subst c. now apply minv_at.
        * injection E as <-. apply minv_push; auto.
    - injection E as <-. apply minv_push; [exact I|]. intros; congruence.
    - injection E as <-. apply minv_push; [exact I|]. intros; congruence.
  Qed.

  Lemma minv_step_plain q c q' : minv q -> step_plain M dec q c = Some q' -> minv q'.
  Proof.
    intros I E. unfold step_plain in E.
    destruct (N.eqb_spec c 44).
    { destruct (q_st q) as [k [|]| |n] eqn:S; try discriminate.
      - destruct (take_addr dec q k) eqn:T; [|discriminate]. injection E as <-. eapply minv_take; eauto.
      - injection E as <-. apply minv_push; [exact I|]. intros; congruence. }
    destruct (N.eqb_spec c 63).
    { destruct (q_st q) as [k h| |m] eqn:S; try discriminate.
      - destruct (q_buf q); [injection E as <-; now apply minv_goto|].
        destruct h; [|discriminate]. destruct (take_addr dec q k) eqn:T; [|discriminate]. injection E as <-.
        eapply minv_take; eauto.
      - injection E as <-. apply minv_push; [exact I|]. intros; congruence. }
    destruct (N.eqb_spec c 64).
    { destruct (q_st q) as [k [|]| |m] eqn:S; try discriminate.
      - assert (E' : Some {| q_p := q_p q; q_st := SAddr k true; q_buf := q_buf q ++ [c]; q_has := q_has q |} = Some q')
          by (destruct (q_buf q); [discriminate|exact E]).
        injection E' as <-. subst c. now apply minv_at.
      - injection E as <-. apply minv_push; [exact I|]. intros; congruence.
      - injection E as <-. apply minv_push; [exact I|]. intros; congruence. }
    destruct (N.eqb_spec c 61).
    { destruct (q_st q) as [k h| |m] eqn:S; try discriminate.
      - destruct (q_buf q) eqn:B; [discriminate|]. destruct (dec _) as [t|]; [|discriminate]. injection E as <-.
        apply minv_goto; [exact I|]. unfold param_state. destruct (hn_parse M t); [|exact Logic.I].
        repeat match goal with |- context [if ?b then _ else _] => destruct b end; reflexivity || exact Logic.I.
      - injection E as <-. apply minv_push; [exact I|]. intros; congruence. }
    destruct (N.eqb_spec c 38).
    { destruct (q_st q) as [k [|]| |m] eqn:S; try discriminate.
      - destruct (q_buf q); [injection E as <-; now apply minv_goto|].
        destruct (take_addr dec q k) eqn:T; [|discriminate]. injection E as <-.
        eapply minv_take; eauto.
      - destruct (q_buf q); [injection E as <-; now apply minv_goto|].
        destruct (dec _); [|discriminate]. injection E as <-. now apply minv_param. }
    destruct (q_st q) as [k h| |m] eqn:S.
    - destruct (is_ws_ascii c); injection E as <-; [exact I|apply minv_push; auto].
    - destruct (_ || _); [|discriminate]. injection E as <-. apply minv_push; [exact I|]. intros; congruence.
    - destruct (is_ws_ascii c); injection E as <-; [exact I|apply minv_push; [exact I|intros; congruence]].
  Qed.

  Lemma minv_go : forall n s q q', length s <= n -> minv q -> mailto_go M dec s q = Some q' -> minv q'.
  Proof.
    induction n as [|n IH]; intros [|c s] q q' LN I E; cbn [length] in LN; try (cbn in E; congruence || (injection E as <-; exact I)).
    - lia.
    - cbn [mailto_go] in E. destruct (N.eqb c 37).
      + destruct s as [|h1 [|h2 s]]; try discriminate. destruct (hexv h1); [|discriminate]. destruct (hexv h2); [|discriminate].
        destruct (step_pct _ _ _) eqn:ST; [|discriminate]. cbn [length] in LN.
        eapply IH; [|eapply minv_step_pct; eauto|exact E]. lia.
      + destruct (step_plain _ _ _ _) eqn:ST; [|discriminate].
        eapply IH; [|eapply minv_step_plain; eauto|exact E]. lia.
  Qed.

  Lemma parse_mailto_inv : forall s p, parse_mailto M dec s = Some p ->
    no_dup_addr (m_all p) /\ Forall (fun a => one_at (utf8 a)) (m_all p) /\ m_all p <> [].
  Proof.
    intros s p E. unfold parse_mailto in E.
    destruct (mailto_go M dec s mailto_init) as [q|] eqn:G; [|discriminate].
    assert (I0 : minv mailto_init).
    { split; [|split]; cbn; auto. constructor. }
    assert (I := minv_go _ _ _ _ (le_n _) I0 G).
    (* has_addresses implies some address *)
    assert (HA : forall n s q q', length s <= n -> (q_has q = true -> m_all (q_p q) <> []) ->
                 mailto_go M dec s q = Some q' -> (q_has q' = true -> m_all (q_p q') <> [])).
    { assert (NI : forall p k v, m_all (insert_address p k v) <> []).
      { intros p0 k v. unfold insert_address. destruct (existsb _ _) eqn:EX.
        - destruct (m_all p0); [discriminate|discriminate].
        - unfold m_all. destruct k; cbn; intros X; repeat (apply app_eq_nil in X; destruct X as [? X]); try discriminate;
            match goal with H : _ ++ [_] = [] |- _ => now apply app_eq_nil in H end. }
      assert (NT : forall q k p, take_addr dec q k = Some p -> m_all p <> []).
      { intros q0 k p0 T. unfold take_addr in T. destruct (dec _); [|discriminate]. injection T as <-. apply NI. }
      assert (NP : forall p0 n v, m_all (set_param p0 n v) = m_all p0) by (intros ? [] ?; reflexivity).
      induction n as [|n IH]; intros [|c s0] q0 q' LN H E'; cbn [length] in LN; try (cbn in E'; congruence || (injection E' as <-; exact H)).
      - lia.
      - cbn [mailto_go] in E'. destruct (N.eqb c 37).
        + destruct s0 as [|h1 [|h2 s0]]; try discriminate. destruct (hexv h1); [|discriminate]. destruct (hexv h2); [|discriminate].
          destruct (step_pct _ _ _) as [q1|] eqn:ST; [|discriminate]. cbn [length] in LN.
          eapply IH; [| |exact E']; [lia|]. unfold step_pct in ST.
          destruct (q_st q0) as [k [|]| |]; repeat match type of ST with context [if ?b then _ else _] => destruct b end;
            try discriminate; try (injection ST as <-; exact H).
          destruct (take_addr dec q0 k) eqn:T; [|discriminate]. injection ST as <-. cbn. intros _. eapply NT; eauto.
        + destruct (step_plain _ _ _ _) as [q1|] eqn:ST; [|discriminate].
          eapply IH; [| |exact E']; [lia|]. unfold step_plain in ST.
          destruct (q_st q0) as [k [|]| |];
            repeat match type of ST with context [if ?b then _ else _] => destruct b end;
            try discriminate; try (injection ST as <-; exact H);
            repeat match type of ST with
              | context [match q_buf q0 with _ => _ end] => destruct (q_buf q0)
              | context [take_addr dec q0 ?k] => let T := fresh "T" in destruct (take_addr dec q0 k) eqn:T
              | context [dec ?b] => destruct (dec b)
              end; try discriminate; injection ST as <-; cbn [goto q_p q_has]; rewrite ?NP; try exact H;
            intros _; eapply NT; eauto. }
    assert (H0 : q_has mailto_init = true -> m_all (q_p mailto_init) <> []) by discriminate.
    assert (H := HA _ _ _ _ (le_n _) H0 G).
    destruct I as (ND & OA & B). unfold mailto_end in E.
    destruct (q_buf q) as [|x b] eqn:BE.
    - destruct (q_has q); [|discriminate]. injection E as <-. auto.
    - destruct (dec (x :: b)) as [v|] eqn:D; [|discriminate]. destruct (q_st q) as [k [|]| |n] eqn:S; try discriminate.
      + injection E as <-. split; [now apply nodup_insert|]. split.
        * apply forall_insert; [exact OA|]. rewrite (DEC _ _ D). exact B.
        * unfold insert_address. destruct (existsb _ _) eqn:EX.
          -- destruct (m_all (q_p q)); discriminate.
          -- unfold m_all. destruct k; cbn; intros X; repeat (apply app_eq_nil in X; destruct X as [? X]); try discriminate;
               match goal with H : _ ++ [_] = [] |- _ => now apply app_eq_nil in H end.
      + destruct (q_has q); [|discriminate]. injection E as <-. auto.
      + destruct (q_has q); [|discriminate]. injection E as <-. destruct n; auto.
  Qed.

  Lemma inner_addr_plain : forall a, ~ In 60%N a -> inner_addr a = a.
  Proof.
    intros a NI. unfold inner_addr. assert (E : split_last 60%N a = None); [|now rewrite E].
    induction a as [|c a IH]; [reflexivity|]. cbn [split_last]. rewrite IH by (intros I; apply NI; now right).
    destruct (N.eqb_spec c 60); [|reflexivity]. exfalso. apply NI. now left.
  Qed.
End N.

(** *** The action *)
Section X.
  Variable M : mailparser.
  Variable dec : list N -> option text.

  Lemma exec_send_shape : forall e a evs l o g opts id,
    exec_notify M dec e a = Some (evs, l, o) -> In (ESend (RGroup g) opts id) evs ->
    exists scheme rest p, parse_uri (n_method a) = Some (scheme, rest) /\ parse_mailto M dec (utf8 rest) = Some p /\
      g = map inner_addr (m_all p) /\ id = l /\ In (ECreated id (notify_text e a p)) evs.
  Proof.
    intros e a evs l o g opts id E I. unfold exec_notify in E.
    destruct (existsb auto_submitted (v_headers e)); [discriminate|].
    destruct (parse_uri (n_method a)) as [[scheme rest]|] eqn:P; [|discriminate].
    destruct (teqb_ic scheme (lit "mailto") && Nat.ltb (v_out e) (v_max_out e)) eqn:IM.
    - destruct (parse_mailto M dec (utf8 rest)) as [p|] eqn:PM; [|discriminate].
      injection E as <- <- <-. exists scheme, rest, p. split; [reflexivity|]. split; [exact PM|].
      cbn [app In] in I. destruct I as [I | [I | I]]; [discriminate| |].
      + injection I as <- <- <-. cbn [app In]. auto.
      + exfalso. destruct (n_fcc a) as [[[[[f fl] mid] su] cr]|]; [destruct I as [I | []]; discriminate|exact I].
    - exfalso. destruct (n_fcc a) as [[[[[f fl] mid] su] cr]|]; injection E as <- <- <-; cbn [app In] in I;
        repeat (destruct I as [I | I]; [discriminate|]); exact I.
  Qed.

  Lemma send_nodup : (forall bs t, dec bs = Some t -> utf8 t = bs) ->
    forall e a evs l o g opts id,
    exec_notify M dec e a = Some (evs, l, o) -> In (ESend (RGroup g) opts id) evs ->
    (forall scheme rest p, parse_uri (n_method a) = Some (scheme, rest) -> parse_mailto M dec (utf8 rest) = Some p ->
       Forall (fun x => ~ In 60%N x) (m_all p)) ->
    no_dup_addr g /\ g <> [] /\ Forall (fun x => count_occ N.eq_dec (utf8 x) 64%N = 1) g.
  Proof.
    intros DEC e a evs l o g opts id E I NB.
    destruct (exec_send_shape _ _ _ _ _ _ _ _ E I) as (s & r & p & P & PM & -> & _).
    specialize (NB _ _ _ P PM).
    destruct (parse_mailto_inv M dec DEC _ _ PM) as (ND & OA & NE).
    assert (EQ : map inner_addr (m_all p) = m_all p).
    { clear - NB. induction NB as [|x l H NB IH]; [reflexivity|]. cbn. now rewrite IH, inner_addr_plain. }
    rewrite EQ. split; [exact ND|]. split; [exact NE|]. eapply Forall_impl; [|exact OA]. intros x [H _]; exact H.
  Qed.

  Lemma auto_silent : forall e a h, In h (v_headers e) ->
    lower_text (h_name h) = lit "auto-submitted" ->
    (forall t, h_val h = HText t -> lower_text t <> lit "no") -> exec_notify M dec e a = None.
  Proof.
    intros e a h I N V. unfold exec_notify.
    assert (X : existsb auto_submitted (v_headers e) = true); [|now rewrite X].
    apply existsb_exists. exists h. split; [exact I|]. unfold auto_submitted, hn_eqb.
    rewrite (proj2 (teqb_ic_spec _ _)) by exact N. cbn [andb].
    destruct (h_val h) as [t| |]; [|reflexivity..]. specialize (V t eq_refl).
    apply Bool.negb_true_iff. destruct (teqb_ic t (lit "no")) eqn:E; [|reflexivity].
    apply teqb_ic_spec in E. contradiction.
  Qed.

  Lemma auto_submitted_false : forall hs,
    (forall h, In h hs -> lower_text (h_name h) = lit "auto-submitted" ->
       exists t, h_val h = HText t /\ lower_text t = lit "no") ->
    existsb auto_submitted hs = false.
  Proof.
    intros hs H. destruct (existsb auto_submitted hs) eqn:E; [|reflexivity].
    apply existsb_exists in E. destruct E as (h & I & A). unfold auto_submitted, hn_eqb in A.
    apply Bool.andb_true_iff in A. destruct A as [A1 A2]. apply teqb_ic_spec in A1.
    destruct (H h I A1) as (t & E & T). rewrite E in A2. apply Bool.negb_true_iff in A2.
    unfold teqb_ic in A2. rewrite T in A2. discriminate.
  Qed.

  Lemma valid_uri_notifies : forall e a s, validate_uri M dec (n_method a) = Some s ->
    (forall h, In h (v_headers e) -> lower_text (h_name h) = lit "auto-submitted" ->
       exists t, h_val h = HText t /\ lower_text t = lit "no") ->
    exists evs l o, exec_notify M dec e a = Some (evs, l, o) /\
      ((exists g opts, In (ESend (RGroup g) opts l) evs /\ teqb_ic s (lit "mailto") = true /\ v_out e < v_max_out e) \/
       (exists f i os m, In (ENotify f i os m (n_method a)) evs /\
          (teqb_ic s (lit "mailto") = false \/ v_max_out e <= v_out e))).
  Proof.
    intros e a s V H. unfold exec_notify. rewrite (auto_submitted_false _ H).
    unfold validate_uri in V. destruct (parse_uri (n_method a)) as [[scheme rest]|]; [|discriminate].
    destruct (teqb_ic scheme (lit "mailto")) eqn:MT; cbn [andb].
    - destruct (parse_mailto M dec (utf8 rest)) as [p|]; [|discriminate]. injection V as <-.
      destruct (Nat.ltb_spec (v_out e) (v_max_out e)) as [LT|GE].
      + do 3 eexists. split; [reflexivity|]. left. do 2 eexists. split; [right; left; reflexivity|]. auto.
      + destruct (n_fcc a); do 3 eexists; (split; [reflexivity|]); right; do 4 eexists;
          (split; [apply in_or_app; right; left; reflexivity|]); right; exact GE.
    - assert (scheme = s) as ->.
      { destruct (existsb _ _); [now injection V|discriminate]. }
      destruct (n_fcc a); do 3 eexists; (split; [reflexivity|]); right; do 4 eexists;
          (split; [apply in_or_app; right; left; reflexivity|]); left; exact MT.
  Qed.

  Lemma filter_all {A} (f : A -> bool) l : length (filter f l) = length l -> forall x, In x l -> f x = true.
  Proof.
    induction l as [|y l IH]; intros E x I; [destruct I|]. cbn [filter] in E. destruct (f y) eqn:F.
    - cbn [length] in E. destruct I as [<- | I]; [exact F|]. apply IH; [lia|exact I].
    - exfalso. assert (H : length (filter f l) <= length l) by (clear; induction l; cbn; [lia|destruct (f a); cbn; lia]).
      cbn [length] in E. lia.
  Qed.
  Lemma valid_method_notifies : forall allowed uris e a,
    valid_notify_method M dec allowed uris false = true -> In (n_method a) uris ->
    (forall h, In h (v_headers e) -> lower_text (h_name h) = lit "auto-submitted" ->
       exists t, h_val h = HText t /\ lower_text t = lit "no") ->
    exists scheme rest evs l o, parse_uri (n_method a) = Some (scheme, rest) /\
      (In scheme allowed \/ In (n_method a) allowed) /\
      exec_notify M dec e a = Some (evs, l, o) /\
      ((exists g opts, In (ESend (RGroup g) opts l) evs /\ teqb_ic scheme (lit "mailto") = true /\ v_out e < v_max_out e) \/
       (exists f i os m, In (ENotify f i os m (n_method a)) evs /\
          (teqb_ic scheme (lit "mailto") = false \/ v_max_out e <= v_out e))).
  Proof.
    intros allowed uris e a V I H. unfold valid_notify_method in V. rewrite Bool.xorb_false_r in V.
    apply Nat.eqb_eq in V. assert (F := filter_all _ _ V _ I). cbv beta in F.
    destruct (validate_uri M dec (n_method a)) as [s|] eqn:VU; [|discriminate].
    destruct (valid_uri_notifies e a s VU H) as (evs & l & o & E & D).
    assert (P : exists rest, parse_uri (n_method a) = Some (s, rest)).
    { unfold validate_uri in VU. destruct (parse_uri (n_method a)) as [[sc rest]|]; [|discriminate].
      exists rest. destruct (teqb_ic sc _); [destruct (parse_mailto _ _ _)|destruct (existsb _ _)]; try discriminate; congruence. }
    destruct P as [rest P]. exists s, rest, evs, l, o. split; [exact P|]. split; [|split; [exact E|exact D]].
    apply Bool.orb_true_iff in F. destruct F as [F | F]; apply existsb_exists in F; destruct F as (x & J & EQ);
      apply teqb_spec in EQ; subst x; auto.
  Qed.
  Lemma filter_length_iff {A} (f : A -> bool) l : length (filter f l) = length l <-> Forall (fun x => f x = true) l.
  Proof.
    split; [intros H; apply Forall_forall; exact (filter_all f l H)|].
    induction 1 as [|x l F _ IH]; [reflexivity|]. cbn [filter]. rewrite F. cbn. now rewrite IH.
  Qed.
  Lemma valid_method_exact : forall allowed uris n,
    valid_notify_method M dec allowed uris n = negb n <->
    Forall (fun u => exists scheme, validate_uri M dec u = Some scheme /\ (In scheme allowed \/ In u allowed)) uris.
  Proof.
    intros allowed uris n. unfold valid_notify_method.
    assert (X : forall b, xorb b n = negb n <-> b = true) by (intros []; destruct n; cbn; split; congruence).
    rewrite X, Nat.eqb_eq, filter_length_iff. rewrite !Forall_forall. split; intros H x I; specialize (H x I).
    - destruct (validate_uri M dec x) as [s|]; [|discriminate]. exists s. split; [reflexivity|].
      apply Bool.orb_true_iff in H. destruct H as [H | H]; apply existsb_exists in H; destruct H as (y & J & E);
        apply teqb_spec in E; subst y; auto.
    - destruct H as (s & -> & J). apply Bool.orb_true_iff. rewrite !existsb_exists.
      destruct J as [J | J]; [left; exists s|right; exists x]; (split; [exact J|now apply teqb_spec]).
  Qed.
End X.

(** *** The lines of the message *)
Lemma lines_hline : forall s cur rest, no_cr s ->
  lines_go (s ++ CRLF ++ rest) cur = (cur ++ s) :: lines_go rest [].
Proof.
  induction s as [|c s IH]; intros cur rest N.
  - cbn [app CRLF lines_go]. change (N.eqb 13 13 && N.eqb 10 10) with true. cbv iota. now rewrite app_nil_r.
  - cbn [app]. assert (NC : c <> 13%N) by (intros ->; apply N; now left).
    assert (N' : no_cr s) by (intros I; apply N; now right).
    assert (E : lines_go (c :: s ++ CRLF ++ rest) cur = lines_go (s ++ CRLF ++ rest) (cur ++ [c])).
    { cbn [lines_go]. destruct (s ++ CRLF ++ rest) as [|d s''] eqn:X.
      - destruct s; discriminate.
      - rewrite (eqb_neq' _ _ NC). cbn [andb]. reflexivity. }
    rewrite E, (IH _ _ N'), <- app_assoc. reflexivity.
Qed.

(** A block of header lines: the names of its lines are in [names]. *)
Definition block (names : list text) (t : text) : Prop :=
  exists ls, (forall rest, lines_go (t ++ rest) [] = ls ++ lines_go rest []) /\
    Forall (fun l => l <> [] /\ In (line_name l) names) ls.
Lemma block_nil names : block names [].
Proof. exists []. auto. Qed.
Lemma block_app names a b : block names a -> block names b -> block names (a ++ b).
Proof.
  intros (la & Ea & Fa) (lb & Eb & Fb). exists (la ++ lb). split.
  - intros rest. now rewrite <- app_assoc, Ea, Eb, app_assoc.
  - now apply Forall_app.
Qed.
Lemma line_name_app n v : ~ In 58%N n -> line_name (n ++ 58%N :: v) = n.
Proof.
  induction n as [|c n IH]; intros NI; cbn [app line_name].
  - now rewrite N.eqb_refl.
  - rewrite eqb_neq' by (intros ->; apply NI; now left). f_equal. apply IH. intros I; apply NI; now right.
Qed.
Lemma block_hline names n v : In n names -> ~ In 58%N n -> no_cr n -> no_cr v ->
  block names (hline (n ++ [58%N; 32%N]) v).
Proof.
  intros I NC N1 N2. exists [n ++ 58%N :: 32%N :: v]. split.
  - intros rest. unfold hline. rewrite <- !app_assoc.
    change (n ++ [58%N; 32%N] ++ v ++ CRLF ++ rest) with (n ++ ([58%N; 32%N] ++ v ++ CRLF ++ rest)).
    assert (E : n ++ [58%N; 32%N] ++ v ++ CRLF ++ rest = (n ++ 58%N :: 32%N :: v) ++ CRLF ++ rest)
      by (rewrite <- app_assoc; reflexivity).
    rewrite E, lines_hline; [reflexivity|].
    intros J. apply in_app_iff in J. destruct J as [J | [J | [J | J]]]; try discriminate; auto.
  - constructor; [|constructor]. split; [now destruct n|]. now rewrite line_name_app.
Qed.

Lemma no_cr_app a b : no_cr a -> no_cr b -> no_cr (a ++ b).
Proof. unfold no_cr. rewrite in_app_iff. tauto. Qed.
Lemma no_cr_lit (t : text) : mem_ch 13%N t = false -> no_cr t.
Proof.
  intros H I. unfold mem_ch in H. assert (X : existsb (N.eqb 13) t = true).
  { apply existsb_exists. exists 13%N. split; [exact I|reflexivity]. }
  unfold ch in *. congruence.
Qed.

Lemma no_cr_from e a p : clean e a p -> no_cr (notify_from e a).
Proof.
  intros C. assert (U : no_cr (user_from_field (v_name e) (v_addr e))).
  { unfold user_from_field. destruct (cl_user _ _ _ C) as [A N]. destruct (v_name e) as [|x n]; [exact A|].
    intros [I | I]; [discriminate|]. apply in_app_iff in I. destruct I as [I | [I | [I | [I | I]]]]; try discriminate; [now apply N|].
    apply in_app_iff in I. destruct I as [I | [I | []]]; [now apply A|discriminate]. }
  unfold notify_from. destruct (n_from a) as [f|] eqn:F; [|exact U].
  destruct (tcontains _ _); [now apply (cl_from _ _ _ C)|exact U].
Qed.
Lemma no_cr_addrs l : Forall no_cr l -> no_cr (show_addrs l).
Proof.
  assert (A : forall x, no_cr x -> no_cr (show_addr x)).
  { intros x N. unfold show_addr. destruct (mem_ch 60%N x); [exact N|]. intros [I | I]; [discriminate|].
    apply in_app_iff in I. destruct I as [I | [I | []]]; [now apply N|discriminate]. }
  induction 1 as [|x l N F IH]; [intros []|]. destruct l as [|y l]; [now apply A|].
  change (no_cr (show_addr x ++ lit ", " ++ show_addrs (y :: l))). apply no_cr_app; [now apply A|].
  apply no_cr_app; [now apply no_cr_lit|exact IH].
Qed.
Lemma no_cr_clip s : no_cr s -> no_cr (clip_subject s).
Proof.
  intros N. unfold clip_subject. apply no_cr_app.
  - intros I. apply N. rewrite <- (firstn_skipn 256 s). apply in_or_app. now left.
  - destruct (Nat.ltb _ _); [|intros []]. intros [I | []]; discriminate.
Qed.
Lemma uri_subject_in : forall l acc m,
  fold_left (fun (acc : option text) (hv : mh * text) => if mh_is (fst hv) (lit "Subject") then Some (snd hv) else acc) l acc = Some m ->
  acc = Some m \/ exists h, In (h, m) l.
Proof.
  induction l as [|[h v] l IH]; intros acc m E; [now left|]. cbn [fold_left fst snd] in E.
  destruct (IH _ _ E) as [H | [h' I]]; [|right; exists h'; now right].
  destruct (mh_is h (lit "Subject")); [|now left]. injection H as ->. right. exists h. now left.
Qed.

Lemma clean_block e a p : clean e a p ->
  block (fixed_names ++ map (fun hv => mh_text (fst hv)) (m_headers p)) (notify_headers e a p).
Proof.
  intros C. set (names := fixed_names ++ _).
  assert (FX : forall n v, existsb (teqb n) fixed_names = true -> mem_ch 58%N n = false -> mem_ch 13%N n = false -> no_cr v ->
               block names (hline (n ++ [58%N; 32%N]) v)).
  { intros n v I1 I2 I3 N. apply block_hline.
    - unfold names. apply in_or_app. left. apply existsb_exists in I1. destruct I1 as (x & I & E).
      apply teqb_spec in E. now subst.
    - intros I. unfold mem_ch in I2. assert (X : existsb (N.eqb 58) n = true).
      { apply existsb_exists. exists 58%N. split; [exact I|reflexivity]. } unfold ch in *. congruence.
    - now apply no_cr_lit.
    - exact N. }
  unfold notify_headers.
  apply block_app; [apply (FX (lit "From")); try reflexivity; now apply (no_cr_from _ _ p)|].
  destruct (cl_addr _ _ _ C) as [CA CB].
  apply block_app.
  { unfold addr_header. destruct (m_to p) eqn:E; [apply block_nil|]. rewrite <- E in *.
    apply (FX (lit "To")); try reflexivity. now apply no_cr_addrs. }
  apply block_app.
  { unfold addr_header. destruct (m_cc p) eqn:E; [apply block_nil|]. rewrite <- E in *.
    apply (FX (lit "Cc")); try reflexivity. now apply no_cr_addrs. }
  apply block_app.
  { assert (CH := cl_hdrs _ _ _ C).
    assert (SUB : forall hv, In hv (m_headers p) -> In (mh_text (fst hv)) names).
    { intros hv I. unfold names. apply in_or_app. right. apply in_map_iff. eauto. }
    clearbody names. unfold uri_headers. induction (m_headers p) as [|[h v] l IH]; cbn [flat_map fst snd]; [apply block_nil|].
    inversion CH as [|? ? (N1 & N2 & N3) CH']; subst. apply block_app.
    - destruct (_ || _); [apply block_nil|]. apply block_hline; auto. apply (SUB (h, v)). now left.
    - apply IH; [exact CH'|]. intros hv I. apply SUB. now right. }
  destruct (cl_date _ _ _ C) as [CD CM].
  apply block_app; [destruct (existsb _ _); [apply block_nil|apply (FX (lit "Date")); reflexivity || exact CD]|].
  apply block_app; [destruct (existsb _ _); [apply block_nil|apply (FX (lit "Message-ID")); reflexivity || exact CM]|].
  apply block_app.
  { unfold importance_lines. destruct (importance_of (n_importance a)); apply block_app;
      ((apply (FX (lit "Importance")); try reflexivity; now apply no_cr_lit) ||
       (apply (FX (lit "X-Priority")); try reflexivity; now apply no_cr_lit)). }
  apply block_app.
  { apply (FX (lit "Subject")); try reflexivity. apply no_cr_clip.
    destruct (uri_subject (m_headers p)) as [m|] eqn:US; cbn [opt_or opt_text].
    - destruct (uri_subject_in _ _ _ US) as [H | [h I]]; [discriminate|].
      assert (CH := cl_hdrs _ _ _ C). rewrite Forall_forall in CH. apply (CH _ I).
    - destruct (n_message a) as [m|] eqn:NM; cbn [opt_or opt_text]; [now apply (cl_msg _ _ _ C)|].
      destruct (v_subject e) as [m|] eqn:VS; cbn [opt_text]; [now apply (cl_subj _ _ _ C)|intros []]. }
  apply block_app; [apply (FX (lit "Auto-Submitted")); try reflexivity; now apply no_cr_lit|].
  apply block_app; [apply (FX (lit "X-Sieve")); try reflexivity; now apply no_cr_lit|].
  apply (FX (lit "Content-type")); try reflexivity; now apply no_cr_lit.
Qed.

Lemma until_empty_app : forall ls rest (P : text -> Prop), Forall (fun l => l <> [] /\ P l) ls ->
  until_empty (ls ++ [] :: rest) = ls.
Proof.
  induction 1 as [|l ls [NE _] F IH]; [reflexivity|]. cbn [app until_empty]. destruct l; [congruence|]. now rewrite IH.
Qed.

Lemma notify_header_names : forall e a p, clean e a p ->
  Forall (fun l => In (line_name l) (fixed_names ++ map (fun hv => mh_text (fst hv)) (m_headers p)))
         (header_lines (notify_text e a p)).
Proof.
  intros e a p C. destruct (clean_block _ _ _ C) as (ls & E & F).
  unfold header_lines, notify_text. rewrite E.
  change (CRLF ++ notify_body e a p) with ([] ++ CRLF ++ notify_body e a p).
  rewrite lines_hline by (intros []). cbn [app].
  rewrite (until_empty_app _ _ _ F). eapply Forall_impl; [|exact F]. intros l [_ H]; exact H.
Qed.
