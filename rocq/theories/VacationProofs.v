(** Proofs about the vacation action. *)
From Verif Require Import Base Lib Var Value SetVar Message Flags Event Notify Vacation VacationSpec.
From Coq Require Import Lia.

Section V.
  Variable L : rustlib.
  Variable addrs : header -> list text.

  Lemma env_texts_in k env x :
    In x (env_texts L k env) <-> exists v, In (k, v) env /\ v_is_empty v = false /\ x = v_text L v.
  Proof.
    unfold env_texts. rewrite in_flat_map. split.
    - intros ([k' v] & I & J). cbn [fst snd] in J. unfold envk_eqb in J. destruct (envk_eq_dec k' k) as [->|]; [|destruct J].
      cbn [andb] in J. destruct (v_is_empty v) eqn:E; [destruct J|]. destruct J as [<- | []]. exists v. auto.
    - intros (v & I & E & ->). exists (k, v). split; [exact I|]. cbn [fst snd]. unfold envk_eqb.
      destruct (envk_eq_dec k k); [|congruence]. rewrite E. now left.
  Qed.

  Lemma mine_in e a x : In x (vac_addresses L e a) <-> own_address L e a x.
  Proof.
    unfold vac_addresses, own_address. rewrite !in_app_iff, env_texts_in, filter_In.
    apply or_iff_compat_l.
    assert (OC : forall A B C D : Prop, (A <-> C) -> (B <-> D) -> (A \/ B <-> C \/ D)) by tauto. apply OC.
    - destruct x; split; intros [H1 H2]; split; auto; congruence.
    - destruct (ve_user e) as [|c u]; cbn [In].
      + split; [intros []|]. intros [-> H]; congruence.
      + split; [intros [<- | []]; split; [reflexivity|discriminate]|]. intros [-> _]. now left.
  Qed.

  Lemma env_texts_app k e1 e2 : env_texts L k (e1 ++ e2) = env_texts L k e1 ++ env_texts L k e2.
  Proof. apply flat_map_app. Qed.

  Lemma sender_last env s : sender L env s -> last (env_texts L EnvFrom env) [] = s.
  Proof.
    intros (e1 & v & e2 & -> & E & -> & H). rewrite env_texts_app. unfold env_texts at 2. cbn [flat_map fst snd].
    fold (env_texts L EnvFrom e2). unfold envk_eqb at 1. destruct (envk_eq_dec EnvFrom EnvFrom); [|congruence].
    rewrite E. cbn [negb andb app].
    assert (N : env_texts L EnvFrom e2 = []).
    { destruct (env_texts L EnvFrom e2) as [|x l] eqn:X; [reflexivity|].
      assert (I : In x (env_texts L EnvFrom e2)) by (rewrite X; now left).
      apply env_texts_in in I. destruct I as (v' & I & E' & _). rewrite (H _ I) in E'. discriminate. }
    rewrite N, last_last. reflexivity.
  Qed.
  Lemma last_sender env : env_texts L EnvFrom env <> [] -> sender L env (last (env_texts L EnvFrom env) []).
  Proof.
    induction env as [|[k v] env IH] using rev_ind; [intros H; now contradiction H|].
    rewrite env_texts_app.
    change (env_texts L EnvFrom [(k, v)]) with ((if envk_eqb k EnvFrom && negb (v_is_empty v) then [v_text L v] else []) ++ []).
    unfold envk_eqb.
    destruct (envk_eq_dec k EnvFrom) as [->|NE].
    - cbn [andb]. destruct (v_is_empty v) eqn:E; cbn [negb].
      + cbn [app]. rewrite !app_nil_r. intros H. destruct (IH H) as (e1 & w & e2 & EQ & W & S & A).
        exists e1, w, (e2 ++ [(EnvFrom, v)]). split; [rewrite EQ, <- app_assoc; reflexivity|].
        split; [exact W|]. split; [exact S|]. intros v' I. apply in_app_iff in I. destruct I as [I | [I | []]]; [now apply A|].
        now injection I as <-.
      + intros _. cbn [app]. rewrite last_last. exists env, v, []. split; [reflexivity|]. split; [exact E|].
        split; [reflexivity|]. intros v' [].
    - cbn [andb app]. rewrite !app_nil_r. intros H. destruct (IH H) as (e1 & w & e2 & EQ & W & S & A).
      exists e1, w, (e2 ++ [(k, v)]). split; [rewrite EQ, <- app_assoc; reflexivity|].
      split; [exact W|]. split; [exact S|]. intros v' I. apply in_app_iff in I. destruct I as [I | [I | []]]; [now apply A|].
      congruence.
  Qed.

  Lemma is_mine_spec mine x : is_mine mine x = true <-> exists m, In m mine /\ ci_eq m x.
  Proof. unfold is_mine. rewrite existsb_exists. now setoid_rewrite teqb_ic_spec. Qed.

  Lemma named_spec h l : named h l = true <-> exists n, In n l /\ has_name h n.
  Proof. unfold named, hn_eqb, has_name, ci_eq. rewrite existsb_exists. now setoid_rewrite teqb_ic_spec. Qed.

  (** Which of the loop's cases a header falls in. *)
  Definition bad (h : header) : bool := named h list_headers || forbids L h.
  Definition is_rcpt (h : header) : bool := named h rcpt_headers.
  Definition is_received (h : header) : bool := teqb_ic (h_name h) (lit "received").

  Lemma rcpt_plain h : is_rcpt h = true -> bad h = false /\ is_received h = false.
  Proof.
    intros R. apply named_spec in R. destruct R as (n & I & E). unfold has_name, ci_eq in E.
    unfold bad, forbids, is_received, named, hn_eqb, teqb_ic. cbn [existsb list_headers].
    unfold rcpt_headers in I. cbn [In] in I. unfold teqb_ic; rewrite E.
    repeat (destruct I as [<- | I]; [split; vm_compute; reflexivity|]). destruct I.
  Qed.
  Lemma received_plain h : is_received h = true -> bad h = false /\ is_rcpt h = false /\ named h ["Received"]%string = true.
  Proof.
    intros R. apply teqb_ic_spec in R. unfold bad, forbids, is_rcpt, named, hn_eqb. cbn [existsb list_headers rcpt_headers].
    unfold teqb_ic. rewrite R. split; [|split]; vm_compute; reflexivity.
  Qed.
  Lemma received_named h : is_received h = false -> named h ["Received"]%string = false.
  Proof.
    unfold is_received, named, hn_eqb, teqb_ic. cbn [existsb]. intros H.
    change (lower_text (lit "Received")) with (lower_text (lit "received")). now rewrite H.
  Qed.

  Lemma headers_spec mine : forall hs f r,
    vac_headers L addrs mine hs f r =
    if existsb bad hs then None
    else Some (f || existsb (fun h => is_rcpt h && existsb (is_mine mine) (addrs h)) hs, r + length (filter is_received hs)).
  Proof.
    induction hs as [|h hs IH]; intros f r.
    - cbn. now rewrite Bool.orb_false_r, Nat.add_0_r.
    - cbn [vac_headers existsb filter]. fold (is_rcpt h). destruct (is_rcpt h) eqn:R.
      + destruct (rcpt_plain _ R) as [B V]. rewrite B, V. cbn [orb andb]. destruct f; cbn [negb andb].
        * unfold bad in B. apply Bool.orb_false_iff in B. destruct B as [B1 B2].
          rewrite B1, (received_named _ V), B2, IH. reflexivity.
        * rewrite IH. reflexivity.
      + cbn [andb orb]. destruct (is_received h) eqn:V.
        * destruct (received_plain _ V) as (B & _ & N). rewrite B. unfold bad in B. apply Bool.orb_false_iff in B.
          destruct B as [B1 B2]. rewrite B1, N, IH. cbn [length orb]. destruct (existsb bad hs); [reflexivity|].
          now rewrite <- Nat.add_assoc.
        * rewrite (received_named _ V). unfold bad at 1. destruct (named h list_headers); [reflexivity|].
          cbn [orb]. destruct (forbids L h); [reflexivity|]. cbn [orb]. apply IH.
  Qed.

  (** Comma separated pieces. *)
  Lemma split_on_ne sep s : split_on sep s <> [].
  Proof. destruct s as [|c s]; cbn; [discriminate|]. destruct (N.eqb c sep); [discriminate|]. destruct (split_on sep s); discriminate. Qed.
  Definition joined (sep : ch) (l : list text) : text :=
    match l with [] => [] | w :: ws => w ++ flat_map (fun x => sep :: x) ws end.
  Lemma split_joined sep s : joined sep (split_on sep s) = s /\ Forall (fun w => ~ In sep w) (split_on sep s).
  Proof.
    induction s as [|c s [IH F]]; [split; [reflexivity|]; constructor; [intros []|constructor]|].
    cbn [split_on]. destruct (N.eqb_spec c sep) as [->|NE].
    - split; [|constructor; [intros []|exact F]]. destruct (split_on sep s) as [|w ws] eqn:E; [now apply split_on_ne in E|].
      cbn [joined app flat_map]. cbn [joined] in IH. now rewrite IH.
    - destruct (split_on sep s) as [|w ws] eqn:E; [now apply split_on_ne in E|].
      inversion F as [|w0 ws0 F1 F2 E0]. split.
      + cbn [joined app]. cbn [joined] in IH. now rewrite IH.
      + constructor; [|exact F2]. intros [I | I]; [congruence|now apply F1].
  Qed.
  Lemma split_prefix sep : forall w q, ~ In sep w ->
    split_on sep (w ++ q) = match split_on sep q with [] => [] | x :: xs => (w ++ x) :: xs end.
  Proof.
    induction w as [|c w IH]; intros q NI; cbn [app].
    - destruct (split_on sep q) eqn:E; reflexivity.
    - cbn [split_on]. destruct (N.eqb_spec c sep) as [->|NE]; [exfalso; apply NI; now left|].
      rewrite IH by (intros I; apply NI; now right).
      destruct (split_on sep q) eqn:E; [now apply split_on_ne in E|reflexivity].
  Qed.
  Lemma split_app_sep sep : forall p q, split_on sep (p ++ sep :: q) = split_on sep p ++ split_on sep q.
  Proof.
    induction p as [|c p IH]; intros q; cbn [app split_on].
    - rewrite N.eqb_refl. reflexivity.
    - rewrite IH. destruct (N.eqb c sep); [reflexivity|].
      destruct (split_on sep p) eqn:E; [now apply split_on_ne in E|reflexivity].
  Qed.
  Lemma split_pieces w s : In w (split_on 44%N s) <-> comma_piece w s.
  Proof.
    split.
    - intros I. destruct (split_joined 44%N s) as [J F]. rewrite Forall_forall in F. split; [now apply F|].
      apply in_split in I. destruct I as (l1 & l2 & E). rewrite E in J. rewrite <- J. clear J E F.
      set (fm := fun l : list text => flat_map (fun x : text => @cons ch 44%N x) l).
      assert (Q : fm l2 = [] \/ exists q', fm l2 = 44%N :: q').
      { destruct l2; [now left|]. right. cbn. eauto. }
      destruct l1 as [|x l1].
      + exists [], (fm l2). split; [reflexivity|]. split; [now left|exact Q].
      + exists (x ++ fm l1 ++ [44%N]), (fm l2). split.
        * change (x ++ fm (l1 ++ w :: l2) = (x ++ fm l1 ++ [44%N]) ++ w ++ fm l2).
          unfold fm. rewrite flat_map_app. rewrite <- !app_assoc. reflexivity.
        * split; [|exact Q]. right. exists (x ++ fm l1). now rewrite <- app_assoc.
    - intros (NI & p & q & -> & P & Q).
      assert (X : In w (split_on 44%N (w ++ q))).
      { destruct Q as [-> | [q' ->]].
        - rewrite split_prefix by exact NI. cbn. rewrite app_nil_r. now left.
        - rewrite split_app_sep. rewrite <- (app_nil_r w) at 2. rewrite (split_prefix _ w []) by exact NI. cbn.
          rewrite app_nil_r. now left. }
      destruct P as [-> | [p' ->]]; [exact X|]. rewrite <- app_assoc. cbn [app]. rewrite split_app_sep.
      apply in_or_app. now right.
  Qed.

  Lemma starts_with_spec : forall s p, starts_with s p = true <-> exists r, s = p ++ r.
  Proof.
    intros s p. revert s. induction p as [|c p IH]; intros s.
    - split; [intros _; now exists s|]. destruct s; reflexivity.
    - destruct s as [|d s]; cbn [starts_with app].
      + split; [discriminate|intros [r E]; discriminate].
      + rewrite Bool.andb_true_iff, IH, N.eqb_eq. split.
        * intros [<- [r ->]]. now exists r.
        * intros [r E]. injection E as -> ->. eauto.
  Qed.
  Lemma tcontains_spec : forall s p, tcontains s p = true <-> exists a b, s = a ++ p ++ b.
  Proof.
    induction s as [|c s IH]; intros p; cbn [tcontains]; rewrite Bool.orb_true_iff, starts_with_spec.
    - split.
      + intros [[r E] | E]; [exists [], r; exact E|discriminate].
      + intros (a & b & E). left. exists b. destruct a; [exact E|discriminate].
    - rewrite IH. split.
      + intros [[r E] | (a & b & ->)]; [exists [], r; exact E|exists (c :: a), b; reflexivity].
      + intros ([|x a] & b & E); [left; now exists b|right]. injection E as -> ->. eauto.
  Qed.

  Lemma forbids_false_iff h : forbids L h = false <->
    (has_name h "auto-submitted" -> exists t, h_val h = HText t /\ ci_eq t (lit "no")) /\
    (has_name h "x-auto-response-suppress" -> forall t w, h_val h = HText t -> comma_piece w (lower_text t) ->
       trim (chr_is_ws L) w <> lit "all" /\ trim (chr_is_ws L) w <> lit "oof") /\
    (has_name h "precedence" -> forall t, h_val h = HText t -> ~ ci_eq t (lit "bulk")).
  Proof.
    unfold forbids, named, hn_eqb, has_name, ci_eq. cbn [existsb]. rewrite !Bool.orb_false_r. unfold teqb_ic.
    change (lower_text (lit "Auto-Submitted")) with (lower_text (lit "auto-submitted")).
    change (lower_text (lit "X-Auto-Response-Suppress")) with (lower_text (lit "x-auto-response-suppress")).
    change (lower_text (lit "Precedence")) with (lower_text (lit "precedence")).
    destruct (teqb (lower_text (h_name h)) (lower_text (lit "auto-submitted"))) eqn:E1.
    { apply teqb_spec in E1. rewrite E1. unfold h_text. split.
      - intros H. split; [intros _|split; intros X; vm_compute in X; discriminate].
        destruct (h_val h) as [t| |]; try discriminate. exists t. split; [reflexivity|].
        apply Bool.negb_false_iff in H. now apply teqb_spec in H.
      - intros (H & _ & _). destruct (H eq_refl) as (t & -> & E). apply Bool.negb_false_iff. now apply teqb_spec. }
    assert (N1 := proj1 (teqb_false _ _) E1).
    destruct (teqb (lower_text (h_name h)) (lower_text (lit "x-auto-response-suppress"))) eqn:E2.
    { apply teqb_spec in E2. rewrite E2. unfold h_text. split.
      - intros H. split; [intros X; congruence|]. split; [intros _ t w E P|intros X; vm_compute in X; discriminate].
        rewrite E in H. unfold suppress in H. apply split_pieces in P.
        split; intros X; assert (Y : existsb (fun v => existsb (teqb (trim (chr_is_ws L) v)) [lit "all"; lit "oof"]) (split_on 44%N (lower_text t)) = true);
          try (apply existsb_exists; exists w; split; [exact P|]; cbn [existsb]; rewrite X; reflexivity); congruence.
      - intros (_ & H & _). destruct (h_val h) as [t| |] eqn:E; try reflexivity.
        destruct (suppress L t) eqn:S; [|reflexivity]. exfalso. unfold suppress in S. apply existsb_exists in S.
        destruct S as (w & I & S). apply split_pieces in I. destruct (H eq_refl t w eq_refl I) as [H1 H2].
        cbn [existsb] in S. rewrite Bool.orb_false_r in S. apply Bool.orb_true_iff in S.
        destruct S as [S | S]; apply teqb_spec in S; congruence. }
    assert (N2 := proj1 (teqb_false _ _) E2).
    destruct (teqb (lower_text (h_name h)) (lower_text (lit "precedence"))) eqn:E3.
    { apply teqb_spec in E3. rewrite E3. unfold h_text. split.
      - intros H. split; [intros X; congruence|]. split; [intros X; congruence|].
        intros _ t E C. rewrite E in H. rewrite C, teqb_refl in H. discriminate.
      - intros (_ & _ & H). destruct (h_val h) as [t| |] eqn:E; try reflexivity.
        apply teqb_false. now apply H. }
    assert (N3 := proj1 (teqb_false _ _) E3).
    split; [|reflexivity]. intros _. split; [|split]; intros X; contradiction.
  Qed.

  Lemma list_named_iff h : named h list_headers = false <->
    (forall n, In n ["list-archive"; "list-help"; "list-id"; "list-owner"; "list-post"; "list-subscribe"; "list-unsubscribe"]%string ->
     ~ has_name h n).
  Proof.
    split.
    - intros F n I H.
      assert (T : named h list_headers = true); [|congruence]. unfold named, hn_eqb, teqb_ic. unfold has_name, ci_eq in H.
      rewrite H. cbn [In] in I. repeat (destruct I as [<- | I]; [vm_compute; reflexivity|]). destruct I.
    - intros H. destruct (named h list_headers) eqn:E; [|reflexivity]. exfalso. apply named_spec in E.
      destruct E as (n & I & E). unfold list_headers in I. cbn [In] in I. unfold has_name, ci_eq in H.
      repeat (destruct I as [<- | I]; [match type of E with has_name _ ?s =>
        let l := eval vm_compute in (lower_text (lit s)) in idtac end|]); try (destruct I; fail).
      + apply (H "list-archive"%string); [cbn; tauto|exact E].
      + apply (H "list-help"%string); [cbn; tauto|exact E].
      + apply (H "list-id"%string); [cbn; tauto|exact E].
      + apply (H "list-owner"%string); [cbn; tauto|exact E].
      + apply (H "list-post"%string); [cbn; tauto|exact E].
      + apply (H "list-subscribe"%string); [cbn; tauto|exact E].
      + apply (H "list-unsubscribe"%string); [cbn; tauto|exact E].
  Qed.
  Lemma rcpt_named_iff h : is_rcpt h = true <->
    exists n, In n ["to"; "cc"; "bcc"; "resent-to"; "resent-cc"; "resent-bcc"]%string /\ has_name h n.
  Proof.
    split.
    - intros R. apply named_spec in R. destruct R as (n & I & E). unfold rcpt_headers in I. cbn [In] in I.
      repeat (destruct I as [<- | I]; [|]); try (destruct I; fail).
      + exists "to"%string. split; [cbn; tauto|exact E].
      + exists "cc"%string. split; [cbn; tauto|exact E].
      + exists "bcc"%string. split; [cbn; tauto|exact E].
      + exists "resent-to"%string. split; [cbn; tauto|exact E].
      + exists "resent-bcc"%string. split; [cbn; tauto|exact E].
      + exists "resent-cc"%string. split; [cbn; tauto|exact E].
    - intros (n & I & H). unfold is_rcpt, named, hn_eqb, teqb_ic. unfold has_name, ci_eq in H. rewrite H.
      cbn [In] in I. repeat (destruct I as [<- | I]; [vm_compute; reflexivity|]). destruct I.
  Qed.

  Lemma lower_nil s : lower_text s = [] <-> s = [].
  Proof. destruct s; cbn; split; congruence. Qed.

  Lemma existsb_false {A} (f : A -> bool) l : existsb f l = false <-> forall x, In x l -> f x = false.
  Proof.
    split.
    - intros E x I. destruct (f x) eqn:F; [|reflexivity]. assert (existsb f l = true) by (apply existsb_exists; eauto). congruence.
    - intros H. destruct (existsb f l) eqn:E; [|reflexivity]. apply existsb_exists in E. destruct E as (x & I & F).
      rewrite (H _ I) in F. discriminate.
  Qed.

  Definition vac_result (e : venv) (a : vargs) (from : text) : vtest :=
    match vac_expiry e (va_period a) with
    | Some x => VAsk (vac_id (lower_text from) a) x
    | None => VOverflow
    end.

  Lemma reply_asks e a from : may_reply L addrs e a from -> vacation_test L addrs e a = vac_result e a from.
  Proof.
    intros H. unfold vacation_test.
    assert (LIM := mr_limit _ _ _ _ _ H). destruct (Nat.leb_spec (ve_max_out e) (ve_out e)); [lia|].
    assert (FROM : vac_from L e = lower_text from).
    { unfold vac_from. f_equal. apply sender_last, (mr_sender _ _ _ _ _ H). }
    rewrite FROM.
    assert (F1 : lower_text from <> []) by (rewrite lower_nil; apply (mr_nonempty _ _ _ _ _ H)).
    destruct (lower_text from) as [|c f] eqn:LF; [congruence|]. rewrite <- LF.
    assert (F2 : starts_with (lower_text from) (lit "mailer-daemon") = false).
    { destruct (starts_with (lower_text from) (lit "mailer-daemon")) eqn:E; [|reflexivity]. apply starts_with_spec in E. destruct E as [r E].
      now apply (mr_daemon _ _ _ _ _ H) in E. }
    assert (F3 : starts_with (lower_text from) (lit "owner-") = false).
    { destruct (starts_with (lower_text from) (lit "owner-")) eqn:E; [|reflexivity]. apply starts_with_spec in E. destruct E as [r E].
      now apply (mr_owner _ _ _ _ _ H) in E. }
    assert (F4 : tcontains (lower_text from) (lit "-request@") = false).
    { destruct (tcontains (lower_text from) (lit "-request@")) eqn:E; [|reflexivity]. apply tcontains_spec in E. destruct E as (p & s & E).
      now apply (mr_request _ _ _ _ _ H) in E. }
    assert (F5 : is_mine (vac_addresses L e a) (lower_text from) = false).
    { destruct (is_mine _ _) eqn:E; [|reflexivity]. apply is_mine_spec in E. destruct E as (m & I & E).
      apply mine_in in I. apply (mr_own _ _ _ _ _ H) in I. exfalso. apply I. unfold ci_eq in *. now rewrite E, lower_text_idem. }
    destruct (mr_rcpt _ _ _ _ _ H) as (h & n & x & y & I & IN & HN & IX & OY & XY).
    assert (F6 : vac_addresses L e a <> []).
    { apply mine_in in OY. intros E. rewrite E in OY. destruct OY. }
    destruct (vac_addresses L e a) as [|m ms] eqn:MI; [congruence|]. rewrite <- MI in *.
    rewrite F2, F3, F4, F5. cbn [orb].
    rewrite headers_spec.
    assert (B : existsb bad (ve_headers e) = false).
    { apply existsb_false. intros h' I'. unfold bad. apply Bool.orb_false_iff. split.
      - apply list_named_iff. intros n' N'. now apply (mr_list _ _ _ _ _ H).
      - apply forbids_false_iff. split; [|split].
        + intros N'. now apply (mr_auto _ _ _ _ _ H).
        + intros N' t w. now apply (mr_suppress _ _ _ _ _ H).
        + intros N' t. now apply (mr_bulk _ _ _ _ _ H). }
    rewrite B. cbn [orb].
    assert (R : existsb (fun h => is_rcpt h && existsb (is_mine (vac_addresses L e a)) (addrs h)) (ve_headers e) = true).
    { apply existsb_exists. exists h. split; [exact I|]. apply Bool.andb_true_iff. split; [apply rcpt_named_iff; eauto|].
      apply existsb_exists. exists x. split; [exact IX|]. apply is_mine_spec. exists y. split; [now apply mine_in|]. now symmetry. }
    rewrite R. cbn [andb Nat.add].
    assert (RC := mr_received _ _ _ _ _ H). apply Nat.leb_le in RC. unfold is_received. rewrite RC. reflexivity.
  Qed.

  Lemma asks_reply e a : vacation_test L addrs e a <> VNo -> exists from, may_reply L addrs e a from.
  Proof.
    unfold vacation_test. intros H.
    destruct (Nat.leb_spec (ve_max_out e) (ve_out e)) as [|LIM]; [congruence|].
    match type of H with (if ?b then _ else _) <> _ => destruct b eqn:C; [congruence|] end.
    apply Bool.orb_false_iff in C. destruct C as [C C6].
    apply Bool.orb_false_iff in C. destruct C as [C C5].
    apply Bool.orb_false_iff in C. destruct C as [C C4].
    apply Bool.orb_false_iff in C. destruct C as [C C3].
    apply Bool.orb_false_iff in C. destruct C as [C1 C2].
    rewrite headers_spec in H. destruct (existsb bad (ve_headers e)) eqn:B; [congruence|]. cbn [orb Nat.add] in H.
    match type of H with (if ?b then _ else _) <> _ => destruct b eqn:D; [|congruence] end. clear H.
    apply Bool.andb_true_iff in D. destruct D as [D1 D2]. apply Nat.leb_le in D2.
    rewrite existsb_false in B.
    assert (NE : env_texts L EnvFrom (ve_envelope e) <> []).
    { intros E. unfold vac_from in C1. rewrite E in C1. discriminate. }
    assert (S := last_sender _ NE). unfold vac_from in *. set (from := last (env_texts L EnvFrom (ve_envelope e)) []) in *.
    exists from. split.
    - exact LIM.
    - exact S.
    - intros E. rewrite E in C1. discriminate.
    - intros r E. assert (X : starts_with (lower_text from) (lit "mailer-daemon") = true) by (apply starts_with_spec; eauto). congruence.
    - intros r E. assert (X : starts_with (lower_text from) (lit "owner-") = true) by (apply starts_with_spec; eauto). congruence.
    - intros p s E. assert (X : tcontains (lower_text from) (lit "-request@") = true) by (apply tcontains_spec; eauto). congruence.
    - intros x O E. assert (X : is_mine (vac_addresses L e a) (lower_text from) = true).
      { apply is_mine_spec. exists x. split; [now apply mine_in|]. unfold ci_eq in *. now rewrite lower_text_idem. } congruence.
    - intros h n I. assert (Bh := B h I). unfold bad in Bh. apply Bool.orb_false_iff in Bh. revert n. now apply list_named_iff.
    - intros h I. assert (Bh := B h I). unfold bad in Bh. apply Bool.orb_false_iff in Bh. now apply (proj1 (forbids_false_iff h)).
    - intros h t w I N. assert (Bh := B h I). unfold bad in Bh. apply Bool.orb_false_iff in Bh.
      destruct (proj1 (forbids_false_iff h) (proj2 Bh)) as (_ & X & _). now apply X.
    - intros h t I N. assert (Bh := B h I). unfold bad in Bh. apply Bool.orb_false_iff in Bh.
      destruct (proj1 (forbids_false_iff h) (proj2 Bh)) as (_ & _ & X). now apply X.
    - apply existsb_exists in D1. destruct D1 as (h & I & R). apply Bool.andb_true_iff in R. destruct R as [R1 R2].
      apply rcpt_named_iff in R1. destruct R1 as (n & IN & HN). apply existsb_exists in R2. destruct R2 as (x & IX & MX).
      apply is_mine_spec in MX. destruct MX as (y & IY & E). apply mine_in in IY. exists h, n, x, y.
      repeat (split; [assumption|]). now symmetry.
    - exact D2.
  Qed.

  Lemma test_iff e a from : may_reply L addrs e a from <->
    vacation_test L addrs e a = vac_result e a from /\ sender L (ve_envelope e) from.
  Proof.
    split.
    - intros H. split; [now apply reply_asks|apply (mr_sender _ _ _ _ _ H)].
    - intros [T S]. assert (N : vacation_test L addrs e a <> VNo).
      { rewrite T. unfold vac_result. destruct (vac_expiry _ _); discriminate. }
      destruct (asks_reply _ _ N) as [f H]. assert (E : f = from); [|now subst].
      rewrite <- (sender_last _ _ S). symmetry. apply sender_last, (mr_sender _ _ _ _ _ H).
  Qed.

  Lemma test_no e a : vacation_test L addrs e a = VNo <-> forall from, ~ may_reply L addrs e a from.
  Proof.
    split.
    - intros E from H. rewrite (reply_asks _ _ _ H) in E. unfold vac_result in E. destruct (vac_expiry _ _); discriminate.
    - intros H. destruct (vacation_test L addrs e a) eqn:E; try reflexivity; exfalso;
        (destruct (asks_reply e a) as [f M]; [rewrite E; discriminate|now apply (H f)]).
  Qed.

  Lemma one_sender e from : sender L (ve_envelope e) from ->
    (forall v1 v2, In (EnvFrom, v1) (ve_envelope e) -> In (EnvFrom, v2) (ve_envelope e) ->
       v_is_empty v1 = false -> v_is_empty v2 = false -> v_text L v1 = v_text L v2) -> vac_to L e = from.
  Proof.
    intros S U. assert (E := sender_last _ _ S). unfold vac_to.
    assert (IN : In from (env_texts L EnvFrom (ve_envelope e))).
    { destruct S as (e1 & v & e2 & -> & V & -> & _). apply env_texts_in. exists v. split; [apply in_or_app; right; now left|auto]. }
    destruct (env_texts L EnvFrom (ve_envelope e)) as [|x l] eqn:X; [destruct IN|]. cbn [hd].
    assert (IX : In x (env_texts L EnvFrom (ve_envelope e))) by (rewrite X; now left).
    rewrite <- X in IN. apply env_texts_in in IN. apply env_texts_in in IX.
    destruct IN as (v & I & V & ->). destruct IX as (v' & I' & V' & ->). now apply U.
  Qed.

  Lemma id_injective a f1 f2 : vac_id f1 a = vac_id f2 a -> f1 = f2.
  Proof. unfold vac_id. intros E. apply app_inv_head in E. now apply app_inv_tail in E. Qed.
End V.
