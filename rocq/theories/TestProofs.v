From Verif Require Import Base Lib Var Value SetVar Flags Glob GlobSpec Comparator ComparatorSpec ComparatorProofs ComparatorProofs2
  Message MessageSpec MessageProofs MessageProofs2 HeaderShowSpec HeaderShowProofs
  EditHeader AddrTest AddrSpec AddrTestProofs Spam Notify NotifyProofs Event Sieve Run MatchSpec SetProofs ParseGuard2 TestSpec.
Import ListNotations.
Local Open Scope list_scope.

Lemma sense (b neg : bool) (P : Prop) : (b = true <-> P) -> (xorb b neg = true <-> (P <-> neg = false)).
Proof.
  intro H. destruct b, neg; cbn [xorb]; (split; [intro X|intro X; try reflexivity]); try discriminate; intuition congruence.
Qed.
Lemma w_vars_same s : w_vars (r_vars s) s = s.
Proof. destruct s. reflexivity. Qed.

Section T.
  Variable E : renv.
  Hypothesis low1 : forall c, chr_lower (E_L E) c <> [].

  Definition decided (s : rst) (t : test) (neg : bool) (P : Prop) : Prop :=
    exists b mv, exec_test E s t = XBool b (w_vars (set_vars (c_local (r_vars s)) mv (r_vars s)) s) /\ (b = true <-> (P <-> neg = false)).

  Lemma of_tres_bool s neg b set : exists mv,
    of_tres s neg (Some (TBool b set)) = XBool b (w_vars (set_vars (c_local (r_vars s)) mv (r_vars s)) s).
  Proof. eexists. reflexivity. Qed.
  Lemma of_tres_nil s neg b : of_tres s neg (Some (TBool b [])) = XBool b s.
  Proof.
    unfold of_tres. cbn [set_match_variables fold_left]. replace (set_vars _ _ _) with (r_vars s); [rewrite w_vars_same; reflexivity|].
    destruct (r_vars s). reflexivity.
  Qed.
  Lemma names_asked s names n : In n (parse_header_names (E_L E) (E_M E) (vw E s) names) <-> field_asked E s names n.
  Proof.
    unfold parse_header_names, field_asked, tx, ev. rewrite in_flat_map. split.
    - intros (x & I & H). exists x. split; [exact I|]. destruct (hn_parse _ _); [destruct H as [->|[]]; reflexivity|contradiction].
    - intros (x & I & H). exists x. split; [exact I|]. rewrite H. left. reflexivity.
  Qed.
  Lemma options_spec s o : options_are E s o (mimeopts_of E s o).
  Proof. destruct o; cbn; auto. Qed.
  Lemma options_unique s o o' : options_are E s o o' -> o' = mimeopts_of E s o.
  Proof. destruct o, o'; cbn; try contradiction; intros; subst; reflexivity. Qed.

  Lemma few_any m s x : wildcards (tx E s x) <= 63 -> few_wildcards (E_L E) m (KVar (ev E s x)).
  Proof. destruct m; cbn; auto. Qed.
  Lemma few_keys m s keys : Forall (fun k => wildcards k <= 63) (txs E s keys) ->
    forall k, In k (evs E s keys) -> few_wildcards (E_L E) m (KVar k).
  Proof.
    intros F k I. unfold evs in I. apply in_map_iff in I as (x & <- & I). apply few_any.
    rewrite Forall_forall in F. apply F. unfold txs. apply in_map. exact I.
  Qed.
  Lemma few_plain m k : few_wildcards (E_L E) (plain_mtype m) k.
  Proof. destruct m; cbn; auto. Qed.
  Lemma in_evs s keys k : In k (evs E s keys) <-> exists x, In x keys /\ k = ev E s x.
  Proof. unfold evs. rewrite in_map_iff. split; intros (x & A & B); exists x; auto. Qed.
  Lemma md_eq_same s md m : md_eq m (metadata_of E s md) = true <-> same_entry E s md m.
  Proof.
    destruct m, md; cbn [md_eq metadata_of same_entry]; try (split; [discriminate|contradiction]).
    - apply teqb_ic_spec.
    - rewrite andb_true_iff, teqb_spec, teqb_ic_spec. reflexivity.
  Qed.
  Lemma stored_find s md v : (exists m, find (fun p => md_eq (fst p) (metadata_of E s md)) (E_metadata E) = Some (m, v)) <-> stored_value E s md v.
  Proof.
    unfold stored_value. generalize (E_metadata E). induction l as [|[m v0] l IH]; cbn [find fst].
    - split; [intros (? & H); discriminate|]. intros ([|] & ? & ? & H & _); discriminate.
    - destruct (md_eq m (metadata_of E s md)) eqn:D.
      + apply md_eq_same in D. split.
        * intros (m' & H). injection H as <- <-. exists [], m, l. repeat split; auto; intros; contradiction.
        * intros ([|[m1 v1] before] & m' & after & H & S & N).
          -- injection H as <- <- <-. exists m. reflexivity.
          -- injection H as <- <- H. exfalso. apply (N m v0); [left; reflexivity|exact D].
      + rewrite IH. assert (D' : ~ same_entry E s md m) by (rewrite <- md_eq_same; congruence). split.
        * intros (before & m' & after & -> & S & N). exists ((m, v0) :: before), m', after. repeat split; auto.
          intros m1 v1 [X|X]; [injection X as <- <-; exact D'|eapply N; exact X].
        * intros ([|[m1 v1] before] & m' & after & H & S & N).
          -- injection H as -> -> ->. contradiction.
          -- injection H as <- <- ->. exists before, m', after. repeat split; auto. intros m1 v1 X. apply (N m1 v1). right. exact X.
  Qed.
  Lemma ct_filters_types s : forall l f, ct_filters E s l = Some f <-> types_are E s l f.
  Proof.
    induction l as [|x l IH]; intro f; cbn [ct_filters].
    - split; [intro H; injection H as <-; constructor|intro H; inversion H; reflexivity].
    - destruct (v_is_empty (ev E s x)) eqn:EM.
      + split; [intro H; injection H as <-; constructor; exact EM|intro H; inversion H; congruence].
      + split.
        * destruct (ctfilter_parse (tx E s x)) as [g|] eqn:P; [|discriminate]. destruct (ct_filters E s l) as [fs|]; [|discriminate].
          intro H. injection H as <-. constructor; auto. apply IH. reflexivity.
        * intro H. inversion H as [|? ? EM'|? ? g fs EM' P T]; subst; [congruence|]. rewrite P. apply IH in T. rewrite T. reflexivity.
  Qed.
  Lemma uri_allowed_spec u : uri_allowed E u = true <-> method_allowed E u.
  Proof.
    unfold uri_allowed, method_allowed. destruct (validate_uri _ _ u) as [sc|].
    - rewrite orb_true_iff, !existsb_exists. split.
      + intros [(y & I & T)|(y & I & T)]; apply teqb_spec in T; subst y; exists sc; auto.
      + intros (sc' & H & [I|I]); injection H as <-; [left; exists sc|right; exists u]; (split; [exact I|apply teqb_refl]).
    - split; [discriminate|intros (? & H & _); discriminate].
  Qed.

  (** *** hasflag with any match type *)
  Lemma hasflag1_cmp c m v k caps : single_value_match m ->
    hasflag1 (E_L E) c m v k caps = compare1 (E_L E) (E_rx E) c (as_glob m) (KStr v) (KStr k) caps.
  Proof. destruct m; cbn; intro H; try contradiction; reflexivity. Qed.
  Lemma flags_loop c m k : single_value_match m -> wildcards k <= 63 -> forall vs caps,
    exists b x, hasflag_flags (E_L E) c m k vs caps = CRes b x /\
      (b = true <-> exists v, In v vs /\ key_matches (E_L E) (E_rx E) c (as_glob m) (KStr v) (KStr k)).
  Proof.
    intros SV W. assert (FW : few_wildcards (E_L E) (as_glob m) (KStr k)) by (destruct m; cbn; auto).
    induction vs as [|v vs IH]; intro caps; cbn [hasflag_flags].
    { exists false, caps. split; [reflexivity|]. split; [discriminate|intros (v & [] & _)]. }
    rewrite hasflag1_cmp by exact SV.
    pose proof (no_panic_ok (E_L E) (E_rx E) low1 c (as_glob m) (KStr v) (KStr k) FW) as NP.
    pose proof (holds_iff (E_L E) (E_rx E) low1 c (as_glob m) (KStr v) (KStr k) FW) as HI.
    destruct (compare1 (E_L E) (E_rx E) c (as_glob m) (KStr v) (KStr k) caps) as [|[] caps'] eqn:C.
    - exfalso. apply NP. eapply compare1_panic, C.
    - exists true, caps'. split; [reflexivity|]. split; [|reflexivity]. intros _. exists v. split; [left; reflexivity|].
      apply HI. eapply holds_caps, C.
    - destruct (IH caps') as (b & x & -> & Hb). exists b, x. split; [reflexivity|]. rewrite Hb. split.
      + intros (v' & I & K). exists v'. split; [right; exact I|exact K].
      + intros (v' & [<-|I] & K); [|exists v'; auto]. exfalso. apply HI in K. eapply not_holds_caps in C. tauto.
  Qed.
  Lemma checks_loop c m vs : single_value_match m -> forall ks caps, Forall (fun k => wildcards k <= 63) ks ->
    exists b x, hasflag_checks (E_L E) c m ks vs caps = CRes b x /\
      (b = true <-> exists v k, In v vs /\ In k ks /\ key_matches (E_L E) (E_rx E) c (as_glob m) (KStr v) (KStr k)).
  Proof.
    intro SV. induction ks as [|k ks IH]; intros caps F; cbn [hasflag_checks].
    { exists false, caps. split; [reflexivity|]. split; [discriminate|intros (v & k & _ & [] & _)]. }
    inversion F as [|? ? F1 F2]; subst. destruct (flags_loop c m k SV F1 vs caps) as ([] & x & -> & Hb).
    - exists true, x. split; [reflexivity|]. split; [|reflexivity]. intros _. destruct (proj1 Hb eq_refl) as (v & I & K).
      exists v, k. split; [exact I|]. split; [left; reflexivity|exact K].
    - destruct (IH x F2) as (b & y & -> & Hy). exists b, y. split; [reflexivity|]. rewrite Hy. split.
      + intros (v & k' & I & J & K). exists v, k'. split; [exact I|]. split; [right; exact J|exact K].
      + intros (v & k' & I & [<-|J] & K); [|exists v, k'; auto]. exfalso. assert (false = true); [|discriminate].
        apply Hb. exists v. auto.
  Qed.

  Lemma decide s t neg P b set : exec_test E s t = of_tres s neg (Some (TBool (xorb b neg) set)) -> (b = true <-> P) -> decided s t neg P.
  Proof.
    intros H HP. destruct (of_tres_bool s neg (xorb b neg) set) as (vs & V). exists (xorb b neg), vs.
    split; [congruence|]. apply sense, HP.
  Qed.
  Lemma decide_bool s t neg P b : exec_test E s t = XBool (xorb b neg) s -> (b = true <-> P) -> decided s t neg P.
  Proof.
    intros H HP. exists (xorb b neg), (c_match (r_vars s)).
    replace (set_vars _ _ _) with (r_vars s) by (destruct (r_vars s); reflexivity). rewrite w_vars_same. split; [exact H|]. apply sense, HP.
  Qed.

  Definition keys_any (t : test) (keys : list value) : Prop :=
    match t with
    | TeHeader _ _ _ _ _ _ k _ | TeAddress _ _ _ _ _ _ k _ | TeEnvelope _ _ _ _ _ k _ | TeDate _ _ _ _ _ _ _ k _
    | TeCurrentDate _ _ _ _ k _ | TeMetadata _ _ _ k _ | TeNotifyCapability _ _ _ _ k _ | TeBody _ _ _ _ k _ => k = keys
    | _ => False
    end.
  Lemma key_inv s t keys k : keys_any t keys -> key_of E s t k -> exists x, In x keys /\ k = KVar (ev E s x).
  Proof.
    intros T H. inversion H as [t' keys' x T' IN|sources c m keys' x neg t' HT|c m key neg t' HT|vars flags c m neg k' IN]; subst.
    - exists x. split; [|reflexivity]. destruct t; try contradiction; cbn in T, T'; subst; exact IN.
    - destruct HT as [->| ->]; contradiction.
    - destruct HT as [[? ->]| ->]; contradiction.
    - contradiction.
  Qed.
  Lemma key_any s t keys x : keys_any t keys -> In x keys -> key_of E s t (KVar (ev E s x)).
  Proof. intros T I. exact (ke_any E s t keys x T I). Qed.
  Lemma find_by s t c m keys (Q : cmpv -> Prop) : keys_any t keys -> (forall v, value_of E s t v <-> Q v) ->
    ((exists v k, Q v /\ In k (evs E s keys) /\ key_matches (E_L E) (E_rx E) c (compared_as t m) v (KVar k)) <-> finds E s t c m).
  Proof.
    intros T V. unfold finds. split.
    - intros (v & k & Hv & Hk & K). apply in_evs in Hk as (x & Ix & ->). exists v, (KVar (ev E s x)).
      split; [apply V, Hv|]. split; [exact (key_any s t keys x T Ix)|exact K].
    - intros (v & k & Hv & Hk & K). apply (key_inv s t keys) in Hk as (x & Ix & ->); [|exact T]. exists v, (ev E s x).
      split; [apply V, Hv|]. split; [apply in_evs; eauto|exact K].
  Qed.
  Lemma first_key_plain c m v ks caps : single_value_match m ->
    exists b x, first_key (E_L E) (E_rx E) c (plain_mtype m) v ks caps = CRes b x /\
      (b = true <-> exists k, In k ks /\ key_matches (E_L E) (E_rx E) c (plain_mtype m) v (KVar k)).
  Proof.
    intro SV. destruct (first_key_spec (E_L E) (E_rx E) c (plain_mtype m) v ks caps) as (b & x & H & HB).
    { intros k _. apply no_panic_ok; [exact low1|apply few_plain]. }
    exists b, x. split; [exact H|]. rewrite HB. split; intros (k & Ik & K); exists k; (split; [exact Ik|]); apply (holds_iff (E_L E) (E_rx E) low1 c (plain_mtype m) v (KVar k) (few_plain m (KVar k))); exact K.
  Qed.

  Ltac by_values keys Q := match goal with |- context [finds E ?s ?t ?c ?m] => rewrite <- (find_by s t c m keys Q eq_refl) end.
  Section Find.
    Variables (s : rst) (c : comparator) (m : mtype) (neg : bool).
    Hypothesis WD : wf_deep (parts s).
    Hypothesis RP : r_part s < length (parts s).
    Hypothesis SV : single_value_match m.
    Let WF : well_formed (parts s).
    Proof. inversion WD; assumption. Qed.
    Definition few (t : test) := Forall (fun k => wildcards k <= 63) (keys_of E s t).

    Lemma f_header names index anychild o keys : few (TeHeader names index anychild o c m keys neg) ->
      decided s (TeHeader names index anychild o c m keys neg) neg (finds E s (TeHeader names index anychild o c m keys neg) c m).
    Proof.
      intro FW. unfold few in FW; cbn [keys_of] in FW.
      destruct (header_test_exact (E_L E) (E_rx E) (E_M E) low1 (parts s) (r_part s) (parse_header_names (E_L E) (E_M E) (vw E s) names)
        index anychild (mimeopts_of E s o) c m neg (evs E s keys) WF RP SV (few_keys m s keys FW)) as (b & set & H & HB).
      eapply (decide s _ neg _ b set); [cbn [exec_test]; rewrite H; reflexivity|]. rewrite HB.
      by_values keys (fun v => exists n h v', v = KStr v' /\ field_asked E s names n /\ field_at s anychild index n h /\
        shows (E_M E) h (mimeopts_of E s o) v').
      - split.
        + intros (i & pt & n & pos & h & v & k & L1 & N & S & V & K & KM). apply names_asked in N. apply shows_values in V.
          exists (KStr v), k. split; [|split; assumption]. exists n, h, v. split; [reflexivity|]. split; [exact N|].
          split; [exists i, pt, pos; split; assumption|exact V].
        + intros (v & k & (n & h & v' & -> & N & (i & pt & pos & L1 & S) & V) & K & KM).
          exists i, pt, n, pos, h, v', k. rewrite names_asked, shows_values. auto 10.
      - intro v. split.
        + intro V. inversion V; subst. match goal with X : options_are _ _ _ _ |- _ => apply options_unique in X; subst end. eauto 10.
        + intros (n & h & v' & -> & N & F & V). eapply va_header; eauto. apply options_spec.
    Qed.
    Lemma f_address names index anychild p keys : few (TeAddress names index anychild p c m keys neg) ->
      decided s (TeAddress names index anychild p c m keys neg) neg (finds E s (TeAddress names index anychild p c m keys neg) c m).
    Proof.
      intro FW. unfold few in FW; cbn [keys_of] in FW.
      destruct (address_test_exact (E_L E) (E_rx E) (E_A E) low1 (parts s) (r_part s) (parse_header_names (E_L E) (E_M E) (vw E s) names)
        index anychild p c m neg (evs E s keys) WF RP SV (few_keys m s keys FW)) as (b & set & H & HB).
      eapply (decide s _ neg _ b set); [cbn [exec_test]; rewrite H; reflexivity|]. rewrite HB.
      by_values keys (fun v => exists n h v', v = KStr v' /\ field_asked E s names n /\ field_at s anychild index n h /\
        address_value (E_A E) p h v').
      - split.
        + intros (i & pt & n & pos & h & v & k & L1 & N & S & V & K & KM). apply names_asked in N.
          exists (KStr v), k. split; [|split; assumption]. exists n, h, v. split; [reflexivity|]. split; [exact N|].
          split; [exists i, pt, pos; split; assumption|exact V].
        + intros (v & k & (n & h & v' & -> & N & (i & pt & pos & L1 & S) & V) & K & KM).
          exists i, pt, n, pos, h, v', k. rewrite names_asked. auto 10.
      - intro v. split.
        + intro V. inversion V; subst. eauto 10.
        + intros (n & h & v' & -> & N & F & V). eapply va_address; eauto.
    Qed.
    Lemma f_envelope ks p z keys : few (TeEnvelope ks p z c m keys neg) ->
      decided s (TeEnvelope ks p z c m keys neg) neg (finds E s (TeEnvelope ks p z c m keys neg) c m).
    Proof.
      intro FW. unfold few in FW; cbn [keys_of] in FW.
      destruct (envelope_test_exact (E_L E) (E_rx E) (E_A E) low1 (c_envelope (r_vars s)) ks p z c m neg (evs E s keys) SV
        (few_keys m s keys FW)) as (b & set & H & HB).
      eapply (decide s _ neg _ b set); [cbn [exec_test]; rewrite H; reflexivity|]. rewrite HB.
      by_values keys (fun v => exists n x v', v = KStr v' /\ In (n, x) (c_envelope (r_vars s)) /\ In n ks /\
        envelope_value (E_A E) p z n (v_text (E_L E) x) v').
      - split.
        + intros (n & x & v & k & N & W & V & K & KM). apply existsb_exists in W as (n' & W & Q). apply envk_eqb_spec in Q as <-.
          exists (KStr v), k. split; [|split; assumption]. exists n, x, v. auto.
        + intros (v & k & (n & x & v' & -> & N & W & V) & K & KM).
          exists n, x, v', k. split; [exact N|]. split; [|auto]. apply existsb_exists. exists n. split; [exact W|]. apply envk_eqb_spec. reflexivity.
      - intro v. split.
        + intro V. inversion V; subst. eauto 10.
        + intros (n & x & v' & -> & N & F & V). eapply va_envelope; eauto.
    Qed.
    Lemma few_keys_glob keys : Forall (fun k => wildcards k <= 63) (txs E s keys) ->
      forall k, In k (evs E s keys) -> few_wildcards (E_L E) (as_glob m) (KVar k).
    Proof. apply few_keys. Qed.
    Lemma f_date name index anychild p z keys : few (TeDate name index anychild p z c m keys neg) ->
      decided s (TeDate name index anychild p z c m keys neg) neg (finds E s (TeDate name index anychild p z c m keys neg) c m).
    Proof.
      intro FW. unfold few in FW; cbn [keys_of] in FW. destruct (header_name E s name) as [n|] eqn:HN.
      - destruct (date_test_exact (E_L E) (E_rx E) (E_A E) low1 (parts s) (r_part s) n index anychild p z c m neg (evs E s keys) WF RP SV
          (few_keys_glob keys FW)) as (b & set & H & HB).
        eapply (decide s _ neg _ b set); [cbn [exec_test]; rewrite HN, H; reflexivity|]. rewrite HB.
        by_values keys (fun v => exists h d, v = KStr (date_part (E_A E) p (zone_eval (E_A E) z d)) /\ field_at s anychild index n h /\
          dp_parse (E_A E) h = Some d).
        + change (compared_as (TeDate name index anychild p z c m keys neg) m) with (as_glob m). split.
          * intros (i & pt & pos & h & d & k & L1 & S & D & K & KM).
            exists (KStr (date_part (E_A E) p (zone_eval (E_A E) z d))), k. split; [|split; assumption]. exists h, d. split; [reflexivity|].
            split; [exists i, pt, pos; split; assumption|exact D].
          * intros (v & k & (h & d & -> & (i & pt & pos & L1 & S) & D) & K & KM). exists i, pt, pos, h, d, k. auto 10.
        + intro v. split.
          * intro V. inversion V; subst. unfold header_name in HN. match goal with X : hn_parse _ _ = Some ?n' |- _ => assert (n' = n) by congruence; subst n' end. eauto 10.
          * intros (h & d & -> & F & D). eapply va_date; eauto.
      - eapply (decide s _ neg _ false []); [cbn [exec_test]; rewrite HN; reflexivity|]. split; [discriminate|].
        intros (v & k & V & _). inversion V; subst. unfold header_name in HN. congruence.
    Qed.
    Lemma f_now z p keys : few (TeCurrentDate z p c m keys neg) ->
      decided s (TeCurrentDate z p c m keys neg) neg (finds E s (TeCurrentDate z p c m keys neg) c m).
    Proof.
      intro FW. unfold few in FW; cbn [keys_of] in FW.
      destruct (currentdate_test_exact (E_L E) (E_rx E) (E_A E) low1 (E_now E z) p c m neg (evs E s keys) SV
          (few_keys_glob keys FW)) as (b & set & H & HB).
      eapply (decide s _ neg _ b set); [cbn [exec_test]; rewrite H; reflexivity|]. rewrite HB.
      by_values keys (fun v => v = KStr (date_part (E_A E) p (E_now E z))).
      - change (compared_as (TeCurrentDate z p c m keys neg) m) with (as_glob m). split.
        + intros (k & K & KM). eauto.
        + intros (v & k & -> & K & KM). eauto.
      - intro v. split; [intro V; inversion V; reflexivity|intros ->; constructor].
    Qed.
    Lemma f_metadata md keys : few (TeMetadata md c m keys neg) ->
      decided s (TeMetadata md c m keys neg) neg (finds E s (TeMetadata md c m keys neg) c m).
    Proof.
      intro FW. unfold few in FW; cbn [keys_of] in FW.
      destruct (metadata_test_exact (E_L E) (E_rx E) low1 (E_metadata E) (metadata_of E s md) c m neg (evs E s keys) SV
          (few_keys m s keys FW)) as (b & set & H & HB).
      eapply (decide s _ neg _ b set); [cbn [exec_test]; rewrite H; reflexivity|]. rewrite HB.
      by_values keys (fun v => exists v', v = KStr v' /\ stored_value E s md v').
      - split.
        + intros (a & v & k & F & K & KM). exists (KStr v), k. split; [|auto]. exists v. split; [reflexivity|]. apply stored_find. eauto.
        + intros (v & k & (v' & -> & F) & K & KM). apply stored_find in F as (a & F). eauto 10.
      - intro v. split; [intro V; inversion V; subst; eauto|intros (v' & -> & F); constructor; exact F].
    Qed.
    Lemma f_notify uri cap keys :
      decided s (TeNotifyCapability uri cap c m keys neg) neg (finds E s (TeNotifyCapability uri cap c m keys neg) c m).
    Proof.
      destruct (first_key_plain c m (KStr (lit "maybe")) (evs E s keys) [] SV) as (b & x & H & HB).
      assert (Q : exec_test E s (TeNotifyCapability uri cap c m keys neg) =
        if teqb_ic (tx E s cap) (lit "online") && uri_allowed E (tx E s uri) then XBool (xorb b neg) s else XBool (xorb false neg) s).
      { cbn [exec_test]. destruct (_ && _); [|reflexivity]. unfold plain_mtype in H. destruct m; try contradiction; rewrite H; reflexivity. }
      pose proof (find_by s (TeNotifyCapability uri cap c m keys neg) c m keys
        (fun v => v = KStr (lit "maybe") /\ lower_text (tx E s cap) = lit "online" /\ method_allowed E (tx E s uri)) eq_refl) as FB.
      assert (HV : forall v, value_of E s (TeNotifyCapability uri cap c m keys neg) v <->
        v = KStr (lit "maybe") /\ lower_text (tx E s cap) = lit "online" /\ method_allowed E (tx E s uri)).
      { intro v. split; [intro V; inversion V; auto|intros (-> & A & B); constructor; assumption]. }
      specialize (FB HV). change (compared_as (TeNotifyCapability uri cap c m keys neg) m) with (plain_mtype m) in FB.
      destruct (teqb_ic (tx E s cap) (lit "online") && uri_allowed E (tx E s uri)) eqn:D; rewrite ?D in Q.
      - apply andb_true_iff in D as [D1 D2]. apply teqb_ic_spec in D1. apply uri_allowed_spec in D2.
        eapply (decide_bool s _ neg _ b); [exact Q|]. rewrite HB, <- FB. split.
        + intros (k & K & KM). exists (KStr (lit "maybe")), k. split; [|auto]. split; [reflexivity|]. split; [exact D1|exact D2].
        + intros (v & k & (-> & _) & K & KM). eauto.
      - eapply (decide_bool s _ neg _ false); [exact Q|]. split; [discriminate|]. rewrite <- FB.
        intros (v & k & (_ & A & B) & _). apply uri_allowed_spec in B. rewrite B, andb_true_r in D.
        assert (X : teqb_ic (tx E s cap) (lit "online") = true) by (apply teqb_ic_spec; rewrite A; reflexivity). congruence.
    Qed.
    Lemma f_spam percent key : few (TeSpam percent c m key neg) ->
      decided s (TeSpam percent c m key neg) neg (finds E s (TeSpam percent c m key neg) c m).
    Proof.
      intro FW. unfold few in FW; cbn [keys_of] in FW. inversion FW as [|? ? W _]; subst.
      destruct (compare1_meets (E_L E) (E_rx E) low1 c m (KVar (VInt (if percent then spam_percentage (E_spam E) else spam_number (E_spam E))))
        (KVar (ev E s key)) (few_any m s key W)) as (b & x & H & HB).
      eapply (decide s _ neg _ b x).
      - cbn [exec_test]. unfold spam_test, score_test. destruct m; try contradiction; rewrite H; reflexivity.
      - rewrite HB. unfold finds. split.
        + intro K. do 2 eexists. split; [|split; [apply (ke_one E s c m key neg); left; eauto|exact K]]. destruct percent; constructor.
        + intros (v & k & V & K & KM). inversion K as [t' keys' x' T' IN|sources c' m' keys' x' neg' t' HT|c' m' key' neg' t' HT|]; subst.
          * contradiction.
          * destruct HT; discriminate.
          * destruct HT as [[? HT]|HT]; [|discriminate]. injection HT as <- _ _ <- _. inversion V; subst; exact KM.
    Qed.
    Lemma f_virus key : few (TeVirus c m key neg) ->
      decided s (TeVirus c m key neg) neg (finds E s (TeVirus c m key neg) c m).
    Proof.
      intro FW. unfold few in FW; cbn [keys_of] in FW. inversion FW as [|? ? W _]; subst.
      destruct (compare1_meets (E_L E) (E_rx E) low1 c m (KVar (VInt (virus_number (E_virus E))))
        (KVar (ev E s key)) (few_any m s key W)) as (b & x & H & HB).
      eapply (decide s _ neg _ b x).
      - cbn [exec_test]. unfold virus_test, score_test. destruct m; try contradiction; rewrite H; reflexivity.
      - rewrite HB. unfold finds. split.
        + intro K. do 2 eexists. split; [constructor|split; [apply (ke_one E s c m key neg); right; reflexivity|exact K]].
        + intros (v & k & V & K & KM). inversion K as [t' keys' x' T' IN|sources c' m' keys' x' neg' t' HT|c' m' key' neg' t' HT|]; subst.
          * contradiction.
          * destruct HT; discriminate.
          * destruct HT as [[? HT]|HT]; [discriminate|]. injection HT as _ _ <- _. inversion V; subst; exact KM.
    Qed.
    Lemma f_hasflag vars flags : few (TeHasFlag vars flags c m neg) ->
      decided s (TeHasFlag vars flags c m neg) neg (finds E s (TeHasFlag vars flags c m neg) c m).
    Proof.
      intro FW. unfold few in FW; cbn [keys_of] in FW.
      destruct (checks_loop c m (flat_map (fun n => flags_of_var (E_L E) (get_variable (vw E s) n)) (match vars with [] => [default_flags] | _ => vars end))
        SV _ [] FW) as (b & x & H & HB).
      eapply (decide s _ neg _ b x).
      - cbn [exec_test]. unfold hasflag. cbv zeta. destruct m; try contradiction; rewrite H; reflexivity.
      - rewrite HB. unfold finds. change (compared_as (TeHasFlag vars flags c m neg) m) with (as_glob m). split.
        + intros (v & k & V & K & KM). apply in_flat_map in V as (n & N & V). exists (KStr v), (KStr k).
          split; [eapply va_flag; eassumption|]. split; [apply ke_flag; exact K|exact KM].
        + intros (v & k & V & K & KM). inversion K as [t' keys' x' T' IN|sources c' m' keys' x' neg' t' HT|c' m' key' neg' t' HT|]; subst.
          * contradiction.
          * destruct HT; discriminate.
          * destruct HT as [[? HT]|HT]; discriminate.
          * inversion V; subst. do 2 eexists. split; [apply in_flat_map; eauto|]. split; [eassumption|exact KM].
    Qed.
    Lemma list_eq_nil_dec {A} (l : list A) : {l = []} + {l <> []}.
    Proof. destruct l; [left; reflexivity|right; discriminate]. Qed.
    Lemma f_string (env : bool) sources keys : let t := (if env then TeEnvironment else TeString) sources c m keys neg in
      few t -> decided s t neg (finds E s t c m).
    Proof.
      intros t FW. assert (ET : exec_test E s t = of_tres s neg (Some (string_test (E_L E) (E_rx E) env c m neg (evs E s sources) (evs E s keys))))
        by (subst t; destruct env; reflexivity).
      assert (KO : keys_of E s t = txs E s keys) by (subst t; destruct env; reflexivity). unfold few in FW. rewrite KO in FW.
      assert (CA : compared_as t m = m) by (subst t; destruct env, m; reflexivity).
      assert (VO : forall v, value_of E s t v <-> exists x, In x sources /\ counts env (ev E s x) /\ v = KVar (ev E s x)).
      { intro v. subst t. unfold counts. destruct env; split.
        - intro V. inversion V; subst. eexists. repeat split; eauto.
        - intros (x & A & B & ->). constructor; auto.
        - intro V. inversion V; subst. eexists. repeat split; eauto. discriminate.
        - intros (x & A & B & ->). constructor; auto. }
      assert (KE : forall k, key_of E s t k <-> exists ks x, keys = ks ++ [x] /\ k = KVar (ev E s x)).
      { intro k. split.
        - intro K. inversion K as [t' keys' x' T' IN|src c' m' keys' x' neg' t' HT|c' m' key' neg' t' HT|]; subst.
          + subst t; destruct env; contradiction.
          + destruct HT as [HT|HT]; subst t; destruct env; try discriminate; injection HT; intros; subst; eauto.
          + destruct HT as [[? HT]|HT]; subst t; destruct env; discriminate.
          + subst t; destruct env; discriminate.
        - intros (ks & x & HK & ->). apply (ke_last E s sources c m ks x neg). rewrite <- HK. subst t; destruct env; auto. }
      destruct (list_eq_nil_dec keys) as [->|NE].
      - eapply (decide s _ neg _ false []).
        + rewrite ET. destruct m; try contradiction; reflexivity.
        + split; [discriminate|]. intros (v & k & _ & K & _). apply KE in K as (ks & x & K & _). destruct ks; discriminate.
      - destruct (exists_last NE) as (ks & x & ->).
        unfold evs in ET. rewrite (map_app (ev E s) ks [x]) in ET. cbn [map] in ET.
        destruct (string_test_last (E_L E) (E_rx E) low1 env c m neg (map (ev E s) sources) (map (ev E s) ks) (ev E s x) SV) as (b & set & H & HB).
        { intros k Hk. apply (few_keys m s (ks ++ [x]) FW). unfold evs. rewrite map_app. exact Hk. }
        eapply (decide s _ neg _ b set); [rewrite ET, H; reflexivity|]. rewrite HB. unfold finds. rewrite CA. split.
        + intros (v & V & CN & KM). apply in_map_iff in V as (y & <- & V). exists (KVar (ev E s y)), (KVar (ev E s x)). rewrite VO, KE. eauto 10.
        + intros (v & k & V & K & KM). apply VO in V as (y & V & CN & ->). apply KE in K as (ks' & x' & K & ->).
          apply app_inj_tail in K as [-> ->]. exists (ev E s y). split; [apply in_map; exact V|]. auto.
    Qed.
    Lemma f_body bt subject keys :
      decided s (TeBody bt subject c m keys neg) neg (finds E s (TeBody bt subject c m keys neg) c m).
    Proof.
      set (t := TeBody bt subject c m keys neg).
      set (subj := match (match bt with BtRaw => E_raw_subject E | _ => E_subject E end) (r_msg s) with Some t => t | None => [] end).
      set (inside := fun v => exists types path p v', v = KStr v' /\ (match bt with BtContent l => types_are E s l types | _ => types = [] end) /\
         deep_at (parts s) (r_part s) path p /\ passes types p = true /\ E_body E bt p = Some v').
      assert (VO : forall v, value_of E s t v <-> (subject = true /\ v = KStr subj) \/ inside v).
      { intro v. subst t inside subj. split.
        - intro V. inversion V; subst; [right; eauto 10|left; auto].
        - intros [[-> ->]|(types & path & p & v' & -> & A & B & C & D)]; [apply va_subject; reflexivity|eapply va_body; eauto]. }
      pose proof (find_by s t c m keys _ eq_refl VO) as FB. change (compared_as t m) with (plain_mtype m) in FB.
      destruct (first_key_plain c m (KStr subj) (evs E s keys) [] SV) as (b & x & H & HB).
      assert (SK : subject_keys E s bt c m keys = CRes b x) by (unfold subject_keys; fold subj; destruct m; try contradiction; exact H).
      assert (IN : exists b2, match bt with
            | BtContent types =>
                match ct_filters E s types with
                | None => XBool (xorb false neg) s
                | Some f => of_tres s neg (body_test (E_L E) (E_rx E) (parts s) (r_part s) f (E_body E bt) c m neg (evs E s keys))
                end
            | _ => of_tres s neg (body_test (E_L E) (E_rx E) (parts s) (r_part s) [] (E_body E bt) c m neg (evs E s keys))
            end = of_tres s neg (Some (TBool (xorb b2 neg) [])) /\
            (b2 = true <-> exists v k, inside v /\ In k (evs E s keys) /\ key_matches (E_L E) (E_rx E) c (plain_mtype m) v (KVar k))).
      { assert (G : forall f, (match bt with BtContent l => ct_filters E s l = Some f | _ => f = [] end) ->
          exists b2, body_test (E_L E) (E_rx E) (parts s) (r_part s) f (E_body E bt) c m neg (evs E s keys) = Some (TBool (xorb b2 neg) []) /\
            (b2 = true <-> exists v k, inside v /\ In k (evs E s keys) /\ key_matches (E_L E) (E_rx E) c (plain_mtype m) v (KVar k))).
        { intros f F. destruct (body_test_exact (E_L E) (E_rx E) low1 (parts s) (r_part s) f (E_body E bt) c m neg (evs E s keys) WD SV) as (b2 & B2 & H2).
          exists b2. split; [exact B2|]. rewrite H2. split.
          - intros (path & p & v & k & A & B & C & K & KM). exists (KStr v), k. split; [|auto]. exists f, path, p, v. split; [reflexivity|].
            split; [destruct bt; try exact F; apply ct_filters_types, F|auto].
          - intros (v & k & (types & path & p & v' & -> & T & A & B & C) & K & KM).
            assert (types = f). { destruct bt; try congruence. apply ct_filters_types in T. congruence. }
            subst types. exists path, p, v', k. auto 10. }
        destruct bt as [| |l]; try (destruct (G [] eq_refl) as (b2 & -> & H2); exists b2; split; [reflexivity|exact H2]).
        destruct (ct_filters E s l) as [f|] eqn:CF.
        - destruct (G f eq_refl) as (b2 & B2 & H2). exists b2. rewrite B2. split; [reflexivity|exact H2].
        - exists false. split; [symmetry; apply of_tres_nil|].
          split; [discriminate|]. intros (v & k & (types & path & p & v' & _ & T & _) & _). apply ct_filters_types in T. congruence. }
      destruct IN as (b2 & IN & H2).
      set (first := subject && b).
      assert (FT : first = true <-> subject = true /\ b = true) by apply andb_true_iff.
      assert (ET : exec_test E s t = of_tres s neg (Some (TBool (xorb (first || b2) neg) []))).
      { subst t first. cbn [exec_test]. rewrite SK, IN. destruct subject, b; cbn [andb orb]; try reflexivity;
          symmetry; apply of_tres_nil. }
      eapply (decide s _ neg _ (first || b2) []); [exact ET|]. rewrite orb_true_iff, FT, HB, H2, <- FB. split.
      - intros [[S (k & K & KM)]|(v & k & V & K & KM)]; [exists (KStr subj), k; auto|exists v, k; auto].
      - intros (v & k & [[S ->]|V] & K & KM); [left; eauto|right; eauto].
    Qed.
  End Find.

  Lemma exec_finds s t c m neg :
    wf_deep (parts s) -> r_part s < length (parts s) ->
    match_of t = Some (c, m, neg) -> single_value_match m ->
    Forall (fun k => wildcards k <= 63) (keys_of E s t) ->
    decided s t neg (finds E s t c m).
  Proof.
    intros WD RP MO SV FW. destruct t; try discriminate MO; injection MO as -> -> ->.
    - apply f_header; assumption.
    - apply f_address; assumption.
    - apply f_envelope; assumption.
    - apply f_body; assumption.
    - exact (f_string s c m neg SV false sources keys FW).
    - exact (f_string s c m neg SV true sources keys FW).
    - apply f_hasflag; assumption.
    - apply f_date; assumption.
    - apply f_now; assumption.
    - apply f_notify; assumption.
    - apply f_metadata; assumption.
    - apply f_spam; assumption.
    - apply f_virus; assumption.
  Qed.

  (** *** The tests that compare nothing *)
  Definition stated (s : rst) (t : test) (P : Prop) (neg : bool) : Prop :=
    exists b, exec_test E s t = XBool b s /\ (b = true <-> (P <-> neg = false)).
  Lemma state s t P neg b : exec_test E s t = XBool (xorb b neg) s -> (b = true <-> P) -> stated s t P neg.
  Proof. intros H HP. exists (xorb b neg). split; [exact H|apply sense, HP]. Qed.

  Lemma filter_all {A} (f : A -> bool) : forall l, length (filter f l) <= length l /\ (length (filter f l) = length l <-> forall x, In x l -> f x = true).
  Proof.
    induction l as [|x l [LE IH]]; cbn [filter length]; [split; [lia|split; [intros _ ? []|reflexivity]]|].
    destruct (f x) eqn:F; cbn [length]; split; try lia; split.
    - intros H y [<-|I]; [exact F|apply IH; [lia|exact I]].
    - intro H. f_equal. apply IH. intros y I. apply H. right. exact I.
    - intro H. lia.
    - intro H. specialize (H x (or_introl eq_refl)). congruence.
  Qed.
  Lemma exec_says s t P neg : wf_deep (parts s) -> r_part s < length (parts s) -> says E s t = Some (P, neg) -> stated s t P neg.
  Proof.
    intros WD RP SY. assert (WF : well_formed (parts s)) by (inversion WD; assumption).
    destruct t; try discriminate SY; cbn [says] in SY; injection SY as <- <-.
    - apply (state s _ True false true); [reflexivity|tauto].
    - apply (state s _ False false false); [reflexivity|]. split; [discriminate|tauto].
    - destruct (exists_test_exact (parts s) (r_part s) (parse_header_names (E_L E) (E_M E) (vw E s) names) anychild neg0 WF RP) as (b & H & HB).
      apply (state s _ _ neg0 b); [cbn [exec_test]; rewrite H; reflexivity|]. rewrite HB. split.
      + intros Q n N. apply names_asked in N. destruct (Q n N) as (i & p & h & A & B & C). exists i, p, h. split; [exact A|]. split; [exact B|].
        apply teqb_ic_spec. exact C.
      + intros Q n N. apply names_asked in N. destruct (Q n N) as (i & p & h & A & B & C). exists i, p, h. split; [exact A|]. split; [exact B|].
        apply teqb_ic_spec. exact C.
    - apply (state s _ _ neg0 (if over then Nat.ltb limit (ms_size (r_msg s)) else Nat.ltb (ms_size (r_msg s)) limit)); [reflexivity|].
      destruct over; apply Nat.ltb_lt.
    - cbn [exec_test]. apply (state s _ _ neg0 (forallb (fun u => uri_allowed E u) (txs E s uris))).
      + cbn [exec_test]. f_equal. pose proof (valid_method_exact (E_M E) (E_utf8 E) (E_uris E) (txs E s uris) neg0) as V.
        assert (W : forallb (fun u => uri_allowed E u) (txs E s uris) = true <->
          Forall (fun u : text => exists scheme : text, validate_uri (E_M E) (E_utf8 E) u = Some scheme /\ (In scheme (E_uris E) \/ In u (E_uris E))) (txs E s uris)).
        { rewrite forallb_forall, Forall_forall. split; intros H u I; specialize (H u I); apply uri_allowed_spec; exact H. }
        rewrite <- W in V. destruct (forallb _ _), neg0, (valid_notify_method _ _ _ _ _); cbn in *; intuition discriminate.
      + rewrite forallb_forall. unfold txs. split.
        * intros H x I. apply uri_allowed_spec, H, in_map, I.
        * intros H u I. apply in_map_iff in I as (x & <- & I). apply uri_allowed_spec, H, I.
    - apply (state s _ _ neg0 (Nat.eqb (length (filter (fun n => existsb (teqb n) (E_lists E)) (txs E s names))) (length names))); [reflexivity|].
      rewrite Nat.eqb_eq. replace (length names) with (length (txs E s names)) by apply map_length.
      rewrite (proj2 (filter_all _ _)). unfold txs. split.
      + intros H x I. specialize (H (tx E s x) (in_map _ _ _ I)). apply existsb_exists in H as (y & J & Q). apply teqb_spec in Q as <-. exact J.
      + intros H u I. apply in_map_iff in I as (x & <- & I). apply existsb_exists. exists (tx E s x). split; [apply H, I|apply teqb_spec; reflexivity].
    - apply (state s _ _ neg0 (forallb (fun c => negb (cap_eqb c CapVariables) && negb (cap_eqb c CapEncoded) && allowed E c) caps)); [reflexivity|].
      rewrite forallb_forall. split; intros H c I; specialize (H c I).
      + apply andb_true_iff in H as [H H3]. apply andb_true_iff in H as [H1 H2]. apply existsb_exists in H3 as (y & J & Q). apply ParseGuard2.cap_eqb_spec in Q as <-.
        split; [exact J|]. split; intros ->; [rewrite (proj2 (ParseGuard2.cap_eqb_spec _ _) eq_refl) in H1|rewrite (proj2 (ParseGuard2.cap_eqb_spec _ _) eq_refl) in H2]; discriminate.
      + destruct H as (J & N1 & N2). apply andb_true_iff. split; [apply andb_true_iff; split; apply negb_true_iff, not_true_iff_false; intro Q; apply ParseGuard2.cap_eqb_spec in Q; contradiction|].
        apply existsb_exists. exists c. split; [exact J|apply ParseGuard2.cap_eqb_spec; reflexivity].
    - apply (state s _ _ neg0 (md_exists_loop (E_metadata E) (otx E s mailbox) (txs E s annotations))); [reflexivity|].
      destruct (list_eq_nil_dec (E_metadata E)) as [Q|NE].
      { rewrite Q. split; [discriminate|intros [X _]; contradiction]. }
      rewrite (md_exists_spec (E_metadata E) (otx E s mailbox) (txs E s annotations) NE).
      assert (CV : forall m x, md_covers (otx E s mailbox) m (tx E s x) = true <->
        match mailbox, m with
        | None, MdServer b => lower_text b = lower_text (tx E s x)
        | Some n, MdMailbox k b => k = tx E s n /\ lower_text b = lower_text (tx E s x)
        | _, _ => False
        end).
      { intros m x. destruct mailbox, m; cbn [md_covers otx option_map]; try (split; [discriminate|contradiction]).
        - rewrite andb_true_iff, teqb_spec, teqb_ic_spec. split; intros [A B]; split; congruence.
        - rewrite teqb_ic_spec. split; congruence. }
      split.
      + intro H. split; [exact NE|]. intros x I. destruct (H (tx E s x) (in_map _ _ _ I)) as (m & v & J & C). exists m, v. split; [exact J|]. apply CV, C.
      + intros [_ H] a I. apply in_map_iff in I as (x & <- & I). destruct (H x I) as (m & v & J & C). exists m, v. split; [exact J|]. apply CV, C.
  Qed.

  (** *** The tests that ask the host *)
  Lemma found_values s names index anychild (vals : header -> list text) v : well_formed (parts s) -> r_part s < length (parts s) ->
    exists found, find_headers (parts s) (r_part s) names index anychild = Some found /\
      (In v (flat_map (fun l => vals (l_header l)) found) <-> exists n h, In n names /\ field_at s anychild index n h /\ In v (vals h)).
  Proof.
    intros WF RP. destruct (find_headers_spec (parts s) (r_part s) names index anychild WF RP) as (l & F & S). exists l. split; [exact F|].
    rewrite in_flat_map. split.
    - intros ([i pos h] & I & V). apply S in I as (p & n & A & B & C). exists n, h. split; [exact B|]. split; [exists i, p, pos; auto|exact V].
    - intros (n & h & B & (i & p & pos & A & C) & V). exists {| l_part := i; l_pos := pos; l_header := h |}. split; [apply S; eauto|exact V].
  Qed.
  Lemma fold_map {A B C} (f : A -> B) (g : C -> B -> C) : forall l a, fold_left g (map f l) a = fold_left (fun x y => g x (f y)) l a.
  Proof. induction l; intros; cbn [map fold_left]; auto. Qed.
  Lemma lists_of s t c neg : well_formed (parts s) -> r_part s < length (parts s) -> asks_lists t -> match_of t = Some (c, MList, neg) ->
    exists vs, (forall v, v <> [] -> (In v vs <-> exists x, value_of E s t x /\ k_text (E_L E) x = v)) /\
      exec_test E s t = of_tres s neg (Some (match distinct vs with [] => TBool (xorb false neg) [] | l => TListContains (keys_of E s t) l c end)).
  Proof.
    intros WF RP AL MO. assert (KT : forall keys, map (v_text (E_L E)) (evs E s keys) = txs E s keys) by (intro keys; unfold evs, txs; apply map_map).
    destruct t; try contradiction; injection MO as -> -> ->; cbn [exec_test keys_of].
    - destruct (find_headers_spec (parts s) (r_part s) (parse_header_names (E_L E) (E_M E) (vw E s) names) index anychild WF RP) as (l & F & S).
      unfold header_test. rewrite F, KT. cbn [option_map].
      exists (flat_map (fun l => header_values (E_M E) (l_header l) (mimeopts_of E s opts)) l). split; [|unfold distinct; destruct (fold_left _ _ _); reflexivity].
      intros v NE. destruct (found_values s (parse_header_names (E_L E) (E_M E) (vw E s) names) index anychild
        (fun h => header_values (E_M E) h (mimeopts_of E s opts)) v WF RP) as (l' & F' & S'). replace l' with l in * by congruence. rewrite S'. split.
      + intros (n & h & A & B & C). exists (KStr v). split; [|reflexivity]. eapply va_header; [apply names_asked, A|exact B|apply options_spec|apply shows_values, C].
      + intros (x & V & <-). inversion V as [? ? ? ? o' ? ? ? ? n h v' FA FT OA SH| | | | | | | | | | | | | | ]; subst. apply options_unique in OA as ->.
        exists n, h. split; [apply names_asked, FA|]. split; [exact FT|apply shows_values, SH].
    - destruct (find_headers_spec (parts s) (r_part s) (parse_header_names (E_L E) (E_M E) (vw E s) names) index anychild WF RP) as (l & F & S).
      unfold address_test, values_test. rewrite F, KT. cbn [option_map].
      exists (flat_map (fun l => address_values (E_A E) p (l_header l)) l). split; [|unfold distinct; destruct (fold_left _ _ _); reflexivity].
      intros v NE. destruct (found_values s (parse_header_names (E_L E) (E_M E) (vw E s) names) index anychild
        (fun h => address_values (E_A E) p h) v WF RP) as (l' & F' & S'). replace l' with l in * by congruence. rewrite S'. split.
      + intros (n & h & A & B & C). exists (KStr v). split; [|reflexivity]. eapply va_address; [apply names_asked, A|exact B|apply address_values_spec, C].
      + intros (x & V & <-). inversion V; subst.
        exists n, h. split; [apply names_asked; assumption|]. split; [assumption|apply address_values_spec; assumption].
    - unfold envelope_test, values_test. rewrite KT. exists (flat_map (envelope_values (E_L E) (E_A E) wanted p z) (c_envelope (r_vars s))). split; [|unfold distinct; destruct (fold_left _ _ _); reflexivity].
      intros v NE. rewrite in_flat_map. split.
      + intros ([n x] & I & V). apply (envelope_values_spec (E_L E) (E_rx E)) in V as [W V]. apply existsb_exists in W as (n' & W & Q). apply envk_eqb_spec in Q as <-.
        exists (KStr v). split; [eapply va_envelope; eassumption|reflexivity].
      + intros (x & V & <-). inversion V; subst. eexists. split; [eassumption|]. apply (envelope_values_spec (E_L E) (E_rx E)). split; [|assumption].
        apply existsb_exists. eexists. split; [eassumption|apply envk_eqb_spec; reflexivity].
    - unfold string_test. rewrite KT. exists (map (v_text (E_L E)) (evs E s sources)). split.
      + intros v NE. rewrite in_map_iff. split.
        * intros (x & <- & I). apply in_evs in I as (y & I & ->). exists (KVar (ev E s y)). split; [constructor; exact I|reflexivity].
        * intros (x & V & <-). inversion V; subst. eexists. split; [reflexivity|]. apply in_evs. eauto.
      + unfold distinct. rewrite fold_map. destruct (fold_left _ _ _); reflexivity.
    - unfold string_test. rewrite KT. exists (map (v_text (E_L E)) (evs E s sources)). split.
      + intros v NE. rewrite in_map_iff. split.
        * intros (x & <- & I). apply in_evs in I as (y & I & ->). exists (KVar (ev E s y)). split; [|reflexivity]. constructor; [exact I|].
          destruct (ev E s y) as [[|]| | |]; try reflexivity. contradiction.
        * intros (x & V & <-). inversion V; subst. eexists. split; [reflexivity|]. apply in_evs. eauto.
      + unfold distinct. rewrite fold_map. destruct (fold_left _ _ _); reflexivity.
    - destruct (header_name E s name) as [n|] eqn:HN.
      + destruct (find_headers_spec (parts s) (r_part s) [n] index anychild WF RP) as (l & F & S).
        unfold date_test, values_test. cbn [as_glob]. rewrite F, KT. cbn [option_map].
        exists (flat_map (fun l => date_values (E_A E) p z (l_header l)) l). split; [|unfold distinct; destruct (fold_left _ _ _); reflexivity].
        intros v NE. destruct (found_values s [n] index anychild
          (fun h => date_values (E_A E) p z h) v WF RP) as (l' & F' & S'). replace l' with l in * by congruence. rewrite S'. unfold date_values. split.
        * intros (n' & h & [<-|[]] & B & C). destruct (dp_parse (E_A E) h) eqn:D; [|contradiction]. destruct C as [<-|[]].
          eexists. split; [eapply va_date; [exact HN|exact B|exact D]|reflexivity].
        * intros (x & V & <-). inversion V; subst. unfold header_name in HN. match goal with X : hn_parse _ _ = Some ?n' |- _ => assert (n' = n) by congruence; subst n' end.
          exists n, h. split; [left; reflexivity|]. split; [assumption|]. match goal with X : dp_parse _ _ = Some _ |- _ => rewrite X end. left. reflexivity.
      + exists []. split; [|reflexivity]. intros v NE. split; [intros []|]. intros (x & V & _). inversion V; subst. unfold header_name in HN. congruence.
    - unfold currentdate_test, values_test. cbn [as_glob]. rewrite KT. exists [date_part (E_A E) p (E_now E z)]. split; [|unfold distinct; destruct (fold_left _ _ _); reflexivity].
      intros v NE. split.
      + intros [<-|[]]. eexists. split; [constructor|reflexivity].
      + intros (x & V & <-). inversion V; subst. left. reflexivity.
  Qed.

  Lemma exec_lists s t c neg : well_formed (parts s) -> r_part s < length (parts s) -> asks_lists t -> match_of t = Some (c, MList, neg) ->
    (exists l, asks E s t (EListContains (keys_of E s t) l c) neg /\ exec_test E s t = XAsk (EListContains (keys_of E s t) l c) neg) \/
    ((forall x, value_of E s t x -> k_text (E_L E) x = []) /\ exec_test E s t = XBool neg s).
  Proof.
    intros WF RP AL MO. destruct (lists_of s t c neg WF RP AL MO) as (vs & V & H). destruct (distinct_spec vs) as [ND D].
    destruct (distinct vs) as [|a l] eqn:DV.
    - right. split.
      + intros x X. destruct (k_text (E_L E) x) as [|c0 t0] eqn:K; [reflexivity|]. exfalso. apply (D (c0 :: t0)). split; [|discriminate].
        apply V; [discriminate|]. eauto.
      + rewrite H. destruct neg; apply of_tres_nil.
    - left. exists (a :: l). split; [|exact H]. apply (as_list E s t c neg (a :: l)); try assumption; [discriminate|].
      intro v. rewrite D. split; intros [A B]; (split; [|]); try assumption; apply V; assumption.
  Qed.

  Lemma first_id : forall (found : list located) before h after id, map l_header found = before ++ h :: after ->
    (forall h', In h' before -> E_header_id E h' = None) -> E_header_id E h = Some id ->
    hd [] (flat_map (fun l => opt_list (E_header_id E (l_header l))) found) = id.
  Proof.
    induction found as [|l found IH]; intros [|b before] h after id M N H; try discriminate; cbn [map] in M.
    - injection M as <- _. cbn [flat_map]. rewrite H. reflexivity.
    - injection M as M1 M. cbn [flat_map]. rewrite M1, (N b (or_introl eq_refl)). cbn [opt_list app]. eapply IH; [exact M| |exact H].
      intros h' I. apply N. right. exact I.
  Qed.
  Lemma find_id : forall (found : list located), hd [] (flat_map (fun l => opt_list (E_header_id E (l_header l))) found) = [] \/
    exists before h after id, map l_header found = before ++ h :: after /\ (forall h', In h' before -> E_header_id E h' = None) /\
      E_header_id E h = Some id /\ hd [] (flat_map (fun l => opt_list (E_header_id E (l_header l))) found) = id.
  Proof.
    induction found as [|l found IH]; [left; reflexivity|]. cbn [flat_map map]. destruct (E_header_id E (l_header l)) as [id|] eqn:H.
    - right. exists [], (l_header l), (map l_header found), id. repeat split; auto. intros h' [].
    - cbn [opt_list app]. destruct IH as [->|(before & h & after & id & M & N & K & R)]; [left; reflexivity|]. right.
      exists (l_header l :: before), h, after, id. rewrite M, R. repeat split; auto. intros h' [<-|I]; auto.
  Qed.
  Lemma id_spec s d id : well_formed (parts s) -> r_part s < length (parts s) -> id <> [] -> (duplicate_id E s d = Some id <-> id_is E s d id).
  Proof.
    intros WF RP NE. unfold duplicate_id, header_name. destruct d as [x|x|].
    - destruct (hn_parse (E_M E) (tx E s x)) as [n|] eqn:HN.
      + destruct (find_headers_spec (parts s) (r_part s) [n] None true WF RP) as (found & F & _). rewrite F. cbn [option_map]. split.
        * intro Q. injection Q as Q. destruct (find_id found) as [R|(before & h & after & id' & M & N & K & R)]; [congruence|].
          econstructor; eauto. congruence.
        * intro Q. inversion Q as [| |x' n' h id' found' before after A B C D G]; subst. replace n' with n in * by congruence. replace found' with found in * by congruence.
          f_equal. eapply first_id; eassumption.
      + split; [intro Q; injection Q as <-; contradiction|]. intro Q. inversion Q. congruence.
    - split; [intro Q; injection Q as <-; constructor|]. intro Q. inversion Q. reflexivity.
    - destruct (E_msg_id E (r_msg s)) as [t|] eqn:H; split; intro Q.
      + injection Q as ->. constructor. exact H.
      + inversion Q as [id' K| |]. rewrite H in K. exact K.
      + injection Q as <-. contradiction.
      + inversion Q as [id' K| |]. rewrite H in K. discriminate.
  Qed.
  Lemma id_total s d : well_formed (parts s) -> r_part s < length (parts s) -> exists id, duplicate_id E s d = Some id.
  Proof.
    intros WF RP. unfold duplicate_id. destruct d; eauto. destruct (header_name _ _ _) as [n|]; [|eauto].
    destruct (find_headers_spec (parts s) (r_part s) [n] None true WF RP) as (found & F & _). rewrite F. cbn [option_map]. eauto.
  Qed.
  Lemma exec_duplicate s d handle last seconds neg : well_formed (parts s) -> r_part s < length (parts s) ->
    (exists id, id <> [] /\ id_is E s d id /\ exec_test E s (TeDuplicate d handle last seconds neg) =
       XAsk (EDuplicateId (match handle with Some h => tx E s h | None => [] end ++ id) (match seconds with Some n => n | None => E_dup_expiry E end) last) neg) \/
    ((forall id, id_is E s d id -> id = []) /\ exec_test E s (TeDuplicate d handle last seconds neg) = XBool neg s).
  Proof.
    intros WF RP. destruct (id_total s d WF RP) as (id & I). cbn [exec_test]. rewrite I. destruct id as [|a id].
    - right. split; [|destruct neg; reflexivity]. intros id' I'. destruct id' as [|b id']; [reflexivity|]. apply id_spec in I'; try assumption; congruence.
    - left. exists (a :: id). split; [discriminate|]. split; [apply id_spec; try assumption; discriminate|]. destruct handle; reflexivity.
  Qed.

  (** Every test that may ask the host does so when it has something to ask. *)
  Definition asking (t : test) : Prop :=
    match t with
    | TeMailboxExists _ _ | TeMailboxIdExists _ _ | TeSpecialUse _ _ _ | TeDuplicate _ _ _ _ _ => True
    | _ => False
    end.
  Lemma exec_asks s t e neg : well_formed (parts s) -> r_part s < length (parts s) -> ~ asks_lists t -> asks E s t e neg -> exec_test E s t = XAsk e neg.
  Proof.
    intros WF RP NL A. inversion A; subst.
    - cbn [exec_test]. unfold txs. rewrite map_map. reflexivity.
    - cbn [exec_test]. unfold txs. rewrite map_map. reflexivity.
    - reflexivity.
    - reflexivity.
    - destruct (exec_duplicate s d handle last seconds neg WF RP) as [(id' & N & I & ->)|[Q _]]; [|exfalso; auto].
      apply id_spec in I; try assumption. match goal with X : id_is _ _ _ ?i |- _ => apply id_spec in X; [|assumption|assumption|assumption]; assert (i = id') by congruence; subst end.
      reflexivity.
    - contradiction.
  Qed.

  (** *** From the instruction to the state before it *)
  Lemma types_moved s l fs : types_are E (moved_on s) l fs <-> types_are E s l fs.
  Proof. split; intro T; induction T; constructor; auto. Qed.
  Lemma value_moved s t v : value_of E (moved_on s) t v <-> value_of E s t v.
  Proof.
    split; intro V; inversion V; subst.
    all: try match goal with X : types_are _ _ _ _ |- _ => fail 1 | |- _ => econstructor; (eassumption || reflexivity) end.
    all: lazymatch goal with
         | |- value_of _ ?r (TeBody ?bt _ _ _ _ _) _ => eapply (va_body E r bt); [|eassumption|eassumption|eassumption];
             destruct bt; auto; apply types_moved; assumption
         | |- value_of _ ?r (TeString _ _ _ _ _) (KVar (ev _ _ ?x)) => apply (va_string E r); assumption
         | |- value_of _ ?r (TeEnvironment _ _ _ _ _) (KVar (ev _ _ ?x)) => apply (va_environment E r); assumption
         end.
  Qed.
  Lemma key_moved s t k : key_of E (moved_on s) t k <-> key_of E s t k.
  Proof.
    split; intro V; inversion V; subst.
    - eapply (ke_any E s); eassumption.
    - eapply (ke_last E s); eassumption.
    - eapply (ke_one E s); eassumption.
    - apply (ke_flag E s). assumption.
    - eapply (ke_any E (moved_on s)); eassumption.
    - eapply (ke_last E (moved_on s)); eassumption.
    - eapply (ke_one E (moved_on s)); eassumption.
    - apply (ke_flag E (moved_on s)). assumption.
  Qed.
  Lemma finds_moved s t c m : finds E (moved_on s) t c m <-> finds E s t c m.
  Proof.
    unfold finds. split; intros (v & k & V & K & M); exists v, k; (split; [apply value_moved; exact V|]); split; try exact M; apply key_moved; exact K.
  Qed.
  Lemma id_moved s d id : id_is E (moved_on s) d id <-> id_is E s d id.
  Proof.
    split; intro V; inversion V; subst.
    - constructor. assumption.
    - exact (di_unique E s x).
    - eapply (di_header E s); eassumption.
    - apply (di_default E (moved_on s)). assumption.
    - exact (di_unique E (moved_on s) x).
    - eapply (di_header E (moved_on s)); eassumption.
  Qed.
  Lemma asks_moved s t e neg : asks E (moved_on s) t e neg <-> asks E s t e neg.
  Proof.
    split; intro V; inversion V; subst.
    - apply (as_mailbox E s).
    - apply (as_mailbox_id E s).
    - apply (as_special E s).
    - apply (as_special_of E s).
    - eapply (as_duplicate E s); [apply id_moved; eassumption|assumption|reflexivity|reflexivity].
    - apply (as_list E s); auto. intro v. split.
      + intro I. match goal with X : forall v, In v l <-> _ |- _ => apply X in I as (N & x & A & B) end. split; [exact N|]. exists x. split; [apply value_moved; exact A|exact B].
      + intros (N & x & A & B). match goal with X : forall v, In v l <-> _ |- _ => apply X end. split; [exact N|]. exists x. split; [apply value_moved; exact A|exact B].
    - apply (as_mailbox E (moved_on s)).
    - apply (as_mailbox_id E (moved_on s)).
    - apply (as_special E (moved_on s)).
    - apply (as_special_of E (moved_on s)).
    - eapply (as_duplicate E (moved_on s)); [apply id_moved; eassumption|assumption|reflexivity|reflexivity].
    - apply (as_list E (moved_on s)); auto. intro v. split.
      + intro I. match goal with X : forall v, In v l <-> _ |- _ => apply X in I as (N & x & A & B) end. split; [exact N|]. exists x. split; [apply value_moved; exact A|exact B].
      + intros (N & x & A & B). match goal with X : forall v, In v l <-> _ |- _ => apply X end. split; [exact N|]. exists x. split; [apply value_moved; exact A|exact B].
  Qed.
  Lemma step_test s t : at_test E s t -> step E s =
    match exec_test E (moved_on s) t with
    | XPanic => SPanic
    | XBool b s' => SCont (w_test b s')
    | XAsk e neg => SYield (w_test neg (moved_on s)) (OEvent e)
    | XError e => fail E (moved_on s) e
    end.
  Proof.
    intros (ST & NI & CPU). unfold step. destruct (r_stack s) as [|f st] eqn:RS; [contradiction|]. rewrite NI.
    assert (LT : Nat.ltb (length (s_code (f_script f))) (r_pos s) = false).
    { apply Nat.ltb_ge. unfold next_instr in NI. rewrite RS in NI. apply Nat.lt_le_incl, nth_error_Some. congruence. }
    rewrite LT. cbv zeta.
    replace (Nat.ltb (E_cpu E) (r_instrs (w_instrs (r_instrs s + 1) s))) with false; [reflexivity|].
    symmetry. apply Nat.ltb_ge. cbn [r_instrs w_instrs]. lia.
  Qed.
End T.