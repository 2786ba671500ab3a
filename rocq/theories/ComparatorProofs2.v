(** The model's single comparison meets the specification. *)
From Verif Require Import Base Lib Var Value Glob GlobSpec GlobProofs Comparator ComparatorSpec ComparatorProofs.
From Coq Require Import Floats.SpecFloat.

Lemma glob_globw_any {A} (fold : ch -> text) p v : glob fold p v ->
  forall V : list (ch * A), map fst V = v -> exists ws, globw fold p V ws.
Proof.
  induction 1 as [|p u v H IH|p c v H IH|p c v H IH| |p c v H1 H2 H3 H IH]; intros V HV.
  - destruct V; [|discriminate]. exists []. constructor.
  - apply map_eq_app in HV as (V1 & V2 & -> & <- & H2). destruct (IH V2 H2) as [ws Hw].
    exists (V1 :: ws). constructor. exact Hw.
  - destruct V as [|x V]; [discriminate|]. inversion HV. destruct (IH V H2) as [ws Hw].
    exists ([x] :: ws). constructor. exact Hw.
  - apply map_eq_app in HV as (V1 & V2 & -> & H1 & H2). destruct (IH V2 H2) as [ws Hw].
    exists ws. constructor; assumption.
  - destruct V; [|discriminate]. exists []. constructor.
  - apply map_eq_app in HV as (V1 & V2 & -> & H4 & H5). destruct (IH V2 H5) as [ws Hw].
    exists ws. apply gw_lit; assumption.
Qed.
Lemma globw_glob_any {A} (fold : ch -> text) p (V : list (ch * A)) ws :
  globw fold p V ws -> glob fold p (map fst V).
Proof.
  induction 1 as [|p u v ws H IH|p x v ws H IH|p c s v ws E H IH| |p c s v ws H1 H2 H3 E H IH];
    cbn [map]; rewrite ?map_app, ?E; try (constructor; assumption).
Qed.

Section C.
  Variable L : rustlib.
  Variable rx : text -> text -> option (list (option text)).
  Hypothesis lower_nonempty : forall c, chr_lower L c <> [].

  Lemma cap_value_fst' tl value :
    map fst (cap_value (chr_is_upper L) (chr_lower L) tl value) =
    flat_map (pfold (chr_is_upper L) (chr_lower L) tl) value.
  Proof. apply cap_value_fst. Qed.

  Lemma flat_map_octet t : flat_map (pfold (chr_is_upper L) (chr_lower L) false) t = t.
  Proof. induction t as [|x t IH]; [reflexivity|]. cbn [flat_map pfold andb app]. rewrite IH. reflexivity. Qed.

  Lemma compare1_meets c m v k : few_wildcards L m k ->
    exists b x, compare1 L rx c m v k [] = CRes b x /\ (b = true <-> key_matches L rx c m v k).
  Proof.
    intro FW. destruct m as [| |p|p|r|r|]; cbn [compare1 key_matches].
    - exists (cmp_is L c v k), []. split; [reflexivity|]. unfold cmp_is.
      destruct c; try apply teqb_spec. unfold rel_number, rel_cmp. rewrite n_eqb_cmp.
      destruct (n_cmp _ _) as [[]|]; split; congruence.
    - exists (cmp_contains L c (k_text L v) (k_text L k)), []. split; [reflexivity|].
      unfold cmp_contains. destruct (k_text L k) as [|n ns] eqn:K.
      + split; [intros _; left; reflexivity|reflexivity].
      + destruct c; rewrite tcontains_spec; cbn [seen]; (split; [intro H; right; exact H|]);
          (intros [H|H]; [discriminate|exact H]).
    - unfold cmp_glob. set (cm := match c with CCasemap => true | _ => false end).
      unfold cmp_matches. destruct (N.eqb p 0) eqn:P.
      + pose proof (gmatches_exact (chr_is_upper L) (chr_lower L) (str_lower L) (k_text L k) cm (k_text L v)) as H.
        cbv zeta in H. destruct H as [H1 H2].
        destruct (gmatches _ _ _ _) as [b|] eqn:G.
        * exists b, []. split; [reflexivity|]. split; [intros ->; destruct cm; apply H1; reflexivity|].
          intro X. destruct b; [reflexivity|]. exfalso.
          assert (Y : Some false = Some true) by (destruct cm; apply H1, X). discriminate Y.
        * exfalso. assert (N1 : ~ glob (pfold (chr_is_upper L) (chr_lower L) cm) (k_text L k)
              (if cm then str_lower L (k_text L v) else k_text L v)).
          { intro X. apply H1 in X. discriminate. }
          apply H2 in N1. discriminate.
      + assert (W : wildcards (k_text L k) <= 63).
        { destruct FW as [->|W]; [discriminate|exact W]. }
        pose proof (capture_gen (chr_is_upper L) (chr_lower L) (fun t => t) lower_nonempty (k_text L k) cm (k_text L v) p) as H.
        cbv zeta in H. unfold compile in H at 1. rewrite (nwild_compile _ _ (fun t => t) lower_nonempty) in H by discriminate.
        specialize (H W).
        assert (VF : map fst (cap_value (chr_is_upper L) (chr_lower L) cm (k_text L v)) =
                     (if cm then flat_map (pfold (chr_is_upper L) (chr_lower L) true) (k_text L v) else k_text L v)).
        { rewrite cap_value_fst'. destruct cm; [reflexivity|apply flat_map_octet]. }
        destruct (gcapture _ _ _ _ _ _) as [| | |l]; try contradiction.
        * exists false, []. split; [reflexivity|]. split; [discriminate|]. intro G. exfalso.
          assert (G' : glob (pfold (chr_is_upper L) (chr_lower L) cm) (k_text L k) (map fst (cap_value (chr_is_upper L) (chr_lower L) cm (k_text L v)))) by (rewrite VF; exact G). destruct (glob_globw_any _ _ _ G' _ eq_refl) as [ws Hw]. apply (H ws Hw).
        * destruct H as (us & _ & _ & Hg & _). exists true, l. split; [reflexivity|].
          split; [|reflexivity]. intros _. pose proof (globw_glob_any _ _ _ _ Hg) as G'. rewrite VF in G'. exact G'.
    - unfold cmp_regex. destruct (rx (k_text L k) (k_text L v)) as [g|] eqn:R.
      + generalize (regex_groups 64 p g). intro rg. exists true. destruct (N.eqb p 0); eexists; (split; [reflexivity|]); split; congruence.
      + exists false, []. split; [reflexivity|]. split; congruence.
    - exists (cmp_relational L c r v k), []. split; [reflexivity|]. apply relational_meaning.
    - exists false, []. split; [reflexivity|]. split; [discriminate|tauto].
    - exists false, []. split; [reflexivity|]. split; [discriminate|tauto].
  Qed.

  Lemma no_panic_ok c m v k : few_wildcards L m k -> no_panic L rx c m v k.
  Proof.
    intros F H. destruct (compare1_meets c m v k F) as (b & x & E & _). congruence.
  Qed.
  Lemma holds_iff c m v k : few_wildcards L m k -> (holds L rx c m v k <-> key_matches L rx c m v k).
  Proof.
    intros F. destruct (compare1_meets c m v k F) as (b & x & E & H). unfold holds. rewrite <- H. split.
    - intros [y Hy]. congruence.
    - intros ->. eauto.
  Qed.

  (** *** C04 *)
  Definition single_value_match (m : mtype) : Prop :=
    match m with MCount _ | MList => False | _ => True end.
  Definition counts (enull : bool) (s : var) : Prop := enull = true -> v_is_empty s = false.

  Lemma string_test_last enull c m is_not srcs ks k :
    single_value_match m ->
    (forall k', In k' (ks ++ [k]) -> few_wildcards L m (KVar k')) ->
    exists b set,
      string_test L rx enull c m is_not srcs (ks ++ [k]) = TBool (xorb b is_not) set /\
      (b = true <-> exists s, In s srcs /\ counts enull s /\ key_matches L rx c m (KVar s) (KVar k)).
  Proof.
    intros SV FW.
    assert (E : string_test L rx enull c m is_not srcs (ks ++ [k]) =
      match keys_loop L rx enull c m (ks ++ [k]) srcs false [] with
      | CPanic => TPanic | CRes r caps => TBool (xorb r is_not) caps end).
    { destruct m; try contradiction; reflexivity. }
    rewrite E.
    destruct (existsb (fun s => negb enull || negb (v_is_empty s)) srcs) eqn:X.
    - apply existsb_exists in X as (s0 & Hs0 & Hc0).
      destruct (keys_loop_last L rx enull c m ks k srcs []) as (b & x & -> & Hb).
      + intros k' s Hk Hs. apply no_panic_ok, FW, Hk.
      + exists s0. split; [exact Hs0|]. intro He. subst enull. simpl in Hc0.
        destruct (v_is_empty s0); [discriminate|reflexivity].
      + exists b, x. split; [reflexivity|]. rewrite Hb. split; intros (s & Hs & Hn & H); exists s;
          (split; [exact Hs|]); (split; [exact Hn|]); apply (holds_iff c m (KVar s) (KVar k)); try exact H;
          apply FW, in_or_app; right; left; reflexivity.
    - assert (NE : forall s, In s srcs -> enull = true /\ v_is_empty s = true).
      { intros s Hs. destruct (negb enull || negb (v_is_empty s)) eqn:Y.
        - assert (existsb (fun s => negb enull || negb (v_is_empty s)) srcs = true).
          { apply existsb_exists. exists s. auto. } congruence.
        - destruct enull, (v_is_empty s); simpl in Y; try discriminate; auto. }
      exists false. assert (K : exists x, keys_loop L rx enull c m (ks ++ [k]) srcs false [] = CRes false x).
      { destruct srcs as [|s srcs'].
        - clear. induction (ks ++ [k]) as [|a l IH]; simpl; [eauto|exact IH].
        - destruct (NE s (or_introl eq_refl)) as [-> _]. exists [].
          apply keys_loop_none. intros s' Hs'. apply NE, Hs'. }
      destruct K as [x ->]. exists x. split; [reflexivity|]. split; [discriminate|].
      intros (s & Hs & Hn & _). destruct (NE s Hs) as [He Hv]. rewrite (Hn He) in Hv. discriminate.
  Qed.

  (** *** C05, metadata *)
  Lemma metadata_test_exact store wanted c m is_not ks :
    single_value_match m ->
    (forall k, In k ks -> few_wildcards L m (KVar k)) ->
    exists b set,
      metadata_test L rx store wanted c m is_not ks = TBool (xorb b is_not) set /\
      (b = true <-> exists md value k, find (fun p => md_eq (fst p) wanted) store = Some (md, value) /\
                      In k ks /\ key_matches L rx c m (KStr value) (KVar k)).
  Proof.
    intros SV FW. unfold metadata_test.
    destruct (find (fun p => md_eq (fst p) wanted) store) as [[md value]|].
    - assert (E : match m with
                  | MCount r => TBool (xorb (existsb (fun k : var => rel_number r (NFloat (f64_of_Z 1)) (v_number L k)) ks) is_not) []
                  | _ => match first_key L rx c m (KStr value) ks [] with
                         | CPanic => TPanic | CRes r caps => TBool (xorb r is_not) caps end
                  end = match first_key L rx c m (KStr value) ks [] with
                         | CPanic => TPanic | CRes r caps => TBool (xorb r is_not) caps end).
      { destruct m; try contradiction; reflexivity. }
      rewrite E. destruct (first_key_spec L rx c m (KStr value) ks []) as (b & x & -> & Hb).
      { intros k Hk. apply no_panic_ok, FW, Hk. }
      exists b, x. split; [reflexivity|]. rewrite Hb. split.
      + intros (k & Hk & H). exists md, value, k. repeat split; try assumption.
        apply holds_iff; [apply FW, Hk|exact H].
      + intros (md' & value' & k & F & Hk & H). inversion F; subst. exists k. split; [exact Hk|].
        apply holds_iff; [apply FW, Hk|exact H].
    - exists false, []. split; [reflexivity|]. split; [discriminate|].
      intros (md & value & k & F & _). discriminate.
  Qed.

  Lemma string_list_go : forall srcs acc, NoDup acc -> ~ In [] acc ->
    let r := fold_left (fun vs s => match v_text L s with
                         | [] => vs
                         | _ => if existsb (teqb (v_text L s)) vs then vs else vs ++ [v_text L s]
                         end) srcs acc in
    NoDup r /\ ~ In [] r /\ (forall v, v <> [] -> In v r <-> In v acc \/ exists s, In s srcs /\ v_text L s = v).
  Proof.
    induction srcs as [|x l IH]; intros acc ND NE; cbn [fold_left].
    { split; [exact ND|]. split; [exact NE|]. intros v _. split; [auto|]. intros [I|(s & [] & _)]; exact I. }
    destruct (v_text L x) as [|ch t] eqn:EX.
    { destruct (IH acc ND NE) as (A & B & C). split; [exact A|]. split; [exact B|].
      intros v Hv. rewrite (C v Hv). split.
      - intros [I|(s & I & J)]; [auto|]. right. exists s. simpl. auto.
      - intros [I|(s & [<-|I] & J)]; [auto|congruence|]. right. exists s. auto. }
    destruct (existsb (teqb (ch :: t)) acc) eqn:E.
    - destruct (IH acc ND NE) as (A & B & C). split; [exact A|]. split; [exact B|].
      intros v Hv. rewrite (C v Hv). apply existsb_exists in E as (y & I & T). apply teqb_spec in T. subst y. split.
      + intros [J|(s & J & K)]; [auto|]. right. exists s. simpl. auto.
      + intros [J|(s & [<-|J] & K)]; [auto|left; rewrite <- K, EX; exact I|]. right. exists s. auto.
    - assert (NI : ~ In (ch :: t) acc).
      { intro I. assert (existsb (teqb (ch :: t)) acc = true); [|congruence]. apply existsb_exists.
        exists (ch :: t). split; [exact I|apply teqb_refl]. }
      destruct (IH (acc ++ [ch :: t])) as (A & B & C).
      { apply NoDup_Add with (a := ch :: t) (l := acc); [rewrite <- (app_nil_r acc) at 1; apply Add_app|split; assumption]. }
      { rewrite in_app_iff. simpl. intros [I|[I|[]]]; [auto|discriminate]. }
      split; [exact A|]. split; [exact B|]. intros v Hv. rewrite (C v Hv), in_app_iff. simpl. split.
      + intros [[J|[J|[]]]|(s & J & K)]; [auto| |]; right; [exists x; split; [auto|congruence]|exists s; auto].
      + intros [J|(s & [<-|J] & K)]; [auto|left; right; left; congruence|]. right. exists s. auto.
  Qed.
  Lemma string_list enull c is_not srcs ks :
    (string_test L rx enull c MList is_not srcs ks = TBool is_not [] /\
     forall s, In s srcs -> v_text L s = []) \/
    exists l, string_test L rx enull c MList is_not srcs ks = TListContains (map (v_text L) ks) l c /\
      l <> [] /\ NoDup l /\ (forall t, In t l <-> t <> [] /\ exists s, In s srcs /\ v_text L s = t).
  Proof.
    unfold string_test. destruct (string_list_go srcs []) as (A & B & C); [constructor|auto|].
    cbv zeta in *.
    destruct (fold_left _ srcs []) as [|v l]; [left|right].
    - split; [destruct is_not; reflexivity|]. intros s I. destruct (v_text L s) as [|ch t] eqn:E; [reflexivity|].
      exfalso. apply (in_nil (a := ch :: t)). apply C; [discriminate|]. right. exists s. auto.
    - exists (v :: l). split; [reflexivity|]. split; [discriminate|]. split; [exact A|]. intros t. destruct t as [|ch t].
      + split; [intro I; destruct (B I)|intros [N _]; congruence].
      + rewrite C by discriminate. split; [|tauto]. intros [[]|H]. split; [discriminate|exact H].
  Qed.
End C.

(** *** C07 *)
Definition ascii_text (t : text) : Prop := Forall (fun c => (c < 128)%N) t.

Lemma is_equiv L c : c <> CNumeric ->
  (forall a, cmp_is L c a a = true) /\
  (forall a b, cmp_is L c a b = cmp_is L c b a) /\
  (forall a b d, cmp_is L c a b = true -> cmp_is L c b d = true -> cmp_is L c a d = true).
Proof.
  intro NC. destruct c; try congruence; unfold cmp_is; repeat split; intros;
    rewrite ?teqb_refl; auto using teqb_sym;
    try (apply teqb_spec; apply teqb_spec in H, H0; congruence).
Qed.

Lemma is_ascii_exact L :
  (forall t, ascii_text t -> str_lower L t = lower_text t) ->
  forall a b, ascii_text (k_text L a) -> ascii_text (k_text L b) ->
    (cmp_is L CCasemap a b = true <-> Forall2 (fun x y => lower_ascii x = lower_ascii y) (k_text L a) (k_text L b)).
Proof.
  intros HL a b Ha Hb. unfold cmp_is. rewrite teqb_spec, (HL _ Ha), (HL _ Hb). unfold lower_text.
  generalize (k_text L a) (k_text L b). clear. induction t as [|x t IH]; intros [|y u]; simpl; split; intro H;
    try discriminate; try (inversion H; fail); try constructor.
  - congruence.
  - apply IH. congruence.
  - inversion H; subst. f_equal; [assumption|apply IH; assumption].
Qed.
