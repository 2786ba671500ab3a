(** Lemmas about comparators and simple tests. *)
From Verif Require Import Base Lib Var Value Glob GlobSpec GlobProofs Comparator ComparatorSpec.
From Coq Require Import Floats.SpecFloat.

(** *** Substrings *)
Lemma starts_with_spec : forall p s, starts_with s p = true <-> exists r, s = p ++ r.
Proof.
  induction p as [|y p IH]; intros s; simpl.
  - split; [intros _; exists s; reflexivity|intros _; destruct s; reflexivity].
  - destruct s as [|x s]; [split; [discriminate|intros [r H]; discriminate]|].
    rewrite andb_true_iff, N.eqb_eq, IH. split.
    + intros [-> [r ->]]. exists r. reflexivity.
    + intros [r H]. inversion H; subst. split; [reflexivity|exists r; reflexivity].
Qed.

Lemma tcontains_spec : forall s p, tcontains s p = true <-> exists a b, s = a ++ p ++ b.
Proof.
  induction s as [|x s IH]; intros p; simpl.
  - rewrite orb_false_r, starts_with_spec. split.
    + intros [r H]. exists [], r. exact H.
    + intros [a [b H]]. destruct a; [exists b; exact H|discriminate].
  - rewrite orb_true_iff, starts_with_spec, IH. split.
    + intros [[r H]|[a [b H]]]; [exists [], r; exact H|exists (x :: a), b; rewrite H; reflexivity].
    + intros [[|y a] [b H]]; [left; exists b; exact H|].
      right. inversion H; subst. exists a, b. reflexivity.
Qed.

(** *** Text order *)
Lemma tcmp_eq : forall a b, tcmp a b = Eq <-> a = b.
Proof.
  induction a as [|x a IH]; intros [|y b]; simpl; split; intro H; try congruence; try discriminate.
  - destruct (N.compare x y) eqn:E; try discriminate. apply N.compare_eq in E. apply IH in H. congruence.
  - inversion H; subst. rewrite N.compare_refl. apply IH. reflexivity.
Qed.
Lemma tcmp_anti : forall a b, tcmp a b = CompOpp (tcmp b a).
Proof.
  induction a as [|x a IH]; intros [|y b]; simpl; try reflexivity.
  rewrite (N.compare_antisym y x). destruct (N.compare y x); simpl; auto.
Qed.

(** *** Floats *)
Lemma sf_cmp_anti : forall a b, SFcompare a b = option_map CompOpp (SFcompare b a).
Proof.
  intros [s|s| |s m e] [t|t| |t n g]; simpl; try reflexivity; try (destruct s; reflexivity);
    try (destruct t; reflexivity); try (destruct s, t; reflexivity).
  destruct s, t; simpl; try reflexivity.
  - rewrite (Z.compare_antisym g e). destruct (Z.compare g e); simpl; try reflexivity.
    rewrite !CompOpp_involutive. rewrite <- Pos.compare_antisym. reflexivity.
  - rewrite (Z.compare_antisym g e). destruct (Z.compare g e); simpl; try reflexivity.
    rewrite <- Pos.compare_antisym. reflexivity.
Qed.

Definition sf_is_nan (f : spec_float) : bool := match f with S754_nan => true | _ => false end.
Lemma sf_cmp_total : forall a b, sf_is_nan a = false -> sf_is_nan b = false ->
  exists c, SFcompare a b = Some c.
Proof.
  intros [s|s| |s m e] [t|t| |t n g]; simpl; intros; try discriminate;
    try (destruct s, t; eexists; reflexivity); try (destruct s; eexists; reflexivity);
    try (destruct t; eexists; reflexivity).
Qed.
Lemma sf_cmp_nan : forall a b, sf_is_nan a = true \/ sf_is_nan b = true -> SFcompare a b = None.
Proof.
  intros [s|s| |s m e] [t|t| |t n g]; simpl; intros [H|H]; try discriminate; reflexivity.
Qed.

Lemma shr_1_nonneg : forall r, (0 <= shr_m r)%Z -> (0 <= shr_m (shr_1 r))%Z.
Proof.
  intros [m r s]. unfold shr_1. cbn [shr_m].
  destruct m as [|[p|p|]|[p|p|]]; cbn [shr_m]; lia.
Qed.
Lemma shr_nonneg : forall r e n, (0 <= shr_m r)%Z -> (0 <= shr_m (fst (shr r e n)))%Z.
Proof.
  intros r e [|p|p] H; simpl; try exact H.
  revert r H. induction p as [p IH|p IH|]; intros r H; simpl.
  - apply IH, IH, shr_1_nonneg, H.
  - apply IH, IH, H.
  - apply shr_1_nonneg, H.
Qed.
Lemma shr_fexp_nonneg : forall prec emax m e l, (0 <= m)%Z ->
  (0 <= shr_m (fst (shr_fexp prec emax m e l)))%Z.
Proof.
  intros. unfold shr_fexp. apply shr_nonneg. unfold shr_record_of_loc.
  destruct l as [|[]]; simpl; assumption.
Qed.
Lemma round_nonneg : forall m l, (0 <= m)%Z -> (0 <= round_nearest_even m l)%Z.
Proof.
  intros m l H. unfold round_nearest_even.
  destruct l as [|[]]; try lia; destruct (Z.even m); lia.
Qed.
Lemma binary_round_aux_nan : forall prec emax s m e l, (0 <= m)%Z ->
  sf_is_nan (binary_round_aux prec emax s m e l) = false.
Proof.
  intros prec emax s m e l H. unfold binary_round_aux.
  pose proof (shr_fexp_nonneg prec emax m e l H) as H1.
  destruct (shr_fexp prec emax m e l) as [r1 e1]. simpl in H1.
  pose proof (shr_fexp_nonneg prec emax (round_nearest_even (shr_m r1) (loc_of_shr_record r1)) e1
                loc_Exact (round_nonneg _ _ H1)) as H2.
  destruct (shr_fexp prec emax _ e1 loc_Exact) as [r2 e2]. simpl in H2.
  destruct (shr_m r2); [reflexivity| |lia].
  destruct (Z.leb e2 (emax - prec)); reflexivity.
Qed.
Lemma f64_of_Z_not_nan : forall z, sf_is_nan (f64_of_Z z) = false.
Proof.
  intros z. unfold f64_of_Z, binary_normalize. destruct z; [reflexivity| |];
    unfold binary_round; destruct (shl_align _ _ _); apply binary_round_aux_nan; lia.
Qed.

(** *** Relational operators *)
Definition n_is_nan (n : number) : bool := match n with NFloat f => sf_is_nan f | NInt _ => false end.

Lemma n_eqb_cmp : forall a b, n_eqb a b = match n_cmp a b with Some Eq => true | _ => false end.
Proof.
  intros [a|a] [b|b]; simpl; try reflexivity.
  destruct (Z.compare_spec a b); [apply Z.eqb_eq|apply Z.eqb_neq|apply Z.eqb_neq]; lia.
Qed.
Lemma n_cmp_anti : forall a b, n_cmp a b = option_map CompOpp (n_cmp b a).
Proof.
  intros [a|a] [b|b]; simpl; try apply sf_cmp_anti. rewrite Z.compare_antisym. reflexivity.
Qed.
Lemma n_cmp_total : forall a b, n_is_nan a = false -> n_is_nan b = false ->
  exists c, n_cmp a b = Some c.
Proof.
  intros [a|a] [b|b] Ha Hb; simpl in *.
  - eexists; reflexivity.
  - apply sf_cmp_total; [apply f64_of_Z_not_nan|exact Hb].
  - apply sf_cmp_total; [exact Ha|apply f64_of_Z_not_nan].
  - apply sf_cmp_total; assumption.
Qed.
Lemma n_cmp_nan : forall a b, n_is_nan a = true \/ n_is_nan b = true -> n_cmp a b = None.
Proof.
  intros [a|a] [b|b] [H|H]; simpl in *; try discriminate; apply sf_cmp_nan; auto.
Qed.

(** What coherence of a family of relational operators means at [a], [b]. *)
Definition rel_coherent {A} (R : rel -> A -> A -> bool) (a b : A) : Prop :=
  R RGe a b = (R RGt a b || R REq a b) /\
  R RLe a b = (R RLt a b || R REq a b) /\
  R RNe a b = negb (R REq a b) /\
  R RLt a b = R RGt b a /\
  R RLe a b = R RGe b a /\
  R REq a b = R REq b a.
Definition rel_exactly_one {A} (R : rel -> A -> A -> bool) (a b : A) : Prop :=
  (R RLt a b = true /\ R REq a b = false /\ R RGt a b = false) \/
  (R RLt a b = false /\ R REq a b = true /\ R RGt a b = false) \/
  (R RLt a b = false /\ R REq a b = false /\ R RGt a b = true).
Definition rel_none {A} (R : rel -> A -> A -> bool) (a b : A) : Prop :=
  R RLt a b = false /\ R REq a b = false /\ R RGt a b = false /\ R RNe a b = true.

Lemma rel_cmp_coherent {A} (e : A -> A -> bool) (c : A -> A -> option comparison) :
  (forall a b, e a b = match c a b with Some Eq => true | _ => false end) ->
  (forall a b, c a b = option_map CompOpp (c b a)) ->
  forall a b, rel_coherent (rel_cmp e c) a b.
Proof.
  intros He Hc a b. unfold rel_coherent, rel_cmp. rewrite !He.
  rewrite (Hc a b). destruct (c b a) as [[]|]; simpl; repeat split; reflexivity.
Qed.
Lemma rel_cmp_one {A} (e : A -> A -> bool) (c : A -> A -> option comparison) :
  (forall a b, e a b = match c a b with Some Eq => true | _ => false end) ->
  forall a b x, c a b = Some x -> rel_exactly_one (rel_cmp e c) a b.
Proof.
  intros He a b x Hx. unfold rel_exactly_one, rel_cmp. rewrite He, Hx.
  destruct x; simpl; auto.
Qed.

Lemma teqb_tcmp : forall a b, teqb a b = match Some (tcmp a b) with Some Eq => true | _ => false end.
Proof.
  intros a b. destruct (tcmp a b) eqn:E.
  - apply tcmp_eq in E. subst. apply teqb_refl.
  - apply teqb_false. intro H. apply tcmp_eq in H. congruence.
  - apply teqb_false. intro H. apply tcmp_eq in H. congruence.
Qed.

Lemma rel_text_coherent : forall a b, rel_coherent rel_text a b.
Proof.
  apply rel_cmp_coherent; [apply teqb_tcmp|]. intros a b. rewrite tcmp_anti. reflexivity.
Qed.
Lemma rel_text_one : forall a b, rel_exactly_one rel_text a b.
Proof. intros. eapply rel_cmp_one; [apply teqb_tcmp|reflexivity]. Qed.
Lemma rel_number_coherent : forall a b, rel_coherent rel_number a b.
Proof. apply rel_cmp_coherent; [apply n_eqb_cmp|apply n_cmp_anti]. Qed.
Lemma rel_number_one : forall a b, n_is_nan a = false -> n_is_nan b = false ->
  rel_exactly_one rel_number a b.
Proof.
  intros a b Ha Hb. destruct (n_cmp_total a b Ha Hb) as [c Hc].
  eapply rel_cmp_one; [apply n_eqb_cmp|exact Hc].
Qed.
Lemma rel_number_nan : forall a b, n_is_nan a = true \/ n_is_nan b = true -> rel_none rel_number a b.
Proof.
  intros a b H. unfold rel_none, rel_number, rel_cmp. rewrite n_eqb_cmp, (n_cmp_nan a b H).
  repeat split; reflexivity.
Qed.

Lemma relational_coherent : forall L c a b,
  rel_coherent (fun r a b => cmp_relational L c r a b) a b.
Proof.
  intros L c a b. unfold rel_coherent, cmp_relational.
  destruct c; try apply rel_number_coherent; apply rel_text_coherent.
Qed.
Lemma relational_one : forall L c a b,
  (c = CNumeric -> n_is_nan (k_number L a) = false /\ n_is_nan (k_number L b) = false) ->
  rel_exactly_one (fun r a b => cmp_relational L c r a b) a b.
Proof.
  intros L c a b H. unfold rel_exactly_one, cmp_relational.
  destruct c; try apply rel_text_one. destruct (H eq_refl). apply rel_number_one; assumption.
Qed.
Lemma relational_nan : forall L a b,
  n_is_nan (k_number L a) = true \/ n_is_nan (k_number L b) = true ->
  rel_none (fun r a b => cmp_relational L CNumeric r a b) a b.
Proof. intros L a b H. unfold rel_none, cmp_relational. apply rel_number_nan, H. Qed.

(** *** The meaning of the operators *)
Lemma tcmp_before : forall a b, tcmp a b = Lt <-> text_before a b.
Proof.
  induction a as [|x a IH]; intros [|y b]; simpl.
  - split; [discriminate|intro H; inversion H].
  - split; [constructor|reflexivity].
  - split; [discriminate|intro H; inversion H].
  - destruct (N.compare_spec x y) as [->|H|H].
    + rewrite IH. split; [apply tb_rest|]. intro X. inversion X; subst; [lia|assumption].
    + split; [intros _; apply tb_char, H|reflexivity].
    + split; [discriminate|]. intro X. inversion X; subst; lia.
Qed.
Lemma rel_cmp_meaning {A} (e : A -> A -> bool) (c : A -> A -> option comparison) :
  (forall a b, e a b = match c a b with Some Eq => true | _ => false end) ->
  (forall a b, c a b = option_map CompOpp (c b a)) ->
  forall r a b, rel_cmp e c r a b = true <->
    match r with
    | RGt => c b a = Some Lt
    | RGe => c b a = Some Lt \/ c a b = Some Eq
    | RLt => c a b = Some Lt
    | RLe => c a b = Some Lt \/ c a b = Some Eq
    | REq => c a b = Some Eq
    | RNe => ~ c a b = Some Eq
    end.
Proof.
  intros He Hc r a b. unfold rel_cmp. rewrite He, (Hc b a).
  destruct (c a b) as [[]|]; destruct r; simpl; intuition (try discriminate; try congruence).
Qed.
Lemma relational_meaning L c r v k : cmp_relational L c r v k = true <-> rel_holds L c r v k.
Proof.
  assert (T : forall a b, rel_text r a b = true <->
    match r with
    | RGt => text_before b a
    | RGe => text_before b a \/ a = b
    | RLt => text_before a b
    | RLe => text_before a b \/ a = b
    | REq => a = b
    | RNe => ~ a = b
    end).
  { intros a b. unfold rel_text. rewrite rel_cmp_meaning; [|apply teqb_tcmp|intros; rewrite tcmp_anti; reflexivity].
    assert (I : forall x y, Some (tcmp x y) = Some Lt <-> text_before x y).
    { intros. rewrite <- tcmp_before. split; congruence. }
    assert (J : forall x y, Some (tcmp x y) = Some Eq <-> x = y).
    { intros. rewrite <- tcmp_eq. split; congruence. }
    destruct r; rewrite ?I, ?J; tauto. }
  unfold cmp_relational, rel_holds, less, same, seen.
  destruct c; try (rewrite T; destruct r; tauto).
  unfold rel_number. rewrite rel_cmp_meaning; [|apply n_eqb_cmp|apply n_cmp_anti]. destruct r; tauto.
Qed.

(** *** The string test *)
Section S.
  Variable L : rustlib.
  Variable rx : text -> text -> option (list (option text)).

  Lemma compare1_bool : forall c m v k caps caps',
    (exists b x, compare1 L rx c m v k caps = CRes b x) ->
    forall b x, compare1 L rx c m v k caps = CRes b x ->
    exists x', compare1 L rx c m v k caps' = CRes b x'.
  Proof.
    intros c m v k caps caps' _ b x. destruct m; simpl; try (intro H; inversion H; eexists; reflexivity).
    - unfold cmp_glob. destruct (cmp_matches _ _ _ _ _ _ _) as [| |b' [l|]]; intro H; inversion H;
        eexists; reflexivity.
    - unfold cmp_regex. destruct (rx _ _) as [g|];
        [generalize (regex_groups 64 positions g); intro rg; destruct (N.eqb positions 0)|];
        intro H; inversion H; eexists; reflexivity.
  Qed.
  Lemma compare1_panic : forall c m v k caps caps',
    compare1 L rx c m v k caps = CPanic -> compare1 L rx c m v k caps' = CPanic.
  Proof.
    intros c m v k caps caps'. destruct m; simpl; try discriminate.
    - unfold cmp_glob. destruct (cmp_matches _ _ _ _ _ _ _) as [| |b' [l|]]; congruence.
    - unfold cmp_regex. destruct (rx _ _) as [g|];
        [generalize (regex_groups 64 positions g); intro rg; destruct (N.eqb positions 0)|]; congruence.
  Qed.

  (** Truth of one comparison (captures aside). *)
  Definition holds (c : comparator) (m : mtype) (v k : cmpv) : Prop :=
    exists x, compare1 L rx c m v k [] = CRes true x.
  Definition no_panic (c : comparator) (m : mtype) (v k : cmpv) : Prop :=
    compare1 L rx c m v k [] <> CPanic.

  Lemma holds_caps : forall c m v k caps x, compare1 L rx c m v k caps = CRes true x -> holds c m v k.
  Proof. intros. eapply compare1_bool; eauto. Qed.
  Lemma not_holds_caps : forall c m v k caps x,
    compare1 L rx c m v k caps = CRes false x -> ~ holds c m v k.
  Proof.
    intros c m v k caps x H [y Hy].
    destruct (compare1_bool c m v k caps [] (ex_intro _ _ (ex_intro _ _ H)) _ _ H) as [z Hz].
    congruence.
  Qed.

  Lemma sources_loop_spec : forall enull c m k srcs r caps,
    (forall s, In s srcs -> no_panic c m (KVar s) (KVar k)) ->
    exists b x, sources_loop L rx enull c m k srcs r caps = CRes b x /\
      (b = true <->
        (exists s, In s srcs /\ (enull = true -> v_is_empty s = false) /\ holds c m (KVar s) (KVar k)) \/
        (r = true /\ forall s, In s srcs -> enull = true /\ v_is_empty s = true)).
  Proof.
    intros enull c m k srcs. induction srcs as [|s srcs IH]; intros r caps NP.
    - exists r, caps. split; [reflexivity|]. split.
      + intros ->. right. split; [reflexivity|intros s []].
      + intros [[s [[] _]]|[Hr _]]; exact Hr.
    - simpl. destruct (negb enull || negb (v_is_empty s)) eqn:E.
      + assert (NN : enull = true -> v_is_empty s = false).
        { intro He. subst enull. simpl in E. destruct (v_is_empty s); [discriminate|reflexivity]. }
        destruct (compare1 L rx c m (KVar s) (KVar k) caps) as [|[] caps'] eqn:C.
        * exfalso. apply (NP s (or_introl eq_refl)). eapply compare1_panic. exact C.
        * exists true, caps'. split; [reflexivity|]. split; [|reflexivity]. intros _. left.
          exists s. split; [left; reflexivity|]. split; [exact NN|]. eapply holds_caps. exact C.
        * destruct (IH false caps') as (b & x & Hb & Hs).
          { intros s' Hs'. apply NP. right. exact Hs'. }
          exists b, x. split; [exact Hb|]. rewrite Hs. split.
          -- intros [[s' [Hi H]]|[Hf _]]; [|discriminate]. left. exists s'. split; [right|]; assumption.
          -- intros [[s' [[->|Hi] [Hn H]]]|[_ H]].
             ++ exfalso. eapply not_holds_caps; eassumption.
             ++ left. exists s'. auto.
             ++ destruct (H s (or_introl eq_refl)) as [He Hv]. rewrite (NN He) in Hv. discriminate.
      + assert (He : enull = true /\ v_is_empty s = true).
        { destruct enull, (v_is_empty s); simpl in E; try discriminate; auto. }
        destruct (IH r caps) as (b & x & Hb & Hs).
        { intros s' Hs'. apply NP. right. exact Hs'. }
        exists b, x. split; [exact Hb|]. rewrite Hs. split.
        * intros [[s' [Hi H]]|[Hf H]].
          -- left. exists s'. split; [right|]; assumption.
          -- right. split; [exact Hf|]. intros s' [->|Hi]; [exact He|apply H, Hi].
        * intros [[s' [[->|Hi] [Hn H]]]|[Hf H]].
          -- destruct He as [He1 He2]. rewrite (Hn He1) in He2. discriminate.
          -- left. exists s'. auto.
          -- right. split; [exact Hf|]. intros s' Hi. apply H. right. exact Hi.
  Qed.

  Lemma keys_loop_app : forall enull c m ks1 ks2 srcs r caps,
    keys_loop L rx enull c m (ks1 ++ ks2) srcs r caps =
    match keys_loop L rx enull c m ks1 srcs r caps with
    | CPanic => CPanic
    | CRes r' caps' => keys_loop L rx enull c m ks2 srcs r' caps'
    end.
  Proof.
    induction ks1 as [|k ks1 IH]; intros; simpl; [reflexivity|].
    destruct (sources_loop _ _ _ _ _ _ _ _ _); [reflexivity|apply IH].
  Qed.
  Lemma keys_loop_total : forall enull c m ks srcs r caps,
    (forall k s, In k ks -> In s srcs -> no_panic c m (KVar s) (KVar k)) ->
    exists b x, keys_loop L rx enull c m ks srcs r caps = CRes b x.
  Proof.
    induction ks as [|k ks IH]; intros srcs r caps NP; simpl; [eauto|].
    destruct (sources_loop_spec enull c m k srcs r caps) as (b & x & -> & _).
    { intros s Hs. apply NP; [left; reflexivity|exact Hs]. }
    apply IH. intros k' s Hk Hs. apply NP; [right; exact Hk|exact Hs].
  Qed.

  (** The result is decided by the last key alone (when some source counts). *)
  Lemma keys_loop_last : forall enull c m ks k srcs caps,
    (forall k' s, In k' (ks ++ [k]) -> In s srcs -> no_panic c m (KVar s) (KVar k')) ->
    (exists s, In s srcs /\ (enull = true -> v_is_empty s = false)) ->
    exists b x, keys_loop L rx enull c m (ks ++ [k]) srcs false caps = CRes b x /\
      (b = true <-> exists s, In s srcs /\ (enull = true -> v_is_empty s = false) /\
                              holds c m (KVar s) (KVar k)).
  Proof.
    intros enull c m ks k srcs caps NP [s0 [Hs0 Hn0]]. rewrite keys_loop_app.
    destruct (keys_loop_total enull c m ks srcs false caps) as (b1 & x1 & ->).
    { intros k' s Hk Hs. apply NP; [apply in_or_app; left; exact Hk|exact Hs]. }
    simpl. destruct (sources_loop_spec enull c m k srcs b1 x1) as (b & x & -> & Hb).
    { intros s Hs. apply NP; [apply in_or_app; right; left; reflexivity|exact Hs]. }
    exists b, x. split; [reflexivity|]. rewrite Hb. split; [|tauto].
    intros [H|[_ H]]; [exact H|]. destruct (H s0 Hs0) as [He Hv]. rewrite (Hn0 He) in Hv. discriminate.
  Qed.

  Lemma sources_none : forall c m k srcs r caps,
    (forall s, In s srcs -> v_is_empty s = true) ->
    sources_loop L rx true c m k srcs r caps = CRes r caps.
  Proof.
    induction srcs as [|s srcs IH]; intros r caps H; simpl; [reflexivity|].
    rewrite (H s (or_introl eq_refl)). simpl. apply IH. intros s' Hs. apply H. right. exact Hs.
  Qed.
  Lemma keys_loop_none : forall c m ks srcs r caps,
    (forall s, In s srcs -> v_is_empty s = true) ->
    keys_loop L rx true c m ks srcs r caps = CRes r caps.
  Proof.
    induction ks as [|k ks IH]; intros srcs r caps H; simpl; [reflexivity|].
    rewrite sources_none by exact H. apply IH, H.
  Qed.

  (** *** Metadata *)
  Lemma first_key_spec : forall c m v ks caps,
    (forall k, In k ks -> no_panic c m v (KVar k)) ->
    exists b x, first_key L rx c m v ks caps = CRes b x /\
      (b = true <-> exists k, In k ks /\ holds c m v (KVar k)).
  Proof.
    induction ks as [|k ks IH]; intros caps NP; simpl.
    - exists false, caps. split; [reflexivity|]. split; [discriminate|intros [k [[] _]]].
    - destruct (compare1 L rx c m v (KVar k) caps) as [|[] caps'] eqn:C.
      + exfalso. apply (NP k (or_introl eq_refl)). eapply compare1_panic, C.
      + exists true, caps'. split; [reflexivity|]. split; [|reflexivity]. intros _. exists k.
        split; [left; reflexivity|eapply holds_caps, C].
      + destruct (IH caps') as (b & x & Hb & Hs); [intros k' Hk; apply NP; right; exact Hk|].
        exists b, x. split; [exact Hb|]. rewrite Hs. split.
        * intros [k' [Hk H]]. exists k'. split; [right|]; assumption.
        * intros [k' [[->|Hk] H]]; [exfalso; eapply not_holds_caps; eassumption|exists k'; auto].
  Qed.

  Lemma md_exists_spec : forall store mailbox annots,
    store <> [] ->
    (md_exists_loop store mailbox annots = true <->
     forall a, In a annots -> exists m v, In (m, v) store /\ md_covers mailbox m a = true).
  Proof.
    induction store as [|[m v] store IH]; intros mailbox annots NE; [contradiction|]. simpl.
    destruct (filter (fun a => negb (md_covers mailbox m a)) annots) as [|a0 rest] eqn:F.
    - split; [|reflexivity]. intros _ a Ha. exists m, v. split; [left; reflexivity|].
      destruct (md_covers mailbox m a) eqn:C; [reflexivity|].
      assert (Hin : In a (filter (fun a => negb (md_covers mailbox m a)) annots)).
      { apply filter_In. rewrite C. auto. }
      rewrite F in Hin. destruct Hin.
    - rewrite <- F. destruct store as [|e store'].
      + simpl. split; [discriminate|]. intros H. exfalso.
        assert (Hin : In a0 (filter (fun a => negb (md_covers mailbox m a)) annots)).
        { rewrite F. left. reflexivity. }
        apply filter_In in Hin as [Hi Hc]. destruct (H a0 Hi) as (m' & v' & [E|[]] & Hc').
        inversion E; subst. rewrite Hc' in Hc. discriminate.
      + rewrite IH by discriminate. split.
        * intros H a Ha. destruct (md_covers mailbox m a) eqn:C.
          -- exists m, v. split; [left; reflexivity|exact C].
          -- destruct (H a) as (m' & v' & Hi & Hc); [apply filter_In; rewrite C; auto|].
             exists m', v'. split; [right|]; assumption.
        * intros H a Ha. apply filter_In in Ha as [Hi Hc].
          destruct (H a Hi) as (m' & v' & [E|Hin] & Hc').
          -- inversion E; subst. rewrite Hc' in Hc. discriminate.
          -- exists m', v'. auto.
  Qed.
End S.
