(** Proofs about the address, envelope and date tests. *)
From Verif Require Import Base Lib Var Value Glob GlobSpec Comparator ComparatorSpec
  ComparatorProofs2 Message MessageSpec MessageProofs MessageProofs2 AddrTest AddrSpec.

Lemma distinct_go : forall l acc, NoDup acc -> ~ In [] acc ->
  let r := fold_left (fun vs v => match v with
                         | [] => vs
                         | _ => if existsb (teqb v) vs then vs else vs ++ [v]
                         end) l acc in
  NoDup r /\ ~ In [] r /\ (forall v, v <> [] -> In v r <-> In v acc \/ In v l).
Proof.
  induction l as [|x l IH]; intros acc ND NE; cbn [fold_left].
  { split; [exact ND|]. split; [exact NE|]. intros; simpl; tauto. }
  destruct x as [|c x].
  { destruct (IH acc ND NE) as (A & B & C). split; [exact A|]. split; [exact B|].
    intros v Hv. rewrite (C v Hv). simpl. intuition congruence. }
  destruct (existsb (teqb (c :: x)) acc) eqn:E.
  - destruct (IH acc ND NE) as (A & B & C). split; [exact A|]. split; [exact B|].
    intros v Hv. rewrite (C v Hv). apply existsb_exists in E as (y & I & T). apply teqb_spec in T. subst y.
    simpl. intuition (subst; auto).
  - assert (NI : ~ In (c :: x) acc).
    { intro I. assert (existsb (teqb (c :: x)) acc = true); [|congruence]. apply existsb_exists.
      exists (c :: x). split; [exact I|apply teqb_spec; reflexivity]. }
    destruct (IH (acc ++ [c :: x])) as (A & B & C).
    { apply NoDup_Add with (a := c :: x) (l := acc); [rewrite <- (app_nil_r acc) at 1; apply Add_app|split; assumption]. }
    { rewrite in_app_iff. simpl. intros [I|[I|[]]]; [auto|discriminate]. }
    split; [exact A|]. split; [exact B|]. intros v Hv. rewrite (C v Hv), in_app_iff. simpl. tauto.
Qed.
Lemma distinct_spec l : NoDup (distinct l) /\ (forall v, In v (distinct l) <-> In v l /\ v <> []).
Proof.
  destruct (distinct_go l []) as (A & B & C); [constructor|auto|]. fold (distinct l) in *.
  split; [exact A|]. intro v. destruct v as [|c v].
  - split; [intro I; destruct (B I)|intros [_ N]; congruence].
  - rewrite (C (c :: v)) by discriminate. simpl. intuition discriminate.
Qed.

Section P.
  Variable L : rustlib.
  Variable rx : text -> text -> option (list (option text)).
  Variable A : addrparser.
  Hypothesis lower_nonempty : forall c, chr_lower L c <> [].

  Lemma values_test_spec c m is_not vs ks : single_value_match m ->
    (forall k, In k ks -> few_wildcards L m (KVar k)) ->
    exists b set, values_test L rx c m is_not vs ks = TBool (xorb b is_not) set /\
      (b = true <-> exists v k, In v vs /\ In k ks /\ key_matches L rx c m (KStr v) (KVar k)).
  Proof.
    intros SV FW. destruct (values_loop_spec L rx lower_nonempty c m ks FW vs []) as (b & x & EV & HV).
    exists b, x. split; [|exact HV]. unfold values_test. destruct m; try contradiction; rewrite EV; reflexivity.
  Qed.

  Lemma part_eval_spec p a v : part_eval A p a = Some v <-> part_is A p a v.
  Proof.
    unfold part_eval, or_else. destruct a as [n e]. cbn [ad_name ad_addr]. split.
    - intro H.
      assert (X : forall em, or_else e n = Some em -> e = Some em \/ e = None /\ n = Some em).
      { destruct e; simpl; auto. }
      unfold or_else in X.
      destruct p; try (apply pi_name; [reflexivity|exact H]); try (apply pi_all; [reflexivity|apply X, H]);
        destruct (match e with Some _ => e | None => n end) as [[|ch em]|] eqn:E; try discriminate H;
        try (injection H as <-; apply pi_empty; [discriminate|reflexivity|apply X; reflexivity]);
        (eapply pi_sub; [discriminate|discriminate| |apply X; reflexivity|exact H]; discriminate).
    - intros [-> H| -> H|P -> H|em P Q R H S]; cbn [ad_name ad_addr] in *.
      + exact H.
      + destruct H as [-> |[-> H]]; auto.
      + destruct p; try congruence; destruct H as [-> |[-> ->]]; reflexivity.
      + destruct em as [|ch em]; [congruence|].
        destruct p; try congruence; destruct H as [-> |[-> ->]]; exact S.
  Qed.
  Lemma address_values_spec p h v : In v (address_values A p h) <-> address_value A p h v.
  Proof.
    unfold address_values, address_value. destruct (ap_parse A h) as [l|].
    - rewrite in_flat_map. split.
      + intros (a & I & J). left. exists l, a. split; [reflexivity|]. split; [exact I|].
        apply part_eval_spec. destruct (part_eval A p a); [|contradiction]. destruct J as [->|[]]. reflexivity.
      + intros [(l' & a & X & I & J)|[X _]]; [|discriminate]. injection X as <-. exists a. split; [exact I|].
        apply part_eval_spec in J. rewrite J. left. reflexivity.
    - split.
      + intros [<-|[]]. right. auto.
      + intros [(l' & a & X & _)|[_ ->]]; [discriminate|left; reflexivity].
  Qed.

  Lemma address_test_exact parts current names index anychild p c m is_not ks :
    well_formed parts -> current < length parts -> single_value_match m ->
    (forall k, In k ks -> few_wildcards L m (KVar k)) ->
    exists b set,
      address_test L rx A parts current names index anychild p c m is_not ks = Some (TBool (xorb b is_not) set) /\
      (b = true <-> exists i pt name pos h v k,
         looked_at parts current anychild i pt /\ In name names /\
         selected index name (p_headers pt) pos h /\
         address_value A p h v /\ In k ks /\ key_matches L rx c m (KStr v) (KVar k)).
  Proof.
    intros WF H SV FW. destruct (find_headers_spec parts current names index anychild WF H) as (l & E & F).
    unfold address_test. rewrite E. cbn [option_map].
    destruct (values_test_spec c m is_not (flat_map (fun l => address_values A p (l_header l)) l) ks SV FW) as (b & x & -> & HV).
    exists b, x. split; [reflexivity|]. rewrite HV. split.
    - intros (v & k & I & J & K). apply in_flat_map in I as ([i pos h] & I & IV). apply F in I as (pt & name & B & C & D).
      apply address_values_spec in IV. exists i, pt, name, pos, h, v, k. auto 6.
    - intros (i & pt & name & pos & h & v & k & B & C & D & IV & J & K). exists v, k. split; [|auto].
      apply in_flat_map. exists {| l_part := i; l_pos := pos; l_header := h |}. split; [|apply address_values_spec; exact IV].
      apply F. eauto.
  Qed.

  Lemma envelope_values_spec wanted p z name x v :
    In v (envelope_values L A wanted p z (name, x)) <->
    existsb (envk_eqb name) wanted = true /\ envelope_value A p z name (v_text L x) v.
  Proof.
    unfold envelope_values. cbn [fst snd]. destruct (existsb (envk_eqb name) wanted).
    2: { split; [intros []|intros [X _]; discriminate]. }
    assert (S1 : In v (match part_eval_string A p (v_text L x) with Some x => [x] | None => [] end) <->
      ((v_text L x = [] \/ p = PAll \/ p = PName) /\ v = v_text L x \/
        v_text L x <> [] /\ p <> PAll /\ p <> PName /\ ap_part A p (v_text L x) = Some v)).
    { generalize (v_text L x) as t. intro t. unfold part_eval_string. destruct t as [|ch t].
      - simpl. intuition congruence.
      - destruct p; simpl;
        try (destruct (ap_part A _ (ch :: t)) as [y|] eqn:E; simpl; intuition congruence).
        all: intuition congruence. }
    unfold envelope_value. destruct name; simpl; try (intuition congruence); try (rewrite S1; tauto).
    destruct z as [tz|]; [|simpl; intuition congruence].
    destruct (dp_from_rfc3339 A (v_text L x)) as [d|]; simpl.
    - split.
      + intros [<-|[]]. split; [reflexivity|]. left. exists d. auto.
      + intros [_ [(d' & X & ->)|[X _]]]; [injection X as <-; auto|discriminate].
    - split.
      + intros [<-|[]]. auto.
      + intros [_ [(d' & X & _)|[_ ->]]]; [discriminate|auto].
  Qed.

  Lemma envelope_test_exact env wanted p z c m is_not ks : single_value_match m ->
    (forall k, In k ks -> few_wildcards L m (KVar k)) ->
    exists b set,
      envelope_test L rx A env wanted p z c m is_not ks = TBool (xorb b is_not) set /\
      (b = true <-> exists name x v k,
         In (name, x) env /\ existsb (envk_eqb name) wanted = true /\
         envelope_value A p z name (v_text L x) v /\ In k ks /\ key_matches L rx c m (KStr v) (KVar k)).
  Proof.
    intros SV FW. unfold envelope_test.
    destruct (values_test_spec c m is_not (flat_map (envelope_values L A wanted p z) env) ks SV FW) as (b & x & -> & HV).
    exists b, x. split; [reflexivity|]. rewrite HV. split.
    - intros (v & k & I & J & K). apply in_flat_map in I as ([name y] & I & IV).
      apply envelope_values_spec in IV as [W V]. exists name, y, v, k. auto 6.
    - intros (name & y & v & k & I & W & V & J & K). exists v, k. split; [|auto].
      apply in_flat_map. exists (name, y). split; [exact I|]. apply envelope_values_spec. auto.
  Qed.

  Lemma values_count c r is_not vs ks :
    values_test L rx c (MCount r) is_not vs ks =
    TBool (xorb (existsb (fun k => rel_number r (NInt (Z.of_nat (length (filter (fun v => negb (teqb v [])) vs)))) (v_number L k)) ks) is_not) [].
  Proof.
    unfold values_test. rewrite (filter_ext (fun v : text => match v with [] => false | _ => true end) (fun v => negb (teqb v []))).
    - reflexivity.
    - intros [|ch v]; reflexivity.
  Qed.
  Lemma values_list c is_not vs ks :
    (values_test L rx c MList is_not vs ks = TBool is_not [] /\ (forall v, In v vs -> v = [])) \/
    exists l, values_test L rx c MList is_not vs ks = TListContains (map (v_text L) ks) l c /\
      NoDup l /\ (forall v, In v l <-> In v vs /\ v <> []) /\ l <> [].
  Proof.
    unfold values_test. destruct (distinct_spec vs) as [ND S]. destruct (distinct vs) as [|v l].
    - left. split; [destruct is_not; reflexivity|]. intros [|ch v] I; [reflexivity|]. exfalso. apply (in_nil (a := ch :: v)). apply S.
      split; [exact I|discriminate].
    - right. exists (v :: l). split; [reflexivity|]. split; [exact ND|]. split; [exact S|discriminate].
  Qed.

  Lemma as_glob_single m : single_value_match m -> single_value_match (as_glob m).
  Proof. destruct m; simpl; auto. Qed.
  Lemma date_test_exact parts current name index anychild p z c m is_not ks :
    well_formed parts -> current < length parts -> single_value_match m ->
    (forall k, In k ks -> few_wildcards L (as_glob m) (KVar k)) ->
    exists b set,
      date_test L rx A parts current (Some name) index anychild p z c m is_not ks = Some (TBool (xorb b is_not) set) /\
      (b = true <-> exists i pt pos h d k,
         looked_at parts current anychild i pt /\ selected index name (p_headers pt) pos h /\
         dp_parse A h = Some d /\ In k ks /\
         key_matches L rx c (as_glob m) (KStr (date_part A p (zone_eval A z d))) (KVar k)).
  Proof.
    intros WF H SV FW. destruct (find_headers_spec parts current [name] index anychild WF H) as (l & E & F).
    unfold date_test. rewrite E. cbn [option_map].
    destruct (values_test_spec c (as_glob m) is_not (flat_map (fun l => date_values A p z (l_header l)) l) ks (as_glob_single m SV) FW) as (b & x & EV & HV).
    exists b, x. split; [destruct m; try contradiction; f_equal; exact EV|]. rewrite HV. split.
    - intros (v & k & I & J & K). apply in_flat_map in I as ([i pos h] & I & IV). apply F in I as (pt & n & B & [<-|[]] & D).
      unfold date_values in IV. cbn [l_header] in IV. destruct (dp_parse A h) as [d|] eqn:ED; [|contradiction].
      destruct IV as [<-|[]]. exists i, pt, pos, h, d, k. auto 6.
    - intros (i & pt & pos & h & d & k & B & D & ED & J & K). exists (date_part A p (zone_eval A z d)), k. split; [|auto].
      apply in_flat_map. exists {| l_part := i; l_pos := pos; l_header := h |}. split.
      + apply F. exists pt, name. split; [exact B|]. split; [left; reflexivity|exact D].
      + unfold date_values. cbn [l_header]. rewrite ED. left. reflexivity.
  Qed.
  Lemma currentdate_test_exact now p c m is_not ks : single_value_match m ->
    (forall k, In k ks -> few_wildcards L (as_glob m) (KVar k)) ->
    exists b set,
      currentdate_test L rx A now p c m is_not ks = TBool (xorb b is_not) set /\
      (b = true <-> exists k, In k ks /\ key_matches L rx c (as_glob m) (KStr (date_part A p now)) (KVar k)).
  Proof.
    intros SV FW.
    destruct (values_test_spec c (as_glob m) is_not [date_part A p now] ks (as_glob_single m SV) FW) as (b & x & EV & HV).
    exists b, x. split; [destruct m; try contradiction; exact EV|]. rewrite HV. split.
    - intros (v & k & [<-|[]] & J & K). exists k. auto.
    - intros (k & J & K). exists (date_part A p now), k. simpl. auto.
  Qed.
End P.
