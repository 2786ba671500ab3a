(** Header selection and the tests over the message. *)
From Verif Require Import Base Lib Var Value Glob GlobSpec Comparator ComparatorSpec ComparatorProofs
  ComparatorProofs2 Message MessageSpec MessageProofs.
From Coq Require Import Sorting.Sorted.

(** *** select_headers *)
Lemma map_snd_number {A} (l : list A) : forall i, map snd (number_from i l) = l.
Proof. induction l as [|x l IH]; intro i; simpl; [reflexivity|]. rewrite IH. reflexivity. Qed.
Lemma map_fst_number {A} (l : list A) : forall i, map fst (number_from i l) = seq i (length l).
Proof. induction l as [|x l IH]; intro i; simpl; [reflexivity|]. rewrite IH. reflexivity. Qed.
Lemma number_app {A} (l1 l2 : list A) : forall i,
  number_from i (l1 ++ l2) = number_from i l1 ++ number_from (i + length l1) l2.
Proof.
  induction l1 as [|x l1 IH]; intro i; simpl; [rewrite Nat.add_0_r; reflexivity|].
  rewrite IH. replace (S i + length l1) with (i + S (length l1)) by lia. reflexivity.
Qed.
Lemma number_length {A} (l : list A) i : length (number_from i l) = length l.
Proof. rewrite <- (map_length snd), map_snd_number. reflexivity. Qed.
Lemma number_split {A} (l : list A) : forall i l1 pos (h : A) l2,
  number_from i l = l1 ++ (pos, h) :: l2 ->
  pos = i + length l1 /\ l = map snd l1 ++ h :: map snd l2.
Proof.
  intros i l1 pos h l2 E. split.
  - assert (X := f_equal (map fst) E). rewrite map_fst_number, map_app in X. cbn [map fst] in X.
    assert (Y := f_equal (fun s => nth_error s (length l1)) X). cbv beta in Y.
    rewrite nth_error_app2 in Y by (rewrite map_length; lia). rewrite map_length, Nat.sub_diag in Y. cbn [nth_error] in Y.
    assert (length l1 < length l).
    { assert (Z := f_equal (@length _) E). rewrite number_length, app_length in Z. simpl in Z. lia. }
    assert (nth_error (seq i (length l)) (length l1) = Some (i + length l1)).
    { rewrite <- (@seq_nth (length l) i (length l1) 0 H). apply nth_error_nth'. rewrite seq_length. exact H. }
    rewrite H0 in Y. congruence.
  - assert (X := f_equal (map snd) E). rewrite map_snd_number, map_app in X. exact X.
Qed.
Lemma number_at {A} (l : list A) pos h : nth_error l pos = Some h ->
  number_from 0 l = number_from 0 (firstn pos l) ++ (pos, h) :: number_from (S pos) (skipn (S pos) l).
Proof.
  intro H. destruct (nth_error_split _ _ H) as (a & b & -> & <-).
  rewrite number_app. cbn [number_from plus]. rewrite firstn_app, firstn_all, Nat.sub_diag. cbn [firstn]. rewrite app_nil_r.
  f_equal. f_equal. f_equal.
  rewrite skipn_app, skipn_all2 by lia. replace (S (length a) - length a) with 1 by lia. reflexivity.
Qed.

Definition named2 (name : text) (l : list (nat * header)) : nat := length (named name (map snd l)).

Lemma nth_named_spec name index : forall l count pos h,
  In (pos, h) (nth_named name index count l) <->
  exists l1 l2, l = l1 ++ (pos, h) :: l2 /\ hn_eqb (h_name h) name = true /\
    (count + Z.of_nat (named2 name l1) + 1 = index)%Z.
Proof.
  induction l as [|[q g] l IH]; intros count pos h; cbn [nth_named].
  { split; [intros []|]. intros (l1 & l2 & E & _). destruct l1; discriminate. }
  destruct (hn_eqb (h_name g) name) eqn:G.
  - destruct (Z.eqb (count + 1) index) eqn:Ei.
    + apply Z.eqb_eq in Ei. split.
      * intros [H|[]]. injection H as -> ->. exists [], l. split; [reflexivity|]. split; [exact G|].
        unfold named2. simpl. lia.
      * intros (l1 & l2 & E & N & C). destruct l1 as [|[q' g'] l1].
        -- injection E as -> -> _. left. reflexivity.
        -- exfalso. injection E as <- <- E. unfold named2 in C. simpl in C. rewrite G in C. simpl in C. lia.
    + apply Z.eqb_neq in Ei. rewrite IH. split.
      * intros (l1 & l2 & -> & N & C). exists ((q, g) :: l1), l2. split; [reflexivity|]. split; [exact N|].
        unfold named2 in *. simpl. rewrite G. simpl. lia.
      * intros (l1 & l2 & E & N & C). destruct l1 as [|[q' g'] l1].
        -- exfalso. injection E as -> -> _. unfold named2 in C. simpl in C. lia.
        -- injection E as <- <- E. exists l1, l2. split; [exact E|]. split; [exact N|].
           unfold named2 in *. simpl in C. rewrite G in C. simpl in C. lia.
  - rewrite IH. split.
    + intros (l1 & l2 & -> & N & C). exists ((q, g) :: l1), l2. split; [reflexivity|]. split; [exact N|].
      unfold named2 in *. simpl. rewrite G. exact C.
    + intros (l1 & l2 & E & N & C). destruct l1 as [|[q' g'] l1].
      * exfalso. injection E as -> -> _. congruence.
      * injection E as <- <- E. exists l1, l2. split; [exact E|]. split; [exact N|].
        unfold named2 in *. simpl in C. rewrite G in C. exact C.
Qed.

Lemma named_rev name l : length (named name (rev l)) = length (named name l).
Proof.
  unfold named. induction l as [|x l IH]; [reflexivity|]. simpl. rewrite filter_app, app_length, IH. simpl.
  destruct (hn_eqb (h_name x) name); simpl; lia.
Qed.

Lemma select_spec index name headers pos h :
  In (pos, h) (select_headers index name headers) <-> selected index name headers pos h.
Proof.
  unfold select_headers, selected. destruct index as [n|].
  - destruct (Z.leb 0 n) eqn:S0; [apply Z.leb_le in S0|apply Z.leb_gt in S0]; rewrite nth_named_spec; split.
    + intros (l1 & l2 & E & N & C). destruct (number_split _ _ _ _ _ _ E) as [-> ->].
      assert (EL : length l1 = length (map snd l1)) by (rewrite map_length; reflexivity). cbn [plus].
      split; [|split; [exact N|]].
      * rewrite nth_error_app2 by lia. replace (length l1 - length (map snd l1)) with 0 by lia. reflexivity.
      * left. split; [lia|]. rewrite EL, firstn_app, firstn_all, Nat.sub_diag. cbn [firstn]. rewrite app_nil_r.
        unfold named2 in C. lia.
    + intros (E & N & [[P C]|[P C]]); [|lia]. rewrite (number_at _ _ _ E). eexists. eexists. split; [reflexivity|].
      split; [exact N|]. unfold named2. rewrite map_snd_number. lia.
    + intros (l1 & l2 & E & N & C).
      assert (E' : number_from 0 headers = rev l2 ++ (pos, h) :: rev l1).
      { rewrite <- (rev_involutive (number_from 0 headers)), E, rev_app_distr. simpl. rewrite <- app_assoc. reflexivity. }
      destruct (number_split _ _ _ _ _ _ E') as [-> ->].
      assert (EL : length (rev l2) = length (map snd (rev l2))) by (rewrite map_length; reflexivity). cbn [plus].
      split; [|split; [exact N|]].
      * rewrite nth_error_app2 by lia. replace (length (rev l2) - length (map snd (rev l2))) with 0 by lia. reflexivity.
      * right. split; [lia|]. rewrite skipn_app, skipn_all2 by lia.
        replace (S (length (rev l2)) - length (map snd (rev l2))) with 1 by lia. cbn [skipn app].
        rewrite map_rev, named_rev. unfold named2 in C. lia.
    + intros (E & N & [[P C]|[P C]]); [lia|]. rewrite (number_at _ _ _ E).
      exists (rev (number_from (S pos) (skipn (S pos) headers))), (rev (number_from 0 (firstn pos headers))).
      split; [rewrite rev_app_distr; simpl; rewrite <- app_assoc; reflexivity|].
      split; [exact N|]. unfold named2. rewrite map_rev, named_rev, map_snd_number. lia.
  - rewrite filter_In. simpl. split.
    + intros [I N]. split; [|auto]. apply in_split in I as (l1 & l2 & E).
      destruct (number_split _ _ _ _ _ _ E) as [-> ->]. rewrite nth_error_app2; rewrite map_length; simpl; [|lia].
      rewrite Nat.sub_diag. reflexivity.
    + intros (E & N & _). split; [|exact N]. rewrite (number_at _ _ _ E). apply in_or_app. right. left. reflexivity.
Qed.

(** With ':index' at most one header is visited; without it the headers come
    top to bottom. *)
Lemma nth_named_one name index : forall l count, length (nth_named name index count l) <= 1.
Proof.
  induction l as [|[q g] l IH]; intro count; cbn [nth_named]; [simpl; lia|].
  destruct (hn_eqb (h_name g) name); [|apply IH]. destruct (Z.eqb (count + 1) index); [simpl; lia|apply IH].
Qed.
Lemma filter_sorted (f : nat * header -> bool) : forall l i,
  StronglySorted lt (map fst (filter f (number_from i l))) /\
  Forall (fun p => i <= p) (map fst (filter f (number_from i l))).
Proof.
  induction l as [|x l IH]; intro i; [split; constructor|]. cbn [number_from filter].
  destruct (IH (S i)) as [A B].
  assert (B' : Forall (fun p => i <= p) (map fst (filter f (number_from (S i) l)))).
  { eapply Forall_impl; [|exact B]. simpl. intros; lia. }
  destruct (f (i, x)); [|split; assumption]. cbn [map fst]. split.
  - constructor; [exact A|]. eapply Forall_impl; [|exact B]. simpl. intros; lia.
  - constructor; [lia|exact B'].
Qed.
Lemma select_order index name headers :
  StronglySorted lt (map fst (select_headers index name headers)) /\
  (index <> None -> length (select_headers index name headers) <= 1).
Proof.
  assert (ONE : forall l : list (nat * header), length l <= 1 -> StronglySorted lt (map fst l)).
  { intros [|x [|y l]] H; simpl in *; [constructor|repeat constructor|lia]. }
  unfold select_headers. destruct index as [n|].
  - destruct (Z.leb 0 n); (split; [apply ONE|intros _]); apply nth_named_one.
  - split; [apply filter_sorted|congruence].
Qed.

(** *** find_headers *)

Lemma subparts_looked parts current anychild : well_formed parts -> current < length parts ->
  exists l, subparts parts current anychild = Some l /\ NoDup (map fst l) /\
    (forall i p, In (i, p) l <-> looked_at parts current anychild i p) /\ l <> [].
Proof.
  intros WF H. destruct (nth_error parts current) as [p0|] eqn:E0.
  2: { apply nth_error_None in E0. lia. }
  destruct anychild.
  - destruct (subparts_exact parts current WF H) as (l & E & _ & D & M). exists l. split; [exact E|]. split; [exact D|].
    assert (MM : forall i p, In (i, p) l <-> looked_at parts current true i p).
    { intros i p. rewrite M. unfold looked_at. split; [intros [R N]; auto|]. intros (N & [->|[_ R]]); [|auto].
      split; [constructor; exact H|exact N]. }
    split; [exact MM|]. intros ->. apply (proj2 (MM current p0)). split; auto.
  - exists [(current, p0)]. split; [apply subparts_self; exact E0|]. split; [repeat constructor; intros []|].
    split; [|discriminate].
    intros i p. unfold looked_at. split.
    + intros [X|[]]. injection X as <- <-. auto.
    + intros (N & [->|[X _]]); [|discriminate]. left. congruence.
Qed.

Lemma find_headers_spec parts current names index anychild : well_formed parts -> current < length parts ->
  exists l, find_headers parts current names index anychild = Some l /\
    (forall i pos h, In {| l_part := i; l_pos := pos; l_header := h |} l <->
       exists p name, looked_at parts current anychild i p /\ In name names /\
         selected index name (p_headers p) pos h).
Proof.
  intros WF H. destruct (subparts_looked parts current anychild WF H) as (l & E & _ & M & _).
  unfold find_headers. rewrite E. simpl. eexists. split; [reflexivity|].
  intros i pos h. rewrite in_flat_map. split.
  - intros ([j p] & I & J). apply M in I. apply in_flat_map in J as (name & IN & J).
    apply in_map_iff in J as ([q g] & X & J). simpl in *. injection X as -> -> ->. apply select_spec in J. eauto 6.
  - intros (p & name & I & IN & S). exists (i, p). split; [apply M, I|]. apply in_flat_map. exists name.
    split; [exact IN|]. apply in_map_iff. exists (pos, h). split; [reflexivity|]. apply select_spec, S.
Qed.

(** *** the tests *)
Section H.
  Variable L : rustlib.
  Variable rx : text -> text -> option (list (option text)).
  Variable M : mailparser.
  Hypothesis lower_nonempty : forall c, chr_lower L c <> [].

  Lemma values_loop_spec c m ks : (forall k, In k ks -> few_wildcards L m (KVar k)) ->
    forall vs caps, exists b x, values_loop L rx c m vs ks caps = CRes b x /\
      (b = true <-> exists v k, In v vs /\ In k ks /\ key_matches L rx c m (KStr v) (KVar k)).
  Proof.
    intros FW. induction vs as [|v vs IH]; intro caps; cbn [values_loop].
    { exists false, caps. split; [reflexivity|]. split; [discriminate|]. intros (v & k & [] & _). }
    destruct (first_key_spec L rx c m (KStr v) ks caps) as (b & x & -> & Hb).
    { intros k Hk. apply no_panic_ok; [exact lower_nonempty|]. apply FW, Hk. }
    destruct b.
    - exists true, x. split; [reflexivity|]. split; [|reflexivity]. intros _.
      destruct (proj1 Hb eq_refl) as (k & Hk & HH). exists v, k. split; [left; reflexivity|]. split; [exact Hk|].
      apply holds_iff; auto.
    - destruct (IH x) as (b & y & -> & Hy). exists b, y. split; [reflexivity|]. rewrite Hy. split.
      + intros (v' & k & I & J). exists v', k. split; [right; exact I|exact J].
      + intros (v' & k & [<-|I] & J & K); [|exists v', k; auto]. exfalso.
        assert (false = true); [|discriminate]. apply Hb. exists k. split; [exact J|]. apply holds_iff; auto.
  Qed.

  Lemma header_test_exact parts current names index anychild o c m is_not ks :
    well_formed parts -> current < length parts ->
    single_value_match m ->
    (forall k, In k ks -> few_wildcards L m (KVar k)) ->
    exists b set,
      header_test L rx M parts current names index anychild o c m is_not ks = Some (TBool (xorb b is_not) set) /\
      (b = true <-> exists i p name pos h v k,
         looked_at parts current anychild i p /\ In name names /\
         selected index name (p_headers p) pos h /\
         In v (header_values M h o) /\ In k ks /\ key_matches L rx c m (KStr v) (KVar k)).
  Proof.
    intros WF H SV FW. destruct (find_headers_spec parts current names index anychild WF H) as (l & E & F).
    unfold header_test. rewrite E. cbn [option_map].
    destruct (values_loop_spec c m ks FW (flat_map (fun l => header_values M (l_header l) o) l) []) as (b & x & EV & HV).
    exists b, x. split.
    - destruct m; try contradiction; rewrite EV; reflexivity.
    - rewrite HV. split.
      + intros (v & k & I & J & K). apply in_flat_map in I as ([i pos h] & I & IV). apply F in I as (p & name & A & B & C).
        exists i, p, name, pos, h, v, k. auto 6.
      + intros (i & p & name & pos & h & v & k & A & B & C & D & J & K). exists v, k. split; [|auto].
        apply in_flat_map. exists {| l_part := i; l_pos := pos; l_header := h |}. split; [|exact D].
        apply F. eauto.
  Qed.

  Lemma exists_go_spec : forall ps names, ps <> [] ->
    (exists_go names ps = true <->
     forall n b, In (n, b) names -> b = true \/ exists i p h, In (i, p) ps /\ In h (p_headers p) /\ hn_eqb (h_name h) n = true).
  Proof.
    induction ps as [|[i p] ps IH]; intros names NE; [congruence|]. cbn [exists_go].
    set (names' := map (fun nb => (fst nb, snd nb || existsb (fun h => hn_eqb (h_name h) (fst nb)) (p_headers p))) names).
    assert (EQ : (if forallb snd names' then true else exists_go names' ps) = true <->
      forall n b, In (n, b) names' -> b = true \/ exists j q h, In (j, q) ps /\ In h (p_headers q) /\ hn_eqb (h_name h) n = true).
    { destruct (forallb snd names') eqn:FB.
      - split; [|reflexivity]. intros _ n b I. left. rewrite forallb_forall in FB. apply (FB _ I).
      - destruct ps as [|p1 ps].
        + split; [discriminate|]. intro A. exfalso. assert (forallb snd names' = true); [|congruence].
          apply forallb_forall. intros [n b] I. destruct (A n b I) as [->|(j & q & h & [] & _)]; reflexivity.
        + apply IH. discriminate. }
    rewrite EQ. unfold names'. split.
    - intros A n b I.
      destruct (A n (b || existsb (fun h => hn_eqb (h_name h) n) (p_headers p))) as [B|(j & q & h & J & K)].
      + apply in_map_iff. exists (n, b). auto.
      + apply orb_true_iff in B as [B|B]; [auto|]. right. apply existsb_exists in B as (h & Hh & EH).
        exists i, p, h. split; [left; reflexivity|auto].
      + right. exists j, q, h. split; [right; exact J|exact K].
    - intros A n b I. apply in_map_iff in I as ([n' b'] & X & I). simpl in X. injection X as -> <-.
      destruct (A n b' I) as [->|(j & q & h & [J|J] & K)]; [left; reflexivity| |right; exists j, q, h; auto].
      injection J as <- <-. left. apply orb_true_iff. right. apply existsb_exists. exists h. exact K.
  Qed.

  Lemma exists_test_exact parts current names anychild is_not :
    well_formed parts -> current < length parts ->
    exists b, exists_test parts current names anychild is_not = Some (xorb b is_not) /\
      (b = true <-> forall n, In n names -> exists i p h,
         looked_at parts current anychild i p /\ In h (p_headers p) /\ hn_eqb (h_name h) n = true).
  Proof.
    intros WF H. destruct (subparts_looked parts current anychild WF H) as (l & E & _ & F & NE).
    unfold exists_test. rewrite E. cbn [option_map]. eexists. split; [reflexivity|].
    rewrite (exists_go_spec _ _ NE). split.
    - intros A n I. destruct (A n false) as [X|(i & p & h & J & K)]; [|discriminate|].
      + apply in_map_iff. exists n. auto.
      + exists i, p, h. split; [apply F, J|exact K].
    - intros A n b I. apply in_map_iff in I as (n' & X & I). injection X as -> <-. right.
      destruct (A n I) as (i & p & h & J & K). exists i, p, h. split; [apply F, J|exact K].
  Qed.

  Definition plain_mtype (m : mtype) : mtype :=
    match m with MMatches _ => MMatches 0 | MRegex _ => MRegex 0 | m => m end.
  Lemma body_test_exact parts current flt bt c m is_not ks :
    wf_deep parts -> single_value_match m ->
    exists b, body_test L rx parts current flt bt c m is_not ks = Some (TBool (xorb b is_not) []) /\
      (b = true <-> exists path p v k, deep_at parts current path p /\ passes flt p = true /\
         bt p = Some v /\ In k ks /\ key_matches L rx c (plain_mtype m) (KStr v) (KVar k)).
  Proof.
    intros WF SV. destruct (deep_parts_exact parts current WF) as (ll & E & _ & F).
    unfold body_test. rewrite E. cbn [option_map].
    destruct (values_loop_spec c (plain_mtype m) ks) with
      (vs := flat_map (fun p => match bt p with Some t => [t] | None => [] end) (filter (passes flt) (map snd ll)))
      (caps := @nil (nat * text)) as (b & x & EV & HV).
    { intros k _. destruct m; simpl; auto. }
    exists b. split.
    - destruct m; try contradiction; cbn [plain_mtype] in EV; rewrite EV; reflexivity.
    - rewrite HV. split.
      + intros (v & k & I & J & K). apply in_flat_map in I as (p & I & IV). apply filter_In in I as [I P].
        apply in_map_iff in I as ([path q] & X & I). simpl in X. subst q. apply F in I.
        exists path, p, v, k. destruct (bt p) as [t|]; [|contradiction]. destruct IV as [->|[]]. auto 6.
      + intros (path & p & v & k & A & P & B & J & K). exists v, k. split; [|auto].
        apply in_flat_map. exists p. rewrite B. split; [|left; reflexivity]. apply filter_In. split; [|exact P].
        apply in_map_iff. exists (path, p). split; [reflexivity|]. apply F, A.
  Qed.
End H.
