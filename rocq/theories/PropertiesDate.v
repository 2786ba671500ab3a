(** Property C90: the parts of a date. *)
From Verif Require Import Base Lib Var Value ValueProofs Glob Comparator ComparatorSpec ComparatorProofs ComparatorProofs2 PropertiesCompare Message AddrTest
  AddrTestProofs PropertiesAddrTest DateSpec DateProofs.

(** The date and currentdate tests compare (C05_date_any_value_any_key) what RFC 5260 says. *)
Theorem C90_parts_partial : forall A d p, ordinary d ->
  (p = DJulian -> (2400001 <= dp_jdn A d)%Z) ->
  part_is A d p (date_part A p d).
Proof.
  intros A d p (Y & M & D & H & Mi & S & Zh & Zm) J.
  assert (P2 : forall n, (n < 100)%N -> decimal 2 (pad 2 n) n) by (intros n Hn; apply pad_decimal; [lia|exact Hn]).
  assert (P4 : forall n, (n < 10000)%N -> decimal 4 (pad 4 n) n) by (intros n Hn; apply pad_decimal; [lia|exact Hn]).
  destruct p; cbn [part_is date_part]; auto.
  - exists (pad 4 (dt_year d)), (pad 2 (dt_month d)), (pad 2 (dt_day d)). auto.
  - specialize (J eq_refl). unfold julian.
    replace (Z.quot (2 * dp_jdn A d - 4800001) 2) with (dp_jdn A d - 2400001)%Z.
    2:{ rewrite Z.quot_div_nonneg by lia. replace (2 * dp_jdn A d - 4800001)%Z with (1 + (dp_jdn A d - 2400001) * 2)%Z by lia.
        rewrite Z.div_add by lia. reflexivity. }
    unfold show_Z. rewrite (proj2 (Z.ltb_ge _ _)) by lia. destruct (show_decimal (Z.to_N (dp_jdn A d - 2400001))) as [w W].
    exists w. split; [exact W|apply show_head].
  - exists (pad 2 (dt_hour d)), (pad 2 (dt_minute d)), (pad 2 (dt_second d)). auto.
  - eexists _, (pad 2 (dt_tz_hour d)), (pad 2 (dt_tz_minute d)). split; [auto|]. split; [auto|]. split; [reflexivity|].
    destruct (dt_before_gmt d); [|reflexivity]. cbn [andb].
    destruct (N.ltb_spec 0 (dt_tz_hour d)), (N.ltb_spec 0 (dt_tz_minute d)), (N.eqb_spec (dt_tz_hour d + dt_tz_minute d) 0); cbn; try reflexivity; lia.
  - destruct (show_decimal (dp_weekday A d)) as [w W]. exists w. split; [exact W|apply show_head].
Qed.
Print Assumptions C90_parts_partial.

(** Missing: days before 17 November 1858 (Julian day number 2400001).  There rounding goes the
    wrong way: each is given the number of the next day, so that two days have the number 0. *)
Theorem C90_julian_refuted : forall A d, (dp_jdn A d <= 2400000)%Z ->
  date_part A DJulian d = show_Z (dp_jdn A d - 2400000) /\ show_Z (dp_jdn A d - 2400000) <> show_Z (dp_jdn A d - 2400001).
Proof.
  intros A d H. split.
  - cbn [date_part]. f_equal. unfold julian.
    replace (2 * dp_jdn A d - 4800001)%Z with (- (1 + (2400000 - dp_jdn A d) * 2))%Z by lia.
    rewrite Z.quot_opp_l by lia. rewrite Z.quot_div_nonneg by lia. rewrite Z.div_add by lia. change (1 / 2)%Z with 0%Z. lia.
  - intro E. destruct (Z.eq_dec (dp_jdn A d) 2400000) as [J|J].
    + rewrite J in E. vm_compute in E. discriminate.
    + unfold show_Z in E. rewrite !(proj2 (Z.ltb_lt _ _)) in E by lia. injection E as E.
      apply (f_equal parse_nat) in E. rewrite !parse_show_N in E. injection E as E. lia.
Qed.
Print Assumptions C90_julian_refuted.
(** Years beyond 9999 show five digits, which come before those of four. *)
Theorem C90_order_refuted : exists d d', dt_year d = 9999%N /\ dt_year d' = 10000%N /\
  forall A, text_before (date_part A DDate d') (date_part A DDate d).
Proof.
  exists {| dt_year := 9999; dt_month := 1; dt_day := 1; dt_hour := 0; dt_minute := 0; dt_second := 0; dt_before_gmt := false; dt_tz_hour := 0; dt_tz_minute := 0 |}.
  exists {| dt_year := 10000; dt_month := 1; dt_day := 1; dt_hour := 0; dt_minute := 0; dt_second := 0; dt_before_gmt := false; dt_tz_hour := 0; dt_tz_minute := 0 |}.
  split; [reflexivity|]. split; [reflexivity|]. intro A. cbn [date_part dt_year dt_month dt_day].
  apply tcmp_before. vm_compute. reflexivity.
Qed.
Print Assumptions C90_order_refuted.

(** Comparing dates and times as texts is comparing them in time: 'currentdate :value' with a key
    yyyy-mm-dd or hh:mm:ss, for the two text comparators, is true iff today (in the zone of the test)
    is before, on, after the day of the key. *)
Lemma plain_seen L c t : (forall t, ascii_text t -> str_lower L t = lower_text t) -> c = COctet \/ c = CCasemap ->
  Forall (fun x => 45 <= x <= 58)%N t -> seen L c t = t.
Proof.
  intros HL [-> | ->] F; [reflexivity|]. cbn [seen]. rewrite HL.
  - unfold lower_text. rewrite <- (map_id t) at 2. apply map_ext_in. intros x I. rewrite Forall_forall in F. specialize (F x I).
    unfold lower_ascii, is_upper_ascii, between. destruct (_ && _) eqn:E; [lia|reflexivity].
  - eapply Forall_impl; [|exact F]. cbn. intros x Hx. lia.
Qed.
Lemma three_chars w sep t a b c : (sep = 45 \/ sep = 58)%N -> three w sep t a b c -> Forall (fun x => 45 <= x <= 58)%N t.
Proof.
  intros Hs (x & y & z & (dx & _ & Fx & -> & _) & (dy & _ & Fy & -> & _) & (dz & _ & Fz & -> & _) & ->).
  assert (G : forall ds, Forall (fun d => (d < 10)%N) ds -> Forall (fun x => 45 <= x <= 58)%N (map (N.add 48) ds)).
  { intros ds F. apply Forall_map. eapply Forall_impl; [|exact F]. cbn. intros. lia. }
  repeat (apply Forall_app; split); auto. constructor; [lia|]. apply Forall_app. split; auto. constructor; [lia|]. auto.
Qed.
Theorem C90_currentdate_order : forall L rx A, (forall c, chr_lower L c <> []) ->
  (forall t, ascii_text t -> str_lower L t = lower_text t) ->
  forall now part sep w y m d c r is_not key a b e,
  ordinary now -> c = COctet \/ c = CCasemap ->
  (part = DDate /\ sep = 45%N /\ w = 4 /\ y = dt_year now /\ m = dt_month now /\ d = dt_day now) \/
  (part = DTime /\ sep = 58%N /\ w = 2 /\ y = dt_hour now /\ m = dt_minute now /\ d = dt_second now) ->
  three w sep key a b e ->
  exists v, currentdate_test L rx A now part c (MValue r) is_not [VStr key] = TBool (xorb v is_not) [] /\
    (v = true <-> compared r (before3 y m d a b e) (y = a /\ m = b /\ d = e) (before3 a b e y m d)).
Proof.
  intros L rx A HC HL now part sep w y m d c r is_not key a b e O C P K.
  assert (T : three w sep (date_part A part now) y m d /\ (sep = 45 \/ sep = 58)%N).
  { destruct P as [(-> & -> & -> & -> & -> & ->)|(-> & -> & -> & -> & -> & ->)].
    - split; [|auto]. apply (C90_parts_partial A now DDate O). discriminate.
    - split; [|auto]. apply (C90_parts_partial A now DTime O). discriminate. }
  destruct T as [T S].
  assert (S1 : seen L c (date_part A part now) = date_part A part now) by (eapply plain_seen; eauto; eapply three_chars; eauto).
  assert (S2 : seen L c key = key) by (eapply plain_seen; eauto; eapply three_chars; eauto).
  destruct (C05_currentdate_any_key L rx A HC now part c (MValue r) is_not [VStr key]) as (v & set & E & V).
  { exact Logic.I. }
  { intros k [<-|[]]. exact Logic.I. }
  assert (Es : set = []).
  { cbn [currentdate_test as_glob values_test values_loop] in E. revert E. cbn. destruct (cmp_relational _ _ _ _ _); intro E; injection E as _ <-; reflexivity. }
  subst set. exists v. split; [exact E|]. rewrite V.
  assert (R : (exists k, In k [VStr key] /\ key_matches L rx c (as_glob (MValue r)) (KStr (date_part A part now)) (KVar k)) <->
              rel_holds L c r (KStr (date_part A part now)) (KVar (VStr key))).
  { split; [intros (k & [<-|[]] & H); exact H|intro H; exists (VStr key); cbn; auto]. }
  rewrite R. pose proof (three_lt _ _ _ _ _ _ _ _ _ _ T K) as Lt. pose proof (three_lt _ _ _ _ _ _ _ _ _ _ K T) as Gt.
  pose proof (three_eq _ _ _ _ _ _ _ _ _ _ T K) as Eq.
  unfold rel_holds, less, same, compared, k_text. cbn [v_text]. rewrite S1, S2.
  destruct C as [-> | ->]; destruct r; rewrite ?Lt, ?Gt, ?Eq; tauto.
Qed.
Print Assumptions C90_currentdate_order.

Example C90_case :
  ordinary toy_dt /\ (2400001 <= dp_jdn toy_ap toy_dt)%Z /\
  map (fun p => date_part toy_ap p toy_dt) [DYear; DDate; DTime; DZone; DJulian] =
    map lit ["2024"; "2024-03-09"; "07:05:00"; "-0330"; "60378"]%string /\
  three 4 45%N (lit "2024-03-10") 2024%N 3%N 10%N /\
  currentdate_test ascii_lib (fun _ _ => None) toy_ap toy_dt DDate CCasemap (MValue RLt) false [VStr (lit "2024-03-10")] = TBool true [].
Proof.
  split; [unfold ordinary; cbn; lia|]. split; [cbn; lia|]. split; [vm_compute; reflexivity|]. split; [|vm_compute; reflexivity].
  exists (lit "2024"), (lit "03"), (lit "10"). repeat split; try (vm_compute; reflexivity).
  - exists [2; 0; 2; 4]%N. repeat split; repeat constructor; lia.
  - exists [0; 3]%N. repeat split; repeat constructor; lia.
  - exists [1; 0]%N. repeat split; repeat constructor; lia.
Qed.
